(** Independent specification of what follows a program (C116). *)
From Verif Require Import Base ModelVersion ModelError ModelTypes ModelOverload ModelFunctions ModelAst ModelAnalyzer ModelSemantic
  SpecUtils SpecAnalyzer SpecHull.

(** Results [q1] and [q2] are continued in the same way by [q] and [r]: with the same
    variables and the same instructions. *)
Definition continued_alike (q1 q q2 r : sem_program) : Prop :=
  (exists vs, sp_variables q = (sp_variables q1 ++ vs)%list /\ sp_variables r = (sp_variables q2 ++ vs)%list) /\
  (exists zs, blk_statements (sp_block q) = (blk_statements (sp_block q1) ++ zs)%list /\ blk_statements (sp_block r) = (blk_statements (sp_block q2) ++ zs)%list) /\
  (sp_api_version r = sp_api_version q2 /\ sp_version r = sp_version q2 /\ sp_version_loc r = sp_version_loc q2) /\ spans_statements (sp_block r).
(** The program goes on with these statements. *)
Definition going_on (p : program) (ss : list statement) : program :=
  mkProgram (prog_version p) (prog_version_loc p) (prog_statements p ++ ss) (prog_block_loc p).
