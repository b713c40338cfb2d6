(** Independent specification of programs written one behind the other (C112). *)
From Verif Require Import Base ModelVersion ModelError ModelTypes ModelOverload ModelFunctions ModelAst ModelAnalyzer ModelSemantic
  SpecUtils SpecAnalyzer SpecHull SpecRename.
Local Open Scope string_scope.

(** The second program has nothing to do with the variables of the first one: it neither
    declares nor mentions one of their names. *)
Definition apart (p1 p2 : program) : Prop :=
  forall n, In n (declared_names (prog_statements p1)) -> ~ In n (declared_names (prog_statements p2)) /\ Forall (fun s => ~ mentions s n) (prog_statements p2).
(** A result is those of the two programs, one behind the other; the variables of the
    second are numbered on. *)
Definition joined_results (q1 q2 q : sem_program) : Prop :=
  let on := Nat.add (List.length (sp_variables q1)) in
  sp_api_version q = sp_api_version q1 /\ sp_version q = sp_version q1 /\ sp_version_loc q = sp_version_loc q1 /\
  sp_variables q = (sp_variables q1 ++ map (rename_sem_variable same_name on) (sp_variables q2))%list /\
  blk_statements (sp_block q) = (blk_statements (sp_block q1) ++ map (rename_sem_statement same_name on) (blk_statements (sp_block q2)))%list /\
  spans_statements (sp_block q).
