(** Independent specification of C102: syntax trees of any shape, as programs that use
    the library can build them. *)
From Verif Require Import Base ModelError ModelTypes ModelAst ModelAnalyzer ModelSemantic SpecAnalyzer.
Local Open Scope string_scope.

(** Every list of indices in the tree has an entry. That is all that is asked: gates and
    instructions may have any name, any operands, parameters and annotations; any gate may
    stand where a modifier is expected. *)
Definition indices_given (p : program) : Prop :=
  Forall (fun s => forallb indexed_expr (statement_exprs s) = true) (prog_statements p).

(** An analyzer analyses the programs, one after the other. *)
Definition analysed (st : analyzer) (ps : list program) (st' : analyzer) : Prop := uses st (map UAnalyze ps) st'.

(** A value without indices is somewhere in the program. *)
Definition program_values (q : sem_program) : list value :=
  (flat_map statement_values (blk_statements (sp_block q)) ++ flat_map (fun v => annotation_values (sv_annots v)) (sp_variables q))%list.
Definition lacks_index (q : sem_program) : Prop := exists x, In (VIndex x []) (program_values q).

(** The program with a declaration of an unknown type at its end *)
Definition unknown_declaration : statement := SVariable None "x" (mkAstType None "unknown" None) [].
Definition with_unknown_type (p : program) : program :=
  mkProgram (prog_version p) (prog_version_loc p) (prog_statements p ++ [unknown_declaration]) (prog_block_loc p).
Definition incomplete : string := "std::runtime_error: no semantic errors returned, but semantic tree is incomplete.".
