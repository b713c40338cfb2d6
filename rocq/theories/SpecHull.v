(** Independent specification of the location of the block of a result (C80). *)
From Verif Require Import SpecPlace Base ModelError ModelFunctions ModelAst ModelAnalyzer ModelSemantic SpecError.
Local Open Scope string_scope.

(** The locations of the statements that have one, in the order of the statements *)
Definition statement_locations (ss : list sem_statement) : list source_location :=
  flat_map (fun s => match place_of_result s with Some l => [l] | None => [] end) ss.

(** The block has a location if and only if one of its statements has one. It is
    then the least range that encloses those of the statements, in the file of the
    first statement that has a location. *)
Definition spans_statements (b : block) : Prop :=
  match blk_loc b with
  | None => statement_locations (blk_statements b) = []
  | Some l =>
      exists l0 ls, statement_locations (blk_statements b) = l0 :: ls /\ file_name l = file_name l0 /\ ordered (loc_range l) /\
        (forall s, In s (l0 :: ls) -> encloses (loc_range l) (loc_range s)) /\
        forall r, (forall s, In s (l0 :: ls) -> encloses r (loc_range s)) -> encloses r (loc_range l)
  end.

(** The ends of the locations of the statements are not before their beginnings. *)
Definition ordered_locations (p : program) : Prop :=
  forall s l, In s (prog_statements p) -> place_of_statement s = Some l -> ordered (loc_range l).

(** The default analyzer, and what it has become after some programs *)
Inductive has_analysed (lm : libm) (api : string) : list program -> analyzer -> Prop :=
| analysed_nothing st : default_analyzer lm api = Ok st -> has_analysed lm api [] st
| analysed_one ps st p st' r : has_analysed lm api ps st -> analyze_ast st p = Ok (st', r) -> has_analysed lm api (ps ++ [p]) st'.
