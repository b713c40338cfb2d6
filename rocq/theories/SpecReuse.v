(** Independent specification of the results of an analyzer that is used again (C92). *)
From Verif Require Import Base ModelVersion ModelError ModelTypes ModelFunctions ModelAst ModelAnalyzer ModelSemantic ModelSyntactic
  SpecUtils SpecHull SpecLexer SpecSyntax SpecReading SpecMeaning SpecOutcome.

(** The result for p of an analyzer that has analysed the programs ps: what the rules of
    SpecOutcome give for p written behind ps, except that the errors of ps are not
    reported again. *)
Inductive reused_gives (lm : libm) (api : list Z) (ps : list program) (p : program) : sem_program -> list error -> Prop :=
| reused_result v ves ds0 xs0 es0 ds b es : version_gives api (prog_version p) (prog_version_loc p) v ves ->
    block_gives lm 0 [] (flat_map prog_statements ps) ds0 xs0 es0 ->
    block_gives lm 0 [] (flat_map prog_statements ps ++ prog_statements p) ds (blk_statements b) (es0 ++ es) -> spans_statements b ->
    reused_gives lm api ps p (mkSemProgram api v (prog_version_loc p) b (map (fun x => mkSemVariable x []) ds)) (ves ++ es).

(** The default analyzer of a version, and what it has become after some texts, of which
    ps are the programs: the others are syntax errors. *)
Inductive has_read (lm : libm) (text : string) (rtl : bool) : list program -> analyzer -> Prop :=
| read_nothing st : default_analyzer lm text = Ok st -> has_read lm text rtl [] st
| read_program ps st data s file p st' r : has_read lm text rtl ps st -> text_of data s -> utf8 s -> text_means file s p ->
    analyze_string rtl st data file = Ok (st', r) -> has_read lm text rtl (ps ++ [p]) st'
| read_error ps st data s file st' r : has_read lm text rtl ps st -> text_of data s -> utf8 s -> (forall p, ~ text_means file s p) ->
    analyze_string rtl st data file = Ok (st', r) -> has_read lm text rtl ps st'.
