(** Property C80: the location of the block of a result. *)
From Verif Require Import Base ModelUtils ModelVersion ModelError ModelTypes ModelOverload ModelFunctions ModelInstructionSet ModelAst ModelAnalyzer ModelSemantic ModelLexer ModelSyntactic
  SpecUtils SpecError SpecAnalyzer SpecHull SpecLexer SpecSyntax SpecReading ProofsAnalyzer2 ProofsHull PropertiesAnalyzer PropertiesSyntax.
Local Open Scope string_scope.

(** C80: in every result of a default analyzer, however often it was used before,
    the block spans its statements. *)
Theorem C80_block_location : forall lm api ps st p st' r q, has_analysed lm api ps st -> Forall ordered_locations ps -> ordered_locations p ->
  analyze_ast st p = Ok (st', r) -> res_root r = Some q -> spans_statements (sp_block q).
Proof. exact block_location. Qed.
(** Every tree read from a text meets the assumption. *)
Theorem C80_parsed : forall file rtl data s p, text_of data s -> utf8 s -> parse_string file rtl data = Ok (mkResult (Some p) []) -> ordered_locations p.
Proof. exact parsed_ordered. Qed.

(** Two texts are analysed one after the other; the second begins on an earlier line
    than the instructions of the first end, and one of its instructions is an error. *)
Definition text_first : string := "version 3.0" ++ nl ++ "qubit q" ++ nl ++ "  H q" ++ nl ++ " asm(x) '''a'''" ++ nl ++ "   X q".
Definition text_second : string := "version 3.0; X q; H p" ++ nl ++ "Y q".
Example C80_case : forall lm, text_of text_first text_first /\ utf8 text_first /\ text_of text_second text_second /\ utf8 text_second /\
  exists p1 st1 r1 p2 st2 r2, has_analysed lm "3.0" [p1] st1 /\ parse_string (Some "f") false text_first = Ok (mkResult (Some p1) []) /\
    parse_string (Some "g") false text_second = Ok (mkResult (Some p2) []) /\
    analyze_ast (fresh_analyzer lm) p1 = Ok (st1, r1) /\ analyze_ast st1 p2 = Ok (st2, r2) /\
    option_map (fun q => (List.length (blk_statements (sp_block q)), blk_loc (sp_block q))) (res_root r1) =
      Some (3%nat, Some (mkRawLocation (Some "f") (mkRawRange (mkIndex 3 3) (mkIndex 5 5)))) /\
    option_map (fun q => (List.length (blk_statements (sp_block q)), blk_loc (sp_block q))) (res_root r2) =
      Some (5%nat, Some (mkRawLocation (Some "f") (mkRawRange (mkIndex 1 14) (mkIndex 5 5)))).
Proof.
  intros lm. split; [text_case|]. split; [utf8_case|]. split; [text_case|]. split; [utf8_case|].
  destruct (tree_case (Some "f") text_first (fun p1 => match parse_string (Some "g") false text_second with Ok (mkResult (Some p2) []) =>
    match analyze_ast (fresh_analyzer lm) p1 with Ok (st1, r1) => match analyze_ast st1 p2 with Ok (st2, r2) =>
      option_map (fun q => (List.length (blk_statements (sp_block q)), blk_loc (sp_block q))) (res_root r1) =
        Some (3%nat, Some (mkRawLocation (Some "f") (mkRawRange (mkIndex 3 3) (mkIndex 5 5)))) /\
      option_map (fun q => (List.length (blk_statements (sp_block q)), blk_loc (sp_block q))) (res_root r2) =
        Some (5%nat, Some (mkRawLocation (Some "f") (mkRawRange (mkIndex 1 14) (mkIndex 5 5))))
    | _ => False end | _ => False end | _ => False end)) as (p1 & P1 & H); [vm_compute; split; reflexivity|].
  destruct (parse_string (Some "g") false text_second) as [[[p2|] [|]]| | |] eqn:P2; try contradiction.
  destruct (analyze_ast (fresh_analyzer lm) p1) as [[st1 r1]| | |] eqn:A1; try contradiction. destruct (analyze_ast st1 p2) as [[st2 r2]| | |] eqn:A2; try contradiction.
  destruct H as [H1 H2]. exists p1, st1, r1, p2, st2, r2.
  split; [apply (analysed_one lm "3.0" [] (fresh_analyzer lm) p1 st1 r1); [apply analysed_nothing, fresh_is_default|exact A1]|]. auto 10.
Qed.
Print Assumptions C80_block_location. Print Assumptions C80_parsed.
