(** Properties C70, C71: the order of evaluation and the way a program is written
    do not change its analysis. *)
From Verif Require Import Base ModelUtils ModelVersion ModelError ModelTypes ModelFunctions ModelAst ModelLexer ModelParser ModelAnalyzer ModelSemantic ModelSyntactic SpecUtils SpecTypes SpecInstructions SpecAnalyzer SpecLexer SpecParser SpecSyntax SpecReading SpecRelocate SpecPrint
  ProofsReading ProofsOrder ProofsPipeline ProofsPrint5 PropertiesAnalyzer PropertiesSyntax PropertiesLayout PropertiesPrint.
Local Open Scope string_scope.

(** ** C70: the order in which the compiler evaluates the operands of an operation
    while building the tree decides at most which of several literals that are out
    of range is reported. *)

Theorem C70_same_tree : forall file data s p, text_of data s -> utf8 s ->
  parse_string file true data = Ok (mkResult (Some p) []) <-> parse_string file false data = Ok (mkResult (Some p) []).
Proof. intros file data s p T U. rewrite !(parse_reads file _ data s p T U). reflexivity. Qed.
Theorem C70_same_analysis : forall file data s p st, text_of data s -> utf8 s -> parse_string file false data = Ok (mkResult (Some p) []) ->
  analyze_string true st data file = analyze_string false st data file.
Proof. intros file data s p st T U E. unfold analyze_string. rewrite E. apply (C70_same_tree file data s p T U) in E. now rewrite E. Qed.
(** Whatever the text, the results are the same if at most one literal is out of
    range. *)
Theorem C70_same_result : forall file data s, text_of data s -> utf8 s -> (forall ts, tokens_of s ts -> one_out_of_range ts) ->
  parse_string file true data = parse_string file false data.
Proof. intros file data s T U O. apply (same_parse file data s T U). intros ts To _. exact (O ts To). Qed.
(** Two literals out of range: which one is reported is up to the compiler. *)
Theorem C70_refuted : exists data, parse_string None true data <> parse_string None false data.
Proof. exists "version 3.0; reset 99999999999999999999 + 1.0e999". vm_compute. discriminate. Qed.
Example C70_case : text_of text_rx text_rx /\ utf8 text_rx /\ (exists p, parse_string None false text_rx = Ok (mkResult (Some p) [])) /\
  exists e, parse_string None true "version 3.0; reset 99999999999999999999 + 1" = Ok (mkResult None [e]).
Proof.
  split; [text_case|]. split; [utf8_case|]. split; [|eexists; vm_compute; reflexivity].
  destruct (tree_case None text_rx (fun _ => True)) as (p & E & _); [vm_compute; exact I|eauto].
Qed.
Print Assumptions C70_same_tree. Print Assumptions C70_same_analysis. Print Assumptions C70_same_result. Print Assumptions C70_refuted.

(** ** C71: a program can be rewritten from its tree, with all parentheses or with
    as few as possible: the text parses and is analysed like the original one. *)
Theorem C71_rewritten : forall everywhere file file' rtl data s p, text_of data s -> utf8 s -> parse_string file rtl data = Ok (mkResult (Some p) []) ->
  parsed_as (parse_string file' rtl (print_program everywhere p)) = parsed_as (parse_string file rtl data) /\
  forall lm api, analysed_as (run lm rtl api (print_program everywhere p) file') = analysed_as (run lm rtl api data file).
Proof.
  intros everywhere file file' rtl data s p T U E. destruct (C50_every_program everywhere p file' rtl (C50_parsed_writable file rtl data s p T U E)) as (p' & E' & R).
  assert (X : parsed_as (parse_string file' rtl (print_program everywhere p)) = parsed_as (parse_string file rtl data)).
  { rewrite E, E'. unfold parsed_as, map_outcome, relocate_result. cbn [bind res_root res_errors option_map map]. now rewrite R. }
  split; [exact X|]. intros lm api. now apply analysed_parsed.
Qed.
Example C71_case : exists p, parse_string None false ("version 3;;qubit[2]   q" ++ nl ++ nl ++ "/* x */ Rx((1+(2*3)))  q[0 ]") = Ok (mkResult (Some p) []) /\
  print_program false p = "version 3 ; qubit [ 2 ] q ; Rx ( 1 + 2 * 3 ) q [ 0 ]".
Proof. apply tree_case. vm_compute. reflexivity. Qed.
Print Assumptions C71_rewritten.
