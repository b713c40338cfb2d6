(** Property C117, continued: two registers as one. *)
From Coq Require Import SpecFloat.
From Verif Require Import Base ModelUtils ModelVersion ModelError ModelTypes ModelOverload ModelFunctions ModelInstructionSet ModelAst ModelAnalyzer ModelSemantic ModelLexer ModelSyntactic
  SpecPrint SpecFolded SpecUtils SpecError SpecTypes SpecFunctions SpecInstructions SpecAnalyzer SpecHull SpecLexer SpecSyntax SpecReading SpecMachine SpecVersion SpecEvaluate SpecMeaning SpecRelocate SpecResize SpecFlat SpecOperations SpecUnroll
  ProofsFolded PropertiesAnalyzer PropertiesMachine PropertiesSyntax  SpecSingle SpecSpelled ProofsEvaluate ProofsMeaning2 ProofsRelocate ProofsErase ProofsAnalyzer3 ProofsMachine ProofsMachine2 PropertiesHull PropertiesResize ProofsErase ProofsMeaning2 ProofsText PropertiesMachine PropertiesSyntax PropertiesUnroll SpecSingle  PropertiesSingle PropertiesJoin ProofsOperations3 PropertiesMeaning PropertiesUnroll PropertiesMerge PropertiesOperations SpecMerge SpecAnalyzer SpecVersion.
Local Open Scope string_scope.

(** C117: declaring two registers as one (C111), and one as two, keeps the operations. *)
Theorem C117_merged : forall lm text api st p st' q a b m k before la lb lta ltb type behind, version_text text api -> version_same api [3; 0]%Z -> default_analyzer lm text = Ok st -> machine_libm lm ->
  grammar_program p -> machine_program p -> ordered_locations p ->
  two_registers a b m k p before la lb lta ltb type behind -> mergeable a b k behind -> a <> b ->
  analyze_ast st p = Ok (st', mkResult (Some q) []) -> operations (merge_result a b m k (SpecMerge.declared before) q) = operations q.
Proof.
  intros lm text api st p st' q a b m k before la lb lta ltb type behind V S D L G M O T U N A.
  apply (merged_operations lm api p q a b m k before la lb lta ltb type behind N T U). apply (C90_tree lm text api st p q V S D L G M O). eauto.
Qed.

(** For texts: when one of two texts is the other one rewritten, both give the same
    operations, up to the locations of gates. *)
Theorem C117_texts : forall lm text api f1 f2 rtl data1 data2 s1 p1 p2 q1, version_text text api -> version_same api [3; 0]%Z -> machine_libm lm -> text_of data1 s1 -> utf8 s1 ->
  parse_string f1 rtl data1 = Ok (mkResult (Some p1) []) -> parse_string f2 rtl data2 = Ok (mkResult (Some p2) []) -> run lm rtl text data1 f1 = Ok (mkResult (Some q1) []) ->
  (exists chosen, unrollable chosen p1 /\ relocate_program erase p2 = unroll_program chosen (relocate_program erase p1)) \/
  (exists single, used_whole single p1 /\ relocate_program erase p2 = widen_program single (relocate_program erase p1)) \/
  (exists a b m k before la lb lta ltb type behind, two_registers a b m k (relocate_program erase p1) before la lb lta ltb type behind /\ mergeable a b k behind /\ a <> b /\ fits (m + k) /\
    relocate_program erase p2 = one_register a b m k (relocate_program erase p1) before la lta type behind) ->
  exists q2, run lm rtl text data2 f2 = Ok (mkResult (Some q2) []) /\ operations (relocate_sem_program erase q2) = operations (relocate_sem_program erase q1).
Proof.
  intros lm text api f1 f2 rtl data1 data2 s1 p1 p2 q1 V S L T U P1 P2 R C. pose proof (version_text_analyzer lm text api V S) as D.
  destruct (proj1 (run_erased lm text api f1 rtl data1 p1 (relocate_sem_program erase q1) V S P1)) as (e1 & st1 & B1 & E1); [eauto|]. rewrite (erased_itself _ _ _ _ _ B1) in E1. subst e1.
  pose proof (grammar_relocated erase p1 (parsed_grammar f1 s1 p1 (proj1 (C64_tree f1 rtl data1 s1 p1 T U) P1))) as G. pose proof (machine_relocated erase p1 (C84_parsed f1 rtl data1 s1 p1 T U P1)) as M. pose proof (ordered_erased p1) as O.
  destruct C as [(chosen & Un & E)|[(single & Us & E)|(a & b & m & k & before & la & lb & lta & ltb & type & behind & W & Me & N & F & E)]].
  - destruct (proj2 (C110_texts lm text api f1 f2 rtl data1 data2 s1 p1 p2 (unroll_result chosen (relocate_sem_program erase q1)) chosen V S L T U P1 P2 E Un)) as (q2 & A2 & E2); [eauto|]. exists q2. split; [exact A2|]. rewrite E2.
    exact (C117_sequence lm text api _ _ st1 _ chosen V S D L G M O (erased_unrollable chosen p1 Un) B1).
  - destruct (proj2 (C109_texts lm text api f1 f2 rtl data1 data2 s1 p1 p2 (widen_result single (relocate_sem_program erase q1)) single V S L T U P1 P2 E Us)) as (q2 & A2 & E2); [eauto|]. exists q2. split; [exact A2|]. rewrite E2.
    exact (proj1 (C117_abbreviated lm text api _ _ st1 _ V S D L G M O B1) single).
  - destruct (C111_texts lm text api f1 f2 rtl data1 data2 s1 p1 p2 q1 a b m k before la lb lta ltb type behind V S L T U P1 P2 W Me N F E R) as (q2 & A2 & E2). exists q2. split; [exact A2|]. rewrite E2.
    exact (C117_merged lm text api _ _ st1 _ a b m k before la lb lta ltb type behind V S D L G M O W Me N B1).
Qed.

(** The programs of C110 and C111, which meet the hypotheses (C110_case, C111_case): what
    they are rewritten to has other instructions, but the same operations. *)
Definition operations_unrolled : list (string * list place) :=
  [("H", [(true, 0%Z)]); ("H", [(true, 1%Z)]); ("H", [(true, 2%Z)]); ("CNOT", [(true, 0%Z); (true, 1%Z)]); ("CNOT", [(true, 1%Z); (true, 2%Z)]); ("A", []);
   ("measure", [(false, 2%Z); (true, 0%Z)]); ("measure", [(false, 0%Z); (true, 1%Z)]); ("reset", [(true, 0%Z)]); ("reset", [(true, 1%Z)]); ("reset", [(true, 2%Z)])].
Definition operations_merged : list (string * list place) :=
  [("CNOT", [(true, 0%Z); (true, 4%Z)]); ("H", [(true, 2%Z)]); ("H", [(true, 3%Z)]); ("X", [(true, 5%Z)]); ("measure", [(false, 0%Z); (true, 3%Z)]); ("measure", [(false, 1%Z); (true, 4%Z)])].
Example C117_rewritten :
  (exists p st' q, parse_string None false text_rolled = Ok (mkResult (Some p) []) /\ analyze_ast (fresh_analyzer same_libm) p = Ok (st', mkResult (Some q) []) /\
    unroll_result unrolled_ones q <> q /\ shown_operations q = operations_unrolled /\ shown_operations (unroll_result unrolled_ones q) = operations_unrolled) /\
  (exists p st' q, parse_string None false PropertiesMerge.text_two = Ok (mkResult (Some p) []) /\ analyze_ast (fresh_analyzer same_libm) p = Ok (st', mkResult (Some q) []) /\
    merge_result "a" "b" 2 3 1 q <> q /\ shown_operations q = operations_merged /\ shown_operations (merge_result "a" "b" 2 3 1 q) = operations_merged).
Proof.
  split.
  - destruct (tree_case None text_rolled (fun p => match analyze_ast (fresh_analyzer same_libm) p with Ok (_, mkResult (Some q) []) =>
      (List.length (blk_statements (sp_block q)) = 5 /\ List.length (blk_statements (sp_block (unroll_result unrolled_ones q))) = 7) /\ shown_operations q = operations_unrolled /\ shown_operations (unroll_result unrolled_ones q) = operations_unrolled | _ => False end)) as (p & E & H).
    { vm_compute. repeat split. }
    destruct (analyze_ast (fresh_analyzer same_libm) p) as [[st' [[q|] [|]]]| | |] eqn:A; try contradiction. destruct H as ([L1 L2] & H1 & H2). exists p, st', q. split; [exact E|]. split; [exact A|]. split; [intros X; rewrite X, L1 in L2; discriminate|]. now split.
  - destruct (tree_case None PropertiesMerge.text_two (fun p => match analyze_ast (fresh_analyzer same_libm) p with Ok (_, mkResult (Some q) []) =>
      (List.length (sp_variables q) = 4 /\ List.length (sp_variables (merge_result "a" "b" 2 3 1 q)) = 3) /\ shown_operations q = operations_merged /\ shown_operations (merge_result "a" "b" 2 3 1 q) = operations_merged | _ => False end)) as (p & E & H).
    { vm_compute. repeat split. }
    destruct (analyze_ast (fresh_analyzer same_libm) p) as [[st' [[q|] [|]]]| | |] eqn:A; try contradiction. destruct H as ([L1 L2] & H1 & H2). exists p, st', q. split; [exact E|]. split; [exact A|]. split; [intros X; rewrite X, L1 in L2; discriminate|]. now split.
Qed.
Print Assumptions C117_merged. Print Assumptions C117_texts.
