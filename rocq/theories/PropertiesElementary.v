(** Property C113: every accepted program can be written with instructions for single elements. *)
From Coq Require Import SpecFloat.
From Verif Require Import Base ModelUtils ModelVersion ModelError ModelTypes ModelOverload ModelFunctions ModelInstructionSet ModelAst ModelAnalyzer ModelSemantic ModelLexer ModelSyntactic
  SpecPrint SpecFolded SpecUtils SpecError SpecTypes SpecFunctions SpecInstructions SpecAnalyzer SpecHull SpecLexer SpecSyntax SpecReading SpecMachine SpecVersion SpecEvaluate SpecMeaning SpecRelocate SpecResize SpecElementary
  PropertiesLayout PropertiesPrint ProofsFileName ProofsFunctions ProofsAnalyzer2 ProofsReading ProofsText ProofsEvaluate ProofsMeaning2 ProofsRelocate ProofsErase ProofsAnalyzer3 ProofsMachine ProofsMachine2 ProofsFolded ProofsFolded2 ProofsElementary ProofsElementary2 PropertiesAnalyzer PropertiesSyntax PropertiesHull PropertiesMachine PropertiesMeaning PropertiesResize SpecAnalyzer SpecVersion.
Local Open Scope string_scope.

(** C113: for every accepted program there is one whose operands are all single elements,
    and whose result is that of the given one, taken apart element by element. *)
Theorem C113_elementary : forall lm text api st p st' q, version_text text api -> version_same api [3; 0]%Z -> default_analyzer lm text = Ok st -> machine_libm lm ->
  grammar_program p -> machine_program p -> ordered_locations p -> analyze_ast st p = Ok (st', mkResult (Some q) []) ->
  exists p' st'', (grammar_program p' /\ machine_program p' /\ ordered_locations p') /\ elementary_program p' /\ analyze_ast st p' = Ok (st'', mkResult (Some (elementary_result q)) []).
Proof.
  intros lm text api st p st' q V S D L G M O A.
  destruct (elementary_means lm api p q G M O) as (p' & (G' & M' & O') & E & P & _); [apply (C90_tree lm text api st p q V S D L G M O); eauto|].
  apply (C90_tree lm text api st p' _ V S D L G' M' O') in P. destruct P as (st'' & A'). exists p', st''. auto.
Qed.

(** Nothing is left to be taken apart then. *)
Theorem C113_once : forall lm text api st p st' q, version_text text api -> version_same api [3; 0]%Z -> default_analyzer lm text = Ok st -> machine_libm lm ->
  grammar_program p -> machine_program p -> ordered_locations p -> analyze_ast st p = Ok (st', mkResult (Some q) []) -> elementary_result (elementary_result q) = elementary_result q.
Proof.
  intros lm text api st p st' q V S D L G M O A.
  destruct (elementary_means lm api p q G M O) as (p' & _ & _ & _ & Si); [apply (C90_tree lm text api st p q V S D L G M O); eauto|]. exact (elementary_again q Si).
Qed.

(** For texts: such a program can be printed from the result. *)
Theorem C113_text : forall lm rtl text api data file s q, version_text text api -> version_same api [3; 0]%Z -> machine_libm lm -> text_of data s -> utf8 s ->
  run lm rtl text data file = Ok (mkResult (Some q) []) ->
  elementary_program (write_result (elementary_result q)) /\ writable_program (write_result (elementary_result q)) /\
  forall everywhere file', analysed_as (run lm rtl text (print_program everywhere (write_result (elementary_result q))) file') = analysed_as (Ok (mkResult (Some (elementary_result q)) [])).
Proof.
  intros lm rtl text api data file s q V S L T U R. unfold run in R. destruct (default_analyzer lm text) as [st| | |] eqn:D; try discriminate. cbn [bind] in R. unfold analyze_string in R.
  destruct (parse_string file rtl data) as [r|e|w|k] eqn:Pr; cbn [bind] in R; try discriminate. unfold analyze in R.
  destruct r as [[p|] [|e es]]; cbn [res_errors res_root] in R; try discriminate.
  destruct (analyze_ast st p) as [[st1 r1]| | |] eqn:A; try discriminate R. cbn [bind snd] in R. injection R as ->.
  pose proof (C50_parsed_writable file rtl data s p T U Pr) as W. pose proof (result_writable lm text st p st1 q L D W A) as Wq.
  pose proof (parsed_grammar file s p (proj1 (C64_tree file rtl data s p T U) Pr)) as G. pose proof (C84_parsed file rtl data s p T U Pr) as M. pose proof (C80_parsed file rtl data s p T U Pr) as O.
  destruct (elementary_means lm api p q G M O) as (p' & (G' & M' & O') & E & P & Si); [apply (C90_tree lm text api st p q V S D L G M O); eauto|].
  apply (C90_tree lm text api st p' _ V S D L G' M' O') in P. destruct P as (st'' & A'). pose proof (accepted_fine _ _ _ _ _ _ D A') as Fine.
  pose proof (result_machine lm text [] st p' st'' _ _ L (SpecHull.analysed_nothing _ _ _ D) (Forall_nil _) M' A' eq_refl) as Mq.
  split; [exact (elementary_written q Fine Si)|]. pose proof (elementary_writable q Wq Mq Fine Si) as We. split; [exact We|]. intros everywhere file'.
  assert (Pl : Forall plain (prog_statements p')) by (eapply Forall_impl; [|exact G']; intros s0 H; apply H).
  pose proof (analyze_written lm text st p' st'' _ L D Pl M' A') as Aq.
  destruct (C50_every_program everywhere (write_result (elementary_result q)) file' rtl We) as (p2 & E2 & Rp). unfold run. rewrite D. cbn [bind]. unfold analyze_string. rewrite E2. cbn [bind].
  destruct (default_analyzer_inv lm text st D) as (v & _ & _ & ->). pose proof (default_ordinary_any lm v 0) as Or.
  pose proof (rel_analyze erase erase_compatible lm _ (mkResult (Some p2) []) Or) as A1. pose proof (rel_analyze erase erase_compatible lm _ (mkResult (Some (write_result (elementary_result q))) []) Or) as A2.
  unfold relocate_result in A1 at 1, A2 at 1. cbn [res_root res_errors option_map map] in A1, A2. rewrite Rp, A2 in A1. unfold analyze at 1 in A1. cbn [res_errors res_root] in A1. rewrite Aq in A1.
  pose proof (analyze_not_err (mkAnalyzer v [ProofsFunctions.default_scope lm] 0) (mkResult (Some p2) [])) as N1. unfold analysed_as.
  destruct (analyze _ (mkResult (Some p2) [])) as [x1|e1| |]; cbn [omap bind map_outcome] in *; try congruence; try (now destruct (N1 e1)).
  injection A1 as _ A1. unfold relocate_analysis in A1. f_equal. destruct x1. cbn [snd] in *. unfold relocate_result. now f_equal.
Qed.

(** Whole registers, ranges, lists of indices, variables that are no registers, asm *)
Definition text_registers : string := "version 3.0; qubit[3] q; bit[3] b; qubit r; H q; CNOT q[0:1], q[1, 2]; X r; asm(A) ''' x '''; b = measure q; reset r".
Definition shown_elements (q : sem_program) : list (list (string * list Z)) :=
  map (fun s => map (fun v => match v with VVar x => (var_name x, []) | VIndex x zs => (var_name x, zs) | _ => ("", []) end) (result_operands s)) (blk_statements (sp_block q)).
Definition elements_shown : list (list (string * list Z)) :=
  [[("q", [0%Z])]; [("q", [1%Z])]; [("q", [2%Z])]; [("q", [0%Z]); ("q", [1%Z])]; [("q", [1%Z]); ("q", [2%Z])]; [("r", [])]; [];
   [("b", [0%Z]); ("q", [0%Z])]; [("b", [1%Z]); ("q", [1%Z])]; [("b", [2%Z]); ("q", [2%Z])]; [("r", [])]].
Definition text_elements : string := "version 3.0 ; qubit [ 3 ] q ; bit [ 3 ] b ; qubit r ; H q [ 0 ] ; H q [ 1 ] ; H q [ 2 ] ; CNOT q [ 0 ] , q [ 1 ] ; CNOT q [ 1 ] , q [ 2 ] ; X r ; asm ( A ) ''' x ''' ; b [ 0 ] = measure q [ 0 ] ; b [ 1 ] = measure q [ 1 ] ; b [ 2 ] = measure q [ 2 ] ; reset r".
Example C113_case : machine_libm same_libm /\ text_of text_registers text_registers /\ utf8 text_registers /\
  exists p, parse_string None false text_registers = Ok (mkResult (Some p) []) /\ (grammar_program p /\ machine_program p /\ ordered_locations p) /\
    exists st' q, analyze_ast (fresh_analyzer same_libm) p = Ok (st', mkResult (Some q) []) /\ shown_elements (elementary_result q) = elements_shown /\
      print_program false (write_result (elementary_result q)) = text_elements.
Proof.
  split; [split; [auto|]; repeat (apply Forall_cons; [auto|]); apply Forall_nil|].
  assert (T : text_of text_registers text_registers) by text_case. assert (U : utf8 text_registers) by utf8_case. split; [exact T|]. split; [exact U|].
  destruct (tree_case None text_registers (fun p => match analyze_ast (fresh_analyzer same_libm) p with Ok (_, mkResult (Some q) []) => shown_elements (elementary_result q) = elements_shown /\ print_program false (write_result (elementary_result q)) = text_elements | _ => False end)) as (p & E & H).
  { vm_compute. split; reflexivity. }
  exists p. split; [exact E|]. split; [split; [eapply parsed_grammar, (C64_tree None false _ _ p T U), E|]; split; [exact (C84_parsed None false _ _ p T U E)|exact (C80_parsed None false _ _ p T U E)]|].
  destruct (analyze_ast (fresh_analyzer same_libm) p) as [[st' [[q|] [|]]]| | |]; try contradiction. exists st', q. split; [reflexivity|exact H].
Qed.
Print Assumptions C113_elementary. Print Assumptions C113_once. Print Assumptions C113_text.
