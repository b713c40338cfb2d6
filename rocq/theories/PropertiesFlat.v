(** Property C115: every accepted program can be written with one register of qubits and one of bits. *)
From Coq Require Import SpecFloat.
From Verif Require Import Base ModelUtils ModelVersion ModelError ModelTypes ModelOverload ModelFunctions ModelInstructionSet ModelAst ModelAnalyzer ModelSemantic ModelLexer ModelSyntactic
  SpecPrint SpecFolded SpecUtils SpecError SpecTypes SpecFunctions SpecInstructions SpecAnalyzer SpecHull SpecLexer SpecSyntax SpecReading SpecMachine SpecVersion SpecEvaluate SpecMeaning SpecRelocate SpecResize SpecElementary SpecFlat
  PropertiesLayout PropertiesPrint ProofsFileName ProofsFunctions ProofsAnalyzer2 ProofsReading ProofsText ProofsEvaluate ProofsMeaning2 ProofsRelocate ProofsErase ProofsAnalyzer3 ProofsMachine ProofsMachine2 ProofsFolded ProofsFolded2 ProofsElementary ProofsElementary2 ProofsFlat ProofsFlat2 ProofsFlat3 PropertiesAnalyzer PropertiesSyntax PropertiesHull PropertiesMachine PropertiesMeaning PropertiesResize SpecAnalyzer SpecVersion.
Local Open Scope string_scope.

(** C115: if there are not too many qubits and bits, every accepted program can be written
    with at most two registers, of all qubits and of all bits, whose elements are used by number;
    the numbers are those that [first_number] gives to the elements. *)
Theorem C115_flat : forall lm text api st p st' q qn bn, version_text text api -> version_same api [3; 0]%Z -> default_analyzer lm text = Ok st -> machine_libm lm ->
  qn <> bn -> ~ In qn constant_names -> ~ In bn constant_names -> grammar_program p -> machine_program p -> ordered_locations p -> analyze_ast st p = Ok (st', mkResult (Some q) []) ->
  fits (qubits_of (result_variables q)) -> fits (bits_of (result_variables q)) ->
  exists p' st'', (grammar_program p' /\ machine_program p' /\ ordered_locations p') /\ flat_program qn bn (qubits_of (result_variables q)) (bits_of (result_variables q)) p' /\
    analyze_ast st p' = Ok (st'', mkResult (Some (flat_result qn bn q)) []).
Proof.
  intros lm text api st p st' q qn bn V S D L N Cq Cb G M O A Fq Fb.
  destruct (flat_means lm qn bn api p q N Cq Cb G M O) as (p' & (G' & M' & O') & E & P & _); try assumption; [apply (C90_tree lm text api st p q V S D L G M O); eauto|].
  apply (C90_tree lm text api st p' _ V S D L G' M' O') in P. destruct P as (st'' & A'). exists p', st''. auto.
Qed.

(** Qubits, and bits, are numbered: the numbers are smaller than how many there are, no two
    elements have the same, and every number is the one of an element. *)
Theorem C115_numbered : forall lm text api st p st' q, version_text text api -> version_same api [3; 0]%Z -> default_analyzer lm text = Ok st -> machine_libm lm ->
  grammar_program p -> machine_program p -> ordered_locations p -> analyze_ast st p = Ok (st', mkResult (Some q) []) ->
  let vars := result_variables q in
  (forall x i, In x vars -> (0 <= i < tsize (var_type x))%Z -> (0 <= first_number vars x + i < if of_qubits x then qubits_of vars else bits_of vars)%Z) /\
  (forall x y i j, In x vars -> In y vars -> of_qubits x = of_qubits y -> (0 <= i < tsize (var_type x))%Z -> (0 <= j < tsize (var_type y))%Z ->
    (first_number vars x + i = first_number vars y + j)%Z -> x = y /\ i = j) /\
  (forall n, (0 <= n < qubits_of vars)%Z -> exists x i, In x vars /\ of_qubits x = true /\ (0 <= i < tsize (var_type x))%Z /\ (first_number vars x + i = n)%Z) /\
  (forall n, (0 <= n < bits_of vars)%Z -> exists x i, In x vars /\ of_qubits x = false /\ (0 <= i < tsize (var_type x))%Z /\ (first_number vars x + i = n)%Z).
Proof.
  intros lm text api st p st' q V S D L G M O A vars. assert (P : program_means lm api p q) by (apply (C90_tree lm text api st p q V S D L G M O); eauto).
  destruct (program_declared lm api p q P) as [De Nd]. fold vars in De, Nd. pose proof (all_positive vars De) as Po. split; [|split; [|split]].
  - intros x i Ix Hi. exact (numbers_below vars x i Po Ix Hi).
  - intros x y i j. apply numbers_once; assumption.
  - intros n Hn. apply numbers_every; try assumption. unfold qubits_of in Hn. replace (filter (fun y => Bool.eqb (of_qubits y) true) vars) with (filter of_qubits vars); [exact Hn|]. apply filter_ext. intros y. now destruct (of_qubits y).
  - intros n Hn. exact (numbers_every vars false n Po Nd Hn).
Qed.

(** What is accepted can be printed from its result. *)
Lemma printed lm rtl text st p' st'' r everywhere file' : default_analyzer lm text = Ok st -> machine_libm lm -> grammar_program p' -> machine_program p' ->
  analyze_ast st p' = Ok (st'', mkResult (Some r) []) -> writable_program (write_result r) ->
  analysed_as (run lm rtl text (print_program everywhere (write_result r)) file') = analysed_as (Ok (mkResult (Some r) [])).
Proof.
  intros D L G' M' A' We.
  assert (Pl : Forall plain (prog_statements p')) by (eapply Forall_impl; [|exact G']; intros s0 H; apply H).
  pose proof (analyze_written lm text st p' st'' _ L D Pl M' A') as Aq.
  destruct (C50_every_program everywhere (write_result r) file' rtl We) as (p2 & E2 & Rp). unfold run. rewrite D. cbn [bind]. unfold analyze_string. rewrite E2. cbn [bind].
  destruct (default_analyzer_inv lm text st D) as (v & _ & _ & ->). pose proof (default_ordinary_any lm v 0) as Or.
  pose proof (rel_analyze erase erase_compatible lm _ (mkResult (Some p2) []) Or) as A1. pose proof (rel_analyze erase erase_compatible lm _ (mkResult (Some (write_result r)) []) Or) as A2.
  unfold relocate_result in A1 at 1, A2 at 1. cbn [res_root res_errors option_map map] in A1, A2. rewrite Rp, A2 in A1. unfold analyze at 1 in A1. cbn [res_errors res_root] in A1. rewrite Aq in A1.
  pose proof (analyze_not_err (mkAnalyzer v [ProofsFunctions.default_scope lm] 0) (mkResult (Some p2) [])) as N1. unfold analysed_as.
  destruct (analyze _ (mkResult (Some p2) [])) as [x1|e1| |]; cbn [omap bind map_outcome] in *; try congruence; try (now destruct (N1 e1)).
  injection A1 as _ A1. unfold relocate_analysis in A1. f_equal. destruct x1. cbn [snd] in *. unfold relocate_result. now f_equal.
Qed.

(** For texts: such a program can be printed from the result. *)
Theorem C115_text : forall lm rtl text api data file s q qn bn, version_text text api -> version_same api [3; 0]%Z -> machine_libm lm -> text_of data s -> utf8 s ->
  usable qn -> usable bn -> qn <> bn -> ~ In qn constant_names -> ~ In bn constant_names ->
  run lm rtl text data file = Ok (mkResult (Some q) []) -> fits (qubits_of (result_variables q)) -> fits (bits_of (result_variables q)) ->
  flat_program qn bn (qubits_of (result_variables q)) (bits_of (result_variables q)) (write_result (flat_result qn bn q)) /\ writable_program (write_result (flat_result qn bn q)) /\
  forall everywhere file', analysed_as (run lm rtl text (print_program everywhere (write_result (flat_result qn bn q))) file') = analysed_as (Ok (mkResult (Some (flat_result qn bn q)) [])).
Proof.
  intros lm rtl text api data file s q qn bn V S L T U Uq Ub N Cq Cb R Fq Fb. unfold run in R. destruct (default_analyzer lm text) as [st| | |] eqn:D; try discriminate. cbn [bind] in R. unfold analyze_string in R.
  destruct (parse_string file rtl data) as [r|e|w|k] eqn:Pr; cbn [bind] in R; try discriminate. unfold analyze in R.
  destruct r as [[p|] [|e es]]; cbn [res_errors res_root] in R; try discriminate.
  destruct (analyze_ast st p) as [[st1 r1]| | |] eqn:A; try discriminate R. cbn [bind snd] in R. injection R as ->.
  pose proof (C50_parsed_writable file rtl data s p T U Pr) as W. pose proof (result_writable lm text st p st1 q L D W A) as Wq.
  pose proof (parsed_grammar file s p (proj1 (C64_tree file rtl data s p T U) Pr)) as G. pose proof (C84_parsed file rtl data s p T U Pr) as M. pose proof (C80_parsed file rtl data s p T U Pr) as O.
  assert (P0 : program_means lm api p q) by (apply (C90_tree lm text api st p q V S D L G M O); eauto).
  destruct (flat_means lm qn bn api p q N Cq Cb G M O P0 Fq Fb) as (p' & (G' & M' & O') & E & P & Si). pose proof (proj1 (program_declared lm api p q P0)) as De.
  apply (C90_tree lm text api st p' _ V S D L G' M' O') in P. destruct P as (st'' & A'). pose proof (accepted_fine _ _ _ _ _ _ D A') as Fine.
  pose proof (result_machine lm text [] st p' st'' _ _ L (SpecHull.analysed_nothing _ _ _ D) (Forall_nil _) M' A' eq_refl) as Mq.
  pose proof (flat_writable qn bn q Uq Ub Wq De Fq Fb Mq Fine Si) as We.
  split; [apply flat_written; assumption|]. split; [exact We|]. intros everywhere file'.
  exact (printed lm rtl text st p' st'' _ everywhere file' D L G' M' A' We).
Qed.

(** With C113: such a program can be printed in which every operand is a single element. *)
Theorem C115_elements : forall lm rtl text api data file s q qn bn, version_text text api -> version_same api [3; 0]%Z -> machine_libm lm -> text_of data s -> utf8 s ->
  usable qn -> usable bn -> qn <> bn -> ~ In qn constant_names -> ~ In bn constant_names ->
  run lm rtl text data file = Ok (mkResult (Some q) []) -> fits (qubits_of (result_variables q)) -> fits (bits_of (result_variables q)) ->
  let r := elementary_result (flat_result qn bn q) in
  flat_program qn bn (qubits_of (result_variables q)) (bits_of (result_variables q)) (write_result r) /\ elementary_program (write_result r) /\ writable_program (write_result r) /\
  forall everywhere file', analysed_as (run lm rtl text (print_program everywhere (write_result r)) file') = analysed_as (Ok (mkResult (Some r) [])).
Proof.
  intros lm rtl text api data file s q qn bn V S L T U Uq Ub N Cq Cb R Fq Fb. unfold run in R. destruct (default_analyzer lm text) as [st| | |] eqn:D; try discriminate. cbn [bind] in R. unfold analyze_string in R.
  destruct (parse_string file rtl data) as [r|e|w|k] eqn:Pr; cbn [bind] in R; try discriminate. unfold analyze in R.
  destruct r as [[p|] [|e es]]; cbn [res_errors res_root] in R; try discriminate.
  destruct (analyze_ast st p) as [[st1 r1]| | |] eqn:A; try discriminate R. cbn [bind snd] in R. injection R as ->.
  pose proof (C50_parsed_writable file rtl data s p T U Pr) as W. pose proof (result_writable lm text st p st1 q L D W A) as Wq.
  pose proof (parsed_grammar file s p (proj1 (C64_tree file rtl data s p T U) Pr)) as G. pose proof (C84_parsed file rtl data s p T U Pr) as M. pose proof (C80_parsed file rtl data s p T U Pr) as O.
  assert (P0 : program_means lm api p q) by (apply (C90_tree lm text api st p q V S D L G M O); eauto).
  destruct (flat_means lm qn bn api p q N Cq Cb G M O P0 Fq Fb) as (p' & (G' & M' & O') & E & P & Si). pose proof (proj1 (program_declared lm api p q P0)) as De.
  apply (C90_tree lm text api st p' _ V S D L G' M' O') in P. destruct P as (st'' & A'). pose proof (accepted_fine _ _ _ _ _ _ D A') as Fine.
  pose proof (result_machine lm text [] st p' st'' _ _ L (SpecHull.analysed_nothing _ _ _ D) (Forall_nil _) M' A' eq_refl) as Mq.
  pose proof (flat_writable qn bn q Uq Ub Wq De Fq Fb Mq Fine Si) as We.
  assert (P1 : program_means lm api p' (flat_result qn bn q)) by (apply (C90_tree lm text api st p' _ V S D L G' M' O'); eauto).
  destruct (elementary_means lm api p' (flat_result qn bn q) G' M' O' P1) as (p2 & (G2 & M2 & O2) & E2 & P2 & Si2).
  apply (C90_tree lm text api st p2 _ V S D L G2 M2 O2) in P2. destruct P2 as (st2 & A2). pose proof (accepted_fine _ _ _ _ _ _ D A2) as Fine2.
  pose proof (result_machine lm text [] st p2 st2 _ _ L (SpecHull.analysed_nothing _ _ _ D) (Forall_nil _) M2 A2 eq_refl) as Mq2.
  pose proof (elementary_writable (flat_result qn bn q) We Mq2 Fine2 Si2) as We2. split; [exact (elements_written qn bn q Fine2 Si2)|]. split; [exact (elementary_written (flat_result qn bn q) Fine2 Si2)|]. split; [exact We2|].
  intros everywhere file'. exact (printed lm rtl text st p2 st2 _ everywhere file' D L G2 M2 A2 We2).
Qed.

(** Once is enough: a result with these two registers, and one with single elements of
    them, stays as it is. *)
Theorem C115_once : forall lm text api st p st' q qn bn, version_text text api -> version_same api [3; 0]%Z -> default_analyzer lm text = Ok st -> machine_libm lm ->
  qn <> bn -> ~ In qn constant_names -> ~ In bn constant_names -> grammar_program p -> machine_program p -> ordered_locations p -> analyze_ast st p = Ok (st', mkResult (Some q) []) ->
  fits (qubits_of (result_variables q)) -> fits (bits_of (result_variables q)) ->
  flat_result qn bn (flat_result qn bn q) = flat_result qn bn q /\
  let r := elementary_result (flat_result qn bn q) in flat_result qn bn r = r /\ elementary_result r = r.
Proof.
  intros lm text api st p st' q qn bn V S D L N Cq Cb G M O A Fq Fb. split; [apply flat_once|]. split; [apply flat_elementary_once|].
  destruct (flat_means lm qn bn api p q N Cq Cb G M O) as (p' & (G' & M' & O') & E & P & _); try assumption; [apply (C90_tree lm text api st p q V S D L G M O); eauto|].
  destruct (elementary_means lm api p' _ G' M' O' P) as (_ & _ & _ & _ & Si). exact (elementary_again _ Si).
Qed.

(** Several registers of both kinds, variables that are no registers *)
Definition text_several : string := "version 3.0; qubit[3] q; bit[3] b; qubit r; qubit[2] s; bit c; H q; CNOT q[0:1], s; X r; asm(A) ''' x '''; b = measure q; c = measure s[1]; CRk(2) q[2], r; barrier s".
Definition shown_operands (q : sem_program) : list (list (string * list Z)) :=
  map (fun s => map (fun v => match v with VVar x => (var_name x, []) | VIndex x zs => (var_name x, zs) | _ => ("", []) end) (match s with SemGateInstr _ _ _ vs _ | SemNonGate _ _ _ vs _ _ => vs | SemAsm _ _ _ _ => [] end)) (blk_statements (sp_block q)).
Definition operands_shown : list (list (string * list Z)) :=
  [[("Q", [0; 1; 2]%Z)]; [("Q", [0; 1]%Z); ("Q", [4; 5]%Z)]; [("Q", [3]%Z)]; []; [("B", [0; 1; 2]%Z); ("Q", [0; 1; 2]%Z)]; [("B", [3]%Z); ("Q", [5]%Z)]; [("Q", [2]%Z); ("Q", [3]%Z)]; [("Q", [4; 5]%Z)]].
Definition text_two : string := "version 3.0 ; qubit [ 6 ] Q ; bit [ 4 ] B ; H Q [ 0 , 1 , 2 ] ; CNOT Q [ 0 , 1 ] , Q [ 4 , 5 ] ; X Q [ 3 ] ; asm ( A ) ''' x ''' ; B [ 0 , 1 , 2 ] = measure Q [ 0 , 1 , 2 ] ; B [ 3 ] = measure Q [ 5 ] ; CRk ( 2 ) Q [ 2 ] , Q [ 3 ] ; barrier Q [ 4 , 5 ]".
Definition text_flat_elements : string := "version 3.0 ; qubit [ 6 ] Q ; bit [ 4 ] B ; H Q [ 0 ] ; H Q [ 1 ] ; H Q [ 2 ] ; CNOT Q [ 0 ] , Q [ 4 ] ; CNOT Q [ 1 ] , Q [ 5 ] ; X Q [ 3 ] ; asm ( A ) ''' x ''' ; B [ 0 ] = measure Q [ 0 ] ; B [ 1 ] = measure Q [ 1 ] ; B [ 2 ] = measure Q [ 2 ] ; B [ 3 ] = measure Q [ 5 ] ; CRk ( 2 ) Q [ 2 ] , Q [ 3 ] ; barrier Q [ 4 ] ; barrier Q [ 5 ]".
Example C115_case : machine_libm same_libm /\ text_of text_several text_several /\ utf8 text_several /\ (usable "Q" /\ usable "B" /\ "Q" <> "B" /\ ~ In "Q" constant_names /\ ~ In "B" constant_names) /\
  exists p, parse_string None false text_several = Ok (mkResult (Some p) []) /\ (grammar_program p /\ machine_program p /\ ordered_locations p) /\
    exists st' q, analyze_ast (fresh_analyzer same_libm) p = Ok (st', mkResult (Some q) []) /\ (qubits_of (result_variables q) = 6%Z /\ bits_of (result_variables q) = 4%Z) /\
      shown_operands (flat_result "Q" "B" q) = operands_shown /\ print_program false (write_result (flat_result "Q" "B" q)) = text_two /\ print_program false (write_result (elementary_result (flat_result "Q" "B" q))) = text_flat_elements.
Proof.
  split; [split; [auto|]; repeat (apply Forall_cons; [auto|]); apply Forall_nil|].
  assert (T : text_of text_several text_several) by text_case. assert (U : utf8 text_several) by utf8_case. split; [exact T|]. split; [exact U|].
  split; [split; [usable|]; split; [usable|]; split; [discriminate|]; split; intros H; cbn in H; intuition discriminate|].
  destruct (tree_case None text_several (fun p => match analyze_ast (fresh_analyzer same_libm) p with Ok (_, mkResult (Some q) []) => (qubits_of (result_variables q) = 6%Z /\ bits_of (result_variables q) = 4%Z) /\ shown_operands (flat_result "Q" "B" q) = operands_shown /\ print_program false (write_result (flat_result "Q" "B" q)) = text_two /\ print_program false (write_result (elementary_result (flat_result "Q" "B" q))) = text_flat_elements | _ => False end)) as (p & E & H).
  { vm_compute. repeat split; reflexivity. }
  exists p. split; [exact E|]. split; [split; [eapply parsed_grammar, (C64_tree None false _ _ p T U), E|]; split; [exact (C84_parsed None false _ _ p T U E)|exact (C80_parsed None false _ _ p T U E)]|].
  destruct (analyze_ast (fresh_analyzer same_libm) p) as [[st' [[q|] [|]]]| | |]; try contradiction. exists st', q. split; [reflexivity|exact H].
Qed.
Print Assumptions C115_flat. Print Assumptions C115_numbered. Print Assumptions C115_text. Print Assumptions C115_elements. Print Assumptions C115_once.
