(** Property C110: an instruction for several operands is the sequence of the instructions for one. *)
From Coq Require Import SpecFloat.
From Verif Require Import Base ModelUtils ModelVersion ModelError ModelTypes ModelOverload ModelFunctions ModelInstructionSet ModelAst ModelAnalyzer ModelSemantic ModelLexer ModelSyntactic
  SpecUtils SpecError SpecTypes SpecFunctions SpecInstructions SpecAnalyzer SpecHull SpecLexer SpecSyntax SpecReading SpecMachine SpecVersion SpecEvaluate SpecMeaning SpecRelocate SpecResize SpecUnroll
  ProofsFunctions ProofsAnalyzer2 ProofsReading ProofsText ProofsEvaluate ProofsMeaning2 ProofsRelocate ProofsErase ProofsUnroll PropertiesAnalyzer PropertiesSyntax PropertiesHull PropertiesMachine PropertiesMeaning PropertiesResize.
Local Open Scope string_scope.

(** C110: instructions whose operands are lists of indices of one length may be unrolled,
    wherever they are in the program: the one program is accepted if and only if the other
    is, and the result of the one is the other's, unrolled. *)
Theorem C110_sequence : forall lm text api st p q' chosen, version_text text api -> version_same api [3; 0]%Z -> default_analyzer lm text = Ok st -> machine_libm lm ->
  grammar_program p -> machine_program p -> ordered_locations p -> unrollable chosen p ->
  (exists st', analyze_ast st (unroll_program chosen p) = Ok (st', mkResult (Some q') [])) <->
  (exists q st', analyze_ast st p = Ok (st', mkResult (Some q) []) /\ q' = unroll_result chosen q).
Proof.
  intros lm text api st p q' chosen V S D L G M O U. destruct (unrolled_demands chosen p U G M O) as (G' & M' & O').
  rewrite (C90_tree lm text api st _ q' V S D L G' M' O'), (unrolled_program lm chosen L api p G M U). split.
  - intros (q & P & E). apply (C90_tree lm text api st p q V S D L G M O) in P. destruct P as (st' & A). eauto.
  - intros (q & st' & A & E). exists q. split; [|exact E]. apply (C90_tree lm text api st p q V S D L G M O). eauto.
Qed.

(** The same for texts *)
Lemma erased_indices k e : listed_indices k e -> listed_indices k (relocate_expr erase e).
Proof.
  intros (l & l' & n & es & -> & E & F). rewrite relocate_index. eexists _, _, n, _. split; [reflexivity|]. rewrite map_length. split; [exact E|].
  apply Forall_map. eapply Forall_impl; [|exact F]. intros i (l0 & e & ->). eexists _, _. reflexivity.
Qed.
Lemma erased_alike s : listed_alike s -> listed_alike (relocate_statement erase s).
Proof.
  intros (k & Hk & Ne & F). exists k. split; [exact Hk|]. replace (operands_of (relocate_statement erase s)) with (map (relocate_expr erase) (operands_of s)) by (destruct s; reflexivity).
  split; [destruct (operands_of s); [contradiction|discriminate]|]. apply Forall_map. eapply Forall_impl; [|exact F]. intros e. apply erased_indices.
Qed.
Lemma erased_unrollable chosen p : unrollable chosen p -> unrollable chosen (relocate_program erase p).
Proof.
  intros U n s. cbn [relocate_program prog_statements]. replace (filter _ (map (relocate_statement erase) (prog_statements p))) with (map (relocate_statement erase) (filter counted (prog_statements p))).
  - rewrite nth_error_map. destruct (nth_error (filter counted (prog_statements p)) n) as [s0|] eqn:E; [|discriminate]. intros [= <-] C. apply erased_alike. exact (U n s0 E C).
  - induction (prog_statements p) as [|s0 ss IH]; [reflexivity|]. cbn [map filter]. rewrite <- IH. destruct s0; reflexivity.
Qed.
Lemma erased_unrolled chosen q : relocate_sem_program erase (unroll_result chosen q) = unroll_result chosen (relocate_sem_program erase q).
Proof.
  unfold unroll_result, relocate_sem_program, relocate_block. cbn [sp_api_version sp_version sp_version_loc sp_block sp_variables blk_statements blk_loc]. f_equal. f_equal.
  generalize 0%nat. induction (blk_statements (sp_block q)) as [|x xs IH]; intros n; [reflexivity|]. cbn [map unroll_instructions]. rewrite map_app, IH. f_equal.
  destruct (chosen n); [|reflexivity]. unfold unroll_instruction. rewrite map_map. replace (instruction_width (relocate_sem_statement erase x)) with (instruction_width x) by (destruct x; reflexivity). apply map_ext. intros i. destruct x; reflexivity.
Qed.
Theorem C110_texts : forall lm text api f1 f2 rtl data1 data2 s1 p1 p2 b chosen, version_text text api -> version_same api [3; 0]%Z -> machine_libm lm -> text_of data1 s1 -> utf8 s1 ->
  parse_string f1 rtl data1 = Ok (mkResult (Some p1) []) -> parse_string f2 rtl data2 = Ok (mkResult (Some p2) []) ->
  relocate_program erase p2 = unroll_program chosen (relocate_program erase p1) -> unrollable chosen p1 ->
  (exists q, run lm rtl text data2 f2 = Ok (mkResult (Some q) []) /\ relocate_sem_program erase q = b) <->
  (exists q, run lm rtl text data1 f1 = Ok (mkResult (Some q) []) /\ unroll_result chosen (relocate_sem_program erase q) = b).
Proof.
  intros lm text api f1 f2 rtl data1 data2 s1 p1 p2 b chosen V S L T U P1 P2 R Un. pose proof (version_text_analyzer lm text api V S) as D.
  assert (K : forall q, _) by (intros q; exact (C110_sequence lm text api _ (relocate_program erase p1) q chosen V S D L (grammar_relocated erase p1 (parsed_grammar f1 s1 p1 (proj1 (C64_tree f1 rtl data1 s1 p1 T U) P1))) (machine_relocated erase p1 (C84_parsed f1 rtl data1 s1 p1 T U P1)) (ordered_erased p1) (erased_unrollable chosen p1 Un))).
  rewrite (run_erased lm text api f2 rtl data2 p2 b V S P2), R. split.
  - intros (q & st' & A & E). destruct (proj1 (K q)) as (q1 & st1 & A1 & ->); [eauto|]. rewrite erased_unrolled in E.
    destruct (proj2 (run_erased lm text api f1 rtl data1 p1 (relocate_sem_program erase q1) V S P1)) as (q2 & A2 & E2); [eauto|]. exists q2. split; [exact A2|congruence].
  - intros (q & A & E). destruct (proj1 (run_erased lm text api f1 rtl data1 p1 (relocate_sem_program erase q) V S P1)) as (q2 & st2 & A2 & E2); [eauto|].
    destruct (proj2 (K (unroll_result chosen q2))) as (st3 & A3); [eauto|]. exists (unroll_result chosen q2), st3. split; [exact A3|]. rewrite erased_unrolled. congruence.
Qed.

(** The gate CNOT and the measurement are unrolled; the instructions on whole registers
    and asm declarations stay. *)
Definition text_rolled : string := "version 3.0; qubit[3] q; H q; bit[3] b; CNOT q[0, 1], q[1, 2]; asm(A) ''' x '''; b[2, 0] = measure q[0, 1]; reset q".
Definition text_unrolled : string := "version 3.0; qubit[3] q; H q; bit[3] b; CNOT q[0], q[1]; CNOT q[1], q[2]; asm(A) ''' x '''; b[2] = measure q[0]; b[0] = measure q[1]; reset q".
Definition unrolled_ones (n : nat) : bool := (n =? 1)%nat || (n =? 3)%nat.
Example C110_case : machine_libm same_libm /\ text_of text_rolled text_rolled /\ utf8 text_rolled /\
  exists p1, parse_string None false text_rolled = Ok (mkResult (Some p1) []) /\ grammar_program p1 /\ machine_program p1 /\ ordered_locations p1 /\ unrollable unrolled_ones p1 /\
    (exists p2, parse_string None false text_unrolled = Ok (mkResult (Some p2) []) /\ relocate_program erase p2 = unroll_program unrolled_ones (relocate_program erase p1)) /\
    (exists st' q, analyze_ast (fresh_analyzer same_libm) p1 = Ok (st', mkResult (Some q) []) /\
      map (fun s => map (fun v => match v with VVar x => (var_name x, []) | VIndex x zs => (var_name x, zs) | _ => ("", []) end) (result_operands s)) (blk_statements (sp_block (unroll_result unrolled_ones q))) =
        [[("q", [])]; [("q", [0%Z]); ("q", [1%Z])]; [("q", [1%Z]); ("q", [2%Z])]; []; [("b", [2%Z]); ("q", [0%Z])]; [("b", [0%Z]); ("q", [1%Z])]; [("q", [])]]).
Proof.
  split; [split; [auto|]; repeat (apply Forall_cons; [auto|]); apply Forall_nil|].
  assert (T : text_of text_rolled text_rolled) by text_case. assert (U : utf8 text_rolled) by utf8_case. split; [exact T|]. split; [exact U|].
  destruct (tree_case None text_rolled (fun p => (forall n s, nth_error (filter (fun s => match s with SVariable _ _ _ _ => false | _ => true end) (prog_statements p)) n = Some s -> unrolled_ones n = true ->
        exists k, (0 < k)%nat /\ operands_of s <> [] /\ Forall (fun e => exists l l' n es, e = EIndex l (EIdent l' n) es /\ List.length es = k /\ Forall (fun i => exists l e, i = IItem l e) es) (operands_of s)) /\
      match parse_string None false text_unrolled with Ok (mkResult (Some p2) []) => relocate_program erase p2 = unroll_program unrolled_ones (relocate_program erase p) | _ => False end /\
      match analyze_ast (fresh_analyzer same_libm) p with Ok (_, mkResult (Some q) []) =>
        map (fun s => map (fun v => match v with VVar x => (var_name x, []) | VIndex x zs => (var_name x, zs) | _ => ("", []) end) (result_operands s)) (blk_statements (sp_block (unroll_result unrolled_ones q))) =
        [[("q", [])]; [("q", [0%Z]); ("q", [1%Z])]; [("q", [1%Z]); ("q", [2%Z])]; []; [("b", [2%Z]); ("q", [0%Z])]; [("b", [0%Z]); ("q", [1%Z])]; [("q", [])]] | _ => False end)) as (p & E & H1 & H2 & H3).
  { vm_compute. split; [|split; reflexivity].
    intros n s Hs C. destruct n as [|[|[|[|n]]]]; try discriminate C; injection Hs as <-; exists 2%nat; (split; [repeat constructor|]); (split; [discriminate|]);
      repeat (apply Forall_cons; [eexists _, _, _, _; split; [reflexivity|]; split; [reflexivity|]; repeat (apply Forall_cons; [eexists _, _; reflexivity|]); apply Forall_nil|]); apply Forall_nil. }
  exists p. split; [exact E|]. split; [eapply parsed_grammar, (C64_tree None false _ _ p T U), E|]. split; [exact (C84_parsed None false _ _ p T U E)|]. split; [exact (C80_parsed None false _ _ p T U E)|].
  split; [exact H1|]. clear E. split.
  - clear H3. destruct (parse_string None false text_unrolled) as [[[p2|] [|]]| | |]; try contradiction. eauto.
  - clear H2. destruct (analyze_ast (fresh_analyzer same_libm) p) as [[st' [[q|] [|]]]| | |]; try contradiction. exists st', q. split; [reflexivity|exact H3].
Qed.
Print Assumptions C110_sequence. Print Assumptions C110_texts.
