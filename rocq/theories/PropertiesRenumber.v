(** Property C114: the elements of a register may be numbered differently. *)
From Coq Require Import SpecFloat.
From Verif Require Import Base ModelUtils ModelVersion ModelError ModelTypes ModelOverload ModelFunctions ModelInstructionSet ModelAst ModelAnalyzer ModelSemantic ModelLexer ModelSyntactic
  SpecUtils SpecError SpecTypes SpecFunctions SpecInstructions SpecAnalyzer SpecHull SpecLexer SpecSyntax SpecReading SpecMachine SpecVersion SpecEvaluate SpecMeaning SpecRelocate SpecResize SpecRenumber
  ProofsFunctions ProofsAnalyzer2 ProofsReading ProofsText ProofsEvaluate ProofsMeaning2 ProofsRelocate ProofsErase ProofsRenumber PropertiesAnalyzer PropertiesSyntax PropertiesHull PropertiesMachine PropertiesMeaning PropertiesResize.
Local Open Scope string_scope.

(** C114: if the elements of registers get other numbers, the program is accepted if and
    only if it was, and the result has the other numbers in the indices of these registers. *)
Theorem C114_renumbered : forall lm text api st p q' f, version_text text api -> version_same api [3; 0]%Z -> default_analyzer lm text = Ok st -> machine_libm lm ->
  grammar_program p -> machine_program p -> ordered_locations p -> all_numbered f p -> stay_elements f p -> stay_numbers f ->
  (exists st', analyze_ast st (renumber_program f p) = Ok (st', mkResult (Some q') [])) <->
  (exists q st', analyze_ast st p = Ok (st', mkResult (Some q) []) /\ q' = renumber_result f q).
Proof.
  intros lm text api st p q' f V S D L G M O N E Sn. destruct (renumbered_demands f p Sn N G M O) as (G' & M' & O').
  rewrite (C90_tree lm text api st _ q' V S D L G' M' O'), (program_renumbered lm f api p q' N E). split.
  - intros (q & P & Eq). apply (C90_tree lm text api st p q V S D L G M O) in P. destruct P as (st' & A). eauto.
  - intros (q & st' & A & Eq). exists q. split; [|exact Eq]. apply (C90_tree lm text api st p q V S D L G M O). eauto.
Qed.

(** The same for texts *)
Lemma erased_numbered f p : all_numbered f p -> all_numbered f (relocate_program erase p).
Proof.
  intros N s e Hs He. cbn [relocate_program prog_statements] in Hs. apply in_map_iff in Hs. destruct Hs as (s0 & <- & H0).
  assert (X : In e (map (relocate_expr erase) (operands_of s0))) by (destruct s0; exact He). apply in_map_iff in X. destruct X as (e0 & <- & X). specialize (N s0 e0 H0 X).
  intros l l' n es E Hn. destruct e0 as [| | | |l1 b es1| | | |]; try discriminate E. rewrite relocate_index in E. destruct b as [| | |l2 n2| | | | |]; try discriminate E. injection E as <- <- <- <-.
  specialize (N _ _ _ _ eq_refl Hn). apply Forall_map. eapply Forall_impl; [|exact N]. intros i (l3 & l4 & z & ->). eexists _, _, z. reflexivity.
Qed.
Lemma erased_elements f p : stay_elements f p -> stay_elements f (relocate_program erase p).
Proof.
  intros E l n t an k g Hs Ht Hf z. cbn [relocate_program prog_statements] in Hs. apply in_map_iff in Hs. destruct Hs as (s0 & Es & H0). destruct s0 as [l0 n0 t0 an0| | |]; try discriminate. cbn [relocate_statement] in Es. injection Es as _ <- Et _. subst t.
  apply (E l0 n0 t0 an0 k g H0); [destruct t0; exact Ht|exact Hf].
Qed.
Lemma erased_renumbered f q : relocate_sem_program erase (renumber_result f q) = renumber_result f (relocate_sem_program erase q).
Proof. unfold renumber_result, relocate_sem_program, relocate_block. cbn [sp_api_version sp_version sp_version_loc sp_block sp_variables blk_statements blk_loc]. f_equal. f_equal. rewrite !map_map. apply map_ext. intros []; reflexivity. Qed.
Theorem C114_texts : forall lm text api f1 f2 rtl data1 data2 s1 p1 p2 b f, version_text text api -> version_same api [3; 0]%Z -> machine_libm lm -> text_of data1 s1 -> utf8 s1 ->
  parse_string f1 rtl data1 = Ok (mkResult (Some p1) []) -> parse_string f2 rtl data2 = Ok (mkResult (Some p2) []) ->
  relocate_program erase p2 = renumber_program f (relocate_program erase p1) -> all_numbered f p1 -> stay_elements f p1 -> stay_numbers f ->
  (exists q, run lm rtl text data2 f2 = Ok (mkResult (Some q) []) /\ relocate_sem_program erase q = b) <->
  (exists q, run lm rtl text data1 f1 = Ok (mkResult (Some q) []) /\ renumber_result f (relocate_sem_program erase q) = b).
Proof.
  intros lm text api f1 f2 rtl data1 data2 s1 p1 p2 b f V S L T U P1 P2 R N E Sn. pose proof (version_text_analyzer lm text api V S) as D.
  assert (K : forall q, _) by (intros q; exact (C114_renumbered lm text api _ (relocate_program erase p1) q f V S D L (grammar_relocated erase p1 (parsed_grammar f1 s1 p1 (proj1 (C64_tree f1 rtl data1 s1 p1 T U) P1))) (machine_relocated erase p1 (C84_parsed f1 rtl data1 s1 p1 T U P1)) (ordered_erased p1) (erased_numbered f p1 N) (erased_elements f p1 E) Sn)).
  rewrite (run_erased lm text api f2 rtl data2 p2 b V S P2), R. split.
  - intros (q & st' & A & Eq). destruct (proj1 (K q)) as (q1 & st1 & A1 & ->); [eauto|]. rewrite erased_renumbered in Eq.
    destruct (proj2 (run_erased lm text api f1 rtl data1 p1 (relocate_sem_program erase q1) V S P1)) as (q2 & A2 & E2); [eauto|]. exists q2. split; [exact A2|congruence].
  - intros (q & A & Eq). destruct (proj1 (run_erased lm text api f1 rtl data1 p1 (relocate_sem_program erase q) V S P1)) as (q2 & st2 & A2 & E2); [eauto|].
    destruct (proj2 (K (renumber_result f q2))) as (st3 & A3); [eauto|]. exists (renumber_result f q2), st3. split; [exact A3|]. rewrite erased_renumbered. congruence.
Qed.

(** The qubits of q change places: 0 becomes 2, 1 becomes 0, 2 becomes 1; those of r and
    the bits stay. *)
Definition text_numbers : string := "version 3.0; qubit[3] q; bit[3] b; qubit[2] r; H q[0]; CNOT q[0, 1], r; b[2, 0] = measure q[0, 2]; X q[1]; H r[0:1]".
Definition text_renumbered : string := "version 3.0; qubit[3] q; bit[3] b; qubit[2] r; H q[2]; CNOT q[2, 0], r; b[2, 0] = measure q[2, 1]; X q[0]; H r[0:1]".
Definition around (z : Z) : Z := if (z =? 0)%Z then 2%Z else if (z =? 1)%Z then 0%Z else if (z =? 2)%Z then 1%Z else z.
Definition around_q (n : string) : option (Z -> Z) := if n =? "q" then Some around else None.
Example C114_case : machine_libm same_libm /\ text_of text_numbers text_numbers /\ utf8 text_numbers /\ stay_numbers around_q /\
  exists p1 p2, parse_string None false text_numbers = Ok (mkResult (Some p1) []) /\ parse_string None false text_renumbered = Ok (mkResult (Some p2) []) /\
    grammar_program p1 /\ machine_program p1 /\ ordered_locations p1 /\ all_numbered around_q p1 /\ stay_elements around_q p1 /\
    relocate_program erase p2 = renumber_program around_q (relocate_program erase p1) /\
    exists st' q, analyze_ast (fresh_analyzer same_libm) p2 = Ok (st', mkResult (Some q) []) /\
      map (fun s => map (fun v => match v with VVar x => (var_name x, []) | VIndex x zs => (var_name x, zs) | _ => ("", []) end) (result_operands s)) (blk_statements (sp_block q)) =
        [[("q", [2%Z])]; [("q", [2%Z; 0%Z]); ("r", [])]; [("b", [2%Z; 0%Z]); ("q", [2%Z; 1%Z])]; [("q", [0%Z])]; [("r", [0%Z; 1%Z])]].
Proof.
  split; [split; [auto|]; repeat (apply Forall_cons; [auto|]); apply Forall_nil|].
  assert (T : text_of text_numbers text_numbers) by text_case. assert (U : utf8 text_numbers) by utf8_case. split; [exact T|]. split; [exact U|].
  assert (Ar : forall z, (0 <= z < 3)%Z <-> (0 <= around z < 3)%Z).
  { intros z. unfold around. destruct (Z.eqb_spec z 0); [lia|]. destruct (Z.eqb_spec z 1); [lia|]. destruct (Z.eqb_spec z 2); lia. }
  split. { intros n g z. unfold around_q. destruct (n =? "q"); [|discriminate]. intros [= <-]. unfold fits, around. destruct (Z.eqb_spec z 0); [lia|]. destruct (Z.eqb_spec z 1); [lia|]. destruct (Z.eqb_spec z 2); lia. }
  pose (check := fun p : program => forallb (fun s => match s with SVariable _ n t _ => negb (n =? "q") || match ty_size t with Some k => (k =? 3)%Z | None => true end | _ =>
      forallb (fun e => match e with EIndex _ (EIdent _ n) es => negb (n =? "q") || forallb (fun i => match i with IItem _ (EInt _ _) => true | _ => false end) es | _ => true end) (operands_of s) end) (prog_statements p)).
  assert (Ch : forall p, check p = true -> all_numbered around_q p /\ stay_elements around_q p).
  { intros p H. unfold check in H. rewrite forallb_forall in H. split.
    - intros s e Hs He l l' n es -> Hn. unfold around_q in Hn. destruct (String.eqb_spec n "q") as [->|]; [|contradiction]. specialize (H s Hs). destruct s as [l0 n0 t0 an0|l0 g ops an0|l0 n0 ops ps an0|l0 n0 c an0]; try (destruct He; fail); rewrite forallb_forall in H; specialize (H _ He); cbn in H; rewrite forallb_forall in H;
        apply Forall_forall; intros i Hi; specialize (H i Hi); destruct i as [l1 [| l2 z| | | | | | |]|]; try discriminate; eauto.
    - intros l n t an k g Hs Ht Hf z. unfold around_q in Hf. destruct (String.eqb_spec n "q") as [->|]; [|discriminate]. injection Hf as <-. specialize (H _ Hs). cbn in H. rewrite Ht in H. apply Z.eqb_eq in H. subst k. apply Ar. }
  destruct (tree_case None text_numbers (fun p1 => match parse_string None false text_renumbered with Ok (mkResult (Some p2) []) =>
      check p1 = true /\ relocate_program erase p2 = renumber_program around_q (relocate_program erase p1) /\
      match analyze_ast (fresh_analyzer same_libm) p2 with Ok (_, mkResult (Some q) []) =>
        map (fun s => map (fun v => match v with VVar x => (var_name x, []) | VIndex x zs => (var_name x, zs) | _ => ("", []) end) (result_operands s)) (blk_statements (sp_block q)) =
        [[("q", [2%Z])]; [("q", [2%Z; 0%Z]); ("r", [])]; [("b", [2%Z; 0%Z]); ("q", [2%Z; 1%Z])]; [("q", [0%Z])]; [("r", [0%Z; 1%Z])]] | _ => False end
      | _ => False end)) as (p1 & E1 & H).
  { vm_compute. repeat split. }
  destruct (parse_string None false text_renumbered) as [[[p2|] [|]]| | |] eqn:E2; try contradiction. destruct H as (H1 & H2 & H3). exists p1, p2. split; [exact E1|]. split; [reflexivity|].
  split; [eapply parsed_grammar, (C64_tree None false _ _ p1 T U), E1|]. split; [exact (C84_parsed None false _ _ p1 T U E1)|]. split; [exact (C80_parsed None false _ _ p1 T U E1)|].
  destruct (Ch p1 H1) as [C1 C2]. split; [exact C1|]. split; [exact C2|]. split; [exact H2|]. clear E1 E2.
  destruct (analyze_ast (fresh_analyzer same_libm) p2) as [[st' [[q|] [|]]]| | |]; try contradiction. exists st', q. split; [reflexivity|exact H3].
Qed.
Print Assumptions C114_renumbered. Print Assumptions C114_texts.
