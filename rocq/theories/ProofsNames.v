(** Proofs about the names of instructions (C87). *)
From Verif Require Import Base ModelUtils ModelVersion ModelError ModelTypes ModelOverload ModelFunctions
  ModelInstructionSet ModelAst ModelAnalyzer ModelSemantic SpecTypes SpecFunctions SpecInstructions SpecAnalyzer SpecLexer SpecPrint SpecNames
  ProofsTypes ProofsFunctions ProofsFolding ProofsExpr ProofsInstructions ProofsGates ProofsIndex ProofsAnalyzer ProofsAnalyzer2.
Local Open Scope string_scope.

(** ** Classes *)
Lemma not_prefixed c r n : n = String c r -> letter c -> is_gate_composition n = false.
Proof.
  intros -> L. unfold is_gate_composition, is_single_qubit_gate_composition, is_two_qubit_gate_composition,
    single_qubit_gate_composition_prefix, two_qubit_gate_composition_prefix. cbn [starts_with].
  assert (c <> "1"%char /\ c <> "2"%char).
  { split; intros ->; destruct L as [L|[L|L]]; try discriminate L; unfold code_between in L; cbn in L; lia. }
  destruct H as [H1 H2]. apply Ascii.eqb_neq in H1, H2. rewrite Ascii.eqb_sym in H1. rewrite Ascii.eqb_sym in H2.
  rewrite H1, H2. reflexivity.
Qed.

Lemma contains_In l n : contains l n = true <-> In n l.
Proof.
  unfold contains. rewrite existsb_exists. split.
  - intros (x & I & E). apply String.eqb_eq in E. now subst.
  - intros I. exists n. split; [exact I|apply String.eqb_refl].
Qed.
Definition known_names : list string :=
  (single_qubit_named_gate_list ++ two_qubit_named_gate_list ++ non_gate_list ++ ["inv"; "pow"; "ctrl"])%list.
Definition answers (n : string) : list bool :=
  [is_single_qubit_gate n; is_two_qubit_gate n; is_measure n; is_reset n; is_init n; is_barrier n; is_wait n;
   is_inv_gate_modifier n; is_pow_gate_modifier n; is_ctrl_gate_modifier n].
Lemma starts_app p n : starts_with p n = true <-> exists r, n = p ++ r.
Proof.
  revert n. induction p as [|a p IH]; intros n; cbn.
  - split; [eauto|reflexivity].
  - destruct n as [|b n]; [split; [discriminate|intros (r & E); discriminate]|]. rewrite andb_true_iff, IH, Ascii.eqb_eq. split.
    + intros (-> & r & ->). eauto.
    + intros (r & E). injection E as -> ->. eauto.
Qed.
Lemma unknown_answers n : ~ In n known_names -> is_gate_composition n = false -> forall b, In b (answers n) -> b = false.
Proof.
  intros N C. unfold known_names in N. rewrite !in_app_iff in N.
  unfold answers, is_single_qubit_gate, is_two_qubit_gate, is_single_qubit_named_gate, is_two_qubit_named_gate.
  apply orb_false_iff in C. destruct C as [C1 C2]. rewrite C1, C2, !orb_false_r.
  assert (F : forall l, ~ In n l -> contains l n = false). { intros l H. apply not_true_is_false. now rewrite contains_In. }
  rewrite !F by tauto.
  unfold is_measure, is_reset, is_init, is_barrier, is_wait, is_inv_gate_modifier, is_pow_gate_modifier, is_ctrl_gate_modifier.
  assert (Q : forall x, In x (non_gate_list ++ ["inv"; "pow"; "ctrl"]) -> (n =? x) = false).
  { intros x I. apply String.eqb_neq. intros ->. apply in_app_iff in I. tauto. }
  rewrite !Q by (cbn; tauto). cbn. intuition.
Qed.
Lemma prefixed_class n : is_gate_composition n = true -> ~ In n known_names.
Proof.
  intros C I. assert (E : forallb (fun x => negb (is_gate_composition x)) known_names = true) by (vm_compute; reflexivity).
  rewrite forallb_forall in E. specialize (E n I). rewrite C in E. discriminate.
Qed.
Lemma classes n : at_most_one (answers n).
Proof.
  unfold at_most_one. destruct (in_dec string_dec n known_names) as [I|I].
  - assert (E : forallb (fun x => Nat.leb (count_occ Bool.bool_dec (answers x) true) 1) known_names = true) by (vm_compute; reflexivity).
    rewrite forallb_forall in E. specialize (E n I). now apply Nat.leb_le in E.
  - destruct (is_gate_composition n) eqn:C.
    + unfold known_names in I. rewrite !in_app_iff in I.
      assert (F : forall l, ~ In n l -> contains l n = false). { intros l H. apply not_true_is_false. now rewrite contains_In. }
      assert (Q : forall x, In x (non_gate_list ++ ["inv"; "pow"; "ctrl"]) -> (n =? x) = false).
      { intros x J. apply String.eqb_neq. intros ->. apply in_app_iff in J. tauto. }
      unfold answers, is_single_qubit_gate, is_two_qubit_gate, is_single_qubit_named_gate, is_two_qubit_named_gate,
        is_measure, is_reset, is_init, is_barrier, is_wait, is_inv_gate_modifier, is_pow_gate_modifier, is_ctrl_gate_modifier.
      rewrite !F by tauto. rewrite !Q by (cbn; tauto). cbn [orb].
      destruct (is_single_qubit_gate_composition n) eqn:E1, (is_two_qubit_gate_composition n) eqn:E2; try (cbn; lia).
      apply starts_app in E1, E2. destruct E1 as [r1 E1], E2 as [r2 E2]. rewrite E1 in E2. discriminate E2.
    + assert (Z : forall l, (forall b, In b l -> b = false) -> count_occ Bool.bool_dec l true = 0%nat).
      { induction l as [|b l IH]; intros H; [reflexivity|]. cbn. rewrite (H b) by now left. destruct (Bool.bool_dec false true); [discriminate|]. apply IH. intros; apply H; now right. }
      rewrite (Z _ (unknown_answers n I C)). lia.
Qed.
Lemma unions n :
  is_gate n = (is_single_qubit_gate n || is_two_qubit_gate n) /\
  is_gate n = (is_named_gate n || is_gate_composition n) /\
  is_non_gate n = (is_measure n || is_reset n || is_init n || is_barrier n || is_wait n) /\
  is_gate_modifier n = (is_single_qubit_gate_modifier n || is_two_qubit_gate_modifier n) /\
  (is_gate_composition n = true <-> exists r, n = "1q" ++ r \/ n = "2q" ++ r).
Proof.
  split; [|split; [reflexivity|split; [|split; [reflexivity|]]]].
  - unfold is_gate, is_single_qubit_gate, is_two_qubit_gate, is_named_gate, is_gate_composition.
    destruct (is_single_qubit_named_gate n), (is_two_qubit_named_gate n), (is_single_qubit_gate_composition n), (is_two_qubit_gate_composition n); reflexivity.
  - unfold is_non_gate, contains, non_gate_list, is_measure, is_reset, is_init, is_barrier, is_wait. cbn [existsb].
    rewrite orb_false_r, !orb_assoc. reflexivity.
  - unfold is_gate_composition. rewrite orb_true_iff. unfold is_single_qubit_gate_composition, is_two_qubit_gate_composition.
    rewrite !starts_app. split; [intros [[r E]|[r E]]; eauto|intros (r & [E|E]); eauto].
Qed.
Lemma param_types_known n :
  match get_instruction_param_types n with
  | Ok _ => is_named_gate n || is_non_gate n || is_gate_modifier n = true
  | Err e => is_named_gate n || is_non_gate n || is_gate_modifier n = false /\ e = mk_error ("couldn't find instruction '" ++ n ++ "'")
  | _ => False
  end.
Proof.
  assert (K : In n known_names <-> is_named_gate n || is_non_gate n || is_gate_modifier n = true).
  { unfold known_names, is_named_gate, is_single_qubit_named_gate, is_two_qubit_named_gate, is_non_gate, is_gate_modifier, is_inv_gate_modifier, is_pow_gate_modifier, is_ctrl_gate_modifier.
    rewrite !in_app_iff, !orb_true_iff, !contains_In, !String.eqb_eq. cbn [In]. intuition congruence. }
  destruct (in_dec string_dec n known_names) as [I|I].
  - assert (E : forallb (fun x => match get_instruction_param_types x with Ok _ => true | _ => false end) known_names = true) by (vm_compute; reflexivity).
    rewrite forallb_forall in E. specialize (E n I). destruct (get_instruction_param_types n); try discriminate. now apply K.
  - rewrite K in I. apply not_true_is_false in I. pose proof I as I'. apply orb_false_iff in I'. destruct I' as [I' M]. apply orb_false_iff in I'. destruct I' as [A B].
    unfold get_instruction_param_types. rewrite A, B, M. auto.
Qed.

(** ** Names in programs *)
Lemma usable_starts n : usable n -> starts_like_a_name n.
Proof.
  intros [F _]. inversion F as [k s I|k s I| | | | | | | |c s L A|]; subst; try (exfalso; cbn in I; repeat destruct I as [I|I]; try contradiction; discriminate I).
  unfold starts_like_a_name. eauto.
Qed.
Section Words.
  Let P (l : list string) := Forall starts_like_a_name l.
  Scheme writable_mut := Minimality for writable Sort Prop
    with all_writable_mut := Minimality for all_writable Sort Prop
    with writable_entries_mut := Minimality for writable_entries Sort Prop.
  Combined Scheme writable_all from writable_mut, all_writable_mut, writable_entries_mut.
  Lemma words_writable :
    (forall e, writable e -> P (expr_words e)) /\
    (forall es, all_writable es -> P (flat_map expr_words es)) /\
    (forall is, writable_entries is -> P (flat_map entry_words is)).
  Proof.
    unfold P. apply writable_all; intros; cbn [expr_words entry_words flat_map];
      repeat first [assumption | apply Forall_app; split | apply Forall_nil | apply Forall_cons | now apply usable_starts].
  Qed.
End Words.
Lemma gate_words_start g : writable_gate g -> Forall starts_like_a_name (gate_words g).
Proof.
  assert (K : starts_like_a_name "inv" /\ starts_like_a_name "ctrl" /\ starts_like_a_name "pow").
  { unfold starts_like_a_name. do 2 (split; [eexists _, _; split; [reflexivity|left; unfold code_between; cbn; lia]|]). eexists _, _. split; [reflexivity|left; unfold code_between; cbn; lia]. }
  destruct K as (K1 & K2 & K3).
  induction 1 as [l g _ IH|l g _ IH|l g e _ IH W|l n ps U W]; cbn [gate_words].
  - constructor; [exact K1|]. apply Forall_app. split; [exact IH|constructor].
  - constructor; [exact K2|]. apply Forall_app. split; [exact IH|constructor].
  - constructor; [exact K3|]. apply Forall_app. split; [exact IH|]. cbn [flat_map]. rewrite app_nil_r. now apply words_writable.
  - constructor; [now apply usable_starts|]. now apply words_writable.
Qed.
Lemma statement_words_start s : writable_statement s -> Forall starts_like_a_name (statement_words s).
Proof.
  assert (K : forall n, In n ["measure"; "wait"; "reset"; "init"; "barrier"] -> starts_like_a_name n).
  { cbn [In]. intros n I. repeat destruct I as [I|I]; try contradiction; subst n; (eexists _, _; split; [reflexivity|left; unfold code_between; cbn; lia]). }
  intros W. inversion W as [l n l' t sz U T I|l g ops G N A|l b q ps Wb Wq A|l q d Wq Wd|l n q I Wq|l n code U C X]; subst; cbn [statement_words flat_map].
  - constructor; [now apply usable_starts|constructor].
  - apply Forall_app. split; [now apply gate_words_start|now apply words_writable].
  - constructor; [apply K; cbn; tauto|]. apply Forall_app. split; [|now apply words_writable].
    apply Forall_app. split; [now apply words_writable|]. rewrite app_nil_r. now apply words_writable.
  - constructor; [apply K; cbn; tauto|]. rewrite !app_nil_r. apply Forall_app. split; now apply words_writable.
  - constructor; [apply K; cbn in *; tauto|]. rewrite !app_nil_r. now apply words_writable.
  - constructor; [now apply usable_starts|constructor].
Qed.
Lemma program_words_start p : writable_program p -> Forall starts_like_a_name (program_words p).
Proof.
  intros W. assert (F : Forall writable_statement (prog_statements p)) by (inversion W; assumption).
  unfold program_words. induction F as [|s ss H _ IH]; cbn [flat_map]; [constructor|]. apply Forall_app. split; [now apply statement_words_start|exact IH].
Qed.

(** ** Names in results *)
Lemma gate_class n ks a : In (n, (ks, a)) gates ->
  is_gate_composition n = false /\ is_single_qubit_named_gate n = Nat.eqb a 1 /\ is_two_qubit_named_gate n = Nat.eqb a 2.
Proof.
  intros I. unfold gates in I. cbn [In] in I.
  repeat destruct I as [I|I]; try contradiction; injection I as <- _ <-; vm_compute; auto.
Qed.
Lemma base_of_stored st g sg : stored_gate st g sg -> exists n, base_name sg n /\ gate_terminal_name sg = n.
Proof.
  induction 1 as [l n ps ks a vs ws I V S|l m ks ps vs ws g sg I S IH V Sp].
  - exists n. split; [constructor|reflexivity].
  - destruct IH as (n & B & E). exists n. split; [now constructor|exact E].
Qed.
Lemma applied_class st g sg a : stored_gate st g sg -> legal_gate st g a ->
  applied_name sg (gate_resolution_name sg) /\ is_gate (gate_resolution_name sg) = true /\
  (is_gate_composition (gate_resolution_name sg) = true <-> modified sg) /\
  is_single_qubit_gate (gate_resolution_name sg) = Nat.eqb a 1 /\ is_two_qubit_gate (gate_resolution_name sg) = Nat.eqb a 2.
Proof.
  intros S L. inversion S as [l n ps ks a' vs ws I V Sp|l m ks ps vs ws g' sg' I S' V Sp]; subst.
  - unfold gate_resolution_name. cbn [sem_gate_inner sem_gate_name].
    inversion L as [? ? ? ks' a'' vs' I' V' F'| | |]; subst. pose proof (gate_class n ks' a I') as (C & A & B).
    unfold is_gate, is_named_gate, is_single_qubit_gate, is_two_qubit_gate. rewrite C, A, B.
    apply orb_false_iff in C. destruct C as [C1 C2]. rewrite C1, C2, !orb_false_r.
    split; [constructor|]. split; [|split; [|auto]].
    + unfold gates in I'. cbn [In] in I'. repeat destruct I' as [I'|I']; try contradiction; injection I' as _ _ <-; reflexivity.
    + split; [discriminate|]. intros (? & ? & ? & ? & ? & E). discriminate.
  - destruct (base_of_stored st g' sg' S') as (n & B & E). unfold gate_resolution_name. cbn [sem_gate_inner sem_gate_name]. rewrite E.
    assert (M : modified (SemGate l m (Some sg') ws [])) by (eexists _, _, _, _, _; reflexivity).
    inversion L as [|? ? L'|? ? ? ? L' ? ?|? ? L']; subst; cbn [append is_single_qubit_gate_modifier].
    + change (is_single_qubit_gate_modifier "inv") with true. split; [apply applied_one; auto|]. vm_compute. tauto.
    + change (is_single_qubit_gate_modifier "pow") with true. split; [apply applied_one; auto|]. vm_compute. tauto.
    + change (is_single_qubit_gate_modifier "ctrl") with false. split; [apply applied_two; auto|]. vm_compute. tauto.
Qed.

Lemma statement_named lm st s st' es : ordinary lm st -> grammar_statement s -> visit_statement st s = (Ok st', es) ->
  Forall well_named (statements_of st) -> Forall well_named (statements_of st').
Proof.
  intros Ho (Pl & _ & G) H F. destruct (statement_contribution lm st s st' es Ho Pl H) as (c & C & _ & S & E & _).
  rewrite S. apply Forall_app. split; [exact F|].
  destruct C as [| | |l g sg ops vs i SG|l n ops ps vs ws i Ni|]; cbn [new_statements]; try (now constructor); try (constructor; [|constructor]).
  - cbn in E. subst es. destruct (gate_accepted lm st Ho l g ops st' G H) as (a & sg' & vs' & k & i' & L & SG' & V & La & _ & N & _ & S').
    rewrite S in S'. cbn [new_statements] in S'. apply app_inv_head in S'. injection S' as <- <- <-.
    destruct (applied_class st g sg a SG' L) as (A & B & D & X & Y). cbn [well_named]. rewrite N, X, Y, !Nat.eqb_eq, La. tauto.
  - cbn [well_named]. split; [exact Ni|]. cbn in G. unfold grammar_non_gate in G.
    assert (I : In n (map fst non_gates)) by (destruct G as [G _]; exact G).
    clear -I. cbn in I. repeat destruct I as [I|I]; try contradiction; subst n; reflexivity.
Qed.
Lemma block_named lm st ss st' es : block_run st ss st' es -> ordinary lm st -> Forall grammar_statement ss ->
  Forall well_named (statements_of st) -> Forall well_named (statements_of st').
Proof.
  induction 1 as [|st s st1 es1 ss st2 es2 H _ IH]; intros Ho G F; [exact F|]. inversion G as [|? ? G1 G2]; subst.
  apply IH; [|exact G2|].
  - eapply ordinary_extends; [exact Ho|]. eapply effect_extends, statement_effect, H.
  - eapply statement_named; eauto.
Qed.
Lemma result_named lm api st p st' r : default_analyzer lm api = Ok st -> grammar_program p -> analyze_ast st p = Ok (st', r) ->
  forall sp s, res_root r = Some sp -> In s (blk_statements (sp_block sp)) -> well_named s.
Proof.
  intros D G E sp s Er I. apply analyze_ast_inv in E. destruct E as (v & es1 & es2 & sc & rest & _ & B & Es & -> & _).
  cbn in Er. injection Er as <-. cbn in I.
  pose proof (block_named lm st (prog_statements p) st' es2 B (default_ordinary lm api st D) G) as F.
  assert (N : statements_of st = []). { apply default_analyzer_inv in D. destruct D as (v' & _ & _ & ->). reflexivity. }
  rewrite N in F. specialize (F (Forall_nil _)). unfold statements_of in F. rewrite Es in F. rewrite Forall_forall in F. auto.
Qed.
