(** Programs with the same numbers (C108). *)
From Coq Require Import ZArith Lia ZifyBool ZifyNat.
From Verif Require Import Base ModelVersion ModelError ModelTypes ModelOverload ModelFunctions ModelAst
  ModelAnalyzer ModelSemantic
  SpecPlace SpecUtils SpecTypes SpecFunctions SpecInstructions SpecAnalyzer SpecHull SpecDiagnosis SpecMachine SpecEvaluate SpecMeaning SpecNumbers
  ProofsTypes ProofsFunctions ProofsFolding ProofsExpr ProofsAnalyzer ProofsAnalyzer2 ProofsAnalyzer3 ProofsAnalyzer7 ProofsConstants ProofsMachine ProofsEvaluate ProofsEvaluate2 ProofsEvaluate3 SpecEvaluate SpecMeaning SpecNumbers.
Local Open Scope string_scope.

Section Numbers.
  Variable lm : libm.
  Hypothesis Hlib : machine_libm lm.

  Lemma value_fits e q : machine_literals e -> evaluates lm e q -> quantity_fits q.
  Proof.
    intros F. assert (O : ordinary lm (mkAnalyzer [3%Z; 0%Z] [default_scope lm] 0)) by apply default_ordinary_any.
    eapply (visit_correct lm _ (machine_returns _ Hlib) (ord_functions _ _ O)); [|exact constant_fits|now apply machine_fitting].
    intros l n p. cbn [visit]. rewrite only_constants_find by (eapply analyses_only_constants, an_default, default_analyzer_value). apply constant_is.
  Qed.
  Lemma stored_one q k w w' : quantity_fits q -> stored_number q k w -> stored_number q k w' -> w = w'.
  Proof.
    intros F H H'. inversion H; subst; inversion H'; subst; [|congruence]. match goal with A : as_double q _, B : as_double q _ |- _ => apply as_double_is in A, B; congruence end.
  Qed.
  (** What an expression is as a number of type k *)
  Definition number_of (k : type_kind) (e : expr) (w : quantity) : Prop := exists q, evaluates lm e q /\ stored_number q k w.
  Lemma same_number_of k e e' : machine_literals e -> e = e' \/ same_number lm k e e' -> forall w, number_of k e w -> number_of k e' w.
  Proof.
    intros F [->|(q & q' & w0 & E & E' & S & S')] w; [auto|]. intros (q1 & E1 & S1). rewrite (one_value lm e q1 q Hlib F E1 E) in S1.
    rewrite (stored_one q k w w0 (value_fits e q F E) S1 S). exists q'. auto.
  Qed.
  Lemma same_number_sym k e e' : e = e' \/ same_number lm k e e' -> e' = e \/ same_number lm k e' e.
  Proof. intros [->|(q & q' & w & A & B & C & D)]; [now left|]. right. exists q', q, w. auto. Qed.
  Lemma number_index e z : index_means lm e z <-> number_of TInt e (QInt z).
  Proof.
    split.
    - intros [? q ? E W]. exists q. split; [exact E|now constructor].
    - intros (q & E & S). inversion S; subst. econstructor; eauto.
  Qed.
  Lemma same_numbers_mean ks ps ps' ws : same_numbers lm ks ps ps' -> Forall machine_literals ps -> parameters_mean lm ps ks ws -> parameters_mean lm ps' ks ws.
  Proof.
    intros H. revert ws. induction H as [|k ks e e' es es' S _ IH]; intros ws F P; [exact P|]. inversion F; subst. inversion P; subst.
    match goal with E : evaluates lm e ?q, St : stored_number ?q k ?w |- _ => destruct (same_number_of k e e' ltac:(assumption) S w (ex_intro _ q (conj E St))) as (q' & E' & S') end.
    econstructor; eauto.
  Qed.
  Lemma same_numbers_sym ks ps ps' : same_numbers lm ks ps ps' -> same_numbers lm ks ps' ps.
  Proof. induction 1; constructor; auto. now apply same_number_sym. Qed.

  Definition entry_literals (i : index_entry) : Prop := match i with IItem _ e => machine_literals e | IRange _ a b => machine_literals a /\ machine_literals b end.
  Lemma index_literals l b es : machine_literals (EIndex l b es) -> Forall entry_literals es.
  Proof.
    unfold machine_literals. intros [H1 H2]. apply Forall_forall. intros [l' e|l' x y] Hi; cbn [entry_literals].
    - split; intros; [eapply H1|eapply H2]; eapply within_item; eauto.
    - split; split; intros; [eapply H1|eapply H2|eapply H1|eapply H2]; (eapply within_first; eauto; fail) || (eapply within_last; eauto).
  Qed.
  Lemma same_entries_mean es es' : Forall2 (same_entry lm) es es' -> Forall entry_literals es -> forall zs, indices_mean lm es zs -> indices_mean lm es' zs.
  Proof.
    induction 1 as [|i i' es es' H _ IH]; intros F zs M; [exact M|]. inversion F as [|? ? F1 F2]; subst. destruct H as [l e e' S|l a a' b b' Sa Sb]; inversion M; subst; cbn [entry_literals] in F1; constructor; auto.
    - apply number_index, (same_number_of TInt e e' F1 S), number_index. assumption.
    - apply number_index, (same_number_of TInt a a' (proj1 F1) Sa), number_index. assumption.
    - apply number_index, (same_number_of TInt b b' (proj2 F1) Sb), number_index. assumption.
  Qed.
  Lemma same_entry_sym i i' : same_entry lm i i' -> same_entry lm i' i.
  Proof. intros []; constructor; now apply same_number_sym. Qed.
  Lemma same_operand_sym e e' : same_operand lm e e' -> same_operand lm e' e.
  Proof. intros [e0|l b es es' F]; constructor. induction F; constructor; auto. now apply same_entry_sym. Qed.
  Lemma same_operands_mean vars ops ops' : Forall2 (same_operand lm) ops ops' -> Forall machine_literals ops -> forall vs, Forall2 (operand_means lm vars) ops vs -> Forall2 (operand_means lm vars) ops' vs.
  Proof.
    induction 1 as [|e e' es es' H _ IH]; intros F vs M; inversion M as [|? v ? vs0 M1 M2]; subst; [constructor|]. inversion F as [|? ? F1 F2]; subst. constructor; [|now apply IH].
    destruct H as [e|l b es0 es0' H]; [exact M1|]. inversion M1; subst. constructor; auto. eapply same_entries_mean; eauto. eapply index_literals; eauto.
  Qed.
  Lemma same_gate_means g g' : same_gate lm g g' -> forall sg base name a, Forall machine_literals (gate_exprs g) -> gate_means lm g sg base name a -> gate_means lm g' sg base name a.
  Proof.
    induction 1 as [l n ps ps' H|l n g g' _ IH|l g g' ps ps' _ IH S]; intros sg base name a F M; cbn [gate_exprs app] in F.
    - cbn [annotation_exprs flat_map] in F. rewrite app_nil_r in F. inversion M; subst. econstructor; eauto. eapply same_numbers_mean; eauto.
    - apply Forall_app in F. destruct F as [F _]. inversion M; subst; econstructor; eauto.
    - apply Forall_app in F. destruct F as [F F']. apply Forall_app in F'. destruct F' as [F' _]. inversion M; subst. econstructor; eauto. eapply same_numbers_mean; eauto.
  Qed.
  Lemma same_gate_sym g g' : same_gate lm g g' -> same_gate lm g' g.
  Proof. induction 1; constructor; auto; intros; apply same_numbers_sym; eauto. Qed.
  Lemma same_length {A B} (R : A -> B -> Prop) l m : Forall2 R l m -> List.length l = List.length m.
  Proof. induction 1; cbn [List.length]; congruence. Qed.
  Lemma same_statement_means vars s s' x : same_statement lm s s' -> Forall machine_literals (statement_exprs s) -> instruction_means lm vars s x -> instruction_means lm vars s' x.
  Proof.
    intros [l g g' ops ops' an G O|l n ops ops' ps ps' an P O|s0] F M; [| |exact M]; cbn [statement_exprs] in F; apply Forall_app in F; destruct F as [F1 F2]; apply Forall_app in F2; destruct F2 as [F2 _]; inversion M; subst.
    - eapply gate_applied; [eapply same_gate_means; [exact G|exact F1|rewrite <- (same_length _ _ _ O); eassumption]|eapply same_operands_mean; eauto|eassumption].
    - eapply non_gate_applied; eauto; [eapply same_operands_mean; eauto|eapply same_numbers_mean; eauto].
  Qed.
  Lemma same_statement_sym s s' : same_statement lm s s' -> same_statement lm s' s.
  Proof.
    assert (L : forall a b, Forall2 (same_operand lm) a b -> Forall2 (same_operand lm) b a) by (induction 1; constructor; auto; now apply same_operand_sym).
    intros []; constructor; auto; [now apply same_gate_sym|intros; apply same_numbers_sym; eauto].
  Qed.
  Lemma same_block ss ss' : Forall2 (same_statement lm) ss ss' -> Forall machine_statement ss -> forall vars vars' xs, block_means lm vars ss vars' xs -> block_means lm vars ss' vars' xs.
  Proof.
    induction 1 as [|s s' ss ss' H _ IH]; intros F vars vars' xs B; [exact B|]. inversion F as [|? ? [F1 _] F2]; subst. inversion B; subst.
    - inversion H; subst. eapply declaration; eauto.
    - apply instruction_of; [eapply same_statement_means; eauto|now apply IH].
  Qed.
  Lemma same_means api p p' q : same_program lm p p' -> machine_program p -> program_means lm api p q -> program_means lm api p' q.
  Proof. intros (E1 & E2 & F) M [vars b V B S]. rewrite <- E1, <- E2. apply program_of; [congruence| |exact S]. eapply same_block; eauto. Qed.
  Lemma same_program_sym p p' : same_program lm p p' -> same_program lm p' p.
  Proof. intros (E1 & E2 & F). split; [congruence|]. split; [congruence|]. clear E1 E2. induction F; constructor; auto. now apply same_statement_sym. Qed.

  (** Integers and booleans as floats *)
  Lemma integer_as_float l l' z f : as_double (QInt z) f -> same_number lm TFloat (EInt l z) (EFloat l' f).
  Proof. intros D. exists (QInt z), (QFloat f), (QFloat f). repeat split; constructor; auto. constructor. Qed.
End Numbers.
