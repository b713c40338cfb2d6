(** Instructions for several operands as sequences (C110). *)
From Coq Require Import ZArith Lia ZifyBool ZifyNat.
From Verif Require Import Base ModelVersion ModelError ModelTypes ModelOverload ModelFunctions ModelAst
  ModelAnalyzer ModelSemantic
  SpecPlace SpecUtils SpecTypes SpecFunctions SpecInstructions SpecAnalyzer SpecHull SpecDiagnosis SpecMachine SpecEvaluate SpecMeaning SpecRename SpecResize
  ProofsAnalyzer3 ProofsInstructions ProofsEvaluate3 ProofsMeaning ProofsNumbers ProofsSpelled SpecMeaning SpecUnroll.
Local Open Scope string_scope.

(** ** Lists *)
Lemma alone_cons {A} i (x : A) l : alone (S i) (x :: l) = alone i l.
Proof. reflexivity. Qed.
Lemma alone_in {A} i (x : A) l : In x (alone i l) -> In x l.
Proof. unfold alone. intros H. rewrite <- (firstn_skipn i l). apply in_or_app. right. rewrite <- (firstn_skipn 1 (skipn i l)). apply in_or_app. now left. Qed.
Lemma alone_length {A} i (l : list A) : i < List.length l -> List.length (alone i l) = 1.
Proof. intros H. unfold alone. rewrite firstn_length, skipn_length. lia. Qed.
Lemma alone_forall {A} (P : A -> Prop) i l : Forall P l -> Forall P (alone i l).
Proof. rewrite !Forall_forall. intros H x Hx. apply H. eapply alone_in; eauto. Qed.
Lemma seq_each {A} (P : nat -> A -> Prop) k xs i : Forall2 P (seq 0 k) xs -> i < k -> exists x, P i x.
Proof.
  intros H Hi. assert (X : In i (seq 0 k)) by (apply in_seq; lia). clear Hi. induction H as [|j x js xs Hj _ IH]; [destruct X|]. destruct X as [<-|X]; eauto.
Qed.
Lemma all2_impl {A B} (P Q : A -> B -> Prop) l m : (forall a b, P a b -> Q a b) -> Forall2 P l m -> Forall2 Q l m.
Proof. intros H. induction 1; constructor; auto. Qed.
Lemma non_gates_functional n ks a ks' a' : In (n, (ks, a)) non_gates -> In (n, (ks', a')) non_gates -> List.length ks = List.length ks' -> ks = ks'.
Proof.
  intros H H' E. cbn [non_gates In] in H. repeat (destruct H as [H|H]; [injection H as <- <- <-; cbn [non_gates In] in H'; repeat (destruct H' as [H'|H']; [injection H' as; subst; first [reflexivity|discriminate]|]); destruct H'|]). destruct H.
Qed.
Lemma parameters_length lm ps ks ws : parameters_mean lm ps ks ws -> List.length ks = List.length ps.
Proof. induction 1 as [|e q k w es ks ws E S _ IH]; [reflexivity|]. cbn [List.length]. now rewrite IH. Qed.

Section Unroll.
  Variable lm : libm.
  Hypothesis Hlib : machine_libm lm.

  (** ** One meaning *)
  Lemma one_index e z z' : machine_literals e -> index_means lm e z -> index_means lm e z' -> z = z'.
  Proof. intros M H0 H. inversion H0 as [? q ? E W]; inversion H as [? q' ? E' W']; subst. rewrite (one_value lm e q q' Hlib M E E') in W. congruence. Qed.
  Lemma one_indices es : Forall entry_literals es -> forall zs zs', indices_mean lm es zs -> indices_mean lm es zs' -> zs = zs'.
  Proof.
    induction 1 as [|i es Hi _ IH]; intros zs zs' H H'; [inversion H; inversion H'; reflexivity|].
    inversion H as [|l e z ? zs0 I R|l e1 e2 a b ? zs0 I1 I2 Hab R]; subst; inversion H' as [|? ? z' ? zs1 I' R'|? ? ? a' b' ? zs1 I1' I2' Hab' R']; subst; cbn [entry_literals] in Hi; rewrite (IH _ _ R R'); [now rewrite (one_index e z z' Hi I I')|].
    destruct Hi as [Ha Hb]. now rewrite (one_index e1 a a' Ha I1 I1'), (one_index e2 b b' Hb I2 I2').
  Qed.
  Lemma one_variable (vars : list variable) x y : NoDup (map var_name vars) -> In x vars -> In y vars -> var_name x = var_name y -> x = y.
  Proof.
    intros N Hx Hy E. induction vars as [|v vars IH]; [destruct Hx|]. cbn [map] in N. inversion N as [|? ? N1 N2]; subst. destruct Hx as [->|Hx], Hy as [->|Hy]; auto.
    - exfalso. apply N1. rewrite E. now apply in_map.
    - exfalso. apply N1. rewrite <- E. now apply in_map.
  Qed.
  Lemma one_operand vars e v v' : NoDup (map var_name vars) -> machine_literals e -> operand_means lm vars e v -> operand_means lm vars e v' -> v = v'.
  Proof.
    intros N M H H'. destruct H as [l x Hx|l l' x es zs Hx K I F].
    - inversion H' as [? y Hy E|]; subst. f_equal. eapply one_variable; eauto.
    - inversion H' as [|? ? y ? zs' Hy K' I' F' E]; subst. apply index_literals in M. f_equal; [eapply one_variable; eauto|]. exact (one_indices es (proj2 M) zs zs' I I').
  Qed.
  Lemma one_operands vars es : NoDup (map var_name vars) -> Forall machine_literals es -> forall vs vs', Forall2 (operand_means lm vars) es vs -> Forall2 (operand_means lm vars) es vs' -> vs = vs'.
  Proof.
    intros N. induction 1 as [|e es M _ IH]; intros vs vs' H H'; inversion H; inversion H'; subst; [reflexivity|]. f_equal; [eapply one_operand; eauto|eauto].
  Qed.
  Lemma one_parameters ps ks : forall ws ws', Forall machine_literals ps -> parameters_mean lm ps ks ws -> parameters_mean lm ps ks ws' -> ws = ws'.
  Proof.
    intros ws ws' M H. revert ws' M. induction H as [|e q k w es ks ws E S _ IH]; intros ws' M H'; inversion H' as [|? q' ? w' ? ? ws1 E' S' R']; subst; [reflexivity|]. inversion M; subst.
    f_equal; [|now apply IH]. rewrite (one_value lm e q' q Hlib) in S' by assumption. f_equal. eapply stored_one; eauto. now apply (value_fits lm Hlib e).
  Qed.
  Lemma one_gate g sg base name a : gate_means lm g sg base name a -> Forall machine_literals (gate_exprs g) -> forall sg' base' name' a', gate_means lm g sg' base' name' a' -> sg = sg'.
  Proof.
    induction 1 as [l n ps ks a ws I P|l g sg base name G IH|l g sg base name ps ws G IH P|l g sg base name G IH]; intros M sg' base' name' a' H'; inversion H' as [? ? ? ks' ? ws' I' P'|? ? sg1 ? ? G'|? ? sg1 ? ? ? ws' G' P'|? ? sg1 ? ? G']; subst; cbn [gate_exprs] in M;
      rewrite ?Forall_app in M; destruct M as (M1 & M2 & _).
    - destruct (gates_functional _ _ _ _ _ I I') as [<- _]. f_equal. eapply one_parameters; eauto.
    - now rewrite (IH M1 _ _ _ _ G').
    - rewrite (IH M1 _ _ _ _ G'). f_equal. eapply one_parameters; eauto.
    - now rewrite (IH M1 _ _ _ _ G').
  Qed.

  (** ** Operands *)
  Definition single_item (i : index_entry) : Prop := exists l e, i = IItem l e.
  Lemma items_length es zs : Forall single_item es -> indices_mean lm es zs -> List.length zs = List.length es.
  Proof. intros F H. revert F. induction H as [|l e z es zs I _ IH|l e1 e2 a b es zs I1 I2 Hab _ IH]; intros F; inversion F as [|? ? (l0 & e0 & E) F']; subst; [reflexivity| |discriminate]. cbn [List.length]. now rewrite IH. Qed.
  Lemma items_alone es zs : Forall single_item es -> indices_mean lm es zs -> forall i, i < List.length es -> indices_mean lm (alone i es) (alone i zs).
  Proof.
    intros F H. revert F. induction H as [|l e z es zs I R IH|l e1 e2 a b es zs I1 I2 Hab _ IH]; intros F i Hi; inversion F as [|? ? (l0 & e0 & E) F']; subst; [cbn in Hi; lia| |discriminate].
    destruct i as [|i]; [|rewrite !alone_cons; apply IH; [exact F'|cbn in Hi; lia]]. unfold alone. cbn [skipn firstn]. constructor; [exact I|constructor].
  Qed.
  Lemma items_together (P : Z -> Prop) es : Forall single_item es -> (forall i, i < List.length es -> exists zs, indices_mean lm (alone i es) zs /\ Forall P zs) -> exists zs, indices_mean lm es zs /\ Forall P zs.
  Proof.
    induction 1 as [|i es (l & e & ->) _ IH]; intros H; [exists []; split; constructor|].
    destruct IH as (zs & I & F). { intros i Hi. destruct (H (S i)) as (zs & Hz); [cbn; lia|]. rewrite alone_cons in Hz. eauto. }
    destruct (H 0) as (z0 & I0 & F0); [cbn; lia|]. unfold alone in I0. cbn [skipn firstn] in I0. inversion I0 as [|? ? z ? zs0 I1 R|]; subst. inversion R; subst. inversion F0; subst. exists (z :: zs). split; constructor; assumption.
  Qed.

  Variable vars : list variable.
  Hypothesis distinct : NoDup (map var_name vars).

  Lemma pick_means k e v i : listed_indices k e -> operand_means lm vars e v -> i < k -> operand_means lm vars (pick_operand i e) (pick_value i v).
  Proof.
    intros (l & l' & n & es & -> & Hk & F) M Hi. inversion M as [|? ? x ? zs Hx K I B]; subst. cbn [pick_operand pick_value]. constructor; [exact Hx|exact K|now apply items_alone|now apply alone_forall].
  Qed.
  Lemma listed_value k e v : listed_indices k e -> operand_means lm vars e v -> exists x zs, v = VIndex x zs /\ List.length zs = k.
  Proof. intros (l & l' & n & es & -> & Hk & F) M. inversion M as [|? ? x ? zs Hx K I B]; subst. exists x, zs. split; [reflexivity|now apply items_length]. Qed.
  Lemma picked_together k e : 0 < k -> listed_indices k e -> (forall i, i < k -> exists v, operand_means lm vars (pick_operand i e) v) -> exists v, operand_means lm vars e v.
  Proof.
    intros Hk (l & l' & n & es & -> & Ek & F) H. destruct (H 0 Hk) as (v0 & M0). inversion M0 as [|? ? x ? zs0 Hx K I0 B0]; subst.
    destruct (items_together (fun z => 0 <= z < tsize (var_type x))%Z es F) as (zs & I & B).
    { intros i Hi. destruct (H i Hi) as (v & M). inversion M as [|? ? y ? zs Hy Ky Iy By E]; subst. rewrite (one_variable vars y x distinct Hy Hx) in By by congruence. eauto. }
    exists (VIndex x zs). now constructor.
  Qed.
  Lemma pick_literals i e : machine_literals e -> machine_literals (pick_operand i e).
  Proof. destruct e; try exact (fun H => H). cbn [pick_operand]. rewrite !index_literals. intros [H1 H2]. split; [exact H1|now apply alone_forall]. Qed.
  Lemma picks_mean k es vs : Forall (listed_indices k) es -> Forall2 (operand_means lm vars) es vs -> forall i, i < k -> Forall2 (operand_means lm vars) (map (pick_operand i) es) (map (pick_value i) vs).
  Proof. intros F M i Hi. revert F. induction M; intros F; cbn [map]; [constructor|]. inversion F; subst. constructor; [now apply (pick_means k)|now apply IHM]. Qed.
  Lemma picks_together k es : 0 < k -> Forall (listed_indices k) es -> (forall i, i < k -> exists vs, Forall2 (operand_means lm vars) (map (pick_operand i) es) vs) -> exists vs, Forall2 (operand_means lm vars) es vs.
  Proof.
    intros Hk. induction 1 as [|e es He _ IH]; intros H; [exists []; constructor|].
    destruct (picked_together k e Hk He) as (v & M); [intros i Hi; destruct (H i Hi) as (vs & X); inversion X; subst; eauto|].
    destruct IH as (vs & Ms); [intros i Hi; destruct (H i Hi) as (vs & X); inversion X; subst; eauto|]. exists (v :: vs). now constructor.
  Qed.
  Lemma picks_literals i es : Forall machine_literals es -> Forall machine_literals (map (pick_operand i) es).
  Proof. intros H. apply Forall_map. eapply Forall_impl; [|exact H]. intros e. apply pick_literals. Qed.
  Lemma picked_values k es vs i us : Forall (listed_indices k) es -> Forall machine_literals es -> i < k -> Forall2 (operand_means lm vars) es vs -> Forall2 (operand_means lm vars) (map (pick_operand i) es) us -> us = map (pick_value i) vs.
  Proof. intros F L Hi M P. eapply one_operands; [exact distinct|exact (picks_literals i es L)|exact P|]. now apply (picks_mean k). Qed.

  (** ** Sizes of operands *)
  Definition wide (k : nat) (v : value) : Prop := exists x zs, v = VIndex x zs /\ List.length zs = k.
  Lemma values_wide k es vs : Forall (listed_indices k) es -> Forall2 (operand_means lm vars) es vs -> Forall (wide k) vs.
  Proof. intros F M. induction M; inversion F; subst; constructor; [|auto]. eapply listed_value; eauto. Qed.
  Lemma wide_addresses k c v i a : wide k v -> i < k -> addresses c (pick_value i v) a -> addresses c v (Z.of_nat k) /\ a = 1%Z.
  Proof.
    intros (x & zs & -> & <-) Hi A. cbn [pick_value] in A. inversion A; subst; (split; [now constructor|]); now rewrite alone_length.
  Qed.
  Lemma wide_alone k c v i a : wide k v -> i < k -> addresses c v a -> addresses c (pick_value i v) 1.
  Proof.
    intros (x & zs & -> & <-) Hi A. cbn [pick_value]. replace 1%Z with (Z.of_nat (List.length (alone i zs))) by now rewrite alone_length. inversion A; subst; now constructor.
  Qed.

  (** ** Instructions *)
  Lemma gate_picked l g ops k xs' : 0 < k -> ops <> [] -> Forall (listed_indices k) ops -> Forall machine_literals (gate_exprs g ++ ops) ->
    Forall2 (fun i x' => instruction_means lm vars (pick_statement i (SGateInstr l g ops [])) x') (seq 0 k) xs' <->
    exists x, instruction_means lm vars (SGateInstr l g ops []) x /\ xs' = map (fun i => pick_instruction i x) (seq 0 k).
  Proof.
    intros Hk Ne F L. apply Forall_app in L. destruct L as [Lg Lo]. cbn [pick_statement]. split.
    - intros H.
      assert (H0 : forall i, i < k -> exists x', instruction_means lm vars (SGateInstr l g (map (pick_operand i) ops) []) x') by (intros i Hi; exact (seq_each _ k _ i H Hi)).
      destruct (picks_together k ops Hk F) as (vs & Mv). { intros i Hi. destruct (H0 i Hi) as (x' & M). inversion M; subst. eauto. }
      pose proof (values_wide k ops vs F Mv) as W. destruct (H0 0 Hk) as (x0 & M0). inversion M0 as [? ? ? sg base name us a G O A| |]; subst.
      rewrite (picked_values k ops vs 0 us F Lo Hk Mv O) in A. rewrite map_length in G. exists (SemGateInstr l (instruction_for name vs) sg vs []). split.
      + eapply gate_applied; [exact G|exact Mv|]. rewrite Forall_map in A. apply Forall_forall. intros v Hv. rewrite Forall_forall in A, W. exact (proj1 (wide_addresses k _ v 0 a (W v Hv) Hk (A v Hv))).
      + assert (E : Forall2 (fun i x' => x' = pick_instruction i (SemGateInstr l (instruction_for name vs) sg vs [])) (seq 0 k) xs').
        { assert (B : Forall (fun i => i < k) (seq 0 k)) by (apply Forall_forall; intros i Hi; apply in_seq in Hi; lia). clear H0. revert B. clear -H G F Lo Lg Mv Hlib distinct. induction H as [|i x' is xs HH _ IH]; intros B; inversion B; subst; constructor; auto.
          inversion HH as [? ? ? sg' base' name' us a G' O' A'| |]; subst. rewrite (picked_values k ops vs i us F Lo) by assumption. cbn [pick_instruction instruction_for instr_name].
          rewrite (one_gate g sg base name _ G Lg _ _ _ _ G'). destruct (means_name lm _ _ _ _ _ G) as [_ <-]. destruct (means_name lm _ _ _ _ _ G') as [_ <-]. now rewrite (one_gate g sg base _ _ G Lg _ _ _ _ G'). }
        clear -E. induction E as [|i x' is xs -> _ IH]; [reflexivity|]. cbn [map]. now rewrite IH.
    - intros (x & M & ->). inversion M as [? ? ? sg base name vs a G O A| |]; subst. pose proof (values_wide k ops vs F O) as W.
      assert (B : Forall (fun i => i < k) (seq 0 k)) by (apply Forall_forall; intros i Hi; apply in_seq in Hi; lia). induction B as [|i is Hi _ IH]; cbn [map]; constructor; [|exact IH].
      cbn [pick_instruction instruction_for instr_name]. eapply gate_applied; [rewrite map_length; exact G|now apply (picks_mean k)|]. rewrite Forall_map. rewrite Forall_forall in *. intros v Hv. eapply wide_alone; eauto.
  Qed.
  Lemma non_gate_picked l n ops ps k xs' : 0 < k -> ops <> [] -> Forall (listed_indices k) ops -> Forall machine_literals (ops ++ ps) ->
    Forall2 (fun i x' => instruction_means lm vars (pick_statement i (SNonGate l n ops ps [])) x') (seq 0 k) xs' <->
    exists x, instruction_means lm vars (SNonGate l n ops ps []) x /\ xs' = map (fun i => pick_instruction i x) (seq 0 k).
  Proof.
    intros Hk Ne F L. apply Forall_app in L. destruct L as [Lo Lp]. cbn [pick_statement]. split.
    - intros H.
      assert (H0 : forall i, i < k -> exists x', instruction_means lm vars (SNonGate l n (map (pick_operand i) ops) ps []) x') by (intros i Hi; exact (seq_each _ k _ i H Hi)).
      destruct (picks_together k ops Hk F) as (vs & Mv). { intros i Hi. destruct (H0 i Hi) as (x' & M). inversion M; subst. eauto. }
      pose proof (values_wide k ops vs F Mv) as W. destruct (H0 0 Hk) as (x0 & M0). inversion M0 as [|? ? ? ? ks cs us ws I O P A Me|]; subst.
      rewrite (picked_values k ops vs 0 us F Lo Hk Mv O) in A, Me.
      assert (AA : Forall2 (fun c v => addresses c v (Z.of_nat k)) cs vs).
      { clear -A W Hk. revert vs W A. induction cs as [|c cs IH]; intros [|v vs] W A; cbn [map] in A; inversion A as [|? ? ? ? (a & Ha) A']; subst; constructor; inversion W; subst; [eapply wide_addresses; eauto|now apply IH]. }
      exists (SemNonGate l (instruction_for n vs) n vs ws []). split.
      + eapply non_gate_applied; [exact I|exact Mv|exact P| |intros _; exists (Z.of_nat k); exact AA]. eapply all2_impl; [|exact AA]. intros c v Hc. exists (Z.of_nat k). exact Hc.
      + assert (E : Forall2 (fun i x' => x' = pick_instruction i (SemNonGate l (instruction_for n vs) n vs ws [])) (seq 0 k) xs').
        { assert (B : Forall (fun i => i < k) (seq 0 k)) by (apply Forall_forall; intros i Hi; apply in_seq in Hi; lia). clear H0. revert B. clear -H I P F Lo Lp Mv Hlib distinct. induction H as [|i x' is xs HH _ IH]; intros B; inversion B; subst; constructor; auto.
          inversion HH as [|? ? ? ? ks' cs' us ws' I' O' P' A' Me'|]; subst. rewrite (picked_values k ops vs i us F Lo) by assumption. cbn [pick_instruction instruction_for instr_name].
          assert (ks = ks') as <- by (apply (non_gates_functional n _ _ _ _ I I'); now rewrite (parameters_length _ _ _ _ P), (parameters_length _ _ _ _ P')). now rewrite (one_parameters ps ks ws ws' Lp P P'). }
        clear -E. induction E as [|i x' is xs -> _ IH]; [reflexivity|]. cbn [map]. now rewrite IH.
    - intros (x & M & ->). inversion M as [|? ? ? ? ks cs vs ws I O P A Me|]; subst. pose proof (values_wide k ops vs F O) as W.
      assert (B : Forall (fun i => i < k) (seq 0 k)) by (apply Forall_forall; intros i Hi; apply in_seq in Hi; lia). induction B as [|i is Hi _ IH]; cbn [map]; constructor; [|exact IH].
      assert (AA : Forall2 (fun c v => addresses c v 1) cs (map (pick_value i) vs)).
      { clear -A W Hi. revert W. induction A as [|c v cs vs (a & Ha) _ IH]; intros W; cbn [map]; constructor; inversion W; subst; [eapply wide_alone; eauto|now apply IH]. }
      cbn [pick_instruction instruction_for instr_name]. eapply non_gate_applied; [exact I|now apply (picks_mean k)|exact P| |intros _; exists 1%Z; exact AA]. eapply all2_impl; [|exact AA]. intros c v Hc. exists 1%Z. exact Hc.
  Qed.
  Lemma width_is s k : operands_of s <> [] -> Forall (listed_indices k) (operands_of s) -> statement_width s = k.
  Proof. unfold statement_width. intros Ne F. destruct F as [|e es (l & l' & n & is & -> & E & _) _]; [contradiction|exact E]. Qed.
  Lemma result_width s k x : operands_of s <> [] -> Forall (listed_indices k) (operands_of s) -> instruction_means lm vars s x -> instruction_width x = k.
  Proof.
    intros Ne F M. destruct M as [l g ops sg base name vs a G O A|l n ops ps ks cs vs ws I O P A Me|]; cbn [operands_of] in *; [| |contradiction]; pose proof (values_wide k ops vs F O) as W; unfold instruction_width; cbn [result_operands];
      destruct W as [|v vs (y & zs & -> & E) _]; try exact E; inversion O; subst; contradiction.
  Qed.
  Lemma unrolled_instruction s xs' : listed_alike s -> plain s -> Forall machine_literals (statement_exprs s) ->
    Forall2 (instruction_means lm vars) (unroll_statement s) xs' <-> exists x, instruction_means lm vars s x /\ xs' = unroll_instruction x /\ 0 < instruction_width x.
  Proof.
    intros (k & Hk & Ne & F) Pl L. unfold unroll_statement. rewrite (width_is s k Ne F).
    assert (K : Forall2 (fun i x' => instruction_means lm vars (pick_statement i s) x') (seq 0 k) xs' <-> exists x, instruction_means lm vars s x /\ xs' = map (fun i => pick_instruction i x) (seq 0 k)).
    { destruct s as [l n t an|l g ops an|l n ops ps an|l n c an]; cbn [operands_of] in *; try contradiction; cbn [SpecAnalyzer.plain statement_exprs] in *.
      - destruct Pl as [_ ->]. apply gate_picked; auto. rewrite !Forall_app in L. rewrite Forall_app. tauto.
      - subst an. apply non_gate_picked; auto. rewrite !Forall_app in L. rewrite Forall_app. tauto. }
    assert (E : Forall2 (instruction_means lm vars) (map (fun i => pick_statement i s) (seq 0 k)) xs' <-> Forall2 (fun i x' => instruction_means lm vars (pick_statement i s) x') (seq 0 k) xs').
    { clear. generalize (seq 0 k). intros is. revert xs'. induction is as [|i is IH]; intros xs'; cbn [map]; split; intros H; inversion H; subst; constructor; auto; now apply IH. }
    rewrite E, K. split; intros (x & M & H).
    - exists x. split; [exact M|]. unfold unroll_instruction. rewrite (result_width s k x Ne F M). split; [exact H|exact Hk].
    - exists x. split; [exact M|]. destruct H as [H _]. unfold unroll_instruction in H. now rewrite (result_width s k x Ne F M) in H.
  Qed.
  Lemma alike_wide s x : listed_alike s -> instruction_means lm vars s x -> 0 < instruction_width x.
  Proof. intros (k & Hk & Ne & F) M. now rewrite (result_width s k x Ne F M). Qed.
  Lemma block_app is ss vars' xs : Forall (fun s => ~ is_declaration s) is ->
    block_means lm vars (is ++ ss) vars' xs <-> exists xs1 xs2, xs = (xs1 ++ xs2)%list /\ Forall2 (instruction_means lm vars) is xs1 /\ block_means lm vars ss vars' xs2.
  Proof.
    intros F. revert xs. induction F as [|s is Hs _ IH]; intros xs; cbn [app].
    - split; [intros B; exists [], xs; split; [reflexivity|]; split; [constructor|exact B]|]. intros (xs1 & xs2 & -> & H & B). inversion H; subst. exact B.
    - split.
      + intros B. inversion B as [|l n t ty ? ? ? D N1 N2 B'|s0 x ? ? xs0 M B']; subst; [exfalso; apply Hs; exact I|]. apply IH in B'. destruct B' as (xs1 & xs2 & -> & H & B'). exists (x :: xs1), xs2. split; [reflexivity|]. split; [now constructor|exact B'].
      + intros (xs1 & xs2 & -> & H & B). inversion H as [|? x ? xs1' M H']; subst. cbn [app]. apply instruction_of; [exact M|]. apply IH. eauto.
  Qed.
End Unroll.

(** ** Programs *)
Section Programs.
  Variables (lm : libm) (chosen : nat -> bool).
  Hypothesis Hlib : machine_libm lm.

  Definition counted (s : statement) : bool := match s with SVariable _ _ _ _ => false | _ => true end.
  Definition unrollable_from (n : nat) (ss : list statement) : Prop := forall m s, nth_error (filter counted ss) m = Some s -> chosen (n + m) = true -> listed_alike s.
  Lemma from_declaration n l m t an ss : unrollable_from n (SVariable l m t an :: ss) -> unrollable_from n ss.
  Proof. exact (fun H => H). Qed.
  Lemma from_counted n s ss : counted s = true -> unrollable_from n (s :: ss) -> (chosen n = true -> listed_alike s) /\ unrollable_from (S n) ss.
  Proof.
    unfold unrollable_from. cbn [filter]. intros -> H. split; [intros C; apply (H 0 s); [reflexivity|now rewrite Nat.add_0_r]|]. intros m x Hx C. apply (H (S m) x Hx). now rewrite Nat.add_succ_r.
  Qed.
  Lemma unroll_counted n s ss : counted s = true -> unroll_statements chosen n (s :: ss) = ((if chosen n then unroll_statement s else [s]) ++ unroll_statements chosen (S n) ss)%list.
  Proof. destruct s; [discriminate| | |]; reflexivity. Qed.
  Lemma counted_plain s : counted s = true -> Forall (fun s => ~ is_declaration s) (unroll_statement s).
  Proof. intros C. unfold unroll_statement. apply Forall_map. apply Forall_forall. intros i _. destruct s; [discriminate| | |]; exact (fun X => X). Qed.
  Fixpoint wide_results (n : nat) (xs : list sem_statement) : Prop := match xs with [] => True | x :: r => (chosen n = true -> 0 < instruction_width x) /\ wide_results (S n) r end.

  Lemma one_unrolled vars n s xs : NoDup (map var_name vars) -> counted s = true -> (chosen n = true -> listed_alike s) -> SpecAnalyzer.plain s -> Forall machine_literals (statement_exprs s) ->
    Forall2 (instruction_means lm vars) (if chosen n then unroll_statement s else [s]) xs <-> exists x, instruction_means lm vars s x /\ xs = (if chosen n then unroll_instruction x else [x]) /\ (chosen n = true -> 0 < instruction_width x).
  Proof.
    intros N C A P L. destruct (chosen n).
    - rewrite (unrolled_instruction lm Hlib vars N s xs (A eq_refl) P L). split; intros (x & M & E & W); exists x; auto.
    - split.
      + intros H. inversion H as [|? x ? r M R]; subst. inversion R; subst. exists x. split; [exact M|]. split; [reflexivity|discriminate].
      + intros (x & M & -> & _). constructor; [exact M|constructor].
  Qed.
  Lemma unrolled_block ss : Forall SpecAnalyzer.plain ss -> Forall machine_statement ss -> forall vars n vars' xs', NoDup (map var_name vars) -> unrollable_from n ss ->
    block_means lm vars (unroll_statements chosen n ss) vars' xs' <-> exists xs, block_means lm vars ss vars' xs /\ xs' = unroll_instructions chosen n xs /\ wide_results n xs.
  Proof.
    induction 1 as [|s ss P _ IH]; intros L vars n vars' xs' N U.
    - cbn [unroll_statements]. split.
      + intros B. inversion B; subst. exists []. split; [constructor|]. split; [reflexivity|exact I].
      + intros (xs & B & -> & _). inversion B; subst. constructor.
    - inversion L as [|? ? [L1 _] L2]; subst. destruct (counted s) eqn:C.
      + rewrite unroll_counted by exact C. destruct (from_counted n s ss C U) as [A U']. rewrite block_app; [|destruct (chosen n); [now apply counted_plain|constructor; [destruct s; [discriminate| | |]; exact (fun X => X)|constructor]]]. split.
        * intros (xs1 & xs2 & -> & H & B). apply (one_unrolled vars n s xs1 N C A P L1) in H. destruct H as (x & M & -> & W). apply (IH L2 vars (S n) vars' xs2 N U') in B. destruct B as (xs & B & -> & Ws).
          exists (x :: xs). split; [now apply instruction_of|]. split; [reflexivity|]. split; assumption.
        * intros (xs & B & -> & W). inversion B as [|l m t ty ? ? ? D N1 N2 B'|s0 x ? ? xs0 M B']; subst; [discriminate C|]. destruct W as [W Ws]. cbn [unroll_instructions].
          eexists _, _. split; [reflexivity|]. split; [apply (one_unrolled vars n s _ N C A P L1); eauto|]. apply (IH L2 vars (S n) vars' _ N U'). eauto.
      + destruct s as [l m t an| | |]; try discriminate. cbn [unroll_statements]. apply from_declaration in U. split.
        * intros B. inversion B as [|? ? ? ty ? ? ? D N1 N2 B'|s0 x ? ? xs0 M B']; subst; [|inversion M].
          apply IH in B'; [|exact L2| |exact U]. { destruct B' as (xs & B' & E). exists xs. split; [|exact E]. eapply declaration; eauto. }
          rewrite map_app. cbn [map var_name]. apply NoDup_snoc; assumption.
        * intros (xs & B & E). inversion B as [|? ? ? ty ? ? ? D N1 N2 B'|s0 x ? ? xs0 M B']; subst; [|inversion M]. eapply declaration; [exact D|exact N1|exact N2|]. apply IH; [exact L2| |exact U|eauto].
          rewrite map_app. cbn [map var_name]. apply NoDup_snoc; assumption.
  Qed.
  Lemma block_wide ss : forall vars n vars' xs, block_means lm vars ss vars' xs -> unrollable_from n ss -> wide_results n xs.
  Proof.
    induction ss as [|s ss IH]; intros vars n vars' xs B U; inversion B as [|l m t ty ? ? ? D N1 N2 B'|s0 x ? ? xs0 M B']; subst; [exact I|eapply IH; eauto|].
    assert (C : counted s = true) by (destruct M; reflexivity). destruct (from_counted n s ss C U) as [A U']. split; [intros E; eapply alike_wide; eauto|eapply IH; eauto].
  Qed.

  (** The location of the block *)
  Lemma spans_same xs xs' l : hd_error (statement_locations xs) = hd_error (statement_locations xs') -> (forall x, In x (statement_locations xs) <-> In x (statement_locations xs')) ->
    spans_statements (mkBlock xs l) -> spans_statements (mkBlock xs' l).
  Proof.
    unfold spans_statements. cbn [blk_loc blk_statements]. intros H E. destruct l as [l|].
    - intros (l0 & ls & El & Fn & Or & En & Le). rewrite El in H, E. destruct (statement_locations xs') as [|l1 ls']; [discriminate|]. injection H as <-. exists l0, ls'. split; [reflexivity|]. split; [exact Fn|]. split; [exact Or|]. split.
      + intros s Hs. apply En, E, Hs.
      + intros r Hr. apply Le. intros s Hs. apply Hr, E, Hs.
    - intros El. rewrite El in H. destruct (statement_locations xs'); [reflexivity|discriminate].
  Qed.
  Definition place_list (x : sem_statement) : list source_location := match place_of_result x with Some l => [l] | None => [] end.
  Lemma place_picked i x : place_list (pick_instruction i x) = place_list x.
  Proof. destruct x; reflexivity. Qed.
  Lemma unrolled_places n x : (chosen n = true -> 0 < instruction_width x) -> let ls := flat_map place_list (if chosen n then unroll_instruction x else [x]) in
    hd_error ls = hd_error (place_list x) /\ forall l, In l ls <-> In l (place_list x).
  Proof.
    intros W. destruct (chosen n); [|cbn [flat_map]; rewrite app_nil_r; split; [reflexivity|tauto]]. specialize (W eq_refl). unfold unroll_instruction. destruct (instruction_width x) as [|k]; [lia|]. clear W.
    cbn [seq map flat_map]. rewrite place_picked. generalize (seq 1 k). intros is. assert (R : forall l, In l (flat_map place_list (map (fun i => pick_instruction i x) is)) -> In l (place_list x)).
    { induction is as [|i is IH]; intros l; cbn [map flat_map]; [contradiction|]. rewrite place_picked, in_app_iff. intros [H|H]; auto. }
    split.
    - unfold place_list at 1 3. destruct (place_of_result x) as [l|] eqn:E; [reflexivity|]. cbn [app]. destruct (flat_map place_list (map (fun i => pick_instruction i x) is)) as [|l ls]; [reflexivity|]. specialize (R l (or_introl eq_refl)). unfold place_list in R. rewrite E in R. destruct R.
    - intros l. rewrite in_app_iff. split; [intros [H|H]; auto|auto].
  Qed.
  Lemma unrolled_locations xs : forall n, wide_results n xs -> hd_error (statement_locations (unroll_instructions chosen n xs)) = hd_error (statement_locations xs) /\
    forall l, In l (statement_locations (unroll_instructions chosen n xs)) <-> In l (statement_locations xs).
  Proof.
    unfold statement_locations. fold place_list. induction xs as [|x xs IH]; intros n W; [split; [reflexivity|tauto]|]. destruct W as [W Ws]. destruct (IH (S n) Ws) as [I1 I2]. destruct (unrolled_places n x W) as [U1 U2].
    cbn [unroll_instructions]. rewrite flat_map_app. change (flat_map place_list (x :: xs)) with (place_list x ++ flat_map place_list xs)%list. split.
    - assert (Hh : forall a b : list source_location, hd_error (a ++ b) = match hd_error a with Some l => Some l | None => hd_error b end) by (intros [|] b; reflexivity). unfold place_list in *. rewrite !Hh, U1. now rewrite I1.
    - intros l. rewrite !in_app_iff. unfold place_list in *. now rewrite U2, I2.
  Qed.

  Lemma unrolled_program api p : grammar_program p -> machine_program p -> unrollable chosen p -> forall q', program_means lm api (unroll_program chosen p) q' <-> exists q, program_means lm api p q /\ q' = unroll_result chosen q.
  Proof.
    intros G M U q'. assert (P : Forall SpecAnalyzer.plain (prog_statements p)) by (eapply Forall_impl; [|exact G]; intros s (X & _); exact X). assert (U' : unrollable_from 0 (prog_statements p)) by exact U.
    split.
    - intros [vars [xs' bl] V B S]. cbn [blk_statements unroll_program prog_statements prog_version prog_version_loc] in *. apply (unrolled_block _ P M [] 0) in B; [|constructor|exact U']. destruct B as (xs & B & -> & W).
      exists (mkSemProgram api (prog_version p) (prog_version_loc p) (mkBlock xs bl) (map (fun x => mkSemVariable x []) vars)). split; [|reflexivity].
      apply program_of; [exact V|exact B|]. destruct (unrolled_locations xs 0 W) as [E1 E2]. eapply spans_same; [exact E1|exact E2|exact S].
    - intros (q & [vars [xs bl] V B S] & ->). cbn [blk_statements] in B. pose proof (block_wide _ _ _ _ _ B U') as W.
      apply (program_of lm api (unroll_program chosen p) vars (mkBlock (unroll_instructions chosen 0 xs) bl)); [exact V| |].
      + cbn [blk_statements unroll_program prog_statements]. apply (unrolled_block _ P M [] 0); [constructor|exact U'|eauto].
      + destruct (unrolled_locations xs 0 W) as [E1 E2]. eapply spans_same; [symmetry; exact E1|intros l; symmetry; apply E2|exact S].
  Qed.

  (** ** What is asked of programs *)
  Lemma unrolled_in n ss s : In s (unroll_statements chosen n ss) -> unrollable_from n ss -> In s ss \/ exists s0 i, In s0 ss /\ listed_alike s0 /\ i < statement_width s0 /\ s = pick_statement i s0.
  Proof.
    revert n. induction ss as [|s0 ss IH]; intros n H U; [destruct H|]. destruct (counted s0) eqn:C.
    - rewrite unroll_counted in H by exact C. destruct (from_counted n s0 ss C U) as [A U']. apply in_app_or in H. destruct H as [H|H].
      + destruct (chosen n) eqn:Ec.
        * unfold unroll_statement in H. apply in_map_iff in H. destruct H as (i & <- & Hi). apply in_seq in Hi. right. exists s0, i. split; [now left|]. split; [auto|]. split; [lia|reflexivity].
        * destruct H as [<-|[]]. left. now left.
      + destruct (IH _ H U') as [H'|(x & i & Hx & R)]; [left; now right|right; exists x, i; split; [now right|exact R]].
    - destruct s0; try discriminate. cbn [unroll_statements] in H. destruct H as [<-|H]; [left; now left|]. destruct (IH n H (from_declaration _ _ _ _ _ _ U)) as [H'|(x & i & Hx & R)]; [left; now right|right; exists x, i; split; [now right|exact R]].
  Qed.
  Lemma pick_indexed k i e : listed_indices k e -> i < k -> indexed_expr e = true -> indexed_expr (pick_operand i e) = true.
  Proof.
    intros (l & l' & n & es & -> & E & _) Hi H. cbn [pick_operand]. cbn [indexed_expr] in *. rewrite !andb_true_iff in H. destruct H as [_ H]. rewrite alone_length by lia. cbn [Nat.eqb negb andb].
    apply forallb_forall. rewrite forallb_forall in H. intros x Hx. apply H. eapply alone_in; eauto.
  Qed.
  Lemma unrolled_demands p : unrollable chosen p -> grammar_program p -> machine_program p -> ordered_locations p ->
    grammar_program (unroll_program chosen p) /\ machine_program (unroll_program chosen p) /\ ordered_locations (unroll_program chosen p).
  Proof.
    intros U G M O. assert (U' : unrollable_from 0 (prog_statements p)) by exact U. unfold grammar_program, machine_program, ordered_locations in *. rewrite Forall_forall in G, M. cbn [unroll_program prog_statements].
    assert (K : forall s, In s (unroll_statements chosen 0 (prog_statements p)) -> (grammar_statement s /\ machine_statement s) /\ exists s0, In s0 (prog_statements p) /\ place_of_statement s0 = place_of_statement s).
    { intros s Hs. destruct (unrolled_in 0 _ s Hs U') as [H|(s0 & i & H0 & (k & Hk & Ne & F) & Hi & ->)]; [split; [auto|eauto]|]. rewrite (width_is s0 k Ne F) in Hi. split; [|exists s0; split; [exact H0|destruct s0; reflexivity]].
      destruct (G s0 H0) as (G1 & G2 & G3), (M s0 H0) as [M1 _].
      assert (X : forall ops, Forall (listed_indices k) ops -> forallb indexed_expr ops = true -> forallb indexed_expr (map (pick_operand i) ops) = true).
      { induction 1 as [|e es He _ IH]; [auto|]. cbn [forallb map]. rewrite !andb_true_iff. intros [X1 X2]. split; [now apply (pick_indexed k)|auto]. }
      destruct s0 as [l n t an|l g ops an|l n ops ps an|l n c an]; cbn [operands_of] in *; try contradiction; unfold grammar_statement, machine_statement; cbn [pick_statement statement_exprs SpecAnalyzer.plain] in *;
        rewrite !forallb_app, !andb_true_iff in *; rewrite !Forall_app in *; specialize (X ops F); pose proof (picks_literals i ops) as Y; tauto. }
    split; [|split].
    - apply Forall_forall. intros s Hs. apply K, Hs.
    - apply Forall_forall. intros s Hs. apply K, Hs.
    - intros s l Hs E. destruct (K s Hs) as (_ & s0 & H0 & E0). apply (O s0 l H0). congruence.
  Qed.
End Programs.
