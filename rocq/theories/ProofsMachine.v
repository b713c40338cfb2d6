(** Lemmas for C84: all numbers fit in 64 bits. *)
From Coq Require Import SpecFloat ZifyBool.
From Flocq Require Import IEEE754.BinarySingleNaN.
From Verif Require Import Base ModelUtils ModelVersion ModelError ModelTypes ModelOverload ModelFunctions ModelInstructionSet ModelAst ModelAnalyzer ModelSemantic
  SpecUtils SpecTypes SpecFunctions SpecInstructions SpecAnalyzer SpecHull SpecMachine
  ProofsVersion ProofsTypes ProofsFunctions ProofsFolding ProofsFloat ProofsIeee ProofsExpr ProofsInstructions ProofsGates ProofsAnalyzer ProofsAnalyzer2.
Local Open Scope string_scope.
Ltac Zify.zify_post_hook ::= Z.div_mod_to_equations.

(** ** Operations *)

Lemma valid_B (x : double) : valid_double (B2SF x).
Proof. apply valid_binary_B2SF. Qed.
Lemma add_valid a b : valid_double a -> valid_double b -> valid_double (SFadd prec emax a b).
Proof. intros A B. destruct (valid_double_B a A) as [x <-], (valid_double_B b B) as [y <-]. unfold prec, emax. rewrite SFadd_Bplus. apply valid_B. Qed.
Lemma sub_valid a b : valid_double a -> valid_double b -> valid_double (SFsub prec emax a b).
Proof. intros A B. destruct (valid_double_B a A) as [x <-], (valid_double_B b B) as [y <-]. unfold prec, emax. rewrite SFsub_Bminus. apply valid_B. Qed.
Lemma mul_valid a b : valid_double a -> valid_double b -> valid_double (SFmul prec emax a b).
Proof. intros A B. destruct (valid_double_B a A) as [x <-], (valid_double_B b B) as [y <-]. unfold prec, emax. rewrite SFmul_Bmult. apply valid_B. Qed.
Lemma div_valid a b : valid_double a -> valid_double b -> valid_double (SFdiv prec emax a b).
Proof. intros A B. destruct (valid_double_B a A) as [x <-], (valid_double_B b B) as [y <-]. unfold prec, emax. rewrite SFdiv_Bdiv. apply valid_B. Qed.
Lemma sqrt_valid a : valid_double a -> valid_double (SFsqrt prec emax a).
Proof. intros A. destruct (valid_double_B a A) as [x <-]. unfold prec, emax. rewrite SFsqrt_Bsqrt. apply valid_B. Qed.
Lemma opp_valid a : valid_double a -> valid_double (SFopp a).
Proof. now destruct a. Qed.
Lemma abs_valid a : valid_double a -> valid_double (SFabs a).
Proof. now destruct a. Qed.
Lemma of_Z_valid z : valid_double (float_of_Z z).
Proof. unfold float_of_Z, prec, emax. rewrite binary_normalize_ne. apply valid_B. Qed.

Lemma promote_machine v t w : machine_value v -> promote v t = Ok (Some w) -> machine_value w.
Proof.
  intros M H. unfold promote in H. apply bind_ok_inv in H. destruct H as (tv & _ & H).
  destruct (type_check t tv); [now injection H as <-|].
  destruct (kind t); destruct v as [b|z|f|x|x idx]; try discriminate; try (injection H as <-).
  all: try (destruct b; cbn; unfold fits; lia); try apply of_Z_valid; try exact M.
  destruct (type_check tv _); [|discriminate]. injection H as <-. exact M.
Qed.
Lemma promote_args_machine args : forall ps args', promote_args args ps = Ok (Some args') -> Forall machine_value args -> Forall machine_value args'.
Proof.
  induction args as [|a args IH]; intros [|p ps] args'; cbn [promote_args]; try discriminate.
  - intros [= <-]. auto.
  - intros [= <-]. auto.
  - intros H M. inversion M as [|? ? Ma Ms]; subst. apply bind_ok_inv in H. destruct H as (r & E & H). destruct r as [a'|]; [|discriminate].
    apply bind_ok_inv in H. destruct H as (rs & E' & H). destruct rs as [l|]; [|discriminate]. injection H as <-.
    constructor; [exact (promote_machine _ _ _ Ma E)|exact (IH _ _ E' Ms)].
Qed.

Definition machine_function (f : core_function) : Prop := forall vs v, Forall machine_value vs -> f vs = Ok v -> machine_value v.
Lemma unary_i_machine F : (forall a v, fits a -> F a = Ok v -> machine_value v) -> machine_function (unary_i F).
Proof. intros H vs v M E. apply bind_ok_inv in E. destruct E as (u & _ & E). destruct vs as [|[] vs]; try discriminate. inversion M; subst. eauto. Qed.
Lemma unary_f_machine F : (forall a v, valid_double a -> F a = Ok v -> machine_value v) -> machine_function (unary_f F).
Proof. intros H vs v M E. apply bind_ok_inv in E. destruct E as (u & _ & E). destruct vs as [|[] vs]; try discriminate. inversion M; subst. eauto. Qed.
Lemma unary_b_machine F : (forall a v, F a = Ok v -> machine_value v) -> machine_function (unary_b F).
Proof. intros H vs v M E. apply bind_ok_inv in E. destruct E as (u & _ & E). destruct vs as [|[] vs]; try discriminate. eauto. Qed.
Lemma binary_i_machine F : (forall a b v, fits a -> fits b -> F a b = Ok v -> machine_value v) -> machine_function (binary_i F).
Proof.
  intros H vs v M E. apply bind_ok_inv in E. destruct E as (u & _ & E). destruct vs as [|[] [|[] vs]]; try discriminate.
  inversion M as [|? ? Ma Ms]; subst. inversion Ms; subst. eauto.
Qed.
Lemma binary_f_machine F : (forall a b v, valid_double a -> valid_double b -> F a b = Ok v -> machine_value v) -> machine_function (binary_f F).
Proof.
  intros H vs v M E. apply bind_ok_inv in E. destruct E as (u & _ & E). destruct vs as [|[] [|[] vs]]; try discriminate.
  inversion M as [|? ? Ma Ms]; subst. inversion Ms; subst. eauto.
Qed.
Lemma binary_b_machine F : (forall a b v, F a b = Ok v -> machine_value v) -> machine_function (binary_b F).
Proof. intros H vs v M E. apply bind_ok_inv in E. destruct E as (u & _ & E). destruct vs as [|[] [|[] vs]]; try discriminate. eauto. Qed.
Lemma cond_machine f : In f [cond_i; cond_f; cond_b] -> machine_function f.
Proof.
  intros I vs v M E. destruct I as [<-|[<-|[<-|[]]]]; apply bind_ok_inv in E; destruct E as (u & _ & E);
    destruct vs as [|[b| | | |] [|[] [|[] vs]]]; try discriminate; injection E as <-; try exact I;
    inversion M as [|? ? _ Ms]; subst; inversion Ms as [|? ? M1 Ms']; subst; inversion Ms'; subst; now destruct b.
Qed.
Lemma int_machine z v : int_result z = Ok v -> machine_value v.
Proof. destruct (int_result_cases z) as [[F ->]|[_ ->]]; [|discriminate]. now intros [= <-]. Qed.
Lemma bits_fits z : (forall i, 63 <= i -> Z.testbit z i = Z.testbit z 63)%Z -> fits z.
Proof.
  intros H. unfold fits.
  assert (Q : (z / 2 ^ 63 = 0 \/ z / 2 ^ 63 = -1)%Z).
  { destruct (Z.testbit z 63) eqn:B.
    - right. apply Z.bits_inj'. intros n Hn. rewrite Z.div_pow2_bits, Z.bits_m1 by lia. apply H. lia.
    - left. apply Z.bits_inj'. intros n Hn. rewrite Z.div_pow2_bits, Z.bits_0 by lia. apply H. lia. }
  assert (P : (0 < 2 ^ 63)%Z) by reflexivity. pose proof (Z.div_mod z (2 ^ 63) ltac:(lia)). pose proof (Z.mod_pos_bound z (2 ^ 63) P). nia.
Qed.
Lemma fits_bits z i : fits z -> (63 <= i)%Z -> Z.testbit z i = Z.testbit z 63.
Proof.
  intros F L. assert (E : forall j, (63 <= j)%Z -> Z.testbit z j = Z.testbit (z / 2 ^ 63) (j - 63)).
  { intros j Lj. rewrite Z.div_pow2_bits by lia. f_equal. lia. }
  rewrite (E i L), (E 63%Z) by lia. unfold fits in F.
  assert (Q : (z / 2 ^ 63 = 0 \/ z / 2 ^ 63 = -1)%Z) by lia.
  destruct Q as [->| ->]; [now rewrite !Z.bits_0|]. rewrite !Z.bits_m1 by lia. reflexivity.
Qed.
Lemma lnot_fits a : fits a -> fits (Z.lnot a).
Proof. unfold fits, Z.lnot. lia. Qed.
Lemma land_fits a b : fits a -> fits b -> fits (Z.land a b).
Proof. intros A B. apply bits_fits. intros i L. rewrite !Z.land_spec, (fits_bits a i A L), (fits_bits b i B L). reflexivity. Qed.
Lemma lor_fits a b : fits a -> fits b -> fits (Z.lor a b).
Proof. intros A B. apply bits_fits. intros i L. rewrite !Z.lor_spec, (fits_bits a i A L), (fits_bits b i B L). reflexivity. Qed.
Lemma lxor_fits a b : fits a -> fits b -> fits (Z.lxor a b).
Proof. intros A B. apply bits_fits. intros i L. rewrite !Z.lxor_spec, (fits_bits a i A L), (fits_bits b i B L). reflexivity. Qed.
Lemma wrap_fits z : fits (wrap_int64 z).
Proof. unfold wrap_int64, fits. lia. Qed.
Lemma shr_fits a b : fits a -> (0 <= b)%Z -> fits (a / 2 ^ b).
Proof.
  intros A B. unfold fits in *. assert (P : (1 <= 2 ^ b)%Z) by (pose proof (Z.pow_pos_nonneg 2 b); lia).
  split; [apply Z.div_le_lower_bound; nia|apply Z.div_lt_upper_bound; nia].
Qed.
Lemma rem_fits a b : fits a -> b <> 0%Z -> fits (Z.rem a b).
Proof. intros A N. unfold fits in *. pose proof (Z.rem_bound_abs a b N). pose proof (Z.rem_sign_mul a b N). pose proof (Z.rem_le). 
  destruct (Z.le_ge_cases 0 a).
  - pose proof (Z.quot_rem' a b). assert (0 <= Z.rem a b <= a)%Z; [|lia]. split; [apply Z.rem_nonneg; lia|].
    rewrite <- Z.rem_abs_r by exact N. apply Z.rem_le; lia.
  - assert (E : (Z.rem a b = - Z.rem (- a) b)%Z) by (rewrite Z.rem_opp_l by exact N; lia). rewrite E.
    assert (0 <= Z.rem (- a) b <= - a)%Z; [|lia]. split; [apply Z.rem_nonneg; lia|].
    rewrite <- Z.rem_abs_r by exact N. apply Z.rem_le; lia.
Qed.

Lemma resolve_machine {T} (t : table T) name args r : resolve t name args = Ok r -> Forall machine_value args -> Forall machine_value (snd r).
Proof.
  intros H M. unfold resolve in H. destruct (table_find name t) as [os|]; [|discriminate]. apply bind_ok_inv in H. destruct H as (o & E & H).
  destruct o as [x|]; [|destruct (types_of args); discriminate]. injection H as <-. unfold resolve_overload in E.
  induction (rev os) as [|o l IH]; [discriminate|]. cbn [resolve_loop] in E. destruct (negb _); [auto|]. apply bind_ok_inv in E. destruct E as (r' & E & H).
  destruct r' as [args'|]; [|auto]. injection H as <-. cbn [snd]. exact (promote_args_machine _ _ _ E M).
Qed.
Lemma resolve_instruction_machine st n vs r : resolve_instruction st n vs = Ok r -> Forall machine_value vs -> Forall machine_value (snd r).
Proof.
  unfold resolve_instruction. intros H M. induction (scopes st) as [|s l IH]; cbn [resolve_instruction_in] in H; [destruct (types_of vs); discriminate|].
  destruct (resolve (sc_instructions s) n vs) as [x| | |] eqn:E; try discriminate; [|auto]. injection H as <-. exact (resolve_machine _ _ _ _ E M).
Qed.

Section Libm.
  Variable lm : libm.
  Hypothesis Hlm : machine_libm lm.

  Lemma default_machine : Forall (fun r => machine_function (snd (fst r))) (function_history lm).
  Proof.
    destruct Hlm as [Hpow Hf].
    repeat match goal with H : Forall _ (_ :: _) |- _ => inversion H; clear H; subst end.
    unfold function_history, default_functions. cbn [map fst snd].
    repeat (constructor; [cbn [fst snd];
      first [ apply cond_machine; cbn [In]; tauto
            | apply unary_i_machine; intros a v A; unfold op_neg_i, op_binv_i, fn_abs_i
            | apply unary_f_machine; intros a v A [= <-]; cbn [machine_value]
            | apply unary_b_machine; intros a v [= <-]; exact I
            | apply binary_b_machine; intros a b v [= <-]; exact I
            | apply binary_f_machine; intros a b v A B [= <-]; cbn [machine_value]
            | apply binary_i_machine; intros a b v A B ];
      first [ exact I | apply int_machine | intros [= <-]; exact I
            | now auto using add_valid, sub_valid, mul_valid, div_valid, sqrt_valid, opp_valid, abs_valid
            | intros [= <-]; apply lnot_fits; assumption | intros [= <-]; apply land_fits; assumption | intros [= <-]; apply lor_fits; assumption
            | intros [= <-]; apply lxor_fits; assumption
            | unfold op_div_ii; destruct (_ =? _)%Z; [discriminate|apply int_machine]
            | unfold op_mod_ii; destruct (Z.eqb_spec b 0); [discriminate|]; destruct (in_int64 _); [intros [= <-]; now apply rem_fits|discriminate]
            | unfold op_shl_ii; destruct (_ || _)%bool; [discriminate|]; intros [= <-]; apply wrap_fits
            | unfold op_shr_ii; destruct ((b <? 0)%Z || (64 <=? b)%Z)%bool eqn:Eb; [discriminate|]; intros [= <-]; apply shr_fits; [assumption|lia] ] |]).
    constructor.
  Qed.
  Lemma call_machine name args v : call lm name args = Ok v -> Forall machine_value args -> machine_value v.
  Proof.
    intros H M. rewrite call_resolve in H. apply bind_ok_inv in H. destruct H as ([f args'] & R & H). cbn [fst snd] in H.
    pose proof (resolve_typed _ _ _ _ R) as Hty. pose proof R as R0. apply resolve_ok_iff in R; [|exact Hty]. destruct R as (h1 & ps & h2 & E & P & _).
    pose proof default_machine as G. rewrite E in G. apply Forall_app in G. destruct G as [_ G]. inversion G as [|? ? G0 _]; subst.
    cbn [fst snd] in G0. exact (G0 args' v (resolve_machine _ _ _ _ R0 M) H).
  Qed.

  (** ** Expressions *)
  Variable st : analyzer.
  Hypothesis Hst : has_default_functions lm st.
  Hypothesis Hvars : forall n v, resolve_variable st n = Ok v -> machine_value v.

  Lemma machine_sub e e' : machine_literals e -> (forall a, within a e' -> within a e) -> machine_literals e'.
  Proof. intros [A B] H. split; intros; [apply (A l)|apply (B l)]; auto. Qed.
  Lemma check_range is n : check_out_of_range is n = Ok tt -> Forall (fun i => 0 <= i < n)%Z is.
  Proof.
    induction is as [|i is IH]; [constructor|]. cbn [check_out_of_range]. destruct ((i <? 0) || (n <=? i))%Z eqn:E; [discriminate|].
    intros H. constructor; [lia|auto].
  Qed.
  Lemma visit_machine e : machine_literals e -> forall v, visit st e = Ok v -> machine_value v.
  Proof.
    apply (expr_ind_full (fun e => machine_literals e -> forall v, visit st e = Ok v -> machine_value v) (fun i => True)); clear e; try (intros; exact I).
    - intros l b _ v [= <-]. exact I.
    - intros l z [M _] v [= <-]. exact (M l z (within_refl _)).
    - intros l f [_ M] v [= <-]. exact (M l f (within_refl _)).
    - intros l n _ v H. exact (Hvars n v H).
    - intros l e idx IH _ M v H. cbn [visit] in H. apply with_context_ok_iff in H. apply bind_ok_inv in H. destruct H as (b & Eb & H).
      apply with_context_ok_iff in Eb.
      assert (Mb : machine_value b) by (apply IH; [|exact Eb]; apply (machine_sub _ _ M); intros a W; now apply within_base).
      destruct b as [| | |x|]; try discriminate.
      assert (R : exists is, check_out_of_range is (tsize (var_type x)) = Ok tt /\ v = VIndex x is).
      { destruct (kind (var_type x)); try discriminate; apply bind_ok_inv in H; destruct H as (is & _ & H);
          apply bind_ok_inv in H; destruct H as ([] & C & H); injection H as <-; eauto. }
      destruct R as (is & C & ->). split; [exact Mb|exact (check_range _ _ C)].
    - intros l n M v H. cbn [visit] in H. rewrite (resolve_function_call lm st n [] Hst) in H. exact (call_machine _ _ _ H (Forall_nil _)).
    - intros l n args IH M v H. cbn [visit] in H. apply bind_ok_inv in H. destruct H as (vs & E & H). rewrite (resolve_function_call lm st n vs Hst) in H.
      apply (call_machine _ _ _ H). apply mapM_ok in E.
      assert (Ms : Forall machine_literals args) by (apply Forall_forall; intros a Ia; apply (machine_sub _ _ M); intros b W; now apply (within_arg _ _ _ _ a)).
      clear -IH E Ms. induction E as [|a b args vs E _ IHE]; [constructor|]. inversion IH; subst. inversion Ms; subst. apply with_context_ok_iff in E.
      constructor; auto.
    - intros l op e IH M v H. cbn [visit] in H. apply bind_ok_inv in H. destruct H as (v1 & E1 & H). apply with_context_ok_iff in E1.
      rewrite (resolve_function_call lm st _ _ Hst) in H. apply (call_machine _ _ _ H).
      repeat constructor. apply IH; [|exact E1]. apply (machine_sub _ _ M). intros a W. now apply within_unary.
    - intros l op e1 e2 IH1 IH2 M v H. cbn [visit] in H. apply bind_ok_inv in H. destruct H as (v1 & E1 & H). apply with_context_ok_iff in E1.
      apply bind_ok_inv in H. destruct H as (v2 & E2 & H). apply with_context_ok_iff in E2.
      rewrite (resolve_function_call lm st _ _ Hst) in H. apply (call_machine _ _ _ H).
      repeat constructor; [apply IH1; [|exact E1]; apply (machine_sub _ _ M); intros a W; now apply within_left|].
      apply IH2; [|exact E2]. apply (machine_sub _ _ M). intros a W. now apply within_right.
    - intros l c e1 e2 IH0 IH1 IH2 M v H. cbn [visit] in H. apply bind_ok_inv in H. destruct H as (v0 & E0 & H). apply with_context_ok_iff in E0.
      apply bind_ok_inv in H. destruct H as (v1 & E1 & H). apply with_context_ok_iff in E1.
      apply bind_ok_inv in H. destruct H as (v2 & E2 & H). apply with_context_ok_iff in E2.
      rewrite (resolve_function_call lm st _ _ Hst) in H. apply (call_machine _ _ _ H).
      repeat constructor; [apply IH0; [|exact E0]; apply (machine_sub _ _ M); intros a W; now apply within_cond| |].
      + apply IH1; [|exact E1]. apply (machine_sub _ _ M). intros a W. now apply within_then.
      + apply IH2; [|exact E2]. apply (machine_sub _ _ M). intros a W. now apply within_else.
  Qed.
  Lemma visit_list_machine es vs : Forall machine_literals es -> visit_expression_list st es = Ok vs -> Forall machine_value vs.
  Proof.
    unfold visit_expression_list. rewrite mapM_ok. intros M E. induction E as [|a b es vs E _ IH]; [constructor|]. inversion M; subst.
    unfold visit_expression in E. apply with_context_ok_iff in E. constructor; [eapply visit_machine; eauto|auto].
  Qed.
  Lemma annotation_operands_machine l es : forall vs log, Forall machine_literals es -> visit_annotation_operands st l es = (Ok vs, log) -> Forall machine_value vs.
  Proof.
    induction es as [|e es IH]; intros vs log M H; cbn [visit_annotation_operands] in H; [injection H as <- _; constructor|]. inversion M; subst.
    apply lbind_ok in H. destruct H as (v & e1 & e2 & E1 & H & _). apply lbind_ok in H. destruct H as (ws & e3 & e4 & E2 & H & _).
    apply lift_ok in H. destruct H as [H _]. injection H as <-. specialize (IH _ _ ltac:(assumption) E2). destruct v as [v|]; [|exact IH].
    constructor; [|exact IH]. apply (visit_machine e); [assumption|].
    destruct (visit st e) as [w|err| |]; cbn in E1; try discriminate; injection E1; intros; subst; reflexivity || congruence.
  Qed.
  Lemma annotated_machine an : forall ans log, Forall machine_literals (annotation_exprs an) -> visit_annotated st an = (Ok ans, log) -> Forall machine_value (annotation_values ans).
  Proof.
    induction an as [|a an IH]; intros ans log M H; cbn [visit_annotated] in H; [injection H as <- _; constructor|].
    unfold annotation_exprs in M. cbn [flat_map] in M. apply Forall_app in M. destruct M as [Ma Ms].
    apply lbind_ok in H. destruct H as (v & e1 & e2 & E1 & H & _). apply lbind_ok in H. destruct H as (ws & e3 & e4 & E2 & H & _).
    apply lift_ok in H. destruct H as [H _]. injection H as <-. unfold annotation_values. cbn [flat_map]. apply Forall_app. split; [|exact (IH _ _ Ms E2)].
    unfold visit_annotation_data in E1. apply lbind_ok in E1. destruct E1 as (vs & e5 & e6 & E1 & H & _). apply lift_ok in H. destruct H as [H _]. injection H as <-.
    exact (annotation_operands_machine _ _ _ _ Ma E1).
  Qed.
  Lemma params_loop_machine name spec : forall ps ws, resolve_params_loop name spec ps = Ok ws -> Forall machine_value ps -> Forall machine_value ws.
  Proof.
    induction spec as [|c spec IH]; intros ps ws H M; cbn [resolve_params_loop] in H; [injection H as <-; constructor|].
    destruct ps as [|p ps]; [discriminate|]. inversion M; subst. apply bind_ok_inv in H. destruct H as (tp & _ & H). apply bind_ok_inv in H. destruct H as (t & _ & H).
    destruct (negb _); [discriminate|]. apply bind_ok_inv in H. destruct H as (v & E & H). apply bind_ok_inv in H. destruct H as (vs & E' & H).
    injection H as <-. specialize (IH _ _ E' ltac:(assumption)). destruct v as [v|]; [|exact IH]. constructor; [eapply promote_machine; eauto|exact IH].
  Qed.
  Lemma parameters_machine name ps ws : resolve_parameters name ps = Ok ws -> Forall machine_value ps -> Forall machine_value ws.
  Proof.
    unfold resolve_parameters. cbv zeta. intros H M. destruct (is_non_gate name).
    - destruct (get_non_gate_param_types_with_param_count name (List.length ps)); [exact (params_loop_machine _ _ _ _ H M)|].
      destruct (Nat.eqb (List.length ps) 0); [injection H as <-; constructor|discriminate].
    - apply bind_ok_inv in H. destruct H as (spec & _ & H). destruct spec as [spec|].
      + destruct (negb _); [discriminate|exact (params_loop_machine _ _ _ _ H M)].
      + destruct (Nat.eqb (List.length ps) 0); [injection H as <-; constructor|discriminate].
  Qed.
  Lemma gate_machine g : forall sg log, Forall machine_literals (gate_exprs g) -> visit_gate st g = (Ok sg, log) -> Forall machine_value (gate_values sg).
  Proof.
    induction g as [l n ps an|l n g ps an IH] using gate_ind_full; intros sg log M H; rewrite visit_gate_unfold in H; apply log_context_ok in H.
    all: apply lbind_ok in H; destruct H as (i & e1 & e2 & E1 & H & _).
    all: apply lbind_ok in H; destruct H as (vs & e3 & e4 & E2 & H & _).
    all: apply lbind_ok in H; destruct H as (ws & e5 & e6 & E3 & H & _).
    all: apply lbind_ok in H; destruct H as (u & e7 & e8 & E4 & H & _).
    all: apply lbind_ok in H; destruct H as (ans & e9 & e10 & E5 & H & _).
    all: apply lift_ok in H; destruct H as [H _]; injection H as <-; apply lift_ok in E2; destruct E2 as [E2 _]; apply lift_ok in E3; destruct E3 as [E3 _].
    all: cbn [gate_exprs] in M; cbn [gate_values].
    - cbn [app] in M. apply Forall_app in M. destruct M as [Mp Ma]. apply lift_ok in E1. destruct E1 as [E1 _]. injection E1 as <-. cbn [app].
      apply Forall_app. split; [|exact (annotated_machine _ _ _ Ma E5)]. exact (parameters_machine _ _ _ E3 (visit_list_machine _ _ Mp E2)).
    - apply Forall_app in M. destruct M as [Mg M]. apply Forall_app in M. destruct M as [Mp Ma].
      apply lbind_ok in E1. destruct E1 as (sg' & e11 & e12 & E1 & H & _). apply lift_ok in H. destruct H as [H _]. injection H as <-.
      apply Forall_app. split; [exact (IH _ _ Mg E1)|].
      apply Forall_app. split; [|exact (annotated_machine _ _ _ Ma E5)]. exact (parameters_machine _ _ _ E3 (visit_list_machine _ _ Mp E2)).
  Qed.
End Libm.

(** ** Statements *)

Definition scope_values (s : scope) : list value :=
  (map snd (sc_variables_table s) ++ flat_map statement_values (blk_statements (sc_block s)) ++
   flat_map (fun v => VVar (sv_var v) :: annotation_values (sv_annots v)) (sc_variables s))%list.
Definition machine_state (st : analyzer) : Prop := Forall (fun s => Forall machine_value (scope_values s)) (scopes st).

Lemma machine_variables st n v : machine_state st -> resolve_variable st n = Ok v -> machine_value v.
Proof.
  unfold machine_state, resolve_variable. induction 1 as [|s l Hs _ IH]; cbn [resolve_variable_in]; [discriminate|].
  unfold variable_resolve. destruct (table_find n (sc_variables_table s)) as [w|] eqn:E; [|exact IH]. intros [= ->]. clear IH.
  unfold scope_values in Hs. apply Forall_app in Hs. destruct Hs as [Hs _].
  induction (sc_variables_table s) as [|[m a] t IH]; [discriminate|]. cbn in E. inversion Hs; subst.
  destruct (m =? n); [injection E as ->; assumption|apply IH; assumption].
Qed.
Lemma machine_declared t ty id n : declares_type t ty -> (forall z, ty_size t = Some z -> fits z) -> machine_value (VVar (mkVariable id n ty)).
Proof.
  intros D F. unfold fits in F. destruct D; cbn [machine_value var_type tsize ty_size] in *; try (specialize (F _ eq_refl)); lia.
Qed.
Lemma Forall_swap {A} (P : A -> Prop) a b : Forall P a -> Forall P b -> Forall P (a ++ b)%list.
Proof. intros. apply Forall_app. now split. Qed.
Lemma scope_entry n v s : Forall machine_value (scope_values s) -> machine_value v -> Forall machine_value (scope_values (with_entry n v s)).
Proof.
  unfold scope_values, with_entry. cbn. intros H M. apply Forall_app in H. destruct H as [H1 H2]. apply Forall_swap; [|exact H2].
  rewrite ?map_app. try (apply Forall_swap; [exact H1|]); repeat constructor; assumption.
Qed.
Lemma scope_variable x s : Forall machine_value (scope_values s) -> machine_value (VVar (sv_var x)) -> Forall machine_value (annotation_values (sv_annots x)) ->
  Forall machine_value (scope_values (with_variable x s)).
Proof.
  unfold scope_values, with_variable. cbn. intros H M A. apply Forall_app in H. destruct H as [H1 H2]. apply Forall_app in H2. destruct H2 as [H2 H3].
  apply Forall_swap; [exact H1|]. apply Forall_swap; [exact H2|]. rewrite flat_map_app. apply Forall_swap; [exact H3|]. cbn. rewrite app_nil_r. now constructor.
Qed.
Lemma scope_statement x s : Forall machine_value (scope_values s) -> Forall machine_value (statement_values x) -> Forall machine_value (scope_values (with_statement x s)).
Proof.
  unfold scope_values, with_statement, block_add. cbn. intros H M. apply Forall_app in H. destruct H as [H1 H2]. apply Forall_app in H2. destruct H2 as [H2 H3].
  apply Forall_swap; [exact H1|]. apply Forall_swap; [|exact H3]. rewrite flat_map_app. apply Forall_swap; [exact H2|]. cbn. now rewrite app_nil_r.
Qed.
Lemma machine_map f st : machine_state st -> (forall s, Forall machine_value (scope_values s) -> Forall machine_value (scope_values (f s))) -> machine_state (map_current f st).
Proof. unfold machine_state. rewrite map_current_scopes. intros H F. destruct (scopes st); [exact H|]. inversion H; subst. constructor; auto. Qed.

Lemma machine_effect lm st s st' es : machine_libm lm -> ordinary lm st -> effect st s st' es -> machine_statement s -> machine_state st -> machine_state st'.
Proof.
  intros Hlm Ho H [Me Mt] M. pose proof (proj1 Ho) as Hf.
  assert (Hv : forall n v, resolve_variable st n = Ok v -> machine_value v) by (intros n v; now apply machine_variables).
  destruct H as [l n t an e N Le|l n t an ty ans es D A Ns Ni|l n t an ty ans es e D A Ns Ni Le|l g ops an sg es1 vs i ws ans es2 G V R C A Ns
    |l n ops ps an vs i ws pvs pws ans es V R P RP C A Ns|l n c an ans es A Ns|l s e es El Pl Nv]; cbn [statement_exprs] in Me.
  - exact M.
  - assert (Ma : Forall machine_value (annotation_values ans)) by (apply (annotated_machine lm Hlm (fresh st) Hf Hv an ans es Me A)).
    apply machine_map; [exact M|]. intros s Hs. apply scope_entry; [apply scope_variable; [exact Hs| |exact Ma]|]; apply (machine_declared t ty _ _ D Mt).
  - assert (Ma : Forall machine_value (annotation_values ans)) by (apply (annotated_machine lm Hlm (fresh st) Hf Hv an ans es Me A)).
    apply machine_map; [exact M|]. intros s Hs. apply scope_variable; [exact Hs| |exact Ma]; apply (machine_declared t ty _ _ D Mt).
  - apply Forall_app in Me. destruct Me as [Mg Me]. apply Forall_app in Me. destruct Me as [Mo Ma].
    apply machine_map; [exact M|]. intros s Hs. apply scope_statement; [exact Hs|]. cbn [statement_values].
    apply Forall_swap; [exact (gate_machine lm Hlm st Hf Hv _ _ _ Mg G)|]. apply Forall_swap; [|exact (annotated_machine lm Hlm st Hf Hv _ _ _ Ma A)].
    exact (resolve_instruction_machine _ _ _ _ R (visit_list_machine lm Hlm st Hf Hv _ _ Mo V)).
  - apply Forall_app in Me. destruct Me as [Mo Me]. apply Forall_app in Me. destruct Me as [Mp Ma].
    apply machine_map; [exact M|]. intros s Hs. apply scope_statement; [exact Hs|]. cbn [statement_values].
    apply Forall_swap; [exact (resolve_instruction_machine _ _ _ _ R (visit_list_machine lm Hlm st Hf Hv _ _ Mo V))|].
    apply Forall_swap; [|exact (annotated_machine lm Hlm st Hf Hv _ _ _ Ma A)].
    exact (parameters_machine _ _ _ RP (visit_list_machine lm Hlm st Hf Hv _ _ Mp P)).
  - apply machine_map; [exact M|]. intros s Hs. apply scope_statement; [exact Hs|]. exact (annotated_machine lm Hlm st Hf Hv _ _ _ Me A).
  - exact M.
Qed.
Lemma machine_run lm st ss st' es : machine_libm lm -> block_run st ss st' es -> ordinary lm st -> Forall machine_statement ss -> machine_state st -> machine_state st'.
Proof.
  intros Hlm. induction 1 as [|st s st1 es1 ss st2 es2 V R IH]; intros Ho Ms M; [exact M|]. inversion Ms; subst. apply statement_effect in V. apply IH.
  - eapply ordinary_extends; [exact Ho|]. eapply effect_extends, V.
  - assumption.
  - eapply machine_effect; eauto.
Qed.
Lemma machine_analyze lm st p st' r : machine_libm lm -> ordinary lm st -> analyze_ast st p = Ok (st', r) -> machine_program p -> machine_state st ->
  machine_state st' /\ forall q, res_root r = Some q -> Forall machine_value (result_values q).
Proof.
  intros Hlm Ho E Mp M. destruct (analyze_ast_inv _ _ _ _ E) as (v & es1 & es2 & s & rest & _ & R & Sc & -> & _).
  assert (M' : machine_state st') by exact (machine_run lm _ _ _ _ Hlm R Ho Mp M). split; [exact M'|]. intros q [= <-].
  unfold machine_state in M'. rewrite Sc in M'. inversion M' as [|? ? H _]; subst. unfold scope_values in H. apply Forall_app in H. exact (proj2 H).
Qed.
Lemma default_machine_state lm v : machine_state (mkAnalyzer v [default_scope lm] 0).
Proof. constructor; [|constructor]. repeat (apply Forall_cons; [first [exact I|reflexivity]|]). apply Forall_nil. Qed.
Lemma has_analysed_machine lm api ps st : machine_libm lm -> has_analysed lm api ps st -> Forall machine_program ps -> ordinary lm st /\ machine_state st.
Proof.
  intros Hlm. induction 1 as [st D|ps st p st' r _ IH E]; intros Mp.
  - split; [exact (default_ordinary _ _ _ D)|]. destruct (default_analyzer_inv _ _ _ D) as (v & _ & _ & ->). apply default_machine_state.
  - apply Forall_app in Mp. destruct Mp as [M1 M2]. inversion M2; subst. destruct (IH M1) as [Ho M].
    split; [exact (ordinary_analyze _ _ _ _ _ Ho E)|]. exact (proj1 (machine_analyze lm _ _ _ _ Hlm Ho E ltac:(assumption) M)).
Qed.
Lemma result_machine lm api ps st p st' r q : machine_libm lm -> has_analysed lm api ps st -> Forall machine_program ps -> machine_program p ->
  analyze_ast st p = Ok (st', r) -> res_root r = Some q -> Forall machine_value (result_values q).
Proof.
  intros Hlm H Ms Mp E Hq. destruct (has_analysed_machine lm api ps st Hlm H Ms) as [Ho M]. exact (proj2 (machine_analyze lm _ _ _ _ Hlm Ho E Mp M) q Hq).
Qed.
