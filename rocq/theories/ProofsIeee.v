(** The float operations of the model are those of IEEE 754, through Flocq. *)
From Coq Require Import Reals SpecFloat ZArith Lia Lra.
From Flocq Require Import Core Calc.Round IEEE754.BinarySingleNaN.
From Verif Require Import Base ModelError ModelTypes ModelAst SpecTypes SpecFunctions ProofsFloat.
Local Open Scope Z_scope.

Notation double := (binary_float 53 1024).

Lemma binary_normalize_ne m e s :
  SpecFloat.binary_normalize 53 1024 m e s = B2SF (BinarySingleNaN.binary_normalize 53 1024 Hprec Hpe mode_NE m e s).
Proof.
  destruct m as [|p|p]; cbn; [reflexivity|..]; rewrite B2SF_SF2B; apply binary_round_ne.
Qed.

Lemma SFadd_Bplus (x y : double) : SFadd 53 1024 (B2SF x) (B2SF y) = B2SF (Bplus mode_NE x y).
Proof.
  destruct x as [sx|sx| |sx mx ex Bx], y as [sy|sy| |sy my ey By]; try reflexivity;
    try (cbn; now destruct (Bool.eqb _ _)).
  apply binary_normalize_ne.
Qed.
Lemma SFsub_Bminus (x y : double) : SFsub 53 1024 (B2SF x) (B2SF y) = B2SF (Bminus mode_NE x y).
Proof.
  destruct x as [sx|sx| |sx mx ex Bx], y as [sy|sy| |sy my ey By]; try reflexivity;
    try (cbn; now destruct (Bool.eqb _ _)).
  cbn. unfold Zminus. rewrite <- cond_Zopp_negb. apply binary_normalize_ne.
Qed.
Lemma SFmul_Bmult (x y : double) : SFmul 53 1024 (B2SF x) (B2SF y) = B2SF (Bmult mode_NE x y).
Proof.
  destruct x as [sx|sx| |sx mx ex Bx], y as [sy|sy| |sy my ey By]; try reflexivity.
  cbn. rewrite B2SF_SF2B. apply binary_round_aux_ne.
Qed.
Lemma SFdiv_Bdiv (x y : double) : SFdiv 53 1024 (B2SF x) (B2SF y) = B2SF (Bdiv mode_NE x y).
Proof.
  destruct x as [sx|sx| |sx mx ex Bx], y as [sy|sy| |sy my ey By]; try reflexivity.
  cbn. rewrite B2SF_SF2B. destruct (SFdiv_core_binary _ _ _ _ _ _) as [[mz ez] lz]. apply binary_round_aux_ne.
Qed.
Lemma SFsqrt_Bsqrt (x : double) : SFsqrt 53 1024 (B2SF x) = B2SF (Bsqrt mode_NE x).
Proof.
  destruct x as [sx|[|]| |[|] mx ex Bx]; try reflexivity.
  cbn. rewrite B2SF_SF2B. destruct (SFsqrt_core_binary _ _ _ _) as [[mz ez] lz]. apply binary_round_aux_ne.
Qed.

Lemma valid_double_B f : valid_double f -> exists x : double, B2SF x = f.
Proof. intros H. exists (SF2B f H). apply B2SF_SF2B. Qed.
Lemma finite_double_B f : finite_double f -> exists x : double, B2SF x = f /\ is_finite x = true /\ B2R x = real_of f.
Proof.
  intros [V Fi]. exists (SF2B f V). rewrite B2SF_SF2B, is_finite_SF2B, B2R_SF2B. auto.
Qed.
Lemma finite_B (x : double) : is_finite x = true -> finite_double (B2SF x).
Proof. intros H. split; [apply valid_binary_B2SF|now rewrite is_finite_SF_B2SF]. Qed.
Lemma real_of_B (x : double) : real_of (B2SF x) = B2R x.
Proof. unfold real_of. now destruct x. Qed.

Lemma sign_true (x : double) : is_finite x = true -> Bsign x = true -> (B2R x <= 0)%R.
Proof. destruct x as [s|s| |s m e B]; try easy; cbn; intros _ ->; [lra|]. apply F2R_le_0. cbn. lia. Qed.
Lemma sign_false (x : double) : is_finite x = true -> Bsign x = false -> (0 <= B2R x)%R.
Proof. destruct x as [s|s| |s m e B]; try easy; cbn; intros _ ->; [lra|]. apply F2R_ge_0. cbn. lia. Qed.

Lemma pow1024 : bpow radix2 1024 = (2 ^ 1024)%R.
Proof. change 1024 with (Z.of_nat 1024) at 1. rewrite bpow_powerRZ. cbn [radix_val radix2]. now rewrite <- pow_powerRZ. Qed.

Lemma nearest_0 : nearest_double 0 = 0%R.
Proof. unfold nearest_double. apply round_0. apply valid_rnd_N. Qed.

(** Packaging: from the conclusion of a Flocq theorem to [rounds_to]. *)
Lemma rounds_to_of (z : double) x s :
  (if Rlt_bool (Rabs (nearest_double x)) (bpow radix2 1024)
   then B2R z = nearest_double x /\ is_finite z = true
   else B2SF z = S754_infinity s /\ (s = true -> (x <= 0)%R) /\ (s = false -> (0 <= x)%R)) ->
  rounds_to (B2SF z) x.
Proof.
  destruct (Rlt_bool_spec (Rabs (nearest_double x)) (bpow radix2 1024)) as [H|H]; rewrite pow1024 in H.
  - intros [E Fi]. left. repeat split; auto; try apply (finite_B z Fi). now rewrite real_of_B.
  - intros (E & Ht & Hf). right. split; [exact H|].
    assert (N : x <> 0%R).
    { intros ->. rewrite nearest_0, Rabs_R0 in H. assert (0 < 2 ^ 1024)%R by (apply pow_lt; lra). lra. }
    destruct s; [left|right]; (split; [|exact E]).
    + specialize (Ht eq_refl). lra.
    + specialize (Hf eq_refl). lra.
Qed.

Lemma fadd_correct a b : finite_double a -> finite_double b -> rounds_to (SFadd 53 1024 a b) (real_of a + real_of b).
Proof.
  intros Ha Hb. destruct (finite_double_B a Ha) as (x & <- & Fx & <-), (finite_double_B b Hb) as (y & <- & Fy & <-).
  rewrite SFadd_Bplus. apply rounds_to_of with (s := Bsign x).
  pose proof (Bplus_correct 53 1024 Hprec Hpe mode_NE x y Fx Fy) as H.
  change (round radix2 (SpecFloat.fexp 53 1024) (round_mode mode_NE)) with nearest_double in H.
  destruct (Rlt_bool _ _); [tauto|]. destruct H as [H S]. split; [exact H|]. split; intros E.
  - pose proof (sign_true x Fx E). rewrite S in E. pose proof (sign_true y Fy E). lra.
  - pose proof (sign_false x Fx E). rewrite S in E. pose proof (sign_false y Fy E). lra.
Qed.
Lemma fsub_correct a b : finite_double a -> finite_double b -> rounds_to (SFsub 53 1024 a b) (real_of a - real_of b).
Proof.
  intros Ha Hb. destruct (finite_double_B a Ha) as (x & <- & Fx & <-), (finite_double_B b Hb) as (y & <- & Fy & <-).
  rewrite SFsub_Bminus. apply rounds_to_of with (s := Bsign x).
  pose proof (Bminus_correct 53 1024 Hprec Hpe mode_NE x y Fx Fy) as H.
  change (round radix2 (SpecFloat.fexp 53 1024) (round_mode mode_NE)) with nearest_double in H.
  destruct (Rlt_bool _ _); [tauto|]. destruct H as [H S]. split; [exact H|]. split; intros E.
  - pose proof (sign_true x Fx E). rewrite S in E. pose proof (sign_false y Fy ltac:(now destruct (Bsign y))). lra.
  - pose proof (sign_false x Fx E). rewrite S in E. pose proof (sign_true y Fy ltac:(now destruct (Bsign y))). lra.
Qed.
Lemma fmul_correct a b : finite_double a -> finite_double b -> rounds_to (SFmul 53 1024 a b) (real_of a * real_of b).
Proof.
  intros Ha Hb. destruct (finite_double_B a Ha) as (x & <- & Fx & <-), (finite_double_B b Hb) as (y & <- & Fy & <-).
  rewrite SFmul_Bmult. apply rounds_to_of with (s := xorb (Bsign x) (Bsign y)).
  pose proof (Bmult_correct 53 1024 Hprec Hpe mode_NE x y) as H.
  change (round radix2 (SpecFloat.fexp 53 1024) (round_mode mode_NE)) with nearest_double in H.
  destruct (Rlt_bool _ _).
  - destruct H as (H1 & H2 & _). rewrite Fx, Fy in H2. auto.
  - split; [exact H|]. destruct (Bsign x) eqn:Sx, (Bsign y) eqn:Sy; cbn; split; intros E; try discriminate;
      try pose proof (sign_true x Fx Sx); try pose proof (sign_false x Fx Sx);
      try pose proof (sign_true y Fy Sy); try pose proof (sign_false y Fy Sy); nra.
Qed.
Lemma fdiv_correct a b : finite_double a -> finite_double b -> real_of b <> 0%R ->
  rounds_to (SFdiv 53 1024 a b) (real_of a / real_of b).
Proof.
  intros Ha Hb. destruct (finite_double_B a Ha) as (x & <- & Fx & <-), (finite_double_B b Hb) as (y & <- & Fy & <-).
  intros Ny. rewrite SFdiv_Bdiv. apply rounds_to_of with (s := xorb (Bsign x) (Bsign y)).
  pose proof (Bdiv_correct 53 1024 Hprec Hpe mode_NE x y Ny) as H.
  change (round radix2 (SpecFloat.fexp 53 1024) (round_mode mode_NE)) with nearest_double in H.
  destruct (Rlt_bool _ _).
  - destruct H as (H1 & H2 & _). rewrite Fx in H2. auto.
  - split; [exact H|]. unfold Rdiv.
    assert (Iy : (Bsign y = true -> / B2R y < 0)%R).
    { intros S. pose proof (sign_true y Fy S). apply Rinv_lt_0_compat. lra. }
    assert (Jy : (Bsign y = false -> 0 < / B2R y)%R).
    { intros S. pose proof (sign_false y Fy S). apply Rinv_0_lt_compat. lra. }
    destruct (Bsign x) eqn:Sx, (Bsign y) eqn:Sy; cbn; split; intros E; try discriminate;
      try pose proof (sign_true x Fx Sx); try pose proof (sign_false x Fx Sx);
      try specialize (Iy eq_refl); try specialize (Jy eq_refl); nra.
Qed.
Lemma fsqrt_correct a : finite_double a -> (0 <= real_of a)%R ->
  finite_double (SFsqrt 53 1024 a) /\ real_of (SFsqrt 53 1024 a) = nearest_double (sqrt (real_of a)).
Proof.
  intros Ha. destruct (finite_double_B a Ha) as (x & <- & Fx & <-). intros P.
  rewrite SFsqrt_Bsqrt. destruct (Bsqrt_correct 53 1024 Hprec Hpe mode_NE x) as (H1 & H2 & _).
  split; [|now rewrite real_of_B].
  apply finite_B. rewrite H2. destruct x as [s|s| |[|] m e B]; try easy.
  exfalso. cbn in P. assert (N : (F2R (Float radix2 (Z.neg m) e) < 0)%R) by (apply F2R_lt_0; reflexivity). 
  cbn in N. lra.
Qed.
Lemma fopp_correct a : finite_double a -> finite_double (SFopp a) /\ real_of (SFopp a) = (- real_of a)%R.
Proof.
  intros [V Fi]. destruct a as [s|s| |s m e]; try discriminate; (split; [split; [exact V|reflexivity]|]); cbn.
  - lra.
  - unfold real_of. cbn. rewrite <- F2R_Zopp. now destruct s.
Qed.
Lemma fabs_correct a : finite_double a -> finite_double (SFabs a) /\ real_of (SFabs a) = Rabs (real_of a).
Proof.
  intros [V Fi]. destruct a as [s|s| |s m e]; try discriminate; (split; [split; [exact V|reflexivity]|]); cbn.
  - now rewrite Rabs_R0.
  - unfold real_of. cbn. rewrite <- F2R_Zabs. now destruct s.
Qed.

(** ** Comparisons *)
Lemma compare_spec a b : valid_double a -> valid_double b ->
  match SFcompare a b with
  | None => extended_of a = None \/ extended_of b = None
  | Some c => exists x y, extended_of a = Some x /\ extended_of b = Some y /\
      match c with Eq => x = y | Lt => extended_lt x y | Gt => extended_lt y x end
  end.
Proof.
  intros Va Vb. destruct (valid_double_B a Va) as [x <-], (valid_double_B b Vb) as [y <-].
  destruct (is_finite x) eqn:Fx; [destruct (is_finite y) eqn:Fy|].
  - pose proof (Bcompare_correct 53 1024 x y Fx Fy) as H. unfold Bcompare in H. rewrite H.
    exists (Finite (B2R x)), (Finite (B2R y)).
    rewrite <- !real_of_B. split; [now destruct x|]. split; [now destruct y|].
    destruct (Rcompare_spec (real_of (B2SF x)) (real_of (B2SF y))) as [L|E|G]; cbn; [exact L|congruence|exact G].
  - destruct y as [sy|sy| |sy my ey By]; try discriminate.
    + destruct x as [sx|sx| |sx mx ex Bx]; try discriminate; cbn; destruct sy; eexists _, _; repeat split.
    + destruct x as [sx|sx| |sx mx ex Bx]; try discriminate; cbn; auto.
  - destruct x as [sx|sx| |sx mx ex Bx]; try discriminate; cbn.
    + destruct sx, y as [sy|[|]| |sy my ey By]; cbn; auto; eexists _, _; repeat split.
    + now left.
Qed.

Definition float_cmp (op : binop) : option (float -> float -> bool) :=
  match op with
  | BEq => Some SFeqb | BLt => Some SFltb | BLe => Some SFleb
  | BGt => Some (fun a b => SFltb b a) | BGe => Some (fun a b => SFleb b a) | _ => None
  end.
Lemma extended_lt_irrefl x : ~ extended_lt x x.
Proof. destruct x; cbn; lra. Qed.
Lemma extended_lt_asym x y : extended_lt x y -> extended_lt y x -> False.
Proof. destruct x, y; cbn; lra. Qed.
Lemma float_cmp_spec op f a b : float_cmp op = Some f -> valid_double a -> valid_double b ->
  (f a b = true <-> float_compares op a b).
Proof.
  intros Hf Va Vb. unfold float_compares.
  assert (E : forall a b, SFeqb a b = match SFcompare a b with Some Eq => true | _ => false end) by reflexivity.
  assert (L : forall a b, SFltb a b = match SFcompare a b with Some Lt => true | _ => false end) by reflexivity.
  assert (M : forall a b, SFleb a b = match SFcompare a b with Some Lt | Some Eq => true | _ => false end) by reflexivity.
  pose proof (compare_spec a b Va Vb) as H1. pose proof (compare_spec b a Vb Va) as H2.
  destruct op; try discriminate; injection Hf as <-; rewrite ?E, ?L, ?M; clear E L M.
  - (* gt *) clear H1. destruct (SFcompare b a) as [[]|].
    + destruct H2 as (x & y & Hx & Hy & R). split; [discriminate|]. intros (x' & y' & Hx' & Hy' & C).
      inversion C; subst. replace x' with y' in * by congruence. now apply extended_lt_irrefl in H.
    + destruct H2 as (x & y & Hx & Hy & R). split; [|auto]. intros _. exists y, x. repeat split; auto. now constructor.
    + destruct H2 as (x & y & Hx & Hy & R). split; [discriminate|]. intros (x' & y' & Hx' & Hy' & C).
      inversion C; subst. replace x' with y in * by congruence. replace y' with x in * by congruence. exfalso. eapply extended_lt_asym; eauto.
    + split; [discriminate|]. intros (x' & y' & Hx' & Hy' & C). destruct H2; congruence.
  - (* lt *) clear H2. destruct (SFcompare a b) as [[]|].
    + destruct H1 as (x & y & Hx & Hy & R). split; [discriminate|]. intros (x' & y' & Hx' & Hy' & C).
      inversion C; subst. replace x' with y' in * by congruence. now apply extended_lt_irrefl in H.
    + destruct H1 as (x & y & Hx & Hy & R). split; [|auto]. intros _. exists x, y. repeat split; auto. now constructor.
    + destruct H1 as (x & y & Hx & Hy & R). split; [discriminate|]. intros (x' & y' & Hx' & Hy' & C).
      inversion C; subst. replace x' with x in * by congruence. replace y' with y in * by congruence. exfalso. eapply extended_lt_asym; eauto.
    + split; [discriminate|]. intros (x' & y' & Hx' & Hy' & C). destruct H1; congruence.
  - (* ge *) clear H1. destruct (SFcompare b a) as [[]|].
    + destruct H2 as (x & y & Hx & Hy & R). split; [|auto]. intros _. exists y, x. repeat split; auto. constructor. auto.
    + destruct H2 as (x & y & Hx & Hy & R). split; [|auto]. intros _. exists y, x. repeat split; auto. constructor. auto.
    + destruct H2 as (x & y & Hx & Hy & R). split; [discriminate|]. intros (x' & y' & Hx' & Hy' & C).
      inversion C; subst. replace x' with y in * by congruence. replace y' with x in * by congruence. exfalso.
      destruct H as [H| ->]; [eapply extended_lt_asym; eauto|eapply extended_lt_irrefl; eauto].
    + split; [discriminate|]. intros (x' & y' & Hx' & Hy' & C). destruct H2; congruence.
  - (* le *) clear H2. destruct (SFcompare a b) as [[]|].
    + destruct H1 as (x & y & Hx & Hy & R). split; [|auto]. intros _. exists x, y. repeat split; auto. constructor. auto.
    + destruct H1 as (x & y & Hx & Hy & R). split; [|auto]. intros _. exists x, y. repeat split; auto. constructor. auto.
    + destruct H1 as (x & y & Hx & Hy & R). split; [discriminate|]. intros (x' & y' & Hx' & Hy' & C).
      inversion C; subst. replace x' with x in * by congruence. replace y' with y in * by congruence. exfalso.
      destruct H as [H| ->]; [eapply extended_lt_asym; eauto|eapply extended_lt_irrefl; eauto].
    + split; [discriminate|]. intros (x' & y' & Hx' & Hy' & C). destruct H1; congruence.
  - (* eq *) clear H2. destruct (SFcompare a b) as [[]|].
    + destruct H1 as (x & y & Hx & Hy & ->). split; [|auto]. intros _. exists y, y. repeat split; auto. constructor.
    + destruct H1 as (x & y & Hx & Hy & R). split; [discriminate|]. intros (x' & y' & Hx' & Hy' & C).
      inversion C; subst. replace x with y in * by congruence. now apply extended_lt_irrefl in R.
    + destruct H1 as (x & y & Hx & Hy & R). split; [discriminate|]. intros (x' & y' & Hx' & Hy' & C).
      inversion C; subst. replace x with y in * by congruence. now apply extended_lt_irrefl in R.
    + split; [discriminate|]. intros (x' & y' & Hx' & Hy' & C). destruct H1; congruence.
Qed.
