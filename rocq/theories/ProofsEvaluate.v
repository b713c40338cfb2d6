(** The arithmetic of the model is the IEEE 754 arithmetic of SpecEvaluate. *)
From Coq Require Import Reals SpecFloat ZArith Lia Lra.
From Flocq Require Import Core Calc.Round IEEE754.BinarySingleNaN.
From Verif Require Import Base ModelError ModelTypes ModelFunctions ModelAst SpecTypes SpecFunctions SpecEvaluate ProofsFloat ProofsIeee.
Local Open Scope Z_scope.

Lemma negative_B (x : double) : negative (B2SF x) = Bsign x.
Proof. destruct x; reflexivity. Qed.
Lemma double_unique f g : finite_double f -> finite_double g -> real_of f = real_of g -> negative f = negative g -> f = g.
Proof.
  intros Hf Hg. destruct (finite_double_B f Hf) as (x & <- & Fx & <-), (finite_double_B g Hg) as (y & <- & Fy & <-). intros R S.
  rewrite !negative_B in S. f_equal. now apply B2R_Bsign_inj.
Qed.
Lemma rounded_unique f g x z : rounded f x z -> rounded g x z -> f = g.
Proof.
  intros (Rf & Lf & Gf & Zf) (Rg & Lg & Gg & Zg).
  assert (S : negative f = negative g).
  { destruct (Rtotal_order x 0) as [L|[E|G]]; [now rewrite Lf, Lg|now rewrite Zf, Zg|now rewrite Gf, Gg]. }
  destruct Rf as [(B & Ff & Ef)|(B & Cf)], Rg as [(B' & Fg & Eg)|(B' & Cg)]; try lra.
  - apply double_unique; auto. congruence.
  - destruct Cf as [[? ->]|[? ->]], Cg as [[? ->]|[? ->]]; try lra; reflexivity.
Qed.
Lemma zero_real f : finite_double f -> (zero f <-> real_of f = 0%R).
Proof.
  intros F. destruct (finite_double_B f F) as (x & <- & Fx & <-). split.
  - intros [s E]. destruct x; try discriminate. reflexivity.
  - destruct x as [s|s| |s m e B]; try discriminate; intros E; [now exists s|]. exfalso. cbn in E. apply eq_0_F2R in E. now destruct s.
Qed.
Lemma finite_cases f : valid_double f -> finite_double f \/ (exists s, f = S754_infinity s) \/ f = S754_nan.
Proof. intros V. destruct f as [s|s| |s m e]; [left; split; auto|right; left; eauto|now right; right|left; split; auto]. Qed.
Lemma negative_sign f : finite_double f -> ((real_of f < 0)%R -> negative f = true) /\ ((0 < real_of f)%R -> negative f = false).
Proof.
  intros F. destruct (finite_double_B f F) as (x & <- & Fx & <-). rewrite negative_B. split; intros L.
  - destruct (Bsign x) eqn:S; [reflexivity|]. pose proof (sign_false x Fx S). lra.
  - destruct (Bsign x) eqn:S; [|reflexivity]. pose proof (sign_true x Fx S). lra.
Qed.
Lemma nearest_neg x : (x <= 0)%R -> (nearest_double x <= 0)%R.
Proof. intros H. rewrite <- nearest_0. unfold nearest_double. apply round_le; auto with typeclass_instances. Qed.
Lemma nearest_pos x : (0 <= x)%R -> (0 <= nearest_double x)%R.
Proof. intros H. rewrite <- nearest_0. unfold nearest_double. apply round_le; auto with typeclass_instances. Qed.

(** Infinite results have the right sign anyway. *)
Lemma infinite_sign f x : rounds_to f x -> is_finite_SF f = false -> ((x < 0)%R -> negative f = true) /\ ((0 < x)%R -> negative f = false) /\ x <> 0%R.
Proof.
  intros [(_ & [_ F] & _)|(_ & [[L ->]|[G ->]])] N; [congruence|..]; cbn; repeat split; intros; try lra; reflexivity.
Qed.

Lemma round_pack f x z : rounds_to f x ->
  (is_finite_SF f = true -> negative f = match Rcompare x 0 with Eq => z | Lt => true | Gt => false end) -> rounded f x z.
Proof.
  intros R S. split; [exact R|]. destruct (is_finite_SF f) eqn:F.
  - specialize (S eq_refl). rewrite S. destruct (Rcompare_spec x 0); repeat split; intros; try lra; reflexivity.
  - destruct (infinite_sign f x R F) as (A & B & C). repeat split; auto. intros E. contradiction.
Qed.

Lemma fadd_rounded a b : finite_double a -> finite_double b -> rounded (SFadd 53 1024 a b) (real_of a + real_of b) (negative a && negative b).
Proof.
  intros Ha Hb. apply round_pack; [now apply fadd_correct|]. intros Fin.
  destruct (finite_double_B a Ha) as (x & <- & Fx & <-), (finite_double_B b Hb) as (y & <- & Fy & <-).
  rewrite SFadd_Bplus in *. rewrite is_finite_SF_B2SF in Fin. rewrite !negative_B.
  pose proof (Bplus_correct 53 1024 Hprec Hpe mode_NE x y Fx Fy) as H. destruct (Rlt_bool _ _).
  - destruct H as (_ & _ & ->). destruct (Rcompare _ _); reflexivity.
  - destruct H as [H _]. destruct (Bplus mode_NE x y); discriminate.
Qed.
Lemma fsub_rounded a b : finite_double a -> finite_double b -> rounded (SFsub 53 1024 a b) (real_of a - real_of b) (negative a && negb (negative b)).
Proof.
  intros Ha Hb. apply round_pack; [now apply fsub_correct|]. intros Fin.
  destruct (finite_double_B a Ha) as (x & <- & Fx & <-), (finite_double_B b Hb) as (y & <- & Fy & <-).
  rewrite SFsub_Bminus in *. rewrite is_finite_SF_B2SF in Fin. rewrite !negative_B.
  pose proof (Bminus_correct 53 1024 Hprec Hpe mode_NE x y Fx Fy) as H. destruct (Rlt_bool _ _).
  - destruct H as (_ & _ & ->). destruct (Rcompare _ _); reflexivity.
  - destruct H as [H _]. destruct (Bminus mode_NE x y); discriminate.
Qed.
Lemma sign_product x y (sx sy : bool) : ((x < 0)%R -> sx = true) -> ((0 < x)%R -> sx = false) -> ((y < 0)%R -> sy = true) -> ((0 < y)%R -> sy = false) ->
  xorb sx sy = match Rcompare (x * y) 0 with Eq => xorb sx sy | Lt => true | Gt => false end.
Proof.
  intros A B C D. destruct (Rcompare_spec (x * y) 0) as [L|E|G]; [|reflexivity|].
  - destruct (Rtotal_order x 0) as [X|[X|X]], (Rtotal_order y 0) as [Y|[Y|Y]]; try nra; rewrite ?(A X), ?(B X), ?(C Y), ?(D Y); reflexivity.
  - destruct (Rtotal_order x 0) as [X|[X|X]], (Rtotal_order y 0) as [Y|[Y|Y]]; try nra; rewrite ?(A X), ?(B X), ?(C Y), ?(D Y); reflexivity.
Qed.
Lemma fmul_rounded a b : finite_double a -> finite_double b -> rounded (SFmul 53 1024 a b) (real_of a * real_of b) (signs_differ a b).
Proof.
  intros Ha Hb. apply round_pack; [now apply fmul_correct|]. intros Fin.
  destruct (negative_sign a Ha) as [A1 A2], (negative_sign b Hb) as [B1 B2].
  unfold signs_differ. rewrite <- (sign_product (real_of a) (real_of b) (negative a) (negative b) A1 A2 B1 B2).
  clear A1 A2 B1 B2. destruct (finite_double_B a Ha) as (x & <- & Fx & _), (finite_double_B b Hb) as (y & <- & Fy & _).
  rewrite SFmul_Bmult in *. rewrite is_finite_SF_B2SF in Fin. rewrite !negative_B.
  pose proof (Bmult_correct 53 1024 Hprec Hpe mode_NE x y) as H. destruct (Rlt_bool _ _).
  - destruct H as (_ & _ & H). apply H. now destruct (Bmult mode_NE x y).
  - exfalso. destruct (Bmult mode_NE x y); discriminate.
Qed.
Lemma fdiv_rounded a b : finite_double a -> finite_double b -> ~ zero b -> rounded (SFdiv 53 1024 a b) (real_of a / real_of b) (signs_differ a b).
Proof.
  intros Ha Hb Nz. assert (Nb : real_of b <> 0%R) by (intros E; apply Nz, zero_real; auto).
  apply round_pack; [now apply fdiv_correct|]. intros Fin.
  destruct (negative_sign a Ha) as [A1 A2], (negative_sign b Hb) as [B1 B2].
  assert (B1' : (/ real_of b < 0)%R -> negative b = true).
  { intros L. apply B1. destruct (Rtotal_order (real_of b) 0) as [X|[X|X]]; auto; [congruence|]. apply Rinv_0_lt_compat in X. lra. }
  assert (B2' : (0 < / real_of b)%R -> negative b = false).
  { intros L. apply B2. destruct (Rtotal_order (real_of b) 0) as [X|[X|X]]; auto; [|congruence]. apply Rinv_lt_0_compat in X. lra. }
  unfold Rdiv, signs_differ. rewrite <- (sign_product (real_of a) (/ real_of b) (negative a) (negative b) A1 A2 B1' B2').
  clear A1 A2 B1 B2 B1' B2' Nz.
  destruct (finite_double_B a Ha) as (x & <- & Fx & _), (finite_double_B b Hb) as (y & <- & Fy & Ey). rewrite <- Ey in Nb.
  rewrite SFdiv_Bdiv in *. rewrite is_finite_SF_B2SF in Fin. rewrite !negative_B.
  pose proof (Bdiv_correct 53 1024 Hprec Hpe mode_NE x y Nb) as H. destruct (Rlt_bool _ _).
  - destruct H as (_ & _ & H). apply H. now destruct (Bdiv mode_NE x y).
  - exfalso. destruct (Bdiv mode_NE x y); discriminate.
Qed.
Lemma fsqrt_rounded a : finite_double a -> (0 < real_of a)%R -> rounded (SFsqrt 53 1024 a) (sqrt (real_of a)) false.
Proof.
  intros Ha P. destruct (fsqrt_correct a Ha) as [F E]; [lra|]. pose proof (sqrt_lt_R0 _ P) as Q.
  assert (N : negative (SFsqrt 53 1024 a) = false).
  { destruct (negative_sign a Ha) as [_ A]. rewrite <- (A P). clear A. destruct (finite_double_B a Ha) as (x & <- & Fx & _).
    rewrite SFsqrt_Bsqrt in *. rewrite !negative_B. destruct (Bsqrt_correct 53 1024 Hprec Hpe mode_NE x) as (_ & _ & S). apply S.
    destruct F as [_ F]. rewrite is_finite_SF_B2SF in F. now destruct (Bsqrt mode_NE x). }
  split; [|repeat split; intros; try lra; exact N]. left. split; [|split; [exact F|exact E]].
  rewrite <- E. destruct F as [V F]. destruct (SFsqrt 53 1024 a) as [s|s| |s m e] eqn:X; try discriminate.
  - replace (real_of (S754_zero s)) with 0%R by reflexivity. rewrite Rabs_R0. apply pow_lt. lra.
  - rewrite <- pow1024. pose proof (abs_B2R_lt_emax 53 1024 (SF2B (S754_finite s m e) V)) as L. rewrite B2R_SF2B in L. exact L.
Qed.

(** ** The operations *)
Definition sf_op (op : binop) : option (float -> float -> float) :=
  match op with
  | BAdd => Some (SFadd 53 1024) | BSub => Some (SFsub 53 1024) | BMul => Some (SFmul 53 1024) | BDiv => Some (SFdiv 53 1024) | _ => None
  end.
Lemma opposite_involutive f : opposite (opposite f) = f.
Proof. destruct f; cbn; now rewrite ?negb_involutive. Qed.
Lemma opposite_valid f : valid_double f -> valid_double (opposite f).
Proof. destruct f; auto. Qed.
Lemma opposite_is f : opposite f = SFopp f.
Proof. destruct f; reflexivity. Qed.
Lemma magnitude_is f : magnitude f = SFabs f.
Proof. destruct f; reflexivity. Qed.
Lemma opposite_finite f : finite_double f -> finite_double (opposite f) /\ real_of (opposite f) = (- real_of f)%R /\ negative (opposite f) = negb (negative f).
Proof. intros F. rewrite opposite_is. destruct (fopp_correct f F). repeat split; auto; try apply H. destruct f as [| | |]; try reflexivity. destruct F; discriminate. Qed.
Lemma sub_opposite a b : valid_double a -> valid_double b -> SFadd 53 1024 a (opposite b) = SFsub 53 1024 a b.
Proof.
  intros Va Vb. destruct (finite_cases a Va) as [Fa|[[s ->]| ->]], (finite_cases b Vb) as [Fb|[[t ->]| ->]];
    try (destruct s, t; reflexivity); try (destruct a; reflexivity); try (destruct b; reflexivity); try reflexivity.
  - destruct (opposite_finite b Fb) as (Fo & Ro & So). eapply rounded_unique; [apply fadd_rounded; auto|]. rewrite Ro, So. apply fsub_rounded; auto.
Qed.
Lemma add_is a b c : valid_double a -> valid_double b -> (ieee BAdd a b c <-> c = SFadd 53 1024 a b).
Proof.
  intros Va Vb. split.
  - intros H. inversion H; subst; clear H.
    + destruct H1 as [-> | ->]; [reflexivity|]. destruct a; reflexivity.
    + destruct s; reflexivity.
    + destruct s; reflexivity.
    + destruct b; try reflexivity; destruct H0; discriminate.
    + destruct a; try reflexivity; destruct H0; discriminate.
    + eapply rounded_unique; [eassumption|]. now apply fadd_rounded.
  - intros ->. destruct (finite_cases a Va) as [Fa|[[s ->]| ->]], (finite_cases b Vb) as [Fb|[[t ->]| ->]].
    + apply add_finite; auto. now apply fadd_rounded.
    + replace (SFadd 53 1024 a (S754_infinity t)) with (S754_infinity t) by (destruct a; try reflexivity; destruct Fa; discriminate). now apply add_infinity_right.
    + replace (SFadd 53 1024 a S754_nan) with S754_nan by (destruct a; reflexivity). apply ieee_nan; [now left|now right].
    + replace (SFadd 53 1024 (S754_infinity s) b) with (S754_infinity s) by (destruct b; try reflexivity; destruct Fb; discriminate). now apply add_infinity_left.
    + destruct s, t; cbn; try apply add_infinities; [apply (add_opposite_infinities true)|apply (add_opposite_infinities false)].
    + apply ieee_nan; [now left|now right].
    + replace (SFadd 53 1024 S754_nan b) with S754_nan by (destruct b; reflexivity). apply ieee_nan; [now left|now left].
    + apply ieee_nan; [now left|now left].
    + apply ieee_nan; [now left|now left].
Qed.
Lemma sub_is a b c : valid_double a -> valid_double b -> (ieee BSub a b c <-> c = SFsub 53 1024 a b).
Proof.
  intros Va Vb. rewrite <- sub_opposite by assumption. rewrite <- add_is by auto using opposite_valid. split.
  - intros H. inversion H; subst; [|assumption]. apply ieee_nan; [now left|]. destruct H1 as [-> | ->]; [now left|right; reflexivity].
  - apply sub_is_add.
Qed.
Lemma mul_is a b c : valid_double a -> valid_double b -> (ieee BMul a b c <-> c = SFmul 53 1024 a b).
Proof.
  intros Va Vb. split.
  - intros H. inversion H; subst; clear H.
    + destruct H1 as [-> | ->]; [reflexivity|]. destruct a; reflexivity.
    + destruct H0 as [[[s ->] [t ->]]|[[s ->] [t ->]]]; reflexivity.
    + destruct a as [sa|sa| |sa ma ea], b as [sb|sb| |sb mb eb];
        first [congruence | reflexivity | exfalso; match goal with N : ~ zero (S754_zero ?s) |- _ => apply N; now exists s end
              | exfalso; destruct H0 as [[? Q]|[? Q]]; discriminate Q].
    + eapply rounded_unique; [eassumption|]. now apply fmul_rounded.
  - intros ->. destruct (finite_cases a Va) as [Fa|[[s ->]| ->]], (finite_cases b Vb) as [Fb|[[t ->]| ->]].
    + apply mul_finite; auto. now apply fmul_rounded.
    + destruct a as [s|s| |s m e]; try (destruct Fa; discriminate).
      * apply mul_zero_infinity. left. split; eexists; reflexivity.
      * apply (mul_infinity (S754_finite s m e) (S754_infinity t)); try discriminate; [right; eauto|intros [? ?]; discriminate..].
    + replace (SFmul 53 1024 a S754_nan) with S754_nan by (destruct a; reflexivity). apply ieee_nan; [cbn; tauto|now right].
    + destruct b as [t|t| |t m e]; try (destruct Fb; discriminate).
      * apply mul_zero_infinity. right. split; eexists; reflexivity.
      * apply (mul_infinity (S754_infinity s) (S754_finite t m e)); try discriminate; [left; eauto|intros [? ?]; discriminate..].
    + apply (mul_infinity (S754_infinity s) (S754_infinity t)); try discriminate; [left; eauto|intros [? ?]; discriminate..].
    + apply ieee_nan; [cbn; tauto|now right].
    + replace (SFmul 53 1024 S754_nan b) with S754_nan by (destruct b; reflexivity). apply ieee_nan; [cbn; tauto|now left].
    + apply ieee_nan; [cbn; tauto|now left].
    + apply ieee_nan; [cbn; tauto|now left].
Qed.
Lemma div_is a b c : valid_double a -> valid_double b -> (ieee BDiv a b c <-> c = SFdiv 53 1024 a b).
Proof.
  intros Va Vb. split.
  - intros H. inversion H; subst; clear H.
    + destruct H1 as [-> | ->]; [reflexivity|]. destruct a; reflexivity.
    + reflexivity.
    + destruct H0 as [? ->], H1 as [? ->]. reflexivity.
    + destruct b; try reflexivity; destruct H0; discriminate.
    + destruct a; try reflexivity; destruct H0; discriminate.
    + destruct H2 as [? ->]. destruct a; try reflexivity; try (destruct H0; discriminate). exfalso. apply H1. eexists. reflexivity.
    + eapply rounded_unique; [eassumption|]. now apply fdiv_rounded.
  - intros ->. destruct (finite_cases a Va) as [Fa|[[s ->]| ->]], (finite_cases b Vb) as [Fb|[[t ->]| ->]].
    + destruct b as [t|t| |t m e]; try (destruct Fb; discriminate).
      * destruct a as [s|s| |s m e]; try (destruct Fa; discriminate).
        -- apply div_zeros; eexists; reflexivity.
        -- apply (div_by_zero (S754_finite s m e) (S754_zero t)); auto; [intros [? ?]; discriminate|eexists; reflexivity].
      * apply div_finite; auto; [intros [? ?]; discriminate|]. apply fdiv_rounded; auto. intros [? ?]; discriminate.
    + replace (SFdiv 53 1024 a (S754_infinity t)) with (S754_zero (xorb (negative a) t)) by (destruct a; try reflexivity; destruct Fa; discriminate). now apply div_by_infinity.
    + replace (SFdiv 53 1024 a S754_nan) with S754_nan by (destruct a; reflexivity). apply ieee_nan; [cbn; tauto|now right].
    + replace (SFdiv 53 1024 (S754_infinity s) b) with (S754_infinity (xorb s (negative b))) by (destruct b; try reflexivity; destruct Fb; discriminate). now apply div_infinity.
    + apply div_infinities.
    + apply ieee_nan; [cbn; tauto|now right].
    + replace (SFdiv 53 1024 S754_nan b) with S754_nan by (destruct b; reflexivity). apply ieee_nan; [cbn; tauto|now left].
    + apply ieee_nan; [cbn; tauto|now left].
    + apply ieee_nan; [cbn; tauto|now left].
Qed.
Lemma ieee_is op g a b c : sf_op op = Some g -> valid_double a -> valid_double b -> (ieee op a b c <-> c = g a b).
Proof. intros G Va Vb. destruct op; try discriminate; injection G as <-; [now apply mul_is|now apply div_is|now apply add_is|now apply sub_is]. Qed.
Lemma ieee_ops op a b c : ieee op a b c -> exists g, sf_op op = Some g.
Proof. intros H. inversion H; subst; try (eexists; reflexivity). cbn in H0. destruct H0 as [<-|[<-|[<-|[<-|[]]]]]; eexists; reflexivity. Qed.
Lemma sf_op_valid op g a b : sf_op op = Some g -> valid_double a -> valid_double b -> valid_double (g a b).
Proof.
  intros G Va Vb. destruct (valid_double_B a Va) as [x <-], (valid_double_B b Vb) as [y <-].
  destruct op; try discriminate; injection G as <-; [rewrite SFmul_Bmult|rewrite SFdiv_Bdiv|rewrite SFadd_Bplus|rewrite SFsub_Bminus]; apply valid_binary_B2SF.
Qed.
Lemma positive_real s m e : finite_double (S754_finite s m e) -> (0 < real_of (S754_finite s m e))%R -> s = false.
Proof. intros F P. destruct (negative_sign _ F) as [_ A]. exact (A P). Qed.
Lemma finite_positive m e : (0 < real_of (S754_finite false m e))%R.
Proof. unfold real_of. cbn. now apply F2R_gt_0. Qed.
Lemma sqrt_is a c : valid_double a -> (ieee_sqrt a c <-> c = SFsqrt 53 1024 a).
Proof.
  intros Va. split.
  - intros H. inversion H; subst; clear H; try reflexivity.
    + destruct a as [s|s| |s m e]; cbn in H0; subst; try discriminate; try reflexivity. exfalso. apply H1. eexists. reflexivity.
    + eapply rounded_unique; [eassumption|]. now apply fsqrt_rounded.
  - intros ->. destruct a as [s|[|]| |[|] m e].
    + apply sqrt_zero.
    + apply sqrt_negative; [reflexivity|intros [? ?]; discriminate].
    + apply sqrt_infinity.
    + apply sqrt_nan.
    + apply sqrt_negative; [reflexivity|intros [? ?]; discriminate].
    + assert (F : finite_double (S754_finite false m e)) by (split; auto). pose proof (finite_positive m e).
      apply sqrt_finite; auto. now apply fsqrt_rounded.
Qed.
Lemma sqrt_valid a : valid_double a -> valid_double (SFsqrt 53 1024 a).
Proof. intros Va. destruct (valid_double_B a Va) as [x <-]. rewrite SFsqrt_Bsqrt. apply valid_binary_B2SF. Qed.

(** ** Comparisons *)
Definition sf_compare (op : binop) : option (float -> float -> bool) :=
  match op with BNe => Some (fun a b => negb (SFeqb a b)) | _ => float_cmp op end.
Lemma compare_is op g a b r : sf_compare op = Some g -> valid_double a -> valid_double b -> (double_comparison op a b r <-> r = g a b).
Proof.
  intros G Va Vb.
  assert (C : forall op g, float_cmp op = Some g -> (double_comparison op a b r <-> r = g a b)).
  { clear op g G. intros op g G. pose proof (float_cmp_spec op g a b G Va Vb) as S. split.
    - intros H. inversion H; subst; [|discriminate]. apply eq_true_iff_eq. rewrite S. assumption.
    - intros ->. apply dc_compares; [destruct op; try discriminate; cbn; tauto|exact S]. }
  destruct op; try (apply C; exact G). injection G as <-. pose proof (float_cmp_spec BEq SFeqb a b eq_refl Va Vb) as S. split.
  - intros H. inversion H as [? ? ? ? I|]; subst; [destruct I as [I|[I|[I|[I|[I|[]]]]]]; discriminate I|]. apply eq_true_iff_eq. rewrite negb_true_iff, <- not_true_iff_false, S. assumption.
  - intros ->. apply dc_differ. now rewrite negb_true_iff, <- not_true_iff_false, S.
Qed.

(** ** Conversions *)
Definition to_double (q : quantity) : float := match q with QFloat f => f | QInt z => float_of_Z z | QBool b => float_of_bool b end.
Definition quantity_fits (q : quantity) : Prop := match q with QFloat f => valid_double f | QInt z => fits z | QBool _ => True end.
Lemma float_of_Z_sign z : negative (float_of_Z z) = (z <? 0)%Z.
Proof.
  assert (N : forall f, negative f = sign_SF f) by (intros []; reflexivity).
  unfold float_of_Z, SpecFloat.binary_normalize, prec, emax. destruct z as [|p|p]; [reflexivity|..].
  - destruct (binary_round_correct_ne false p 0) as [_ C]. cbv zeta in C. cbn [cond_Zopp] in C. destruct (Rlt_bool _ _).
    + destruct C as (_ & _ & C). rewrite N. exact C.
    + now rewrite C.
  - destruct (binary_round_correct_ne true p 0) as [_ C]. cbv zeta in C. cbn [cond_Zopp] in C. destruct (Rlt_bool _ _).
    + destruct C as (_ & _ & C). rewrite N. exact C.
    + now rewrite C.
Qed.
Lemma whole_fits q z : quantity_fits q -> whole q = Some z -> fits z.
Proof. destruct q as [[|]|z'|f]; cbn; intros F [= <-]; auto; unfold fits; lia. Qed.
Lemma to_double_whole q z : whole q = Some z -> to_double q = float_of_Z z.
Proof. destruct q as [[|]|z'|f]; cbn; intros [= <-]; reflexivity. Qed.
Lemma as_double_is q f : quantity_fits q -> (as_double q f <-> f = to_double q).
Proof.
  intros Q. assert (W : forall z, whole q = Some z -> finite_double (float_of_Z z) /\ real_of (float_of_Z z) = nearest_double (IZR z)).
  { intros z E. pose proof (whole_fits q z Q E) as F. apply float_of_Z_correct. unfold fits in F. lia. }
  split.
  - intros H. inversion H; subst; [reflexivity|]. destruct (W z H0) as [F R]. rewrite (to_double_whole q z H0).
    apply double_unique; auto; [congruence|]. rewrite float_of_Z_sign. assumption.
  - intros ->. destruct (whole q) as [z|] eqn:E.
    + rewrite (to_double_whole q z E). destruct (W z eq_refl) as [F R]. apply (ad_whole q z); auto. apply float_of_Z_sign.
    + destruct q as [[|]|z'|f]; try discriminate. apply ad_float.
Qed.
Lemma to_double_valid q : quantity_fits q -> valid_double (to_double q).
Proof.
  intros Q. destruct (whole q) as [z|] eqn:E.
  - rewrite (to_double_whole q z E). pose proof (whole_fits q z Q E) as F. apply float_of_Z_correct. unfold fits in F. lia.
  - destruct q as [[|]|z'|f]; try discriminate. exact Q.
Qed.
