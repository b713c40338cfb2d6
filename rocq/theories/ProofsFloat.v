(** Correct rounding of the float model, through Flocq. *)
From Coq Require Import Reals SpecFloat ZArith Lia Lra.
From Flocq Require Import Core Calc.Round IEEE754.BinarySingleNaN.
From Verif Require Import Base ModelError ModelTypes SpecTypes.
Local Open Scope Z_scope.

#[export] Instance Hprec : Prec_gt_0 53. Proof. reflexivity. Qed.
#[export] Instance Hpe : Prec_lt_emax 53 1024. Proof. reflexivity. Qed.

Lemma round_ne_choice sx m l : choice_mode mode_NE sx m l = round_nearest_even m l.
Proof.
  unfold choice_mode, round_nearest_even, Round.cond_incr, Round.round_N.
  destruct l as [|[]]; try reflexivity. now destruct (Z.even m).
Qed.

Lemma binary_round_aux_ne sx m e l :
  SpecFloat.binary_round_aux 53 1024 sx m e l = BinarySingleNaN.binary_round_aux 53 1024 mode_NE sx m e l.
Proof.
  unfold SpecFloat.binary_round_aux, BinarySingleNaN.binary_round_aux.
  destruct (SpecFloat.shr_fexp 53 1024 m e l) as [mrs' e'].
  rewrite round_ne_choice.
  destruct (SpecFloat.shr_fexp 53 1024 _ e' loc_Exact) as [mrs'' e''].
  destruct (shr_m mrs''); reflexivity.
Qed.

Lemma binary_round_ne sx m e :
  SpecFloat.binary_round 53 1024 sx m e = BinarySingleNaN.binary_round 53 1024 mode_NE sx m e.
Proof.
  unfold SpecFloat.binary_round, BinarySingleNaN.binary_round, shl_align_fexp.
  destruct (SpecFloat.shl_align m e _). apply binary_round_aux_ne.
Qed.

Lemma binary_round_correct_ne sx mx ex :
  let z := SpecFloat.binary_round 53 1024 sx mx ex in
  SpecFloat.valid_binary 53 1024 z = true /\
  let x := F2R (Float radix2 (cond_Zopp sx (Zpos mx)) ex) in
  if Rlt_bool (Rabs (nearest_double x)) (bpow radix2 1024) then
    SF2R radix2 z = nearest_double x /\ is_finite_SF z = true /\ sign_SF z = sx
  else z = S754_infinity sx.
Proof.
  cbv zeta. rewrite binary_round_ne.
  pose proof (binary_round_correct 53 1024 Hprec Hpe mode_NE sx mx ex) as H. cbv zeta in H.
  exact H.
Qed.

(** Rounding is monotone and fixes powers of two, so integers of 64 bits do not
    overflow. *)
Lemma nearest_int64_bounded z : Z.abs z <= 2 ^ 63 -> (Rabs (nearest_double (IZR z)) < bpow radix2 1024)%R.
Proof.
  intros H. unfold nearest_double.
  apply Rle_lt_trans with (bpow radix2 63).
  - apply abs_round_le_generic.
    + apply FLT_exp_valid. reflexivity.
    + apply valid_rnd_N.
    + apply generic_format_bpow. cbn. lia.
    + rewrite <- abs_IZR. change (bpow radix2 63) with (IZR (2 ^ 63)). now apply IZR_le.
  - apply bpow_lt. lia.
Qed.

Lemma float_of_Z_correct z : Z.abs z <= 2 ^ 63 ->
  finite_double (float_of_Z z) /\ real_of (float_of_Z z) = nearest_double (IZR z).
Proof.
  intros H. pose proof (nearest_int64_bounded z H) as Hb.
  unfold float_of_Z, SpecFloat.binary_normalize, finite_double, real_of, prec, emax.
  destruct z as [|p|p].
  - repeat split. cbn. unfold nearest_double. symmetry. apply round_0. apply valid_rnd_N.
  - destruct (binary_round_correct_ne false p 0) as [V C]. cbv zeta in C. cbn [cond_Zopp] in C.
    replace (F2R (Float radix2 (Zpos p) 0)) with (IZR (Zpos p)) in C
      by (unfold F2R; cbn [Fnum Fexp bpow]; now rewrite Rmult_1_r).
    rewrite Rlt_bool_true in C by exact Hb. tauto.
  - destruct (binary_round_correct_ne true p 0) as [V C]. cbv zeta in C. cbn [cond_Zopp Z.opp] in C.
    replace (F2R (Float radix2 (Zneg p) 0)) with (IZR (Zneg p)) in C
      by (unfold F2R; cbn [Fnum Fexp bpow]; now rewrite Rmult_1_r).
    rewrite Rlt_bool_true in C by exact Hb. tauto.
Qed.

Lemma nearest_exact z : Z.abs z <= 2 ^ 53 -> nearest_double (IZR z) = IZR z.
Proof.
  intros H. unfold nearest_double. apply round_generic; [apply valid_rnd_N|].
  destruct (Z.eq_dec (Z.abs z) (2 ^ 53)) as [E|E].
  - assert (Hg : generic_format radix2 (FLT_exp (-1074) 53) (IZR (2 ^ 53))).
    { change (IZR (2 ^ 53)) with (bpow radix2 53). apply generic_format_bpow. cbn. lia. }
    destruct (Z.abs_spec z) as [[_ Ha]|[_ Ha]].
    + replace z with (2 ^ 53) by lia. exact Hg.
    + replace z with (- 2 ^ 53) by lia. rewrite opp_IZR. now apply generic_format_opp.
  - apply generic_format_FLT. exists (Float radix2 z 0).
    + unfold F2R. cbn [Fnum Fexp bpow]. now rewrite Rmult_1_r.
    + cbn [Fnum]. change (radix2 ^ 53) with (2 ^ 53). lia.
    + cbn. lia.
Qed.

(** The defining property of nearest_double, without reference to Flocq's
    rounding operator: no double is closer, and on a tie the mantissa is even. *)
Lemma nearest_double_closest x (g : float) :
  finite_double g -> (Rabs (nearest_double x - x) <= Rabs (real_of g - x))%R.
Proof.
  intros [Hv Hf]. unfold nearest_double.
  pose proof (FLT_exp_valid (-1074) 53) as Hve.
  destruct (round_N_pt radix2 (FLT_exp (-1074) 53) (fun z => negb (Z.even z)) x) as [_ H].
  apply H. unfold real_of.
  rewrite <- (B2R_SF2B 53 1024 g Hv). apply (generic_format_B2R 53 1024).
Qed.

Lemma int64_abs z : in_int64 z = true -> Z.abs z <= 2 ^ 63.
Proof. unfold in_int64, int64_min, int64_max. intros H. lia. Qed.
