(** Printed words are read back (C48-C50). *)
From Coq Require Import Reals SpecFloat ZifyBool ZifyN ZifyNat Lra.
From Flocq Require Import Core BinarySingleNaN.
From Verif Require Import Base ModelUtils ModelVersion ModelError ModelTypes ModelAst ModelLexer ModelParser ModelSyntactic
  SpecUtils SpecTypes SpecLexer SpecSyntax SpecLiteral SpecReading SpecLayout SpecPrint
  ProofsUtils ProofsVersion ProofsLexer ProofsLexer2 ProofsFloat ProofsIeee ProofsSyntax ProofsSyntax2 ProofsLiteral ProofsReading.
Local Open Scope string_scope.

Lemma digit_char_digit s : all_bytes digit_char s -> digits s.
Proof. induction s as [|c s IH]; [auto|]. intros [H1 H2]. split; [|auto]. exact H1. Qed.
Lemma dec_digits n : digits (dec_N n).
Proof. apply digit_char_digit, dec_N_digits. Qed.
Lemma dec_decimal n : decimal (dec_N n) = Z.of_N n.
Proof. pose proof (read_digits_decimal (dec_N n) 0 false (dec_digits n)) as H. rewrite read_digits_dec_N in H. cbn [fst] in H. lia. Qed.
Lemma number_reads z : integer z -> stoll (dec_N (Z.to_N z)) = Some z.
Proof. intros [H1 H2]. rewrite stoll_decimal by apply dec_digits. rewrite dec_decimal, Z2N.id by exact H1. destruct (Z.leb_spec z max_int); [reflexivity|lia]. Qed.
Lemma number_form z : default_form T_INTEGER_LITERAL (dec_N (Z.to_N z)).
Proof. constructor; [apply dec_N_nonempty|apply dec_digits]. Qed.

Lemma nearest_real f : finite_double f -> nearest_double (real_of f) = real_of f.
Proof.
  intros F. pose proof (nearest_double_closest (real_of f) f F) as H. unfold Rminus in H at 2. rewrite Rplus_opp_r, Rabs_R0 in H.
  pose proof (Rabs_pos (nearest_double (real_of f) - real_of f)) as P. assert (E : Rabs (nearest_double (real_of f) - real_of f) = 0%R) by lra.
  destruct (Req_dec (nearest_double (real_of f) - real_of f) 0) as [E'|N]; [lra|]. apply Rabs_no_R0 in N. contradiction.
Qed.
Lemma real_bounded f : finite_double f -> (real_of f < 2 ^ 1024)%R.
Proof.
  intros F. destruct (finite_double_B f F) as (x & <- & Fx & Rx). rewrite <- pow1024, <- Rx. pose proof (abs_B2R_lt_emax 53 1024 x) as H. apply Rle_lt_trans with (2 := H). apply Rle_abs.
Qed.
Lemma five_two n : (0 <= n)%Z -> (IZR (5 ^ n) * powerRZ 10 (- n) = bpow radix2 (- n))%R.
Proof.
  intros H. rewrite powerRZ_neg'. rewrite <- IZR_pow10 by exact H. rewrite bpow_opp, <- IZR_Zpower by exact H. change (radix_val radix2) with 2%Z.
  replace (10 ^ n)%Z with (5 ^ n * 2 ^ n)%Z by (rewrite <- Z.pow_mul_l; reflexivity). rewrite mult_IZR.
  assert (IZR (5 ^ n) <> 0)%R by (apply not_0_IZR; pose proof (Z.pow_pos_nonneg 5 n); lia). assert (IZR (2 ^ n) <> 0)%R by (apply not_0_IZR; pose proof (Z.pow_pos_nonneg 2 n); lia).
  field. auto.
Qed.
Lemma zero_digits : digits "0". Proof. split; [|exact I]. unfold digit, code_between. cbn. lia. Qed.
Lemma zero_nonempty : "0" <> "". Proof. discriminate. Qed.
Lemma float_form f : default_form T_FLOAT_LITERAL (float_text f).
Proof.
  assert (Z : default_form T_FLOAT_LITERAL "0.") by exact (form_float "0" "" "" zero_digits I (or_introl zero_nonempty) exp_none).
  destruct f as [s|s| |s m e]; [exact Z|exact Z|exact Z|].
  unfold float_text. destruct (0 <=? e)%Z.
  - exact (form_float _ "" "" (dec_digits _) I (or_introl (dec_N_nonempty _)) exp_none).
  - apply (form_float (dec_N _) "" ("e-" ++ dec_N _) (dec_digits _) I (or_introl (dec_N_nonempty _))). apply (exp_some "e" "-"); auto; [apply dec_digits|apply dec_N_nonempty].
Qed.
Lemma float_value f : finite_double f -> sign_SF f = false -> literal_value (float_text f) (real_of f).
Proof.
  intros [V Fi] Sg. destruct f as [s|s| |s m e]; try discriminate Fi.
  - pose proof (lv "0" "" "" 0 zero_digits I (or_introl zero_nonempty) ev_none) as L. cbn [String.append decimal String.length] in L. unfold real_of. cbn [SF2R].
    replace 0%R with (IZR ((Z.of_N (N_of_ascii "0") - 48) * 10 ^ Z.of_nat 0 + 0) * powerRZ 10 (0 - Z.of_nat 0))%R; [exact L|]. cbn. lra.
  - cbn in Sg. subst s. unfold float_text, real_of. cbn [SF2R cond_Zopp]. unfold F2R. cbn [Fnum Fexp]. destruct (Z.leb_spec 0 e) as [H|H].
    + set (n := Z.to_N (Zpos m * 2 ^ e)). pose proof (lv (dec_N n) "" "" 0 (dec_digits _) I (or_introl (dec_N_nonempty _)) ev_none) as L. rewrite (append_nil_r (dec_N n)), dec_decimal in L. cbn [String.append String.length] in L.
      replace (IZR (Z.pos m) * bpow radix2 e)%R with (IZR (Z.of_N n) * powerRZ 10 (0 - Z.of_nat 0))%R; [exact L|].
      subst n. rewrite Z2N.id by (apply Z.mul_nonneg_nonneg; [lia|apply Z.pow_nonneg; lia]). change (0 - Z.of_nat 0)%Z with 0%Z. rewrite powerRZ_O, mult_IZR, <- IZR_Zpower by exact H. change (radix_val radix2) with 2%Z. ring.
    + set (n := Z.to_N (Zpos m * 5 ^ (- e))). pose proof (lv (dec_N n) "" ("e" ++ "-" ++ dec_N (Z.to_N (- e))) _ (dec_digits _) I (or_introl (dec_N_nonempty _)) (ev_minus "e" _ (or_introl eq_refl) (dec_digits _) (dec_N_nonempty _))) as L.
      rewrite (append_nil_r (dec_N n)), !dec_decimal in L. cbn [String.length] in L.
      replace (IZR (Z.pos m) * bpow radix2 e)%R with (IZR (Z.of_N n) * powerRZ 10 (- Z.of_N (Z.to_N (- e)) - Z.of_nat 0))%R; [exact L|].
      subst n. rewrite !Z2N.id by (try apply Z.mul_nonneg_nonneg; try apply Z.pow_nonneg; lia). cbn [Z.of_nat]. rewrite Z.sub_0_r, Z.opp_involutive, mult_IZR.
      pose proof (five_two (- e) ltac:(lia)) as F. rewrite Z.opp_involutive in F. rewrite <- F. ring.
Qed.
Lemma float_reads f : finite_double f -> sign_SF f = false -> stod (float_text f) = Some f.
Proof.
  intros F Sg. apply (stod_reads DefaultMode); [apply float_form|]. exists (real_of f). split; [now apply float_value|].
  unfold double_range. rewrite (nearest_real f F). split; [|split; [exact F|split; [exact Sg|reflexivity]]]. split; [now apply real_bounded|now right].
Qed.
