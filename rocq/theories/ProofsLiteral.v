(** Floating-point literals are correctly rounded, through Flocq (C55). *)
From Coq Require Import Reals SpecFloat ZArith Lia Lra ZifyBool ZifyN ZifyNat.
From Flocq Require Import Core Calc.Round IEEE754.BinarySingleNaN.
From Verif Require Import Base ModelVersion ModelError ModelTypes ModelAst ModelLexer ModelSyntactic SpecUtils SpecTypes SpecFunctions SpecLexer SpecSyntax SpecLiteral
  ProofsUtils ProofsFloat ProofsIeee ProofsLexer ProofsLexer2 ProofsSyntax ProofsSyntax2.
Local Open Scope string_scope.
Local Open Scope Z_scope.

(** ** Reading the decimal *)
Lemma decimal_append a b : decimal (a ++ b) = decimal a * 10 ^ Z.of_nat (String.length b) + decimal b.
Proof.
  induction a as [|c a IH]; cbn [String.append decimal]; [lia|]. rewrite IH, length_append, Nat2Z.inj_add, Z.pow_add_r by lia. ring.
Qed.
Lemma decimal_nonneg s : digits s -> 0 <= decimal s.
Proof.
  induction s as [|c s IH]; intros D; cbn [decimal]; [lia|]. destruct D as [Dc D]. specialize (IH D). unfold digit, code_between in Dc.
  assert (0 <= 10 ^ Z.of_nat (String.length s)) by lia. nia.
Qed.
Lemma float_digits_read a : forall m e dot rest, digits a ->
  float_digits (a ++ rest) m e dot = float_digits rest (m * 10 ^ Z.of_nat (String.length a) + decimal a) (if dot then e - Z.of_nat (String.length a) else e) dot.
Proof.
  induction a as [|c a IH]; intros m e dot rest D.
  - cbn [String.append String.length decimal]. f_equal; [cbn; lia|destruct dot; cbn; lia].
  - destruct D as [Dc D]. cbn [String.append float_digits]. destruct (digit_model c Dc) as [-> ->]. rewrite IH by exact D. cbn [String.length decimal].
    rewrite Nat2Z.inj_succ, Z.pow_succ_r by lia. f_equal; [ring|destruct dot; lia].
Qed.
Lemma digits_append a b : digits a -> digits b -> digits (a ++ b).
Proof. intros A B. now apply all_bytes_append. Qed.
Lemma digit_not c : digit c -> Ascii.eqb c "." = false /\ Ascii.eqb c "-" = false /\ Ascii.eqb c "+" = false.
Proof. intros D. unfold digit, code_between in D. repeat split; (destruct (Ascii.eqb_spec c) as [->|]; [cbn in D; lia|reflexivity]) || (apply Ascii.eqb_neq; intros ->; cbn in D; lia). Qed.
Lemma read_exponent e x : exponent_value e x -> forall m k, float_digits e m k true = (m, k, e) /\ float_exponent e = x.
Proof.
  intros H m k. destruct H as [|e d He D N|e d He D N|e d He D N].
  - split; reflexivity.
  - split; [destruct He as [-> | ->]; reflexivity|]. destruct d as [|c d]; [congruence|]. destruct D as [Dc D]. destruct (digit_not c Dc) as (_ & N1 & N2).
    assert (E : forall h, float_exponent (String h (String c d)) = decimal (String c d)).
    { intros h. cbn [float_exponent]. rewrite N1, N2. rewrite read_digits_decimal by (split; assumption). lia. }
    destruct He as [-> | ->]; apply E.
  - split; [destruct He as [-> | ->]; reflexivity|]. destruct He as [-> | ->]; cbn; rewrite read_digits_decimal by exact D; lia.
  - split; [destruct He as [-> | ->]; reflexivity|]. destruct He as [-> | ->]; cbn [String.append float_exponent]; cbn -[Z.opp read_digits]; rewrite read_digits_decimal by exact D; lia.
Qed.
Lemma decimal_of_literal_spec a b e x : digits a -> digits b -> exponent_value e x ->
  decimal_of_literal (a ++ "." ++ b ++ e) = (decimal (a ++ b), x - Z.of_nat (String.length b)).
Proof.
  intros Da Db E. unfold decimal_of_literal. rewrite float_digits_read by exact Da.
  change ("." ++ b ++ e)%string with (String "." (b ++ e)). cbn [float_digits]. change (is_digit ".") with false. change (Ascii.eqb "." ".") with true. cbv iota.
  rewrite float_digits_read by exact Db. destruct (read_exponent e x E (( 0 * 10 ^ Z.of_nat (String.length a) + decimal a) * 10 ^ Z.of_nat (String.length b) + decimal b) (0 - Z.of_nat (String.length b))) as [-> ->].
  f_equal; [rewrite decimal_append; ring|lia].
Qed.

(** ** Rounding *)
Definition decimal_real (m e : Z) : R := (IZR m * powerRZ 10 e)%R.
Lemma powerRZ_pos e : (0 < powerRZ 10 e)%R.
Proof. apply powerRZ_lt. lra. Qed.
Lemma IZR_pow10 n : 0 <= n -> IZR (10 ^ n) = powerRZ 10 n.
Proof. intros H. rewrite <- (Z2Nat.id n) by exact H. rewrite <- pow_powerRZ, <- pow_IZR. reflexivity. Qed.
Lemma decimal_real_nonneg m e : 0 <= m -> (0 <= decimal_real m e)%R.
Proof. intros H. unfold decimal_real. apply Rmult_le_pos; [now apply IZR_le|]. left. apply powerRZ_pos. Qed.
Lemma nearest_nonneg x : (0 <= x)%R -> (0 <= nearest_double x)%R.
Proof. intros H. unfold nearest_double. rewrite <- (round_0 radix2 (FLT_exp (-1074) 53) ZnearestE). apply round_le; [apply FLT_exp_valid; reflexivity|apply valid_rnd_N|exact H]. Qed.
Lemma float_of_decimal_correct m e : 0 <= m ->
  if Rlt_bool (nearest_double (decimal_real m e)) (bpow radix2 1024) then
    finite_double (float_of_decimal m e) /\ real_of (float_of_decimal m e) = nearest_double (decimal_real m e) /\ sign_SF (float_of_decimal m e) = false
  else float_of_decimal m e = S754_infinity false.
Proof.
  intros Hm. pose proof (nearest_nonneg _ (decimal_real_nonneg m e Hm)) as Pos.
  destruct m as [|p|p]; [| |lia].
  - unfold decimal_real. rewrite Rmult_0_l, nearest_0, Rlt_bool_true by apply bpow_gt_0. repeat split.
  - unfold float_of_decimal. destruct (Z.leb_spec 0 e) as [He|He].
    + replace (Zpos p * 10 ^ e) with (Zpos (p * Z.to_pos (10 ^ e))) by (rewrite Pos2Z.inj_mul, Z2Pos.id by (apply Z.pow_pos_nonneg; lia); reflexivity).
      unfold SpecFloat.binary_normalize, prec, emax. destruct (binary_round_correct_ne false (p * Z.to_pos (10 ^ e)) 0) as [V C]. cbv zeta in C. cbn [cond_Zopp] in C.
      replace (F2R (Float radix2 (Zpos (p * Z.to_pos (10 ^ e))) 0)) with (decimal_real (Zpos p) e) in C
        by (unfold F2R, decimal_real; cbn [Fnum Fexp bpow]; rewrite Rmult_1_r, Pos2Z.inj_mul, Z2Pos.id, mult_IZR, IZR_pow10 by (try apply Z.pow_pos_nonneg; lia); reflexivity).
      rewrite Rabs_pos_eq in C by exact Pos. destruct (Rlt_bool (nearest_double (decimal_real (Zpos p) e)) (bpow radix2 1024)); [|exact C]. unfold finite_double, real_of. tauto.
    + assert (P10 : 0 < 10 ^ (- e)) by (apply Z.pow_pos_nonneg; lia). unfold SFdiv, prec, emax. cbn [xorb].
      pose proof (Bdiv_correct_aux 53 1024 Hprec Hpe mode_NE false p 0 false (Z.to_pos (10 ^ (- e))) 0) as C. cbv zeta in C.
      destruct (SFdiv_core_binary 53 1024 (Zpos p) 0 (Zpos (Z.to_pos (10 ^ (- e)))) 0) as [[mz ez] lz]. rewrite binary_round_aux_ne. destruct C as [V C]. cbn [xorb cond_Zopp] in C.
      replace (F2R (Float radix2 (Zpos p) 0) / F2R (Float radix2 (Zpos (Z.to_pos (10 ^ (- e)))) 0))%R with (decimal_real (Zpos p) e) in C.
      2:{ unfold F2R, decimal_real; cbn [Fnum Fexp bpow]. rewrite !Rmult_1_r, Z2Pos.id, IZR_pow10 by lia. unfold Rdiv. f_equal.
          rewrite <- powerRZ_neg'. f_equal. lia. }
      change (round radix2 (SpecFloat.fexp 53 1024) (round_mode mode_NE) (decimal_real (Zpos p) e)) with (nearest_double (decimal_real (Zpos p) e)) in C.
      rewrite Rabs_pos_eq in C by exact Pos. destruct (Rlt_bool (nearest_double (decimal_real (Zpos p) e)) (bpow radix2 1024)); [|exact C]. unfold finite_double, real_of. tauto.
Qed.
Lemma decimal_exact_iff m e f : 0 <= m -> finite_double f -> sign_SF f = false -> decimal_exact m e f = true <-> real_of f = decimal_real m e.
Proof.
  intros Hm [V Fi] Sg. destruct f as [s|s| |s q x]; try discriminate Fi.
  - unfold real_of, decimal_real. cbn [decimal_exact SF2R]. rewrite Z.eqb_eq. split; [intros ->; now rewrite Rmult_0_l|].
    intros E. symmetry in E. apply Rmult_integral in E. destruct E as [E|E]; [now apply eq_IZR in E|]. pose proof (powerRZ_pos e). lra.
  - cbn in Sg. subst s. cbn [decimal_exact]. rewrite Z.eqb_eq. unfold real_of. cbn [SF2R cond_Zopp]. unfold F2R. cbn [Fnum Fexp].
    set (a := if 0 <=? e then m * 10 ^ e else m). set (da := if 0 <=? e then 1 else 10 ^ (- e)). set (b := if 0 <=? x then Zpos q * 2 ^ x else Zpos q). set (db := if 0 <=? x then 1 else 2 ^ (- x)).
    assert (A : decimal_real m e = (IZR a / IZR da)%R /\ 0 < da).
    { unfold a, da, decimal_real. destruct (Z.leb_spec 0 e).
      - rewrite mult_IZR, IZR_pow10 by lia. split; [field|lia].
      - assert (0 < 10 ^ (- e)) by (apply Z.pow_pos_nonneg; lia). split; [|lia]. rewrite IZR_pow10 by lia. unfold Rdiv. f_equal. rewrite <- powerRZ_neg'. f_equal. lia. }
    assert (B : (IZR (Zpos q) * bpow radix2 x)%R = (IZR b / IZR db)%R /\ 0 < db).
    { unfold b, db. destruct (Z.leb_spec 0 x).
      - rewrite mult_IZR, (IZR_Zpower radix2) by lia. split; [field|lia].
      - assert (0 < 2 ^ (- x)) by (apply Z.pow_pos_nonneg; lia). split; [|lia]. rewrite (IZR_Zpower radix2) by lia. unfold Rdiv. rewrite <- bpow_opp. f_equal. f_equal. lia. }
    destruct A as [-> Pa], B as [-> Pb]. assert (IZR da <> 0%R) by (apply not_0_IZR; lia). assert (IZR db <> 0%R) by (apply not_0_IZR; lia). split; intros E.
    + apply (f_equal IZR) in E. rewrite !mult_IZR in E. apply Rmult_eq_reg_r with (IZR da * IZR db)%R; [|now apply Rmult_integral_contrapositive_currified]. field_simplify; auto. lra.
    + apply eq_IZR. rewrite !mult_IZR. apply (f_equal (fun r => r * (IZR da * IZR db))%R) in E. field_simplify in E; auto. lra.
Qed.
Lemma is_tiny_iff f : finite_double f -> sign_SF f = false -> is_tiny f = true <-> (real_of f < bpow radix2 (-1022))%R.
Proof.
  intros [V Fi] Sg. destruct f as [s|s| |s q x]; try discriminate Fi.
  - cbn. split; [intros _; apply (bpow_gt_0 radix2 (-1022))|reflexivity].
  - cbn in Sg. subst s. cbn [is_tiny]. rewrite Z.ltb_lt. unfold real_of. cbn [SF2R cond_Zopp]. cbn [SpecFloat.valid_binary] in V. unfold SpecFloat.bounded in V. apply andb_true_iff in V. destruct V as [C Hx].
    unfold canonical_mantissa in C. apply Zeq_bool_eq in C. unfold SpecFloat.fexp, SpecFloat.emin in C.
    rewrite Digits.Zpos_digits2_pos in C. change (3 - 1024 - 53) with (-1074) in C. pose proof (Digits.Zdigits_correct radix2 (Zpos q)) as D.
    split; intros H.
    + assert (Digits.Zdigits radix2 (Zpos q) <= 52) by (apply (Digits.Zdigits_le_Zpower radix2); exact H).
      assert (x = -1074) by lia. subst x. unfold F2R. cbn [Fnum Fexp]. change (-1022) with (52 + -1074). rewrite bpow_plus. apply Rmult_lt_compat_r; [apply bpow_gt_0|].
      rewrite <- IZR_Zpower by lia. now apply IZR_lt.
    + apply Z.nle_gt. intros N. apply Rlt_not_le in H. apply H. apply Rle_trans with (F2R (Float radix2 (2 ^ 52) (-1074))).
      * unfold F2R. cbn [Fnum Fexp]. rewrite (IZR_Zpower radix2) by lia. rewrite <- bpow_plus. right. f_equal.
      * unfold F2R. cbn [Fnum Fexp]. apply Rmult_le_compat; [apply IZR_le; lia|apply bpow_ge_0|now apply IZR_le|apply bpow_le; lia].
Qed.
Lemma bpow_m1022 : bpow radix2 (-1022) = (/ 2 ^ 1022)%R.
Proof. change (-1022) with (- (1022)). rewrite bpow_opp. f_equal. change 1022 with (Z.of_nat 1022). rewrite bpow_powerRZ, <- pow_powerRZ. reflexivity. Qed.
Theorem stod_spec s x : literal_value s x ->
  (stod s <> None <-> double_range x) /\
  (forall f, stod s = Some f -> finite_double f /\ sign_SF f = false /\ real_of f = nearest_double x).
Proof.
  intros L. destruct L as [a b e k Da Db N Ek]. set (m := decimal (a ++ b)) in *. set (y := k - Z.of_nat (String.length b)) in *. change (IZR m * powerRZ 10 y)%R with (decimal_real m y).
  assert (Hm : 0 <= m) by (apply decimal_nonneg; now apply digits_append).
  unfold stod. rewrite (decimal_of_literal_spec a b e k) by assumption. fold m y. pose proof (float_of_decimal_correct m y Hm) as C. unfold double_range. rewrite <- pow1024, <- bpow_m1022.
  destruct (Rlt_bool_spec (nearest_double (decimal_real m y)) (bpow radix2 1024)) as [Lt|Ge].
  - destruct C as (Fd & Re & Sg). pose proof (is_tiny_iff _ Fd Sg) as T. pose proof (decimal_exact_iff m y _ Hm Fd Sg) as X.
    assert (Eq : (match float_of_decimal m y with S754_infinity _ | S754_nan => None | _ => if is_tiny (float_of_decimal m y) && negb (decimal_exact m y (float_of_decimal m y)) then None else Some (float_of_decimal m y) end)
      = if is_tiny (float_of_decimal m y) && negb (decimal_exact m y (float_of_decimal m y)) then None else Some (float_of_decimal m y)).
    { destruct Fd as [_ Fi]. destruct (float_of_decimal m y); try discriminate Fi; reflexivity. }
    rewrite Eq. rewrite Re in T, X. destruct (is_tiny (float_of_decimal m y)); cbn [andb].
    + destruct (decimal_exact m y (float_of_decimal m y)); cbn [negb].
      * split; [split; [intros _; split; [exact Lt|right; now apply X]|congruence]|]. intros f [= <-]. auto.
      * split; [|discriminate]. split; [congruence|]. intros [_ [H|H]]; [|apply X in H; discriminate]. assert (nearest_double (decimal_real m y) < bpow radix2 (-1022))%R by (now apply T). lra.
    + split; [split; [intros _; split; [exact Lt|left]|congruence]|]; [|intros f [= <-]; auto].
      apply Rnot_lt_le. intros H. apply T in H. discriminate.
  - rewrite C. split; [|discriminate]. split; [congruence|]. intros [H _]. lra.
Qed.
