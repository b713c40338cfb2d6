(** Lemmas about the values of folded expressions (C20-C26). *)
From Coq Require Import SpecFloat.
From Verif Require Import Base ModelUtils ModelVersion ModelError ModelTypes ModelOverload ModelFunctions
  ModelInstructionSet ModelAst ModelAnalyzer ModelSemantic SpecTypes SpecFunctions ProofsTypes ProofsFunctions.
From Coq Require Import ZifyBool Zquot.
Local Open Scope string_scope.
Ltac Zify.zify_post_hook ::= Z.div_mod_to_equations.

Lemma in_int64_fits z : in_int64 z = true <-> fits z.
Proof. unfold in_int64, fits, int64_min, int64_max. lia. Qed.

Lemma int_result_cases z : (fits z /\ int_result z = Ok (VInt z)) \/ (~ fits z /\ int_result z = UB SignedOverflow).
Proof.
  unfold int_result, ret_int64. rewrite <- in_int64_fits. destruct (in_int64 z); cbn; [left|right]; split; congruence.
Qed.

(** ** Truncating division is characterised by its remainder *)
Lemma trunc_div_spec a b : b <> 0%Z ->
  (a = Z.quot a b * b + Z.rem a b)%Z /\ (Z.abs (Z.rem a b) < Z.abs b)%Z /\ (0 <= Z.rem a b * a)%Z.
Proof.
  intros Hb. split; [rewrite (Z.quot_rem' a b) at 1; ring|]. split; [now apply Z.rem_bound_abs|now apply Z.rem_sign_mul].
Qed.
Lemma trunc_div_unique a b q r : b <> 0%Z -> (a = q * b + r)%Z -> (Z.abs r < Z.abs b)%Z -> (0 <= r * a)%Z ->
  q = Z.quot a b /\ r = Z.rem a b.
Proof.
  intros Hb Ha Hr Hs. apply Zquot.Zquot_mod_unique_full; [|lia]. unfold Zquot.Remainder.
  destruct (Z.lt_trichotomy a 0) as [H|[H|H]].
  - right. nia.
  - subst a. left. assert (q = 0)%Z by nia. subst q. lia.
  - left. nia.
Qed.

(** ** Bits *)
Lemma bits_unique a b : (forall i, (0 <= i)%Z -> Z.testbit a i = Z.testbit b i) -> a = b.
Proof. exact (Z.bits_inj' a b). Qed.

Lemma bits_neg a i : (0 <= i)%Z -> Z.testbit a i = negb (Z.testbit (Z.pred (- a)) i).
Proof. intros Hi. rewrite <- (Z.opp_involutive a) at 1. now apply Z.bits_opp. Qed.

(** A number fits in 64 bits iff its bits from 63 on are all equal. *)
Lemma fits_bits a : fits a <-> forall i, (63 <= i)%Z -> Z.testbit a i = (a <? 0)%Z.
Proof.
  unfold fits. destruct (Z.ltb_spec a 0).
  - split.
    + intros Ha i Hi. rewrite bits_neg by lia. apply negb_true_iff.
      assert (H0 : (0 <= Z.pred (- a) < 2 ^ 63)%Z) by lia.
      destruct (Z.eq_dec (Z.pred (- a)) 0) as [E|E]; [rewrite E; apply Z.bits_0|].
      apply Z.bits_above_log2; [lia|]. apply Z.log2_lt_pow2; [lia|].
      eapply Z.lt_le_trans; [apply H0|]. now apply Z.pow_le_mono_r.
    + intros H1. split; [|lia]. destruct (Z_le_gt_dec (- 2 ^ 63) a); [assumption|exfalso].
      assert (H0 : (2 ^ 63 <= Z.pred (- a))%Z) by lia.
      assert (HL : (63 <= Z.log2 (Z.pred (- a)))%Z) by (apply Z.log2_le_pow2; lia).
      specialize (H1 _ HL). rewrite bits_neg, Z.bit_log2 in H1 by lia. discriminate.
  - split.
    + intros Ha i Hi. destruct (Z.eq_dec a 0) as [->|E]; [apply Z.bits_0|].
      apply Z.bits_above_log2; [lia|]. apply Z.log2_lt_pow2; [lia|].
      eapply Z.lt_le_trans; [apply Ha|]. now apply Z.pow_le_mono_r.
    + intros H1. split; [lia|]. destruct (Z_lt_le_dec a (2 ^ 63)); [assumption|exfalso].
      assert (HL : (63 <= Z.log2 a)%Z) by (apply Z.log2_le_pow2; lia).
      specialize (H1 _ HL). rewrite Z.bit_log2 in H1 by lia. discriminate.
Qed.
Lemma fits_same_bits a : (exists s, forall i, (63 <= i)%Z -> Z.testbit a i = s) -> fits a.
Proof.
  intros [s H]. apply fits_bits. intros i Hi. rewrite (H i Hi).
  pose proof (H (Z.max 63 (Z.log2 (Z.max a (Z.pred (- a))) + 1)) ltac:(lia)) as H'. rewrite <- H'.
  set (m := Z.max a (Z.pred (- a))) in *. set (k := Z.max 63 (Z.log2 m + 1)).
  destruct (Z.ltb_spec a 0).
  - rewrite bits_neg by lia. apply negb_true_iff.
    destruct (Z.eq_dec (Z.pred (- a)) 0) as [E|E]; [rewrite E; apply Z.bits_0|].
    apply Z.bits_above_log2; [lia|]. unfold k. replace m with (Z.pred (- a)) by (unfold m; lia). lia.
  - destruct (Z.eq_dec a 0) as [->|E]; [apply Z.bits_0|].
    apply Z.bits_above_log2; [lia|]. unfold k. replace m with a by (unfold m; lia). lia.
Qed.
Lemma fits_land a b : fits a -> fits b -> fits (Z.land a b).
Proof.
  rewrite !fits_bits. intros Ha Hb. rewrite <- fits_bits. apply fits_same_bits. exists ((a <? 0)%Z && (b <? 0)%Z).
  intros i Hi. rewrite Z.land_spec, Ha, Hb by lia. reflexivity.
Qed.
Lemma fits_lor a b : fits a -> fits b -> fits (Z.lor a b).
Proof.
  rewrite !fits_bits. intros Ha Hb. rewrite <- fits_bits. apply fits_same_bits. exists ((a <? 0)%Z || (b <? 0)%Z).
  intros i Hi. rewrite Z.lor_spec, Ha, Hb by lia. reflexivity.
Qed.
Lemma fits_lxor a b : fits a -> fits b -> fits (Z.lxor a b).
Proof.
  rewrite !fits_bits. intros Ha Hb. rewrite <- fits_bits. apply fits_same_bits. exists (xorb (a <? 0)%Z (b <? 0)%Z).
  intros i Hi. rewrite Z.lxor_spec, Ha, Hb by lia. reflexivity.
Qed.
Lemma fits_lnot a : fits a -> fits (Z.lnot a).
Proof. unfold fits. unfold Z.lnot. lia. Qed.

(** ** Shifts *)
Lemma wrap_spec z : fits (wrap_int64 z) /\ exists m, wrap_int64 z = (z + m * 2 ^ 64)%Z.
Proof.
  unfold fits, wrap_int64. split; [lia|]. exists (- ((z + 2 ^ 63) / 2 ^ 64))%Z. lia.
Qed.
Lemma wrap_unique z c m : fits c -> (c = z + m * 2 ^ 64)%Z -> c = wrap_int64 z.
Proof. unfold fits, wrap_int64. lia. Qed.

Lemma shr_spec a k : (0 <= k)%Z -> (a / 2 ^ k * 2 ^ k <= a < (a / 2 ^ k + 1) * 2 ^ k)%Z.
Proof. intros Hk. assert (0 < 2 ^ k)%Z by (apply Z.pow_pos_nonneg; lia). nia. Qed.
Lemma shr_unique a k c : (0 <= k)%Z -> (c * 2 ^ k <= a < (c + 1) * 2 ^ k)%Z -> c = (a / 2 ^ k)%Z.
Proof. intros Hk H. assert (0 < 2 ^ k)%Z by (apply Z.pow_pos_nonneg; lia). nia. Qed.
Lemma fits_shr a k : fits a -> (0 <= k)%Z -> fits (a / 2 ^ k).
Proof. unfold fits. intros Ha Hk. assert (1 <= 2 ^ k)%Z by (apply Z.pow_pos_nonneg with (a:=2%Z) (b:=k) in Hk; lia). nia. Qed.

(** ** Integer operators *)
Definition int_binop (op : binop) : option (Z -> Z -> outcome error value) :=
  match op with
  | BAdd => Some op_add_ii | BSub => Some op_sub_ii | BMul => Some op_mul_ii | BDiv => Some op_div_ii
  | BMod => Some op_mod_ii | BBitAnd => Some op_band_ii | BBitOr => Some op_bor_ii | BBitXor => Some op_bxor_ii
  | BShl => Some op_shl_ii | BShr => Some op_shr_ii | _ => None
  end.

Lemma int_binop_spec op f a b : int_binop op = Some f -> fits a -> fits b ->
  (exists z, int_op op a b z /\ fits z /\ f a b = Ok (VInt z)) \/
  ((forall z, ~ int_op op a b z) /\ exists k, f a b = UB k).
Proof.
  intros Hf Ha Hb. destruct op; try discriminate; injection Hf as <-.
  - (* mul *) unfold op_mul_ii. destruct (int_result_cases (a * b)) as [[H ->]|[H ->]]; [left|right].
    + eexists; repeat split; eauto; apply H || (constructor; exact H).
    + split; [|eauto]. intros z Hz. inversion Hz; subst; contradiction.
  - (* div *) unfold op_div_ii. destruct (Z.eqb_spec b 0) as [->|N].
    + right. split; [|eauto]. intros z Hz. inversion Hz; subst; congruence.
    + destruct (trunc_div_spec a b N) as (H1 & H2 & H3).
      destruct (int_result_cases (Z.quot a b)) as [[H ->]|[H ->]]; [left|right].
      * eexists. split; [eapply op_div; eauto|]. auto.
      * split; [|eauto]. intros z Hz. inversion Hz as [| | |? ? ? r N' E1 E2 E3 E4| | | | | |]; subst.
        destruct (trunc_div_unique _ _ _ _ N' eq_refl E2 E3) as [Eq _]. rewrite <- Eq in H. contradiction.
  - (* mod *) unfold op_mod_ii. destruct (Z.eqb_spec b 0) as [->|N].
    + right. split; [|eauto]. intros z Hz. inversion Hz; subst; congruence.
    + destruct (trunc_div_spec a b N) as (H1 & H2 & H3).
      destruct (in_int64 (Z.quot a b)) eqn:E; [left|right].
      * apply in_int64_fits in E. eexists. split; [eapply op_mod; eauto|]. split; [|reflexivity].
        unfold fits in *. lia.
      * split; [|eauto]. intros z Hz. inversion Hz as [| | | |? ? q ? N' E1 E2 E3 E4| | | | |]; subst.
        destruct (trunc_div_unique _ _ _ _ N' eq_refl E2 E3) as [Eq _]. apply in_int64_fits in E4. congruence.
  - (* add *) unfold op_add_ii. destruct (int_result_cases (a + b)) as [[H ->]|[H ->]]; [left|right].
    + eexists; repeat split; eauto; apply H || (constructor; exact H).
    + split; [|eauto]. intros z Hz. inversion Hz; subst; contradiction.
  - (* sub *) unfold op_sub_ii. destruct (int_result_cases (a - b)) as [[H ->]|[H ->]]; [left|right].
    + eexists; repeat split; eauto; apply H || (constructor; exact H).
    + split; [|eauto]. intros z Hz. inversion Hz; subst; contradiction.
  - (* shl *) unfold op_shl_ii. destruct ((b <? 0) || (64 <=? b))%Z eqn:E; [right|left].
    + split; [|eauto]. intros z Hz. inversion Hz; subst; lia.
    + destruct (wrap_spec (a * 2 ^ b)) as [W [m Hm]]. eexists. split; [|split; [exact W|reflexivity]].
      eapply op_shl; [lia|exact W|exact Hm].
  - (* shr *) unfold op_shr_ii. destruct ((b <? 0) || (64 <=? b))%Z eqn:E; [right|left].
    + split; [|eauto]. intros z Hz. inversion Hz; subst; lia.
    + eexists. split; [|split; [|reflexivity]].
      * constructor; [lia|apply shr_spec; lia].
      * apply fits_shr; [exact Ha|lia].
  - (* and *) left. eexists. split; [|split; [|reflexivity]]; [|now apply fits_land].
    constructor. intros. apply Z.land_spec.
  - (* xor *) left. eexists. split; [|split; [|reflexivity]]; [|now apply fits_lxor].
    constructor. intros. apply Z.lxor_spec.
  - (* or *) left. eexists. split; [|split; [|reflexivity]]; [|now apply fits_lor].
    constructor. intros. apply Z.lor_spec.
Qed.

Lemma int_op_functional op a b x y : int_op op a b x -> int_op op a b y -> x = y.
Proof.
  intros Hx Hy. destruct Hx; inversion Hy; subst; try reflexivity.
  - match goal with N : b <> 0%Z |- _ => destruct (trunc_div_unique _ b q r N eq_refl ltac:(assumption) ltac:(assumption)) as [E1 E2] end.
    match goal with H : (_ = ?q' * b + ?r')%Z |- _ =>
      destruct (trunc_div_unique (q * b + r) b q' r' ltac:(assumption) ltac:(lia) ltac:(assumption) ltac:(assumption)) as [E3 E4] end.
    congruence.
  - match goal with N : b <> 0%Z |- _ => destruct (trunc_div_unique _ b q r N eq_refl ltac:(assumption) ltac:(assumption)) as [E1 E2] end.
    match goal with H : (_ = ?q' * b + ?r')%Z |- _ =>
      destruct (trunc_div_unique (q * b + r) b q' r' ltac:(assumption) ltac:(lia) ltac:(assumption) ltac:(assumption)) as [E3 E4] end.
    congruence.
  - apply bits_unique. intros i Hi. rewrite H by exact Hi. symmetry. auto.
  - apply bits_unique. intros i Hi. rewrite H by exact Hi. symmetry. auto.
  - apply bits_unique. intros i Hi. rewrite H by exact Hi. symmetry. auto.
  - rewrite (wrap_unique (a * 2 ^ k) _ _ H0 eq_refl). symmetry. eapply wrap_unique; eauto.
  - rewrite (shr_unique a k c) by lia. symmetry. apply shr_unique; lia.
Qed.

(** ** Operators on integers and booleans *)

Lemma call_int_binop lm op f v1 v2 : int_binop op = Some f ->
  call lm (binop_name op) [value_of_number v1; value_of_number v2] = f (int_of v1) (int_of v2).
Proof.
  intros Hf. destruct op; try discriminate; injection Hf as <-; cbv [binop_name append]; overloads;
    destruct v1 as [[]|], v2 as [[]|]; reflexivity.
Qed.

Definition comparison_fn (op : binop) : option (Z -> Z -> bool) :=
  match op with
  | BEq => Some Z.eqb | BNe => Some (fun a b => negb (Z.eqb a b)) | BLt => Some Z.ltb | BLe => Some Z.leb
  | BGt => Some (fun a b => Z.ltb b a) | BGe => Some (fun a b => Z.leb b a) | _ => None
  end.
Lemma call_comparison lm op f v1 v2 : comparison_fn op = Some f ->
  call lm (binop_name op) [value_of_number v1; value_of_number v2] = Ok (VBool (f (int_of v1) (int_of v2))).
Proof.
  intros Hf. destruct op; try discriminate; injection Hf as <-; cbv [binop_name append]; overloads;
    destruct v1 as [[]|], v2 as [[]|]; reflexivity.
Qed.
Lemma comparison_fn_spec op f a b r : comparison_fn op = Some f -> (comparison_op op a b r <-> r = f a b).
Proof.
  intros Hf. destruct op; try discriminate; injection Hf as <-; (split; [intros H; inversion H as [? ? ? E|? ? ? E|? ? ? E|? ? ? E|? ? ? E|? ? ? E]; subst; apply eq_true_iff_eq; rewrite E; lia|]);
    intros ->; constructor; lia.
Qed.

Definition logical_fn (op : binop) : option (bool -> bool -> bool) :=
  match op with BLogAnd => Some andb | BLogOr => Some orb | BLogXor => Some xorb | _ => None end.
Lemma call_logical lm op f a b : logical_fn op = Some f ->
  call lm (binop_name op) [VBool a; VBool b] = Ok (VBool (f a b)).
Proof.
  intros Hf. destruct op; try discriminate; injection Hf as <-; cbv [binop_name append]; overloads;
    destruct a, b; reflexivity.
Qed.
Lemma logical_fn_spec op f a b r : logical_fn op = Some f -> (logical_op op a b r <-> r = f a b).
Proof.
  intros Hf. destruct op; try discriminate; injection Hf as <-; split.
  - intros H; inversion H; subst. destruct a, b, r; cbn in *; intuition congruence.
  - intros ->. constructor. destruct a, b; cbn; intuition congruence.
  - intros H; inversion H; subst. destruct a, b, r; cbn in *; intuition congruence.
  - intros ->. constructor. destruct a, b; cbn; intuition congruence.
  - intros H; inversion H; subst. destruct a, b, r; cbn in *; intuition congruence.
  - intros ->. constructor. destruct a, b; cbn; intuition congruence.
Qed.

Lemma call_neg lm v : call lm "operator-" [value_of_number v] = op_neg_i (int_of v).
Proof. overloads. destruct v as [[]|]; reflexivity. Qed.
Lemma call_bitnot lm v : call lm "operator~" [value_of_number v] = Ok (VInt (Z.lnot (int_of v))).
Proof. overloads. destruct v as [[]|]; reflexivity. Qed.
Lemma call_not lm b : call lm "operator!" [VBool b] = Ok (VBool (negb b)).
Proof. overloads. destruct b; reflexivity. Qed.
Lemma call_cond_bool lm b b1 b2 :
  call lm "operator?:" [VBool b; VBool b1; VBool b2] = Ok (VBool (if b then b1 else b2)).
Proof. overloads. reflexivity. Qed.
Lemma call_cond_int lm b v1 v2 : (forall b1 b2, ~ (v1 = NBool b1 /\ v2 = NBool b2)) ->
  call lm "operator?:" [VBool b; value_of_number v1; value_of_number v2] =
  Ok (VInt (if b then int_of v1 else int_of v2)).
Proof.
  intros H. overloads. destruct v1 as [b1|], v2 as [b2|]; try (destruct (H b1 b2); auto; fail).
  - destruct b1; reflexivity.
  - destruct b2; reflexivity.
  - reflexivity.
Qed.

(** ** Values of expressions *)

Definition sort_of (v : number) : sort := match v with NBool _ => SBool | NInt _ => SInt end.
Definition number_fits (v : number) : Prop := match v with NBool _ => True | NInt z => fits z end.
Lemma int_of_fits v : number_fits v -> fits (int_of v).
Proof. destruct v as [[]|]; cbn; auto; unfold fits; lia. Qed.

Lemma with_context_ok {A} l (m : outcome error A) a : m = Ok a -> with_context l m = Ok a.
Proof. now intros ->. Qed.
Lemma with_context_ub {A} l (m : outcome error A) k : m = UB k -> with_context l m = UB k.
Proof. now intros ->. Qed.
Lemma with_context_ok_iff {A} l (m : outcome error A) a : with_context l m = Ok a <-> m = Ok a.
Proof. destruct m; cbn; split; congruence. Qed.

Section Meaning.
  Variables (lm : libm) (st : analyzer).
  Hypothesis Hst : has_default_functions lm st.

  Lemma visit_unary l op e v : visit st e = Ok v -> visit st (EUnary l op e) = call lm (unop_name op) [v].
  Proof. intros H. cbn [visit]. rewrite H. cbn [with_context bind]. now apply resolve_function_call. Qed.
  Lemma visit_binary l op e1 e2 v1 v2 : visit st e1 = Ok v1 -> visit st e2 = Ok v2 ->
    visit st (EBinary l op e1 e2) = call lm (binop_name op) [v1; v2].
  Proof. intros H1 H2. cbn [visit]. rewrite H1, H2. cbn [with_context bind]. now apply resolve_function_call. Qed.
  Lemma visit_ternary l c e1 e2 vc v1 v2 : visit st c = Ok vc -> visit st e1 = Ok v1 -> visit st e2 = Ok v2 ->
    visit st (ETernary l c e1 e2) = call lm "operator?:" [vc; v1; v2].
  Proof. intros H0 H1 H2. cbn [visit]. rewrite H0, H1, H2. cbn [with_context bind]. now apply resolve_function_call. Qed.

  Definition evaluates (e : expr) (s : sort) : Prop :=
    (exists v, means e v /\ sort_of v = s /\ number_fits v /\ visit st e = Ok (value_of_number v) /\
               (forall w, means e w -> w = v)) \/
    ((forall v, ~ means e v) /\ exists k, visit st e = UB k).

  Lemma visit_ub_unary l op e k : visit st e = UB k -> visit st (EUnary l op e) = UB k.
  Proof. intros H. cbn [visit]. now rewrite H. Qed.
  Lemma visit_ub_binary1 l op e1 e2 k : visit st e1 = UB k -> visit st (EBinary l op e1 e2) = UB k.
  Proof. intros H. cbn [visit]. now rewrite H. Qed.
  Lemma visit_ub_binary2 l op e1 e2 v k : visit st e1 = Ok v -> visit st e2 = UB k -> visit st (EBinary l op e1 e2) = UB k.
  Proof. intros H1 H2. cbn [visit]. now rewrite H1, H2. Qed.
  Lemma visit_ub_ternary1 l c e1 e2 k : visit st c = UB k -> visit st (ETernary l c e1 e2) = UB k.
  Proof. intros H. cbn [visit]. now rewrite H. Qed.
  Lemma visit_ub_ternary2 l c e1 e2 v k : visit st c = Ok v -> visit st e1 = UB k -> visit st (ETernary l c e1 e2) = UB k.
  Proof. intros H H1. cbn [visit]. now rewrite H, H1. Qed.
  Lemma visit_ub_ternary3 l c e1 e2 v v1 k : visit st c = Ok v -> visit st e1 = Ok v1 -> visit st e2 = UB k ->
    visit st (ETernary l c e1 e2) = UB k.
  Proof. intros H H1 H2. cbn [visit]. now rewrite H, H1, H2. Qed.

  Lemma sort_bool v : sort_of v = SBool -> exists b, v = NBool b.
  Proof. destruct v; [eauto|discriminate]. Qed.

  Lemma means_binary_inv l op e1 e2 v : means (EBinary l op e1 e2) v -> exists v1 v2, means e1 v1 /\ means e2 v2.
  Proof. intros H; inversion H; subst; eauto. Qed.
  Lemma means_ternary_inv l c e1 e2 v : means (ETernary l c e1 e2) v ->
    exists vc v1 v2, means c vc /\ means e1 v1 /\ means e2 v2.
  Proof. intros H; inversion H; subst; eauto 6. Qed.
  Lemma means_unary_inv l op e v : means (EUnary l op e) v -> exists v1, means e v1.
  Proof. intros H; inversion H; subst; eauto. Qed.

  Lemma int_ops_are op : In op [BAdd; BSub; BMul; BDiv; BMod; BBitAnd; BBitOr; BBitXor; BShl; BShr] ->
    exists f, int_binop op = Some f /\ (forall a b r, ~ comparison_op op a b r) /\ (forall a b r, ~ logical_op op a b r).
  Proof.
    cbn [In]. intros H. decompose [or] H; subst; try contradiction;
      (eexists; split; [reflexivity|]; split; intros a b r Hr; inversion Hr).
  Qed.
  Lemma comparison_ops_are op : In op [BEq; BNe; BLt; BLe; BGt; BGe] ->
    exists f, comparison_fn op = Some f /\ (forall a b r, ~ int_op op a b r) /\ (forall a b r, ~ logical_op op a b r).
  Proof.
    cbn [In]. intros H. decompose [or] H; subst; try contradiction;
      (eexists; split; [reflexivity|]; split; intros a b r Hr; inversion Hr).
  Qed.
  Lemma logical_ops_are op : In op [BLogAnd; BLogOr; BLogXor] ->
    exists f, logical_fn op = Some f /\ (forall a b r, ~ int_op op a b r) /\ (forall a b r, ~ comparison_op op a b r).
  Proof.
    cbn [In]. intros H. decompose [or] H; subst; try contradiction;
      (eexists; split; [reflexivity|]; split; intros a b r Hr; inversion Hr).
  Qed.

  Lemma evaluates_binary l op e1 e2 s1 s2 s :
    evaluates e1 s1 -> evaluates e2 s2 ->
    (forall v1 v2, sort_of v1 = s1 -> sort_of v2 = s2 -> number_fits v1 -> number_fits v2 ->
       (forall w, means e1 w -> w = v1) -> (forall w, means e2 w -> w = v2) ->
       means e1 v1 -> means e2 v2 -> visit st e1 = Ok (value_of_number v1) -> visit st e2 = Ok (value_of_number v2) ->
       evaluates (EBinary l op e1 e2) s) ->
    evaluates (EBinary l op e1 e2) s.
  Proof.
    intros [(v1 & M1 & S1 & F1 & V1 & U1)|(N1 & k1 & V1)] [(v2 & M2 & S2 & F2 & V2 & U2)|(N2 & k2 & V2)] H.
    - eapply H; eauto.
    - right. split; [|eauto using visit_ub_binary2]. intros v Hv. apply means_binary_inv in Hv.
      destruct Hv as (w1 & w2 & _ & W2). exact (N2 _ W2).
    - right. split; [|eauto using visit_ub_binary1]. intros v Hv. apply means_binary_inv in Hv.
      destruct Hv as (w1 & w2 & W1 & _). exact (N1 _ W1).
    - right. split; [|eauto using visit_ub_binary1]. intros v Hv. apply means_binary_inv in Hv.
      destruct Hv as (w1 & w2 & W1 & _). exact (N1 _ W1).
  Qed.

  Lemma evaluates_int_op l op e1 e2 s1 s2 :
    In op [BAdd; BSub; BMul; BDiv; BMod; BBitAnd; BBitOr; BBitXor; BShl; BShr] ->
    evaluates e1 s1 -> evaluates e2 s2 -> evaluates (EBinary l op e1 e2) SInt.
  Proof.
    intros Hop E1 E2. destruct (int_ops_are op Hop) as (f & Hf & Nc & Nl).
    eapply evaluates_binary; [exact E1|exact E2|]. intros v1 v2 _ _ F1 F2 U1 U2 M1 M2 V1 V2.
    pose proof (visit_binary l op e1 e2 _ _ V1 V2) as V. rewrite (call_int_binop lm op f v1 v2 Hf) in V.
    destruct (int_binop_spec op f _ _ Hf (int_of_fits _ F1) (int_of_fits _ F2)) as [(z & O & Fz & E)|(N & k & E)].
    - left. exists (NInt z). split; [|split; [reflexivity|split; [exact Fz|split]]].
      + eapply means_int_op; eauto.
      + rewrite V. exact E.
      + intros w Hw. inversion Hw; subst.
        * rewrite (U1 v0), (U2 v3) in * by assumption. f_equal. eapply int_op_functional; eauto.
        * exfalso. eapply Nc; eauto.
        * exfalso. eapply Nl; eauto.
    - right. split; [|exists k; congruence]. intros v Hv. inversion Hv; subst.
      + rewrite (U1 v0), (U2 v3) in * by assumption. eapply N; eauto.
      + eapply Nc; eauto.
      + eapply Nl; eauto.
  Qed.

  Lemma evaluates_comparison l op e1 e2 s1 s2 : In op [BEq; BNe; BLt; BLe; BGt; BGe] ->
    evaluates e1 s1 -> evaluates e2 s2 -> evaluates (EBinary l op e1 e2) SBool.
  Proof.
    intros Hop E1 E2. destruct (comparison_ops_are op Hop) as (f & Hf & Ni & Nl).
    eapply evaluates_binary; [exact E1|exact E2|]. intros v1 v2 _ _ F1 F2 U1 U2 M1 M2 V1 V2.
    pose proof (visit_binary l op e1 e2 _ _ V1 V2) as V. rewrite (call_comparison lm op f v1 v2 Hf) in V.
    left. exists (NBool (f (int_of v1) (int_of v2))). repeat split; auto.
    - eapply means_comparison; eauto. now apply (comparison_fn_spec op f).
    - intros w Hw. inversion Hw; subst.
      * exfalso. eapply Ni; eauto.
      * rewrite (U1 v0), (U2 v3) in * by assumption. f_equal. now apply (comparison_fn_spec op f).
      * exfalso. eapply Nl; eauto.
  Qed.

  Lemma evaluates_logical l op e1 e2 : In op [BLogAnd; BLogOr; BLogXor] ->
    evaluates e1 SBool -> evaluates e2 SBool -> evaluates (EBinary l op e1 e2) SBool.
  Proof.
    intros Hop E1 E2. destruct (logical_ops_are op Hop) as (f & Hf & Ni & Nc).
    eapply evaluates_binary; [exact E1|exact E2|]. intros v1 v2 S1 S2 F1 F2 U1 U2 M1 M2 V1 V2.
    apply sort_bool in S1, S2. destruct S1 as [b1 ->], S2 as [b2 ->].
    pose proof (visit_binary l op e1 e2 _ _ V1 V2) as V. cbn [value_of_number] in V. rewrite (call_logical lm op f b1 b2 Hf) in V.
    left. exists (NBool (f b1 b2)). repeat split; auto.
    - eapply means_logical; eauto. now apply (logical_fn_spec op f).
    - intros w Hw. inversion Hw; subst.
      * exfalso. eapply Ni; eauto.
      * exfalso. eapply Nc; eauto.
      * assert (b0 = b1) by (specialize (U1 (NBool b0) ltac:(assumption)); congruence).
        assert (b3 = b2) by (specialize (U2 (NBool b3) ltac:(assumption)); congruence). subst.
        f_equal. now apply (logical_fn_spec op f).
  Qed.

  Lemma evaluates_unary l op e s : op = UMinus \/ op = UBitNot -> evaluates e s -> evaluates (EUnary l op e) SInt.
  Proof.
    intros Hop [(v & M & S & F & V & U)|(N & k & V)].
    2: { right. split; [|eauto using visit_ub_unary]. intros v Hv. apply means_unary_inv in Hv. destruct Hv as [w W]. exact (N _ W). }
    pose proof (visit_unary l op e _ V) as W. destruct Hop as [->| ->]; cbv [unop_name append] in W.
    - rewrite call_neg in W. unfold op_neg_i in W. destruct (int_result_cases (- int_of v)) as [[H E]|[H E]]; rewrite E in W.
      + left. exists (NInt (- int_of v)).
        split; [constructor; auto|split; [reflexivity|split; [exact H|split; [exact W|]]]].
        intros w Hw. inversion Hw; subst. now rewrite (U v0).
      + right. split; [|eauto]. intros w Hw. inversion Hw; subst. rewrite (U v0) in * by assumption. contradiction.
    - rewrite call_bitnot in W. left. exists (NInt (Z.lnot (int_of v))). split; [|split; [|split; [|split]]]; auto.
      + econstructor; eauto. intros. now apply Z.lnot_spec.
      + cbn. apply fits_lnot, int_of_fits, F.
      + intros w Hw. inversion Hw; subst. rewrite (U v0) in * by assumption. f_equal. apply bits_unique. intros i Hi.
        rewrite Z.lnot_spec by assumption. auto.
  Qed.

  Lemma evaluates_not l e : evaluates e SBool -> evaluates (EUnary l ULogNot e) SBool.
  Proof.
    intros [(v & M & S & F & V & U)|(N & k & V)].
    2: { right. split; [|eauto using visit_ub_unary]. intros v Hv. apply means_unary_inv in Hv. destruct Hv as [w W]. exact (N _ W). }
    apply sort_bool in S. destruct S as [b ->].
    pose proof (visit_unary l ULogNot e _ V) as W. cbv [unop_name append value_of_number] in W. rewrite call_not in W.
    left. exists (NBool (negb b)). repeat split; auto; [now constructor|].
    intros w Hw. inversion Hw; subst. specialize (U (NBool b0) ltac:(assumption)). congruence.
  Qed.

  Lemma evaluates_ternary l c e1 e2 s1 s2 : evaluates c SBool -> evaluates e1 s1 -> evaluates e2 s2 ->
    evaluates (ETernary l c e1 e2) (match s1, s2 with SBool, SBool => SBool | _, _ => SInt end).
  Proof.
    intros [(v & M & S & F & V & U)|(N & k & V)].
    2: { intros _ _. right. split; [|eauto using visit_ub_ternary1]. intros v Hv. apply means_ternary_inv in Hv.
         destruct Hv as (w & ? & ? & W & _). exact (N _ W). }
    intros [(v1 & M1 & S1 & F1 & V1 & U1)|(N1 & k1 & V1)].
    2: { intros _. right. split; [|eauto using visit_ub_ternary2]. intros w Hv. apply means_ternary_inv in Hv.
         destruct Hv as (? & w1 & ? & _ & W & _). exact (N1 _ W). }
    intros [(v2 & M2 & S2 & F2 & V2 & U2)|(N2 & k2 & V2)].
    2: { right. split; [|eauto using visit_ub_ternary3]. intros w Hv. apply means_ternary_inv in Hv.
         destruct Hv as (? & ? & w2 & _ & _ & W). exact (N2 _ W). }
    apply sort_bool in S. destruct S as [b ->].
    pose proof (visit_ternary l c e1 e2 _ _ _ V V1 V2) as W. cbn [value_of_number] in W.
    left. subst s1 s2.
    destruct v1 as [b1|z1], v2 as [b2|z2]; cbn [sort_of value_of_number] in *.
    - rewrite call_cond_bool in W. exists (NBool (if b then b1 else b2)). repeat split; auto; [now constructor|].
      intros w Hw. inversion Hw; subst.
      + match goal with H : means c (NBool ?x) |- _ => pose proof (U _ H) as X; injection X as -> end.
        match goal with H : means e1 (NBool ?x) |- _ => pose proof (U1 _ H) as X; injection X as -> end.
        match goal with H : means e2 (NBool ?x) |- _ => pose proof (U2 _ H) as X; injection X as -> end. reflexivity.
      + exfalso. match goal with H : forall _ _, ~ _ |- _ => apply (H b1 b2) end. split; auto.
    - assert (NB : forall x y, ~ (NBool b1 = NBool x /\ NInt z2 = NBool y)) by (intros x y [_ H]; discriminate).
      change (VBool b1) with (value_of_number (NBool b1)) in W. change (VInt z2) with (value_of_number (NInt z2)) in W.
      rewrite (call_cond_int lm b _ _ NB) in W.
      exists (NInt (if b then int_of (NBool b1) else z2)). split; [|split; [reflexivity|split; [|split; [exact W|]]]].
      + exact (means_cond_int l c e1 e2 b _ _ M M1 M2 NB).
      + cbn. destruct b; [apply (int_of_fits (NBool b1)); exact I|exact F2].
      + intros w Hw. inversion Hw; subst.
        * match goal with H : means e2 (NBool ?x) |- _ => pose proof (U2 _ H) as X; discriminate end.
        * rewrite (U1 v1), (U2 v2) in * by assumption.
          match goal with H : means c (NBool ?x) |- _ => pose proof (U _ H) as X; injection X as -> end. reflexivity.
    - assert (NB : forall x y, ~ (NInt z1 = NBool x /\ NBool b2 = NBool y)) by (intros x y [H _]; discriminate).
      change (VBool b2) with (value_of_number (NBool b2)) in W. change (VInt z1) with (value_of_number (NInt z1)) in W.
      rewrite (call_cond_int lm b _ _ NB) in W.
      exists (NInt (if b then z1 else int_of (NBool b2))). split; [|split; [reflexivity|split; [|split; [exact W|]]]].
      + exact (means_cond_int l c e1 e2 b _ _ M M1 M2 NB).
      + cbn. destruct b; [exact F1|apply (int_of_fits (NBool b2)); exact I].
      + intros w Hw. inversion Hw; subst.
        * match goal with H : means e1 (NBool ?x) |- _ => pose proof (U1 _ H) as X; discriminate end.
        * rewrite (U1 v1), (U2 v2) in * by assumption.
          match goal with H : means c (NBool ?x) |- _ => pose proof (U _ H) as X; injection X as -> end. reflexivity.
    - assert (NB : forall x y, ~ (NInt z1 = NBool x /\ NInt z2 = NBool y)) by (intros x y [H _]; discriminate).
      change (VInt z1) with (value_of_number (NInt z1)) in W. change (VInt z2) with (value_of_number (NInt z2)) in W.
      rewrite (call_cond_int lm b _ _ NB) in W.
      exists (NInt (if b then z1 else z2)). split; [|split; [reflexivity|split; [|split; [exact W|]]]].
      + exact (means_cond_int l c e1 e2 b _ _ M M1 M2 NB).
      + cbn. destruct b; assumption.
      + intros w Hw. inversion Hw; subst.
        * match goal with H : means e1 (NBool ?x) |- _ => pose proof (U1 _ H) as X; discriminate end.
        * rewrite (U1 v1), (U2 v2) in * by assumption.
          match goal with H : means c (NBool ?x) |- _ => pose proof (U _ H) as X; injection X as -> end. reflexivity.
  Qed.

  Lemma well_typed_evaluates e s : well_typed e s -> evaluates e s.
  Proof.
    induction 1.
    - left. exists (NBool b). repeat split; [constructor|]. intros w Hw. now inversion Hw.
    - left. exists (NInt z). split; [constructor|split; [reflexivity|split; [exact H|split; [reflexivity|]]]].
      intros w Hw. now inversion Hw.
    - eapply evaluates_unary; eauto.
    - now apply evaluates_not.
    - eapply evaluates_int_op; eauto.
    - eapply evaluates_comparison; eauto.
    - now apply evaluates_logical.
    - now apply evaluates_ternary.
  Qed.
End Meaning.

(** ** Calls in general (C26) *)

Lemma check_const_ok vs : Forall is_const vs -> check_const vs = Ok tt.
Proof.
  unfold check_const. intros H. assert (E : exists us, mapM check_const_value vs = Ok us).
  { induction H as [|v vs Hv _ [us IH]]; [eexists; reflexivity|]. cbn [mapM]. rewrite IH.
    destruct v; cbn in Hv; try contradiction; cbn; eauto. }
  destruct E as [us ->]. reflexivity.
Qed.
Lemma check_const_err vs : ~ Forall is_const vs -> exists e, check_const vs = Err e.
Proof.
  intros H. unfold check_const. assert (E : exists e, mapM check_const_value vs = Err e).
  { induction vs as [|v vs IH]; [destruct H; constructor|]. cbn [mapM].
    destruct v; cbn [check_const_value bind].
    1-3: (destruct IH as [e ->]; [intros F; apply H; constructor; [exact I|exact F]|cbn; eauto]).
    all: eauto. }
  destruct E as [e ->]. cbn. eauto.
Qed.

(** A function that first checks that its arguments are constants. *)
Definition guarded (f : core_function) : Prop := forall vs, ~ Forall is_const vs -> exists e, f vs = Err e.
Lemma default_guarded lm : Forall (fun r => guarded (snd (fst r))) (function_history lm).
Proof.
  assert (G : forall A (k : A -> list value -> outcome error value) a,
             guarded (fun vs => let! _ := check_const vs in k a vs)).
  { intros A k a vs H. destruct (check_const_err vs H) as [e ->]. cbn. eauto. }
  assert (G0 : forall k : list value -> outcome error value, guarded (fun vs => let! _ := check_const vs in k vs)).
  { intros k vs H. destruct (check_const_err vs H) as [e ->]. cbn. eauto. }
  unfold function_history, default_functions. cbn [map fst snd].
  repeat (constructor; [cbn [fst snd]; apply G0|]). constructor.
Qed.
Lemma default_params lm : Forall (fun r => Forall (fun t => numeric (kind t) = true) (snd r)) (function_history lm).
Proof.
  unfold function_history, default_functions. cbn [map fst snd].
  repeat (constructor; [cbv [fst snd spec_types types_of_spec mapM list_ascii_of_string type_of_char Ascii.eqb Bool.eqb bind];
                        repeat constructor|]). constructor.
Qed.

(** Promotion to a constant type leaves a non-constant as it is, if it succeeds. *)
Lemma promote_nonconst v t w : ~ is_const v -> promote v t = Ok (Some w) -> ~ is_const w.
Proof.
  intros N. unfold promote. destruct (type_of v) as [tv| | |]; try discriminate. cbn [bind].
  destruct (type_check t tv); [intros [= <-]; exact N|].
  destruct v; try (destruct N; exact I); destruct (kind t); try discriminate.
  destruct (type_check tv (make_type TBool)); [intros [= <-]; exact N|discriminate].
Qed.
Lemma promotes_all_nonconst args params args' : promotes_all args params args' ->
  ~ Forall is_const args -> ~ Forall is_const args'.
Proof.
  intros (L1 & L2 & H) N F. apply N. apply Forall_forall. intros v Hv.
  apply In_nth_error in Hv. destruct Hv as [i Hi].
  destruct (nth_error params i) as [p|] eqn:Ep.
  2: { apply nth_error_None in Ep. assert (i < List.length args)%nat by (apply nth_error_Some; congruence). lia. }
  destruct (nth_error args' i) as [w|] eqn:Ew.
  2: { apply nth_error_None in Ew. assert (i < List.length args)%nat by (apply nth_error_Some; congruence). lia. }
  specialize (H i v p w Hi Ep Ew). rewrite Forall_forall in F. pose proof (F w (nth_error_In _ _ Ew)) as Cw.
  destruct v as [| | |x|x idx]; try exact I; exfalso.
  - exact (promote_nonconst (VVar x) p w (fun y => y) H Cw).
  - exact (promote_nonconst (VIndex x idx) p w (fun y => y) H Cw).
Qed.

Lemma call_resolve lm name args : call lm name args =
  let! r := resolve (register_all (function_history lm)) name args in (fst r) (snd r).
Proof.
  unfold call, resolve. rewrite register_all_find.
  destruct (overloads_of name (function_history lm)) as [|o os]; [reflexivity|].
  destruct (resolve_overload (o :: os) args) as [[x|]| | |]; cbn [bind]; try reflexivity.
  destruct (types_of args); reflexivity.
Qed.

Lemma call_nonconst lm name args : Forall typed args -> ~ Forall is_const args -> exists e, call lm name args = Err e.
Proof.
  intros Hty N. rewrite call_resolve.
  destruct (resolve_total (function_history lm) name args Hty) as [[[f args'] R]|[e R]]; rewrite R; cbn [bind fst snd]; [|eauto].
  apply resolve_ok_iff in R; [|exact Hty]. destruct R as (h1 & ps & h2 & E & P & _).
  pose proof (default_guarded lm) as G. rewrite E in G. apply Forall_app in G. destruct G as [_ G]. inversion G as [|? ? G0 _]; subst.
  apply G0. eapply promotes_all_nonconst; eauto.
Qed.

Lemma promote_args_typed args : forall params args', promote_args args params = Ok (Some args') -> Forall typed args.
Proof.
  induction args as [|a args IH]; intros [|p params] args'; cbn [promote_args]; try (constructor; fail); try discriminate.
  destruct (promote a p) as [[a'|]| | |] eqn:E; try discriminate. cbn [bind].
  destruct (promote_args args params) as [[l|]| | |] eqn:E'; try discriminate. intros _.
  constructor; [|eapply IH; eauto]. unfold promote in E. destruct (type_of a) as [t| | |] eqn:Et; try discriminate. now exists t.
Qed.
Lemma resolve_loop_typed {T} (os : list (overload T)) args r : resolve_loop os args = Ok (Some r) -> Forall typed args.
Proof.
  induction os as [|o os IH]; [discriminate|]. cbn [resolve_loop]. destruct (negb _); [exact IH|].
  destruct (promote_args args (ov_params o)) as [[l|]| | |] eqn:E; try discriminate; cbn [bind]; [|exact IH].
  intros _. eapply promote_args_typed; eauto.
Qed.
Lemma resolve_typed {T} (t : table T) name args r : resolve t name args = Ok r -> Forall typed args.
Proof.
  unfold resolve. destruct (table_find name t) as [os|]; [|discriminate].
  destruct (resolve_overload os args) as [[x|]| | |] eqn:E; try discriminate; cbn [bind].
  - intros _. eapply resolve_loop_typed; eauto.
  - destruct (types_of args); discriminate.
Qed.
Lemma bind_ok_inv {E A B} (m : outcome E A) (f : A -> outcome E B) b : bind m f = Ok b -> exists a, m = Ok a /\ f a = Ok b.
Proof. destruct m; cbn; try discriminate. eauto. Qed.
Lemma const_dec (v : value) : {is_const v} + {~ is_const v}.
Proof. destruct v; [left|left|left|right|right]; cbn; auto. Qed.
Lemma call_ok_const lm name args v : call lm name args = Ok v -> Forall is_const args /\ is_const v.
Proof.
  intros H. assert (Hty : Forall typed args).
  { rewrite call_resolve in H. apply bind_ok_inv in H. destruct H as (r & H & _). exact (resolve_typed _ _ _ _ H). }
  destruct (Forall_dec is_const const_dec args) as [F|N].
  - split; [exact F|]. pose proof (call_kind lm name args F) as K. rewrite H in K.
    destruct (result_kind name (map const_kind args)); cbn [kind_result] in K.
    + destruct K as [(w & E & C & _)|(_ & u & X)]; [|discriminate]. injection E as ->. exact C.
    + destruct K as [e X]. discriminate.
  - destruct (call_nonconst lm name args Hty N) as [e X]. rewrite H in X. discriminate.
Qed.

(** ** The conditional (C25) *)
Lemma call_cond lm b va vb : is_const va -> is_const vb ->
  exists w, call lm "operator?:" [VBool b; va; vb] = Ok w /\ is_const w /\
    promote (if b then va else vb) (make_type (const_kind w)) = Ok (Some w) /\
    (const_kind w = const_kind va \/ const_kind w = const_kind vb) /\
    check_promote (make_type (const_kind va)) (make_type (const_kind w)) = true /\
    check_promote (make_type (const_kind vb)) (make_type (const_kind w)) = true.
Proof.
  intros Ha Hb. overloads.
  destruct va, vb; cbn in Ha, Hb; try contradiction; run_call; eexists; (split; [reflexivity|]); destruct b;
    (split; [exact I|split; [reflexivity|split; [(left; reflexivity) || (right; reflexivity)|split; reflexivity]]]).
Qed.
