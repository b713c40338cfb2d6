(** Lemmas for C83: pi and e, to the last bit of a double. *)
From Coq Require Import Reals Lra QArith Qreals SpecFloat Machin.
From Flocq Require Import Core.Core IEEE754.Binary.
From Verif Require Import Base ModelError ModelTypes ModelAst ModelAnalyzer ModelSemantic SpecTypes SpecFunctions SpecAnalyzer
  ProofsFunctions ProofsAnalyzer ProofsAnalyzer2 ProofsAnalyzer7.
Local Open Scope string_scope.
Local Open Scope R_scope.

(** ** Alternating sums, computed with rational numbers *)

Fixpoint qpow (q : Q) (n : nat) : Q := match n with O => 1%Q | S n => Qred (q * qpow q n) end.
Definition qsign (n : nat) (q : Q) : Q := if Nat.even n then q else Qopp q.
Fixpoint qsum (f : nat -> Q) (n : nat) : Q := match n with O => qsign 0 (f 0%nat) | S n => Qred (qsum f n + qsign (S n) (f (S n))) end.

Lemma Q2R_red q : Q2R (Qred q) = Q2R q.
Proof. apply Qeq_eqR, Qred_correct. Qed.
Lemma Q2R_qpow q n : Q2R (qpow q n) = Q2R q ^ n.
Proof. induction n as [|n IH]; [unfold Q2R; cbn; lra|]. cbn [qpow pow]. rewrite Q2R_red, Q2R_mult, IH. reflexivity. Qed.
Lemma Q2R_sign n q : Q2R (qsign n q) = (-1) ^ n * Q2R q.
Proof.
  unfold qsign. destruct (Nat.even n) eqn:E.
  - apply Nat.even_spec in E. destruct E as [m ->]. rewrite pow_1_even. lra.
  - assert (O : Nat.Odd n) by (apply Nat.odd_spec; unfold Nat.odd; now rewrite E). destruct O as [m ->].
    rewrite Nat.add_1_r, pow_1_odd, Q2R_opp. lra.
Qed.
Lemma Q2R_sum f g n : (forall i, Q2R (f i) = g i) -> Q2R (qsum f n) = sum_f_R0 (tg_alt g) n.
Proof.
  intros H. induction n as [|n IH].
  - cbn [qsum sum_f_R0]. rewrite Q2R_sign, H. reflexivity.
  - cbn [qsum sum_f_R0]. rewrite Q2R_red, Q2R_plus, IH, Q2R_sign, H. reflexivity.
Qed.
Lemma Q2R_nat n : Q2R (Z.of_nat n # 1) = INR n.
Proof. unfold Q2R. cbn. rewrite INR_IZR_INZ. lra. Qed.

(** ** pi *)

Definition qatan (q : Q) (n : nat) : Q := (qpow q (2 * n + 1) * / (Z.of_nat (2 * n + 1) # 1))%Q.
Lemma Q2R_atan q x n : Q2R q = x -> Q2R (qatan q n) = Ratan_seq x n.
Proof.
  intros <-. unfold qatan, Ratan_seq. rewrite Q2R_mult, Q2R_qpow, Q2R_inv, Q2R_nat; [reflexivity|].
  intros E. apply Qeq_eqR in E. rewrite Q2R_nat, RMicromega.Q2R_0 in E. rewrite Nat.add_1_r in E. exact (not_0_INR _ (Nat.neq_succ_0 _) E).
Qed.
Definition qmachin (n : nat) : Q := ((2 # 1) * qatan (1 # 3) n + qatan (1 # 7) n)%Q.
Lemma Q2R_machin n : Q2R (qmachin n) = PI_2_3_7_tg n.
Proof.
  unfold qmachin, PI_2_3_7_tg. rewrite Q2R_plus, Q2R_mult, (Q2R_atan _ (/ 3)), (Q2R_atan _ (/ 7)) by (unfold Q2R; cbn; lra). unfold Q2R. cbn. lra.
Qed.
Lemma pi_bounds : Q2R ((4 # 1) * qsum qmachin 21) <= PI <= Q2R ((4 # 1) * qsum qmachin 20).
Proof.
  rewrite !Q2R_mult, !(Q2R_sum _ _ _ Q2R_machin). replace (Q2R (4 # 1)) with 4 by (unfold Q2R; cbn; lra).
  pose proof (PI_2_3_7_ineq 10) as H. change (S (2 * 10))%nat with 21%nat in H. change (2 * 10)%nat with 20%nat in H. lra.
Qed.

(** ** e *)

Fixpoint zfact (n : nat) : Z := match n with O => 1%Z | S n => (Z.of_nat (S n) * zfact n)%Z end.
Lemma zfact_fact n : IZR (zfact n) = INR (fact n).
Proof. induction n as [|n IH]; [reflexivity|]. cbn [zfact]. rewrite mult_IZR, IH, <- INR_IZR_INZ, <- mult_INR. reflexivity. Qed.
Definition qexp (n : nat) : Q := (/ (zfact n # 1))%Q.
Lemma Q2R_exp n : Q2R (qexp n) = / INR (fact n).
Proof.
  unfold qexp. assert (E : Q2R (zfact n # 1) = INR (fact n)) by (unfold Q2R; cbn; rewrite zfact_fact; lra).
  rewrite Q2R_inv, E; [reflexivity|]. intros Z. apply Qeq_eqR in Z. rewrite E, RMicromega.Q2R_0 in Z. exact (INR_fact_neq_0 n Z).
Qed.
Lemma exp_series : forall N, sum_f_R0 (tg_alt (fun i => / INR (fact i))) (S (2 * N)) <= exp (-1) <= sum_f_R0 (tg_alt (fun i => / INR (fact i))) (2 * N).
Proof.
  intros N. apply alternated_series_ineq.
  - intros n. apply Rinv_le_contravar; [apply INR_fact_lt_0|]. apply le_INR, fact_le. apply Nat.le_succ_diag_r.
  - intros eps H. destruct (cv_speed_pow_fact 1 eps H) as [M HM]. exists M. intros n L. specialize (HM n L).
    replace (/ INR (fact n)) with (1 ^ n / INR (fact n)); [exact HM|]. rewrite pow1. unfold Rdiv. lra.
  - unfold exp. destruct (exist_exp (-1)) as [x e]. cbn [proj1_sig]. unfold exp_in, infinite_sum in e. intros eps H. destruct (e eps H) as [M HM]. exists M. intros n L.
    specialize (HM n L). erewrite sum_eq; [exact HM|]. intros i _. unfold tg_alt. lra.
Qed.
Lemma exp_minus_bounds : Q2R (qsum qexp 25) <= exp (-1) <= Q2R (qsum qexp 24).
Proof. rewrite !(Q2R_sum _ _ _ Q2R_exp). exact (exp_series 12). Qed.

(** ** Rounding *)

(** A number between 2^(k-1) and 2^k close enough to m 2^(k-53) *)
Lemma rounds_near x m k : (-1000 < k)%Z -> bpow radix2 (k - 1) <= x < bpow radix2 k -> Rabs (x * bpow radix2 (53 - k) - IZR m) < / 2 ->
  nearest_double x = IZR m * bpow radix2 (k - 53).
Proof.
  intros K B C. unfold nearest_double, round, scaled_mantissa.
  assert (M : mag radix2 x = k :> Z).
  { apply mag_unique. rewrite Rabs_pos_eq; [exact B|]. apply Rle_trans with (2 := proj1 B). apply bpow_ge_0. }
  assert (E : cexp radix2 (FLT_exp (-1074) 53) x = (k - 53)%Z) by (unfold cexp, FLT_exp; rewrite M; lia).
  rewrite E. replace (- (k - 53))%Z with (53 - k)%Z by lia. rewrite (Znearest_imp _ _ m C). reflexivity.
Qed.

(** The same for a number between two rational ones *)
Definition qnear (a b : Q) (m k : Z) : bool :=
  (Qle_bool (Z.pow 2 (k - 1) # 1) a && negb (Qle_bool (Z.pow 2 k # 1) b) &&
   negb (Qle_bool (a * (Z.pow 2 (53 - k) # 1)) ((2 * m - 1) # 2)) && negb (Qle_bool ((2 * m + 1) # 2) (b * (Z.pow 2 (53 - k) # 1))))%bool.
Lemma Q2R_Z z : Q2R (z # 1) = IZR z.
Proof. unfold Q2R. cbn. lra. Qed.
Lemma Q2R_half z : Q2R (z # 2) = IZR z / 2.
Proof. reflexivity. Qed.
Lemma Qnle a b : negb (Qle_bool a b) = true -> Q2R b < Q2R a.
Proof.
  intros H. apply Qlt_Rlt. apply Qnot_le_lt. intros L. apply Qle_bool_iff in L. rewrite L in H. discriminate.
Qed.
Lemma rounds_between x a b m k : (1 <= k <= 53)%Z -> Q2R a <= x <= Q2R b -> qnear a b m k = true ->
  nearest_double x = IZR m * bpow radix2 (k - 53).
Proof.
  intros K [A B] Q. unfold qnear in Q. apply andb_prop in Q. destruct Q as [Q Q4]. apply andb_prop in Q. destruct Q as [Q Q3].
  apply andb_prop in Q. destruct Q as [Q1 Q2]. apply Qle_bool_iff, Qle_Rle in Q1. apply Qnle in Q2, Q3, Q4.
  rewrite Q2R_mult in Q3, Q4. rewrite Q2R_Z in Q1, Q2, Q3, Q4. rewrite Q2R_half in Q3, Q4. rewrite minus_IZR, mult_IZR in Q3. rewrite plus_IZR, mult_IZR in Q4.
  change 2%Z with (radix_val radix2) in Q1, Q2, Q3, Q4. rewrite IZR_Zpower in Q1, Q2, Q3, Q4 by lia.
  assert (P : 0 < bpow radix2 (53 - k)) by apply bpow_gt_0.
  apply rounds_near; [lia|split; lra|]. cbn [radix_val radix2] in Q3, Q4.
  assert (A' : Q2R a * bpow radix2 (53 - k) <= x * bpow radix2 (53 - k)) by (apply Rmult_le_compat_r; lra).
  assert (B' : x * bpow radix2 (53 - k) <= Q2R b * bpow radix2 (53 - k)) by (apply Rmult_le_compat_r; lra).
  apply Rabs_def1; lra.
Qed.

Lemma pi_nearest : nearest_double PI = real_of const_pi.
Proof.
  rewrite (rounds_between PI _ _ 7074237752028440 2 ltac:(lia) pi_bounds); [reflexivity|]. vm_compute. reflexivity.
Qed.
Lemma tau_nearest : nearest_double (2 * PI) = real_of const_tau.
Proof.
  rewrite (rounds_between (2 * PI) (Qred ((2 # 1) * ((4 # 1) * qsum qmachin 21))) (Qred ((2 # 1) * ((4 # 1) * qsum qmachin 20))) 7074237752028440 3 ltac:(lia)).
  - reflexivity.
  - rewrite !Q2R_red, !(Q2R_mult (2 # 1)), !Q2R_Z. pose proof pi_bounds. lra.
  - vm_compute. reflexivity.
Qed.
Lemma eu_nearest : nearest_double (exp 1) = real_of const_eu.
Proof.
  assert (P : 0 < Q2R (qsum qexp 25)).
  { rewrite <- RMicromega.Q2R_0. apply Qlt_Rlt. vm_compute. reflexivity. }
  destruct exp_minus_bounds as [L U].
  rewrite (rounds_between (exp 1) (Qred (/ qsum qexp 24)) (Qred (/ qsum qexp 25)) 6121026514868073 2 ltac:(lia)).
  - reflexivity.
  - rewrite !Q2R_red, !Q2R_inv by (vm_compute; discriminate).
    replace (exp 1) with (/ exp (-1)) by (rewrite <- exp_Ropp; f_equal; lra).
    split; apply Rinv_le_contravar; try assumption. apply exp_pos.
  - vm_compute. reflexivity.
Qed.

(** ** In every state of an analysis *)

Lemma constant_values lm st n : analyses lm st -> In n constant_names ->
  In n (names_here st) /\ forall st0, default_analyzer lm "3.0" = Ok st0 -> resolve_variable st n = resolve_variable st0 n.
Proof.
  intros A I. induction A as [st D|st p st' r A IH G H].
  - split; [now rewrite (default_names _ _ _ D)|]. intros st0 D0. rewrite D in D0. injection D0 as <-. reflexivity.
  - destruct IH as [N V]. apply analyze_ast_inv in H. destruct H as (v & e1 & e2 & sc & rest & _ & B & _). split.
    + apply (block_names _ _ _ _ n B). now left.
    + intros st0 D0. rewrite (here_stays _ _ _ _ _ B N). now apply V.
Qed.
Lemma constant_in_block lm st lb ss st1 es n l v : analyses lm st -> visit_block lb st ss = (Ok st1, es) -> In n constant_names ->
  (exists st0, default_analyzer lm "3.0" = Ok st0 /\ resolve_variable st0 n = Ok v) -> visit st1 (EIdent l n) = Ok v.
Proof.
  intros A B I (st0 & D & E). apply block_run_iff in B. destruct (constant_values lm st n A I) as [N V].
  cbn [visit]. rewrite (here_stays _ _ _ _ _ B N), (V st0 D), E. reflexivity.
Qed.
Lemma constant_numbers lm st lb ss st1 es l : analyses lm st -> visit_block lb st ss = (Ok st1, es) ->
  (exists f, visit st1 (EIdent l "pi") = Ok (VFloat f) /\ finite_double f /\ real_of f = nearest_double PI) /\
  (exists f, visit st1 (EIdent l "tau") = Ok (VFloat f) /\ finite_double f /\ real_of f = nearest_double (2 * PI)) /\
  (exists f, visit st1 (EIdent l "eu") = Ok (VFloat f) /\ finite_double f /\ real_of f = nearest_double (exp 1)).
Proof.
  intros A B. repeat match goal with |- _ /\ _ => split end.
  - exists const_pi. split; [|split; [split; reflexivity|now rewrite pi_nearest]].
    apply (constant_in_block lm st lb ss st1 es); auto; [cbn; tauto|]. eexists. split; [apply default_analyzer_value|reflexivity].
  - exists const_tau. split; [|split; [split; reflexivity|now rewrite tau_nearest]].
    apply (constant_in_block lm st lb ss st1 es); auto; [cbn; tauto|]. eexists. split; [apply default_analyzer_value|reflexivity].
  - exists const_eu. split; [|split; [split; reflexivity|now rewrite eu_nearest]].
    apply (constant_in_block lm st lb ss st1 es); auto; [cbn; tauto|]. eexists. split; [apply default_analyzer_value|reflexivity].
Qed.
Lemma constant_booleans lm st lb ss st1 es l : analyses lm st -> visit_block lb st ss = (Ok st1, es) ->
  visit st1 (EIdent l "true") = Ok (VBool true) /\ visit st1 (EIdent l "false") = Ok (VBool false).
Proof.
  intros A B. split.
  - apply (constant_in_block lm st lb ss st1 es); auto; [cbn; tauto|]. eexists. split; [apply default_analyzer_value|reflexivity].
  - apply (constant_in_block lm st lb ss st1 es); auto; [cbn; tauto|]. eexists. split; [apply default_analyzer_value|reflexivity].
Qed.
