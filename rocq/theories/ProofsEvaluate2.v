(** Calls of the default functions give the values of SpecEvaluate. *)
From Coq Require Import Reals SpecFloat ZArith Lia.
From Verif Require Import Base ModelUtils ModelError ModelTypes ModelOverload ModelFunctions ModelAst ModelAnalyzer ModelSemantic
  SpecTypes SpecFunctions ProofsTypes ProofsFunctions ProofsFolding ProofsFolding2 ProofsIeee SpecEvaluate ProofsEvaluate.
Local Open Scope string_scope.

Notation cv := constant_value.
Lemma cv_const q : is_const (cv q).
Proof. destruct q; exact I. Qed.
Lemma cv_inj p q : cv p = cv q -> p = q.
Proof. destruct p, q; cbn; congruence. Qed.
Lemma const_cv v : is_const v -> exists q, v = cv q.
Proof. destruct v; cbn; try easy; intros _; [now exists (QBool b)|now exists (QInt z)|now exists (QFloat f)]. Qed.
Lemma whole_number q z : whole q = Some z -> exists n, cv q = value_of_number n /\ int_of n = z.
Proof. destruct q as [[|]|z'|f]; cbn; intros [= <-]; [exists (NBool true)|exists (NBool false)|exists (NInt z')]; split; reflexivity. Qed.
Lemma whole_float q : whole q = None -> exists f, q = QFloat f.
Proof. destruct q as [[|]|z'|f]; try discriminate. eauto. Qed.
Lemma whole_dec q : (exists z, whole q = Some z) \/ exists f, q = QFloat f.
Proof. destruct (whole q) eqn:E; [eauto|right; now apply whole_float]. Qed.

Lemma unary_names op : unop_name op = unary_name op.
Proof. destruct op; reflexivity. Qed.
Lemma binary_names op : binop_name op = binary_name op.
Proof. destruct op; reflexivity. Qed.

(** No call where the types do not match *)
Lemma no_kind lm name qs r : result_kind name (map const_kind (map cv qs)) = None -> call lm name (map cv qs) <> Ok r.
Proof.
  intros N E. pose proof (call_kind lm name (map cv qs)) as K. rewrite N in K. destruct K as [e X]; [|congruence].
  apply Forall_forall. intros v V. apply in_map_iff in V. destruct V as (q & <- & _). apply cv_const.
Qed.

Lemma bitnot_is z c : (forall i, (0 <= i)%Z -> Z.testbit c i = negb (Z.testbit z i)) <-> c = Z.lnot z.
Proof.
  split; [|intros ->; intros i I; now rewrite Z.lnot_spec]. intros H. apply bits_unique. intros i I. rewrite H, Z.lnot_spec by exact I. reflexivity.
Qed.
Lemma unary_call lm op q r : quantity_fits q -> (call lm (unary_name op) [cv q] = Ok (cv r) <-> unary op q r).
Proof.
  intros Q. destruct op; cbn [unary_name].
  - destruct (whole_dec q) as [[z W]|[f ->]].
    + destruct (whole_number q z W) as (n & E & <-). rewrite E, call_neg. unfold op_neg_i. destruct (int_result_cases (- int_of n)) as [[F ->]|[F ->]].
      * split; [intros [= X]; destruct r; try discriminate; injection X as <-; now constructor|]. intros H. inversion H; subst; [|discriminate W].
        rewrite W in H0. injection H0 as <-. reflexivity.
      * split; [discriminate|]. intros H. inversion H; subst; [|discriminate W]. rewrite W in H0. injection H0 as <-. contradiction.
    + replace (call lm "operator-" [cv (QFloat f)]) with (@Ok error value (VFloat (SFopp f))) by (overloads; reflexivity). rewrite <- opposite_is.
      split; [intros [= X]; destruct r; try discriminate; injection X as <-; constructor|]. intros H. inversion H; subst; [discriminate|reflexivity].
  - destruct (whole_dec q) as [[z W]|[f ->]].
    + destruct (whole_number q z W) as (n & E & <-). rewrite E, call_bitnot.
      split; [intros [= X]; destruct r; try discriminate; injection X as <-; econstructor; [exact W|now apply bitnot_is]|]. intros H. inversion H; subst.
      rewrite W in H0. injection H0 as <-. apply bitnot_is in H1. now subst.
    + split; [intros X; exfalso; revert X; now apply (no_kind lm "operator~" [QFloat f])|]. intros H. inversion H; subst. discriminate.
  - destruct q as [b|z|f].
    + cbn [cv]. rewrite call_not. split; [intros [= X]; destruct r; try discriminate; injection X as <-; constructor|]. intros H. inversion H; subst. reflexivity.
    + split; [intros X; exfalso; revert X; now apply (no_kind lm "operator!" [QInt z])|]. intros H. inversion H.
    + split; [intros X; exfalso; revert X; now apply (no_kind lm "operator!" [QFloat f])|]. intros H. inversion H.
Qed.

(** ** Binary operators *)
Lemma call_double_arith lm op g p q : sf_op op = Some g -> some_float p q -> call lm (binary_name op) [cv p; cv q] = Ok (VFloat (g (to_double p) (to_double q))).
Proof.
  intros G S. destruct op; try discriminate; injection G as <-; cbv [binary_name]; overloads;
    (destruct p as [[|]|z|f], q as [[|]|z'|f']; try reflexivity; exfalso; destruct S; discriminate).
Qed.
Lemma call_double_compare lm op g p q : sf_compare op = Some g -> some_float p q -> call lm (binary_name op) [cv p; cv q] = Ok (VBool (g (to_double p) (to_double q))).
Proof.
  intros G S. destruct op; try discriminate; injection G as <-; cbv [binary_name]; overloads;
    (destruct p as [[|]|z|f], q as [[|]|z'|f']; try reflexivity; exfalso; destruct S; discriminate).
Qed.
Lemma call_power lm p q : call lm "operator**" [cv p; cv q] = Ok (VFloat (lm_pow lm (to_double p) (to_double q))).
Proof. overloads. destruct p as [[|]|z|f], q as [[|]|z'|f']; reflexivity. Qed.
Lemma some_float_dec p q : (exists a b, whole p = Some a /\ whole q = Some b) \/ some_float p q.
Proof. destruct (whole p) eqn:P; [destruct (whole q) eqn:Q|]; [eauto|now right; right|now right; left]. Qed.
Lemma float_not_whole p q a b : some_float p q -> whole p = Some a -> whole q = Some b -> False.
Proof. intros [E|E] A B; congruence. Qed.

Lemma binary_call lm op p q r : quantity_fits p -> quantity_fits q -> (call lm (binary_name op) [cv p; cv q] = Ok (cv r) <-> binary lm op p q r).
Proof.
  intros P Q.
  assert (IO : forall a b c, int_op op a b c -> exists f, int_binop op = Some f) by (intros a b c H; inversion H; eexists; reflexivity).
  assert (CO : forall a b c, comparison_op op a b c -> exists f, comparison_fn op = Some f) by (intros a b c H; inversion H; eexists; reflexivity).
  assert (DO : forall a b c, double_comparison op a b c -> exists f, sf_compare op = Some f).
  { intros a b c H; inversion H as [? ? ? ? I|]; subst; [|eexists; reflexivity]. destruct I as [I|[I|[I|[I|[I|[]]]]]]; subst; eexists; reflexivity. }
  assert (LO : forall a b c, logical_op op a b c -> exists f, logical_fn op = Some f) by (intros a b c H; inversion H; eexists; reflexivity).
  split.
  - (* from the call *)
    intros E. destruct (some_float_dec p q) as [(a & b & A & B)|S].
    + destruct (whole_number p a A) as (n & En & <-), (whole_number q b B) as (m & Em & <-).
      pose proof (whole_fits p _ P A) as Fa. pose proof (whole_fits q _ Q B) as Fb.
      destruct (int_binop op) as [f|] eqn:I.
      { rewrite En, Em, <- binary_names, (call_int_binop lm op f n m I) in E.
        destruct (int_binop_spec op f _ _ I Fa Fb) as [(z & O & _ & X)|(_ & k & X)]; rewrite X in E; [|discriminate].
        injection E as E. destruct r; try discriminate. injection E as <-. eapply bin_whole; eauto. }
      destruct (comparison_fn op) as [f|] eqn:C.
      { rewrite En, Em, <- binary_names, (call_comparison lm op f n m C) in E. injection E as E. destruct r; try discriminate. injection E as <-.
        eapply bin_compare; eauto. apply (comparison_fn_spec op f _ _ _ C). reflexivity. }
      destruct (logical_fn op) as [f|] eqn:L.
      { destruct p as [x|x|x], q as [y|y|y];
          try (exfalso; revert E; apply (no_kind lm (binary_name op) [_; _]); destruct op; try discriminate; reflexivity).
        rewrite <- binary_names in E. cbn [cv] in E. rewrite (call_logical lm op f x y L) in E. injection E as E. destruct r; try discriminate. injection E as <-.
        apply bin_logical. now apply (logical_fn_spec op f). }
      destruct op; try discriminate. change (binary_name BPow) with "operator**" in E. rewrite call_power in E. injection E as E. destruct r; try discriminate. injection E as <-.
      apply bin_power; now apply as_double_is.
    + destruct (sf_op op) as [f|] eqn:I.
      { rewrite (call_double_arith lm op f p q I S) in E. injection E as E. destruct r; try discriminate. injection E as <-.
        eapply bin_double; [exact S|now apply as_double_is|now apply as_double_is|]. apply (ieee_is op f); auto using to_double_valid. }
      destruct (sf_compare op) as [f|] eqn:C.
      { rewrite (call_double_compare lm op f p q C S) in E. injection E as E. destruct r; try discriminate. injection E as <-.
        eapply bin_compare_doubles; [exact S|now apply as_double_is|now apply as_double_is|]. apply (compare_is op f); auto using to_double_valid. }
      destruct op; try discriminate;
        try (exfalso; revert E; apply (no_kind lm _ [p; q]); destruct S as [S|S]; destruct (whole_float _ S) as [f ->]; [destruct q|destruct p]; reflexivity).
      change (binary_name BPow) with "operator**" in E. rewrite call_power in E. injection E as E. destruct r; try discriminate. injection E as <-.
      apply bin_power; now apply as_double_is.
  - (* from the rules *)
    intros H. inversion H as [? ? ? a b z A B O|? ? ? a b z S A B O|? ? a b A B|? ? ? a b z A B O|? ? ? a b z S A B O|? a b z O]; subst.
    + destruct (IO _ _ _ O) as [f I]. destruct (whole_number p a A) as (n & En & <-), (whole_number q b B) as (m & Em & <-).
      rewrite En, Em, <- binary_names, (call_int_binop lm op f n m I).
      destruct (int_binop_spec op f _ _ I (whole_fits p _ P A) (whole_fits q _ Q B)) as [(z' & O' & _ & X)|(N & _)]; [|destruct (N _ O)].
      now rewrite X, (int_op_functional _ _ _ _ _ O O').
    + destruct (ieee_ops _ _ _ _ O) as [f I]. apply as_double_is in A, B; auto. subst.
      rewrite (call_double_arith lm op f p q I S). apply (ieee_is op f) in O; auto using to_double_valid. now subst.
    + apply as_double_is in A, B; auto. subst. apply call_power.
    + destruct (CO _ _ _ O) as [f I]. destruct (whole_number p a A) as (n & En & <-), (whole_number q b B) as (m & Em & <-).
      rewrite En, Em, <- binary_names, (call_comparison lm op f n m I). apply (comparison_fn_spec op f _ _ _ I) in O. now subst.
    + destruct (DO _ _ _ O) as [f I]. apply as_double_is in A, B; auto. subst.
      rewrite (call_double_compare lm op f p q I S). apply (compare_is op f) in O; auto using to_double_valid. now subst.
    + destruct (LO _ _ _ O) as [f I]. cbn [cv]. rewrite <- binary_names, (call_logical lm op f a b I). apply (logical_fn_spec op f) in O; auto. now subst.
Qed.

(** ** The conditional *)
Lemma call_conditional_double lm c p q : some_float p q -> call lm "operator?:" [VBool c; cv p; cv q] = Ok (VFloat (if c then to_double p else to_double q)).
Proof. intros S. overloads. destruct p as [[|]|z|f], q as [[|]|z'|f']; try reflexivity; exfalso; destruct S; discriminate. Qed.
Lemma conditional_call lm c p q r : quantity_fits p -> quantity_fits q -> (call lm "operator?:" [cv c; cv p; cv q] = Ok (cv r) <-> conditional c p q r).
Proof.
  intros P Q.
  destruct c as [c|z|f].
  2: { split; [intros X; exfalso; revert X; now apply (no_kind lm "operator?:" [QInt z; p; q])|intros H; inversion H]. }
  2: { split; [intros X; exfalso; revert X; now apply (no_kind lm "operator?:" [QFloat f; p; q])|intros H; inversion H]. }
  cbn [cv].
  destruct (some_float_dec p q) as [(a & b & A & B)|S].
  - assert (D : (exists x y, p = QBool x /\ q = QBool y) \/ ~ exists x y, p = QBool x /\ q = QBool y).
    { destruct p as [x| |], q as [y| |]; try (right; intros (? & ? & ? & ?); discriminate). left. eauto. }
    destruct D as [(x & y & -> & ->)|D].
    + cbn [cv]. rewrite call_cond_bool. split; [intros [= X]; destruct r; try discriminate; injection X as <-; constructor|]. intros H. inversion H; subst.
      * reflexivity.
      * exfalso. match goal with N : ~ _ |- _ => apply N end. eauto.
      * exfalso. eauto using float_not_whole.
    + destruct (whole_number p a A) as (n & En & <-), (whole_number q b B) as (m & Em & <-). rewrite En, Em, call_cond_int.
      2: { intros x y [-> ->]. apply D. destruct p as [x'| |]; try discriminate. destruct q as [y'| |]; try discriminate. eauto. }
      split; [intros [= X]; destruct r; try discriminate; injection X as <-; now constructor|]. intros H. inversion H; subst.
      * exfalso. apply D. eauto.
      * match goal with X : whole p = Some ?x, Y : whole q = Some ?y |- Ok (VInt (if c then ?u else ?v)) = Ok (cv (QInt (if c then ?x else ?y))) => rewrite A in X; rewrite B in Y; injection X as <-; injection Y as <- end. reflexivity.
      * exfalso. eauto using float_not_whole.
  - rewrite call_conditional_double by exact S.
    split; [intros [= X]; destruct r; try discriminate; injection X as <-; apply cond_double; auto; now apply as_double_is|]. intros H. inversion H; subst.
    + exfalso. destruct S; destruct a, b; discriminate.
    + exfalso. eauto using float_not_whole.
    + match goal with A : as_double p ?x, B : as_double q ?y |- _ => apply as_double_is in A, B; auto; subst; reflexivity end.
Qed.

(** ** Functions *)
Lemma call_abs lm n : call lm "abs" [value_of_number n] = fn_abs_i (int_of n).
Proof. overloads. destruct n as [[]|]; reflexivity. Qed.
Lemma call_sqrt lm q : call lm "sqrt" [cv q] = Ok (VFloat (SFsqrt 53 1024 (to_double q))).
Proof. overloads. destruct q as [[]| |]; reflexivity. Qed.
Lemma call_library lm name g q : In (name, g) (library lm) -> call lm name [cv q] = Ok (VFloat (g (to_double q))).
Proof.
  intros I. unfold library in I. repeat (destruct I as [[= <- <-]|I]; [overloads; destruct q as [[]| |]; reflexivity|]). destruct I.
Qed.

Lemma among_In l n : among l n = true -> In n l.
Proof. unfold among. intros H. apply existsb_exists in H. destruct H as (m & I & E). apply String.eqb_eq in E. now subst. Qed.
Lemma kind_name1 n k : result_kind n [k] <> None ->
  n = "abs" \/ n = "sqrt" \/ (exists g, In n (map fst (library g))) \/ exists op, n = unary_name op.
Proof.
  cbn [result_kind]. destruct (String.eqb_spec n "operator-") as [->|_]; [intros _; right; right; right; now exists UMinus|].
  destruct (String.eqb_spec n "abs") as [->|_]; [now left|]. cbn [orb].
  destruct (String.eqb_spec n "operator~") as [->|_]; [intros _; right; right; right; now exists UBitNot|].
  destruct (String.eqb_spec n "operator!") as [->|_]; [intros _; right; right; right; now exists ULogNot|].
  destruct (among math_names n) eqn:M; [|congruence]. intros _. apply among_In in M. unfold math_names in M.
  pose (i := fun x : float => x). pose (lm0 := mkLibm (fun a _ => a) i i i i i i i i i i i i i i).
  repeat (destruct M as [<-|M]; [first [right; left; reflexivity|right; right; left; exists lm0; cbn; tauto]|]). destruct M.
Qed.
Lemma kind_name2 n a b : result_kind n [a; b] <> None -> exists op, n = binary_name op.
Proof.
  cbn [result_kind]. destruct (among arithmetic_names n) eqn:M1.
  { intros _. apply among_In in M1. repeat (destruct M1 as [<-|M1]; [first [now exists BAdd|now exists BSub|now exists BMul|now exists BDiv]|]). destruct M1. }
  destruct (String.eqb_spec n "operator**") as [->|_]; [intros _; now exists BPow|].
  destruct (among comparison_names n) eqn:M2.
  { intros _. apply among_In in M2. repeat (destruct M2 as [<-|M2]; [first [now exists BEq|now exists BNe|now exists BLt|now exists BLe|now exists BGt|now exists BGe]|]). destruct M2. }
  destruct (among bitwise_names n) eqn:M3.
  { intros _. apply among_In in M3. repeat (destruct M3 as [<-|M3]; [first [now exists BMod|now exists BShl|now exists BShr|now exists BBitAnd|now exists BBitXor|now exists BBitOr]|]). destruct M3. }
  destruct (among logical_names n) eqn:M4; [|congruence].
  intros _. apply among_In in M4. repeat (destruct M4 as [<-|M4]; [first [now exists BLogAnd|now exists BLogOr|now exists BLogXor]|]). destruct M4.
Qed.
Lemma kind_name3 n a b c : result_kind n [a; b; c] <> None -> n = "operator?:".
Proof. cbn [result_kind]. destruct (String.eqb_spec n "operator?:") as [->|_]; [reflexivity|]. cbn. congruence. Qed.

Lemma call_abs_double lm f : call lm "abs" [VFloat f] = Ok (VFloat (SFabs f)).
Proof. overloads. reflexivity. Qed.
Lemma abs_call lm q r : quantity_fits q -> (call lm "abs" [cv q] = Ok (cv r) <-> function lm "abs" [q] r).
Proof.
  intros Q. split.
  - intros E. destruct (whole_dec q) as [[z W]|[f ->]].
    + destruct (whole_number q z W) as (n & En & <-). rewrite En, call_abs in E. unfold fn_abs_i in E.
      destruct (int_result_cases (Z.abs (int_of n))) as [[F X]|[F X]]; rewrite X in E; [|discriminate].
      injection E as E. destruct r; try discriminate. injection E as <-. now constructor.
    + cbn [cv] in E. rewrite call_abs_double in E. injection E as E. destruct r; try discriminate. injection E as <-. rewrite <- magnitude_is. constructor.
  - intros H. remember "abs" as n eqn:En. remember [q] as qs eqn:Eq. destruct H as [q0 z W F|f|q0 f r A S|n g q0 f I A|op q0 r U|op p0 q0 r B|c p0 q0 r C]; try discriminate En; try discriminate Eq; try injection Eq as <-; try subst n.
    + destruct (whole_number q0 z W) as (m & Em & <-). rewrite Em, call_abs. unfold fn_abs_i.
      destruct (int_result_cases (Z.abs (int_of m))) as [[F' X]|[F' X]]; rewrite X; [reflexivity|contradiction].
    + cbn [cv]. rewrite call_abs_double. reflexivity.
    + unfold library in I. repeat (destruct I as [I|I]; [discriminate|]). destruct I.
    + destruct op; discriminate.
Qed.

(** Every call, of every name with every list of numbers *)
Lemma call_is lm n qs r : Forall quantity_fits qs -> (call lm n (map cv qs) = Ok (cv r) <-> function lm n qs r).
Proof.
  intros F. split.
  - intros E. assert (K : result_kind n (map const_kind (map cv qs)) <> None) by (intros K; exact (no_kind lm n qs _ K E)).
    destruct qs as [|p [|q [|q' [|q'' qs]]]]; cbn [map] in *; try (destruct (K eq_refl)).
    + inversion F as [|? ? P _]; subst. destruct (kind_name1 _ _ K) as [->|[->|[[g I]|[op ->]]]].
      * now apply abs_call.
      * rewrite call_sqrt in E. injection E as E. destruct r; try discriminate. injection E as <-.
        eapply fn_sqrt; [now apply as_double_is|]. apply sqrt_is; [now apply to_double_valid|reflexivity].
      * assert (I' : In n (map fst (library lm))) by exact I. apply in_map_iff in I'. destruct I' as ([m h] & <- & I'). cbn [fst] in *.
        rewrite (call_library lm m h p I') in E. injection E as E. destruct r; try discriminate. injection E as <-.
        eapply fn_library; [exact I'|]. now apply as_double_is.
      * constructor. now apply (unary_call lm).
    + inversion F as [|? ? P F2]; subst. inversion F2 as [|? ? Q _]; subst. destruct (kind_name2 _ _ _ K) as [op ->]. constructor. now apply binary_call.
    + inversion F as [|? ? P F2]; subst. inversion F2 as [|? ? Q F3]; subst. inversion F3 as [|? ? Q' _]; subst. rewrite (kind_name3 _ _ _ _ K) in *.
      constructor. now apply (conditional_call lm).
  - intros H. destruct H as [q z W X|f|q f r A S|n g q f I A|op q r U|op p q r B|c p q r C].
    + inversion F; subst. apply abs_call; [assumption|]. now constructor.
    + inversion F; subst. apply abs_call; [assumption|]. constructor.
    + inversion F; subst. cbn [map]. rewrite call_sqrt. apply as_double_is in A; [|assumption]. subst. apply sqrt_is in S; [|now apply to_double_valid]. now subst.
    + inversion F; subst. cbn [map]. rewrite (call_library lm n g q I). apply as_double_is in A; [|assumption]. now subst.
    + inversion F; subst. now apply (unary_call lm).
    + inversion F as [|? ? P F2]; subst. inversion F2; subst. now apply binary_call.
    + inversion F as [|? ? P F2]; subst. inversion F2 as [|? ? Q F3]; subst. inversion F3; subst. now apply conditional_call.
Qed.
