(** Expression-level consequences used by PropertiesFolding. *)
From Coq Require Import Reals SpecFloat ZifyBool.
From Verif Require Import Base ModelError ModelTypes ModelOverload ModelFunctions ModelAst ModelAnalyzer ModelSemantic
  SpecTypes SpecFunctions ProofsFloat ProofsTypes ProofsFunctions ProofsFolding ProofsIeee.
Local Open Scope string_scope.

Lemma int_result_if z : int_result z = if in_int64 z then Ok (VInt z) else UB SignedOverflow.
Proof. unfold int_result, ret_int64. now destruct (in_int64 z). Qed.

Lemma folding_respects_meaning lm st e s : has_default_functions lm st -> well_typed e s ->
  (forall v, visit_expression st e = Ok v <-> exists n, v = value_of_number n /\ means e n) /\
  ((exists k, visit_expression st e = UB k) <-> ~ exists n, means e n).
Proof.
  intros Hst Hw. unfold visit_expression.
  destruct (well_typed_evaluates lm st Hst e s Hw) as [(v & M & _ & _ & V & U)|(N & k & V)]; rewrite V; cbn [with_context].
  - split.
    + intros w. split; [intros [= <-]; eauto|]. intros (n & -> & Hn). now rewrite (U n Hn).
    + split; [intros [k H]; discriminate|]. intros H. destruct H. eauto.
  - split.
    + intros w. split; [discriminate|]. intros (n & _ & Hn). destruct (N n Hn).
    + split; [|eauto]. intros _ [n Hn]. exact (N n Hn).
Qed.

Lemma meaning_unique e s n m : well_typed e s -> means e n -> means e m -> n = m.
Proof.
  intros Hw Hn Hm. pose (lm := mkLibm (fun a _ => a) (fun a => a) (fun a => a) (fun a => a) (fun a => a) (fun a => a) (fun a => a) (fun a => a) (fun a => a) (fun a => a) (fun a => a) (fun a => a) (fun a => a) (fun a => a) (fun a => a)).
  destruct (well_typed_evaluates lm _ (default_has_default lm _ (default_analyzer_value lm)) e s Hw)
    as [(v & _ & _ & _ & _ & U)|(N & _)].
  - now rewrite (U n Hn), (U m Hm).
  - destruct (N n Hn).
Qed.

Section Literals.
  Variables (lm : libm) (st : analyzer).
  Hypothesis Hst : has_default_functions lm st.

  Lemma binary_literals l l1 l2 op a b :
    In op [BAdd; BSub; BMul; BDiv; BMod; BBitAnd; BBitOr; BBitXor; BShl; BShr] -> fits a -> fits b ->
    (forall v, visit_expression st (EBinary l op (EInt l1 a) (EInt l2 b)) = Ok v <-> exists z, v = VInt z /\ int_op op a b z) /\
    ((exists k, visit_expression st (EBinary l op (EInt l1 a) (EInt l2 b)) = UB k) <-> ~ exists z, int_op op a b z).
  Proof.
    intros Hop Ha Hb.
    destruct (folding_respects_meaning lm st (EBinary l op (EInt l1 a) (EInt l2 b)) SInt Hst) as [H1 H2].
    { eapply wt_int_op; eauto; now constructor. }
    destruct (int_ops_are op Hop) as (f & _ & Nc & Nl).
    assert (M : forall n, means (EBinary l op (EInt l1 a) (EInt l2 b)) n <-> exists z, n = NInt z /\ int_op op a b z).
    { intros n. split.
      - intros H. inversion H; subst.
        + repeat match goal with M : means (EInt _ _) _ |- _ => inversion M; subst; clear M end. eauto.
        + exfalso. eapply Nc; eauto.
        + exfalso. eapply Nl; eauto.
      - intros (z & -> & Hz). eapply means_int_op; try constructor. exact Hz. }
    split.
    - intros v. rewrite H1. split.
      + intros (n & -> & Hn). apply M in Hn. destruct Hn as (z & -> & Hz). exists z. auto.
      + intros (z & -> & Hz). exists (NInt z). split; [reflexivity|]. apply M. eauto.
    - rewrite H2. split; intros N [x Hx]; apply N.
      + exists (NInt x). apply M. eauto.
      + apply M in Hx. destruct Hx as (z & _ & Hz). eauto.
  Qed.

  Lemma binary_values l e1 e2 op v1 v2 : visit_expression st e1 = Ok v1 -> visit_expression st e2 = Ok v2 ->
    visit_expression st (EBinary l op e1 e2) = with_context l (call lm (binop_name op) [v1; v2]).
  Proof.
    unfold visit_expression. intros H1 H2. cbn [visit expr_loc]. rewrite H1, H2. cbn [bind].
    now rewrite (resolve_function_call lm st).
  Qed.
  Lemma unary_values l e op v : visit_expression st e = Ok v ->
    visit_expression st (EUnary l op e) = with_context l (call lm (unop_name op) [v]).
  Proof.
    unfold visit_expression. intros H. cbn [visit expr_loc]. rewrite H. cbn [bind].
    now rewrite (resolve_function_call lm st).
  Qed.

  Lemma int_or_ub_context l r : int_or_ub r -> with_context l r = r.
  Proof. intros [[z ->]|[k ->]]; reflexivity. Qed.

  Lemma binary_ints l l1 l2 op f a b : int_binop op = Some f ->
    visit_expression st (EBinary l op (EInt l1 a) (EInt l2 b)) = f a b.
  Proof.
    intros Hf. rewrite (binary_values l _ _ op (VInt a) (VInt b)) by reflexivity.
    change [VInt a; VInt b] with [value_of_number (NInt a); value_of_number (NInt b)].
    rewrite (call_int_binop lm op f _ _ Hf). apply int_or_ub_context.
    destruct int_ops_or_ub as (I1 & I2 & I3 & I4 & I5 & I6 & I7 & I8 & I9 & I10 & I11 & I12 & I13).
    destruct op; try discriminate; injection Hf as <-; auto.
  Qed.
End Literals.

Lemma division_cases lm st l l1 l2 a b : has_default_functions lm st -> fits a -> fits b ->
  (b = 0 -> visit_expression st (EBinary l BDiv (EInt l1 a) (EInt l2 b)) = UB DivisionByZero /\
            visit_expression st (EBinary l BMod (EInt l1 a) (EInt l2 b)) = UB DivisionByZero)%Z /\
  (a = - 2 ^ 63 -> b = -1 -> visit_expression st (EBinary l BDiv (EInt l1 a) (EInt l2 b)) = UB SignedOverflow /\
                             visit_expression st (EBinary l BMod (EInt l1 a) (EInt l2 b)) = UB SignedOverflow)%Z /\
  (b <> 0 -> ~ (a = - 2 ^ 63 /\ b = -1) -> exists q r,
     visit_expression st (EBinary l BDiv (EInt l1 a) (EInt l2 b)) = Ok (VInt q) /\
     visit_expression st (EBinary l BMod (EInt l1 a) (EInt l2 b)) = Ok (VInt r) /\
     a = q * b + r /\ Z.abs r < Z.abs b /\ 0 <= r * a)%Z.
Proof.
  intros H Ha Hb. rewrite (binary_ints lm st H l l1 l2 BDiv op_div_ii a b eq_refl).
  rewrite (binary_ints lm st H l l1 l2 BMod op_mod_ii a b eq_refl). unfold op_div_ii, op_mod_ii.
  split; [|split].
  - intros ->. cbn. auto.
  - intros -> ->. split; reflexivity.
  - intros N M. destruct (Z.eqb_spec b 0); [contradiction|].
    destruct (trunc_div_spec a b N) as (E1 & E2 & E3).
    assert (F : in_int64 (Z.quot a b) = true).
    { apply in_int64_fits. unfold fits in *. destruct (Z.eq_dec b (-1)) as [->|].
      - assert (a <> - 2 ^ 63)%Z by tauto. change (-1)%Z with (- (1))%Z. rewrite Z.quot_opp_r, Z.quot_1_r by lia. lia.
      - assert (Z.abs (Z.quot a b) < 2 ^ 63 \/ b = 1)%Z by (destruct (Z.eq_dec b 1); [now right|left]; nia).
        destruct H0 as [| ->]; [lia|]. rewrite Z.quot_1_r. lia. }
    rewrite int_result_if, F. eauto 8.
Qed.

Lemma negation_literal lm st l l1 a : has_default_functions lm st ->
  visit_expression st (EUnary l UMinus (EInt l1 a)) = if in_int64 (- a) then Ok (VInt (- a)) else UB SignedOverflow.
Proof.
  intros H. rewrite (unary_values lm st H l _ UMinus (VInt a)) by reflexivity.
  change (VInt a) with (value_of_number (NInt a)). cbv [unop_name append]. rewrite call_neg. unfold op_neg_i. cbn [int_of].
  rewrite (int_or_ub_context l _ (int_result_or_ub (- a))). apply int_result_if.
Qed.
Lemma abs_literal lm st l l1 a : has_default_functions lm st ->
  visit_expression st (ECall l "abs" (Some [EInt l1 a])) = if in_int64 (Z.abs a) then Ok (VInt (Z.abs a)) else UB SignedOverflow.
Proof.
  intros H. unfold visit_expression. cbn [visit expr_loc mapM with_context bind].
  rewrite (resolve_function_call lm st) by exact H.
  replace (call lm "abs" [VInt a]) with (int_result (Z.abs a)) by (overloads; reflexivity).
  rewrite (int_or_ub_context l _ (int_result_or_ub (Z.abs a))). apply int_result_if.
Qed.
Lemma complement_literal lm st l l1 a : has_default_functions lm st ->
  exists c, visit_expression st (EUnary l UBitNot (EInt l1 a)) = Ok (VInt c) /\
    (forall i, (0 <= i)%Z -> Z.testbit c i = negb (Z.testbit a i)) /\ c = (- a - 1)%Z /\ (fits a -> fits c).
Proof.
  intros H. exists (Z.lnot a). rewrite (unary_values lm st H l _ UBitNot (VInt a)) by reflexivity.
  change (VInt a) with (value_of_number (NInt a)). cbv [unop_name append]. rewrite call_bitnot.
  split; [reflexivity|]. split; [intros; now apply Z.lnot_spec|]. split; [unfold Z.lnot; lia|apply fits_lnot].
Qed.
Lemma shift_undefined_iff lm st l l1 l2 op a b : has_default_functions lm st ->
  op = BShl \/ op = BShr -> fits a -> fits b ->
  ((exists k, visit_expression st (EBinary l op (EInt l1 a) (EInt l2 b)) = UB k) <-> ~ (0 <= b < 64)%Z).
Proof.
  intros H Hop Ha Hb. destruct Hop as [->| ->].
  - rewrite (binary_ints lm st H l l1 l2 BShl op_shl_ii a b eq_refl). unfold op_shl_ii.
    destruct ((b <? 0) || (64 <=? b))%Z eqn:E; split; intros X; try (destruct X; discriminate); eauto; lia.
  - rewrite (binary_ints lm st H l l1 l2 BShr op_shr_ii a b eq_refl). unfold op_shr_ii.
    destruct ((b <? 0) || (64 <=? b))%Z eqn:E; split; intros X; try (destruct X; discriminate); eauto; lia.
Qed.

Lemma comparison_values lm st l e1 e2 op n1 n2 v : has_default_functions lm st ->
  In op [BEq; BNe; BLt; BLe; BGt; BGe] ->
  visit_expression st e1 = Ok (value_of_number n1) -> visit_expression st e2 = Ok (value_of_number n2) ->
  (visit_expression st (EBinary l op e1 e2) = Ok v <-> exists r, v = VBool r /\ comparison_op op (int_of n1) (int_of n2) r).
Proof.
  intros H Hop H1 H2. destruct (comparison_ops_are op Hop) as (f & Hf & _).
  rewrite (binary_values lm st H l e1 e2 op _ _ H1 H2), (call_comparison lm op f n1 n2 Hf). cbn [with_context]. split.
  - intros [= <-]. eexists. split; [reflexivity|]. now apply (comparison_fn_spec op f).
  - intros (r & -> & Hr). apply (comparison_fn_spec op f) in Hr; [|exact Hf]. now subst.
Qed.
Lemma integer_comparison lm st l l1 l2 op a b v : has_default_functions lm st ->
  In op [BEq; BNe; BLt; BLe; BGt; BGe] ->
  (visit_expression st (EBinary l op (EInt l1 a) (EInt l2 b)) = Ok v <-> exists r, v = VBool r /\ comparison_op op a b r).
Proof. intros H Hop. apply (comparison_values lm st l _ _ op (NInt a) (NInt b)); auto. Qed.
Lemma boolean_operator lm st l l1 l2 op a b v : has_default_functions lm st ->
  (In op [BLogAnd; BLogOr; BLogXor] ->
   (visit_expression st (EBinary l op (EBool l1 a) (EBool l2 b)) = Ok v <-> exists r, v = VBool r /\ logical_op op a b r)) /\
  (In op [BEq; BNe; BLt; BLe; BGt; BGe] ->
   (visit_expression st (EBinary l op (EBool l1 a) (EBool l2 b)) = Ok v <->
    exists r, v = VBool r /\ comparison_op op (if a then 1 else 0) (if b then 1 else 0) r)).
Proof.
  intros H. split; intros Hop.
  - destruct (logical_ops_are op Hop) as (f & Hf & _).
    rewrite (binary_values lm st H l _ _ op (VBool a) (VBool b)) by reflexivity. rewrite (call_logical lm op f a b Hf). cbn [with_context]. split.
    + intros [= <-]. eexists. split; [reflexivity|]. now apply (logical_fn_spec op f).
    + intros (r & -> & Hr). apply (logical_fn_spec op f) in Hr; [|exact Hf]. now subst.
  - rewrite (comparison_values lm st l _ _ op (NBool a) (NBool b) v H Hop) by reflexivity. destruct a, b; reflexivity.
Qed.
Lemma boolean_negation lm st l l1 a : has_default_functions lm st ->
  visit_expression st (EUnary l ULogNot (EBool l1 a)) = Ok (VBool (if a then false else true)).
Proof.
  intros H. rewrite (unary_values lm st H l _ ULogNot (VBool a)) by reflexivity. cbv [unop_name append].
  rewrite call_not. now destruct a.
Qed.

Lemma call_float_cmp lm op f a b : float_cmp op = Some f -> call lm (binop_name op) [VFloat a; VFloat b] = Ok (VBool (f a b)).
Proof.
  intros Hf. destruct op; try discriminate; injection Hf as <-; cbv [binop_name append]; overloads; reflexivity.
Qed.
Lemma double_comparison lm st l l1 l2 a b : has_default_functions lm st -> valid_double a -> valid_double b ->
  (forall op, In op [BEq; BLt; BLe; BGt; BGe] -> exists r,
     visit_expression st (EBinary l op (EFloat l1 a) (EFloat l2 b)) = Ok (VBool r) /\ (r = true <-> float_compares op a b)) /\
  (exists r, visit_expression st (EBinary l BNe (EFloat l1 a) (EFloat l2 b)) = Ok (VBool r) /\
     (r = true <-> ~ float_compares BEq a b)).
Proof.
  intros H Va Vb. split.
  - intros op Hop. assert (E : exists f, float_cmp op = Some f)
      by (cbn in Hop; decompose [or] Hop; subst; try contradiction; eexists; reflexivity).
    destruct E as [f Hf]. exists (f a b). rewrite (binary_values lm st H l _ _ op (VFloat a) (VFloat b)) by reflexivity.
    rewrite (call_float_cmp lm op f a b Hf). split; [reflexivity|]. now apply float_cmp_spec.
  - exists (negb (SFeqb a b)). rewrite (binary_values lm st H l _ _ BNe (VFloat a) (VFloat b)) by reflexivity. split.
    + cbv [binop_name append]. overloads. reflexivity.
    + rewrite <- (float_cmp_spec BEq SFeqb a b eq_refl Va Vb). destruct (SFeqb a b); cbn; intuition congruence.
Qed.
Lemma integer_trichotomy lm st l l1 l2 a b : has_default_functions lm st ->
  let holds op := visit_expression st (EBinary l op (EInt l1 a) (EInt l2 b)) = Ok (VBool true) in
  (holds BLt /\ ~ holds BEq /\ ~ holds BGt) \/ (~ holds BLt /\ holds BEq /\ ~ holds BGt) \/
  (~ holds BLt /\ ~ holds BEq /\ holds BGt).
Proof.
  intros H holds.
  assert (E : forall op f, comparison_fn op = Some f -> (holds op <-> f a b = true)).
  { intros op f Hf. unfold holds. rewrite (binary_values lm st H l _ _ op (VInt a) (VInt b)) by reflexivity.
    change [VInt a; VInt b] with [value_of_number (NInt a); value_of_number (NInt b)].
    rewrite (call_comparison lm op f _ _ Hf). cbn [with_context int_of]. destruct (f a b); split; congruence. }
  rewrite (E BLt Z.ltb eq_refl), (E BEq Z.eqb eq_refl), (E BGt (fun a b => Z.ltb b a) eq_refl). lia.
Qed.

Lemma unselected_operand lm st : has_default_functions lm st ->
  let bad := EBinary None BDiv (EInt None 1) (EInt None 0) in
  visit_expression st (EInt None 1) = Ok (VInt 1) /\
  visit_expression st (ETernary None (EBool None true) (EInt None 1) bad) = UB DivisionByZero /\
  visit_expression st (EBinary None BLogAnd (EBool None false) (EBinary None BEq bad (EInt None 0))) = UB DivisionByZero /\
  visit_expression st (EBinary None BLogOr (EBool None true) (EBinary None BEq bad (EInt None 0))) = UB DivisionByZero.
Proof.
  intros H bad. assert (B : visit st bad = UB DivisionByZero).
  { pose proof (binary_ints lm st H None None None BDiv op_div_ii 1 0 eq_refl) as E. unfold visit_expression in E.
    fold bad in E. destruct (visit st bad); try discriminate. exact E. }
  unfold visit_expression. split; [reflexivity|]. cbn [visit expr_loc with_context bind]. 
  rewrite B. cbn [with_context bind]. auto.
Qed.
Lemma selected_branch lm st l c a b x va vb : has_default_functions lm st ->
  visit_expression st c = Ok (VBool x) -> visit_expression st a = Ok va -> visit_expression st b = Ok vb ->
  is_const va -> is_const vb ->
  exists w, visit_expression st (ETernary l c a b) = Ok w /\ is_const w /\
    promote (if x then va else vb) (make_type (const_kind w)) = Ok (Some w) /\
    (const_kind w = const_kind va \/ const_kind w = const_kind vb) /\
    (const_kind va = const_kind w \/ below (const_kind va) (const_kind w)) /\
    (const_kind vb = const_kind w \/ below (const_kind vb) (const_kind w)).
Proof.
  unfold visit_expression. intros H Hc Ha Hb Ca Cb. destruct (call_cond lm x va vb Ca Cb) as (w & E & W1 & W2 & W3 & W4 & W5).
  exists w. cbn [visit expr_loc]. rewrite Hc, Ha, Hb. cbn [bind]. rewrite (resolve_function_call lm st) by exact H. rewrite E.
  split; [reflexivity|]. split; [exact W1|]. split; [exact W2|]. split; [exact W3|].
  apply check_promote_iff in W4, W5. auto.
Qed.
Lemma both_branches_needed lm st l c a b w : has_default_functions lm st ->
  visit_expression st (ETernary l c a b) = Ok w ->
  (exists x, visit_expression st c = Ok (VBool x)) /\ (exists va, visit_expression st a = Ok va /\ is_const va) /\
  (exists vb, visit_expression st b = Ok vb /\ is_const vb).
Proof.
  intros H E. unfold visit_expression at 1 in E. cbn [visit expr_loc] in E. apply with_context_ok_iff in E.
  apply bind_ok_inv in E. destruct E as (vc & Ec & E). apply bind_ok_inv in E. destruct E as (va & Ea & E).
  apply bind_ok_inv in E. destruct E as (vb & Eb & E). rewrite (resolve_function_call lm st) in E by exact H.
  destruct (call_ok_const lm _ _ _ E) as [F _]. inversion F as [|? ? Fc F1]; subst. inversion F1 as [|? ? Fa F2]; subst.
  inversion F2 as [|? ? Fb _]; subst. split; [|split; [exists va; auto|exists vb; auto]].
  pose proof (call_kind lm "operator?:" [vc; va; vb] F) as K. rewrite E in K.
  destruct vc as [x| | | |]; cbn in Fc; try contradiction; [exists x; exact Ec|..]; exfalso;
    cbn in K; destruct K as [e K]; discriminate.
Qed.

Lemma arithmetic_correctly_rounded lm st l l1 l2 a b : has_default_functions lm st ->
  finite_double a -> finite_double b ->
  let value op r := exists f, visit_expression st (EBinary l op (EFloat l1 a) (EFloat l2 b)) = Ok (VFloat f) /\ rounds_to f r in
  value BAdd (real_of a + real_of b)%R /\ value BSub (real_of a - real_of b)%R /\ value BMul (real_of a * real_of b)%R /\
  (real_of b <> 0%R -> value BDiv (real_of a / real_of b)%R).
Proof.
  intros H Ha Hb value. unfold value.
  assert (E : forall op, visit_expression st (EBinary l op (EFloat l1 a) (EFloat l2 b)) = with_context l (call lm (binop_name op) [VFloat a; VFloat b]))
    by (intros op; now apply (binary_values lm st H)).
  rewrite !E. cbv [binop_name append]. split; [|split; [|split]].
  - exists (SFadd 53 1024 a b). split; [overloads; reflexivity|now apply fadd_correct].
  - exists (SFsub 53 1024 a b). split; [overloads; reflexivity|now apply fsub_correct].
  - exists (SFmul 53 1024 a b). split; [overloads; reflexivity|now apply fmul_correct].
  - intros N. exists (SFdiv 53 1024 a b). split; [overloads; reflexivity|now apply fdiv_correct].
Qed.
Lemma unary_correctly_rounded lm st l l1 a : has_default_functions lm st -> finite_double a ->
  (exists f, visit_expression st (EUnary l UMinus (EFloat l1 a)) = Ok (VFloat f) /\ finite_double f /\ real_of f = (- real_of a)%R) /\
  (exists f, visit_expression st (ECall l "abs" (Some [EFloat l1 a])) = Ok (VFloat f) /\ finite_double f /\ real_of f = Rabs (real_of a)) /\
  ((0 <= real_of a)%R -> exists f, visit_expression st (ECall l "sqrt" (Some [EFloat l1 a])) = Ok (VFloat f) /\
      finite_double f /\ real_of f = nearest_double (sqrt (real_of a))).
Proof.
  intros H Ha.
  assert (E : forall n, visit_expression st (ECall l n (Some [EFloat l1 a])) = with_context l (call lm n [VFloat a])).
  { intros n. unfold visit_expression. cbn [visit expr_loc mapM with_context bind].
    rewrite (resolve_function_call lm st) by exact H. reflexivity. }
  split; [|split].
  - exists (SFopp a). split; [|now apply fopp_correct]. rewrite (unary_values lm st H l _ UMinus (VFloat a)) by reflexivity.
    cbv [unop_name append]. overloads. reflexivity.
  - exists (SFabs a). split; [|now apply fabs_correct]. rewrite E. overloads. reflexivity.
  - intros P. exists (SFsqrt 53 1024 a). split; [|now apply fsqrt_correct]. rewrite E. overloads. reflexivity.
Qed.
