(** Properties C19-C26, C59: operators, functions and constant folding. *)
From Coq Require Import Reals SpecFloat.
From Verif Require Import Base ModelError ModelTypes ModelOverload ModelFunctions ModelAst ModelAnalyzer ModelSemantic
  SpecTypes SpecFunctions ProofsFloat ProofsTypes ProofsFunctions ProofsFolding ProofsIeee ProofsFolding2.
Local Open Scope string_scope.

(** The hypothesis of all theorems below holds of the default analyzer; see also
    PropertiesAnalyzer for what preserves it. *)
Example default_functions_case : forall lm, exists st, default_analyzer lm "3.0" = Ok st /\ has_default_functions lm st.
Proof.
  intros lm. eexists. split; [apply default_analyzer_value|]. apply default_has_default. apply default_analyzer_value.
Qed.

(** C19: a call of any name on constants has a value of the type given by the
    language table, or (integers only) is undefined; calls outside the table are
    errors. *)
Theorem C19_result_types : forall lm st name args, has_default_functions lm st -> Forall is_const args ->
  match result_kind name (map const_kind args) with
  | Some k => (exists v, resolve_function st name args = Ok v /\ is_const v /\ const_kind v = k) \/
              (k = TInt /\ exists u, resolve_function st name args = UB u)
  | None => exists e, resolve_function st name args = Err e
  end.
Proof.
  intros lm st name args H Hc. rewrite (resolve_function_call lm st name args H). exact (call_kind lm name args Hc).
Qed.
(** The same for the operators of expressions, whatever the operands are. *)
Theorem C19_expression_types : forall lm st l op e1 e2 v1 v2, has_default_functions lm st ->
  visit_expression st e1 = Ok v1 -> visit_expression st e2 = Ok v2 -> is_const v1 -> is_const v2 ->
  visit_expression st (EBinary l op e1 e2) =
  with_context l (resolve_function st (binop_name op) [v1; v2]).
Proof.
  intros lm st l op e1 e2 v1 v2 _ H1 H2 _ _. unfold visit_expression in *. cbn [visit expr_loc]. rewrite H1, H2. reflexivity.
Qed.
Example C19_case :
  result_kind "operator+" [TBool; TFloat] = Some TFloat /\ result_kind "operator/" [TBool; TBool] = Some TInt /\
  result_kind "operator%" [TInt; TFloat] = None /\ result_kind "operator<=" [TBool; TFloat] = Some TBool /\
  result_kind "operator?:" [TBool; TInt; TFloat] = Some TFloat /\ result_kind "operator&&" [TInt; TBool] = None /\
  result_kind "abs" [TBool] = Some TInt /\ result_kind "sin" [TInt] = Some TFloat /\ result_kind "foo" [TInt] = None.
Proof. repeat split. Qed.
Print Assumptions C19_result_types.
Print Assumptions C19_expression_types.

(** C20: the result of an integer operator is the one of [int_op], and the
    evaluation is undefined exactly when there is none. *)
Theorem C20_integer_operators : forall lm st l l1 l2 op a b, has_default_functions lm st ->
  In op [BAdd; BSub; BMul; BDiv; BMod] -> fits a -> fits b ->
  (forall v, visit_expression st (EBinary l op (EInt l1 a) (EInt l2 b)) = Ok v <-> exists z, v = VInt z /\ int_op op a b z) /\
  ((exists k, visit_expression st (EBinary l op (EInt l1 a) (EInt l2 b)) = UB k) <-> ~ exists z, int_op op a b z).
Proof.
  intros lm st l l1 l2 op a b H Hop Ha Hb.
  assert (Hop' : In op [BAdd; BSub; BMul; BDiv; BMod; BBitAnd; BBitOr; BBitXor; BShl; BShr]) by (cbn in *; tauto).
  exact (binary_literals lm st H l l1 l2 op a b Hop' Ha Hb).
Qed.
(** Spelled out. *)
Theorem C20_addition : forall lm st l l1 l2 a b, has_default_functions lm st ->
  visit_expression st (EBinary l BAdd (EInt l1 a) (EInt l2 b)) =
  (if in_int64 (a + b) then Ok (VInt (a + b)) else UB SignedOverflow).
Proof. intros lm st l l1 l2 a b H. rewrite (binary_ints lm st H l l1 l2 BAdd op_add_ii a b eq_refl). apply int_result_if. Qed.
Theorem C20_subtraction : forall lm st l l1 l2 a b, has_default_functions lm st ->
  visit_expression st (EBinary l BSub (EInt l1 a) (EInt l2 b)) =
  (if in_int64 (a - b) then Ok (VInt (a - b)) else UB SignedOverflow).
Proof. intros lm st l l1 l2 a b H. rewrite (binary_ints lm st H l l1 l2 BSub op_sub_ii a b eq_refl). apply int_result_if. Qed.
Theorem C20_multiplication : forall lm st l l1 l2 a b, has_default_functions lm st ->
  visit_expression st (EBinary l BMul (EInt l1 a) (EInt l2 b)) =
  (if in_int64 (a * b) then Ok (VInt (a * b)) else UB SignedOverflow).
Proof. intros lm st l l1 l2 a b H. rewrite (binary_ints lm st H l l1 l2 BMul op_mul_ii a b eq_refl). apply int_result_if. Qed.
(** a = (a/b)*b + a%b, |a%b| < |b|, the sign of a; undefined for b = 0 and for
    INT64_MIN / -1 (and % -1). *)
Theorem C20_division : forall lm st l l1 l2 a b, has_default_functions lm st -> fits a -> fits b ->
  (b = 0 -> visit_expression st (EBinary l BDiv (EInt l1 a) (EInt l2 b)) = UB DivisionByZero /\
            visit_expression st (EBinary l BMod (EInt l1 a) (EInt l2 b)) = UB DivisionByZero)%Z /\
  (a = - 2 ^ 63 -> b = -1 -> visit_expression st (EBinary l BDiv (EInt l1 a) (EInt l2 b)) = UB SignedOverflow /\
                             visit_expression st (EBinary l BMod (EInt l1 a) (EInt l2 b)) = UB SignedOverflow)%Z /\
  (b <> 0 -> ~ (a = - 2 ^ 63 /\ b = -1) -> exists q r,
     visit_expression st (EBinary l BDiv (EInt l1 a) (EInt l2 b)) = Ok (VInt q) /\
     visit_expression st (EBinary l BMod (EInt l1 a) (EInt l2 b)) = Ok (VInt r) /\
     a = q * b + r /\ Z.abs r < Z.abs b /\ 0 <= r * a)%Z.
Proof. exact division_cases. Qed.
Theorem C20_negation : forall lm st l l1 a, has_default_functions lm st ->
  visit_expression st (EUnary l UMinus (EInt l1 a)) =
  (if in_int64 (- a) then Ok (VInt (- a)) else UB SignedOverflow).
Proof. exact negation_literal. Qed.
Theorem C20_absolute_value : forall lm st l l1 a, has_default_functions lm st ->
  visit_expression st (ECall l "abs" (Some [EInt l1 a])) =
  (if in_int64 (Z.abs a) then Ok (VInt (Z.abs a)) else UB SignedOverflow).
Proof. exact abs_literal. Qed.
Example C20_case : fits (-7) /\ int_op BDiv (-7) 2 (-3) /\ int_op BMod (-7) 2 (-1) /\
  ~ (exists z, int_op BAdd 9223372036854775807 1 z).
Proof.
  split; [split; discriminate + reflexivity|]. split; [|split].
  - eapply (op_div (-7) 2 (-3) (-1)); unfold fits; lia.
  - eapply (op_mod (-7) 2 (-3) (-1)); unfold fits; lia.
  - intros [z H]. inversion H as [? ? F| | | | | | | | |]; subst. unfold fits in F. lia.
Qed.
Print Assumptions C20_integer_operators.
Print Assumptions C20_addition.
Print Assumptions C20_subtraction.
Print Assumptions C20_multiplication.
Print Assumptions C20_division.
Print Assumptions C20_negation.
Print Assumptions C20_absolute_value.

(** C22 *)
Theorem C22_bitwise_and_shift : forall lm st l l1 l2 op a b, has_default_functions lm st ->
  In op [BBitAnd; BBitOr; BBitXor; BShl; BShr] -> fits a -> fits b ->
  (forall v, visit_expression st (EBinary l op (EInt l1 a) (EInt l2 b)) = Ok v <-> exists z, v = VInt z /\ int_op op a b z) /\
  ((exists k, visit_expression st (EBinary l op (EInt l1 a) (EInt l2 b)) = UB k) <-> ~ exists z, int_op op a b z).
Proof.
  intros lm st l l1 l2 op a b H Hop Ha Hb.
  assert (Hop' : In op [BAdd; BSub; BMul; BDiv; BMod; BBitAnd; BBitOr; BBitXor; BShl; BShr]) by (cbn in *; tauto).
  exact (binary_literals lm st H l l1 l2 op a b Hop' Ha Hb).
Qed.
Theorem C22_complement : forall lm st l l1 a, has_default_functions lm st ->
  exists c, visit_expression st (EUnary l UBitNot (EInt l1 a)) = Ok (VInt c) /\
    (forall i, (0 <= i)%Z -> Z.testbit c i = negb (Z.testbit a i)) /\ c = (- a - 1)%Z /\ (fits a -> fits c).
Proof. exact complement_literal. Qed.
(** A shift is undefined exactly when the count is outside 0..63. *)
Theorem C22_shift_undefined_iff : forall lm st l l1 l2 op a b, has_default_functions lm st ->
  op = BShl \/ op = BShr -> fits a -> fits b ->
  ((exists k, visit_expression st (EBinary l op (EInt l1 a) (EInt l2 b)) = UB k) <-> ~ (0 <= b < 64)%Z).
Proof. exact shift_undefined_iff. Qed.
Example C22_case : int_op BShl 3 62 (-4611686018427387904) /\ int_op BShr (-5) 1 (-3) /\ int_op BBitAnd 12 10 8.
Proof.
  split; [|split].
  - apply (op_shl 3 62 _ (-1)); unfold fits; lia.
  - constructor; lia.
  - constructor. intros i Hi. replace 8%Z with (Z.land 12 10) by reflexivity. apply Z.land_spec.
Qed.
Print Assumptions C22_bitwise_and_shift.
Print Assumptions C22_complement.
Print Assumptions C22_shift_undefined_iff.

(** C23: integers; booleans (false < true; the logical operators); doubles. *)
Theorem C23_integer_comparisons : forall lm st l l1 l2 op a b v, has_default_functions lm st ->
  In op [BEq; BNe; BLt; BLe; BGt; BGe] ->
  (visit_expression st (EBinary l op (EInt l1 a) (EInt l2 b)) = Ok v <-> exists r, v = VBool r /\ comparison_op op a b r).
Proof. exact integer_comparison. Qed.
Theorem C23_boolean_operators : forall lm st l l1 l2 op a b v, has_default_functions lm st ->
  (In op [BLogAnd; BLogOr; BLogXor] ->
   (visit_expression st (EBinary l op (EBool l1 a) (EBool l2 b)) = Ok v <-> exists r, v = VBool r /\ logical_op op a b r)) /\
  (In op [BEq; BNe; BLt; BLe; BGt; BGe] ->
   (visit_expression st (EBinary l op (EBool l1 a) (EBool l2 b)) = Ok v <->
    exists r, v = VBool r /\ comparison_op op (if a then 1 else 0) (if b then 1 else 0) r)).
Proof. exact boolean_operator. Qed.
Theorem C23_negation : forall lm st l l1 a, has_default_functions lm st ->
  visit_expression st (EUnary l ULogNot (EBool l1 a)) = Ok (VBool (if a then false else true)).
Proof. exact boolean_negation. Qed.
Theorem C23_double_comparisons : forall lm st l l1 l2 a b, has_default_functions lm st ->
  valid_double a -> valid_double b ->
  (forall op, In op [BEq; BLt; BLe; BGt; BGe] -> exists r,
     visit_expression st (EBinary l op (EFloat l1 a) (EFloat l2 b)) = Ok (VBool r) /\ (r = true <-> float_compares op a b)) /\
  (exists r, visit_expression st (EBinary l BNe (EFloat l1 a) (EFloat l2 b)) = Ok (VBool r) /\
     (r = true <-> ~ float_compares BEq a b)).
Proof. exact double_comparison. Qed.
Theorem C23_integer_trichotomy : forall lm st l l1 l2 a b, has_default_functions lm st ->
  let holds op := visit_expression st (EBinary l op (EInt l1 a) (EInt l2 b)) = Ok (VBool true) in
  (holds BLt /\ ~ holds BEq /\ ~ holds BGt) \/ (~ holds BLt /\ holds BEq /\ ~ holds BGt) \/
  (~ holds BLt /\ ~ holds BEq /\ holds BGt).
Proof. exact integer_trichotomy. Qed.
Example C23_case : valid_double S754_nan /\ valid_double (S754_zero true) /\
  float_compares BEq (S754_zero true) (S754_zero false) /\ ~ float_compares BEq S754_nan S754_nan /\
  float_compares BLt (S754_infinity true) (S754_zero true).
Proof.
  repeat split.
  - exists (Finite 0), (Finite 0). repeat split. constructor.
  - intros (x & y & H & _). discriminate.
  - exists MinusInfinity, (Finite 0). repeat split. constructor. exact I.
Qed.
Print Assumptions C23_integer_comparisons.
Print Assumptions C23_boolean_operators.
Print Assumptions C23_negation.
Print Assumptions C23_double_comparisons.
Print Assumptions C23_integer_trichotomy.

(** C24: an expression over integer and boolean literals, of any depth, is folded
    to the value it means; if it is well typed but means nothing (overflow, zero
    divisor, bad shift count), folding it is undefined. *)
Theorem C24_folding_respects_meaning : forall lm st e s, has_default_functions lm st -> well_typed e s ->
  (forall v, visit_expression st e = Ok v <-> exists n, v = value_of_number n /\ means e n) /\
  ((exists k, visit_expression st e = UB k) <-> ~ exists n, means e n).
Proof. exact folding_respects_meaning. Qed.
Theorem C24_meaning_unique : forall e s n m, well_typed e s -> means e n -> means e m -> n = m.
Proof. exact meaning_unique. Qed.
Example C24_case : let e := ETernary None (EBinary None BLt (EUnary None UMinus (EInt None 3)) (EBool None true))
                              (EBinary None BMul (EInt None 2) (EBinary None BAdd (EInt None 3) (EBool None true))) (EBool None false) in
  well_typed e SInt /\ means e (NInt 8).
Proof.
  assert (F : forall z, (-10 <= z <= 10)%Z -> fits z) by (unfold fits; lia).
  split.
  - apply (wt_cond None _ _ _ SInt SBool); repeat (econstructor; cbn; eauto using F); apply F; lia.
  - apply (means_cond_int None _ _ _ true (NInt 8) (NBool false)).
    + apply (means_comparison None BLt _ _ (NInt (-3)) (NBool true)); [apply (means_neg None _ (NInt 3))|..]; try constructor; cbn; try (apply F; lia). lia.
    + apply (means_int_op None BMul _ _ (NInt 2) (NInt 4)); [constructor| |apply (op_mul 2 4), F; cbn; lia].
      apply (means_int_op None BAdd _ _ (NInt 3) (NBool true)); [constructor|constructor|apply (op_add 3 1), F; cbn; lia].
    + constructor.
    + intros b1 b2 [H _]. discriminate.
Qed.
Print Assumptions C24_folding_respects_meaning.
Print Assumptions C24_meaning_unique.

(** C25, refuted: the operand that is not selected is evaluated. *)
Theorem C25_unselected_operand_refuted : forall lm st, has_default_functions lm st ->
  let bad := EBinary None BDiv (EInt None 1) (EInt None 0) in
  visit_expression st (EInt None 1) = Ok (VInt 1) /\
  visit_expression st (ETernary None (EBool None true) (EInt None 1) bad) = UB DivisionByZero /\
  visit_expression st (EBinary None BLogAnd (EBool None false) (EBinary None BEq bad (EInt None 0))) = UB DivisionByZero /\
  visit_expression st (EBinary None BLogOr (EBool None true) (EBinary None BEq bad (EInt None 0))) = UB DivisionByZero.
Proof. exact unselected_operand. Qed.
(** What holds: if both branches have constant values, the value is the selected
    one, promoted to the type of the larger branch. *)
Theorem C25_selected_branch : forall lm st l c a b x va vb, has_default_functions lm st ->
  visit_expression st c = Ok (VBool x) -> visit_expression st a = Ok va -> visit_expression st b = Ok vb ->
  is_const va -> is_const vb ->
  exists w, visit_expression st (ETernary l c a b) = Ok w /\ is_const w /\
    promote (if x then va else vb) (make_type (const_kind w)) = Ok (Some w) /\
    (const_kind w = const_kind va \/ const_kind w = const_kind vb) /\
    (const_kind va = const_kind w \/ below (const_kind va) (const_kind w)) /\
    (const_kind vb = const_kind w \/ below (const_kind vb) (const_kind w)).
Proof. exact selected_branch. Qed.
(** Conversely the conditional has a value only if both branches have one. *)
Theorem C25_both_branches_needed : forall lm st l c a b w, has_default_functions lm st ->
  visit_expression st (ETernary l c a b) = Ok w ->
  (exists x, visit_expression st c = Ok (VBool x)) /\ (exists va, visit_expression st a = Ok va /\ is_const va) /\
  (exists vb, visit_expression st b = Ok vb /\ is_const vb).
Proof. exact both_branches_needed. Qed.
Example C25_case : forall lm, exists st, default_analyzer lm "3.0" = Ok st /\ has_default_functions lm st /\
  visit_expression st (EBool None false) = Ok (VBool false) /\ visit_expression st (EInt None 2) = Ok (VInt 2) /\ visit_expression st (EBool None true) = Ok (VBool true) /\
  visit_expression st (ETernary None (EBool None false) (EInt None 2) (EBool None true)) = Ok (VInt 1).
Proof.
  intros lm. destruct (default_functions_case lm) as (st & D & H). exists st. split; [exact D|]. split; [exact H|]. do 3 (split; [reflexivity|]).
  destruct (C25_selected_branch lm st None (EBool None false) (EInt None 2) (EBool None true) false (VInt 2) (VBool true) H eq_refl eq_refl eq_refl I I) as (w & E & C & P & K & B & _).
  rewrite E. clear -C P K B. destruct w; try contradiction; cbn in P, K, B; try congruence; destruct K as [K|K], B as [B|B]; discriminate || contradiction.
Qed.
Print Assumptions C25_unselected_operand_refuted.
Print Assumptions C25_selected_branch.
Print Assumptions C25_both_branches_needed.

(** C26 *)
Theorem C26_calls_yield_constants : forall lm st name args v, has_default_functions lm st ->
  resolve_function st name args = Ok v -> is_const v /\ Forall is_const args.
Proof.
  intros lm st name args v H E. rewrite (resolve_function_call lm st name args H) in E.
  destruct (call_ok_const lm name args v E). auto.
Qed.
Theorem C26_calls_depend_on_values_only : forall lm st st' name args,
  has_default_functions lm st -> has_default_functions lm st' ->
  resolve_function st name args = resolve_function st' name args.
Proof. intros lm st st' name args H H'. now rewrite (resolve_function_call lm st), (resolve_function_call lm st'). Qed.
Theorem C26_dynamic_arguments_fail : forall lm st name args, has_default_functions lm st ->
  Forall typed args -> ~ Forall is_const args -> exists e, resolve_function st name args = Err e.
Proof. intros lm st name args H Ht N. rewrite (resolve_function_call lm st name args H). now apply call_nonconst. Qed.
Example C26_case : Forall typed [VVar (mkVariable 0 "q" (mkType TQubit 1)); VInt 1] /\
  ~ Forall is_const [VVar (mkVariable 0 "q" (mkType TQubit 1)); VInt 1].
Proof.
  split.
  - repeat constructor; eexists; reflexivity.
  - intros H. inversion H as [|? ? F _]; subst. exact F.
Qed.
Print Assumptions C26_calls_yield_constants.
Print Assumptions C26_calls_depend_on_values_only.
Print Assumptions C26_dynamic_arguments_fail.

(** C59: floating-point folding is IEEE 754 arithmetic, rounded to nearest even. *)
Theorem C59_arithmetic_correctly_rounded : forall lm st l l1 l2 a b, has_default_functions lm st ->
  finite_double a -> finite_double b ->
  let value op r := exists f, visit_expression st (EBinary l op (EFloat l1 a) (EFloat l2 b)) = Ok (VFloat f) /\ rounds_to f r in
  value BAdd (real_of a + real_of b)%R /\ value BSub (real_of a - real_of b)%R /\ value BMul (real_of a * real_of b)%R /\
  (real_of b <> 0%R -> value BDiv (real_of a / real_of b)%R).
Proof. exact arithmetic_correctly_rounded. Qed.
Theorem C59_unary_correctly_rounded : forall lm st l l1 a, has_default_functions lm st -> finite_double a ->
  (exists f, visit_expression st (EUnary l UMinus (EFloat l1 a)) = Ok (VFloat f) /\ finite_double f /\ real_of f = (- real_of a)%R) /\
  (exists f, visit_expression st (ECall l "abs" (Some [EFloat l1 a])) = Ok (VFloat f) /\ finite_double f /\ real_of f = Rabs (real_of a)) /\
  ((0 <= real_of a)%R -> exists f, visit_expression st (ECall l "sqrt" (Some [EFloat l1 a])) = Ok (VFloat f) /\
      finite_double f /\ real_of f = nearest_double (sqrt (real_of a))).
Proof. exact unary_correctly_rounded. Qed.
Example C59_case : finite_double (S754_finite false 4503599627370496 971) /\ finite_double (S754_finite true 1 (-1074)).
Proof. repeat split. Qed.
Print Assumptions C59_arithmetic_correctly_rounded.
Print Assumptions C59_unary_correctly_rounded.
