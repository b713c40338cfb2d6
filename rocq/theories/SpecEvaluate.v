(** Independent specification of the values of constant expressions (C89). Only the
    data types of the model are used: expressions, doubles, and the record that
    names the functions of the C math library. *)
From Coq Require Import Reals SpecFloat.
From Verif Require Import Base ModelError ModelTypes ModelFunctions ModelAst SpecTypes SpecFunctions.
Local Open Scope string_scope.

Inductive quantity : Set := QBool (b : bool) | QInt (z : Z) | QFloat (f : float).
Definition constant_value (q : quantity) : value :=
  match q with QBool b => VBool b | QInt z => VInt z | QFloat f => VFloat f end.
(** true and false count as the integers 1 and 0. *)
Definition whole (q : quantity) : option Z :=
  match q with QBool true => Some 1%Z | QBool false => Some 0%Z | QInt z => Some z | QFloat _ => None end.
Definition some_float (p q : quantity) : Prop := whole p = None \/ whole q = None.

(** ** IEEE 754 arithmetic on doubles, rounding to nearest *)

(** The sign bit *)
Definition negative (f : float) : bool :=
  match f with S754_zero s | S754_infinity s | S754_finite s _ _ => s | S754_nan => false end.
Definition zero (f : float) : Prop := exists s, f = S754_zero s.
(** f is the rounded x; it has the sign of x, and the sign z if x is 0. *)
Definition rounded (f : float) (x : R) (z : bool) : Prop :=
  rounds_to f x /\ ((x < 0)%R -> negative f = true) /\ ((0 < x)%R -> negative f = false) /\ (x = 0%R -> negative f = z).
Definition opposite (f : float) : float :=
  match f with
  | S754_zero s => S754_zero (negb s) | S754_infinity s => S754_infinity (negb s)
  | S754_finite s m e => S754_finite (negb s) m e | S754_nan => S754_nan
  end.
Definition magnitude (f : float) : float :=
  match f with
  | S754_zero _ => S754_zero false | S754_infinity _ => S754_infinity false
  | S754_finite _ m e => S754_finite false m e | S754_nan => S754_nan
  end.
Definition signs_differ (a b : float) : bool := xorb (negative a) (negative b).

Inductive ieee : binop -> float -> float -> float -> Prop :=
| ieee_nan op a b : In op [BAdd; BSub; BMul; BDiv] -> a = S754_nan \/ b = S754_nan -> ieee op a b S754_nan
| add_infinities s : ieee BAdd (S754_infinity s) (S754_infinity s) (S754_infinity s)
| add_opposite_infinities s : ieee BAdd (S754_infinity s) (S754_infinity (negb s)) S754_nan
| add_infinity_left s b : finite_double b -> ieee BAdd (S754_infinity s) b (S754_infinity s)
| add_infinity_right s a : finite_double a -> ieee BAdd a (S754_infinity s) (S754_infinity s)
| add_finite a b c : finite_double a -> finite_double b -> rounded c (real_of a + real_of b) (negative a && negative b) -> ieee BAdd a b c
| sub_is_add a b c : ieee BAdd a (opposite b) c -> ieee BSub a b c
| mul_zero_infinity a b : zero a /\ (exists s, b = S754_infinity s) \/ zero b /\ (exists s, a = S754_infinity s) -> ieee BMul a b S754_nan
| mul_infinity a b : (exists s, a = S754_infinity s) \/ (exists s, b = S754_infinity s) -> a <> S754_nan -> b <> S754_nan -> ~ zero a -> ~ zero b ->
    ieee BMul a b (S754_infinity (signs_differ a b))
| mul_finite a b c : finite_double a -> finite_double b -> rounded c (real_of a * real_of b) (signs_differ a b) -> ieee BMul a b c
| div_infinities s t : ieee BDiv (S754_infinity s) (S754_infinity t) S754_nan
| div_zeros a b : zero a -> zero b -> ieee BDiv a b S754_nan
| div_infinity s b : finite_double b -> ieee BDiv (S754_infinity s) b (S754_infinity (xorb s (negative b)))
| div_by_infinity a s : finite_double a -> ieee BDiv a (S754_infinity s) (S754_zero (xorb (negative a) s))
| div_by_zero a b : finite_double a -> ~ zero a -> zero b -> ieee BDiv a b (S754_infinity (signs_differ a b))
| div_finite a b c : finite_double a -> finite_double b -> ~ zero b -> rounded c (real_of a / real_of b) (signs_differ a b) -> ieee BDiv a b c.

Inductive ieee_sqrt : float -> float -> Prop :=
| sqrt_nan : ieee_sqrt S754_nan S754_nan
| sqrt_zero s : ieee_sqrt (S754_zero s) (S754_zero s)
| sqrt_infinity : ieee_sqrt (S754_infinity false) (S754_infinity false)
| sqrt_negative a : negative a = true -> ~ zero a -> ieee_sqrt a S754_nan
| sqrt_finite a c : finite_double a -> (0 < real_of a)%R -> rounded c (sqrt (real_of a)) false -> ieee_sqrt a c.

(** NaN differs from everything, itself included. *)
Inductive double_comparison : binop -> float -> float -> bool -> Prop :=
| dc_compares op a b r : In op [BEq; BLt; BLe; BGt; BGe] -> (r = true <-> float_compares op a b) -> double_comparison op a b r
| dc_differ a b r : (r = true <-> ~ float_compares BEq a b) -> double_comparison BNe a b r.

(** A number as a double; integers beyond 2^53 are rounded. *)
Inductive as_double : quantity -> float -> Prop :=
| ad_float f : as_double (QFloat f) f
| ad_whole q z f : whole q = Some z -> finite_double f -> real_of f = nearest_double (IZR z) -> negative f = (z <? 0)%Z -> as_double q f.

(** ** Operators and functions *)
Inductive unary : unop -> quantity -> quantity -> Prop :=
| un_minus q z : whole q = Some z -> fits (- z) -> unary UMinus q (QInt (- z))
| un_minus_double f : unary UMinus (QFloat f) (QFloat (opposite f))
| un_complement q z c : whole q = Some z -> (forall i, (0 <= i)%Z -> Z.testbit c i = negb (Z.testbit z i)) -> unary UBitNot q (QInt c)
| un_not b : unary ULogNot (QBool b) (QBool (negb b)).

Section Library.
  Variable lm : libm.
  Definition library : list (string * (float -> float)) :=
    [ ("exp", lm_exp lm); ("log", lm_log lm); ("sin", lm_sin lm); ("cos", lm_cos lm); ("tan", lm_tan lm);
      ("sinh", lm_sinh lm); ("cosh", lm_cosh lm); ("tanh", lm_tanh lm); ("asin", lm_asin lm); ("acos", lm_acos lm); ("atan", lm_atan lm);
      ("asinh", lm_asinh lm); ("acosh", lm_acosh lm); ("atanh", lm_atanh lm) ].

  Inductive binary : binop -> quantity -> quantity -> quantity -> Prop :=
  | bin_whole op p q a b r : whole p = Some a -> whole q = Some b -> int_op op a b r -> binary op p q (QInt r)
  | bin_double op p q a b r : some_float p q -> as_double p a -> as_double q b -> ieee op a b r -> binary op p q (QFloat r)
  | bin_power p q a b : as_double p a -> as_double q b -> binary BPow p q (QFloat (lm_pow lm a b))
  | bin_compare op p q a b r : whole p = Some a -> whole q = Some b -> comparison_op op a b r -> binary op p q (QBool r)
  | bin_compare_doubles op p q a b r : some_float p q -> as_double p a -> as_double q b -> double_comparison op a b r -> binary op p q (QBool r)
  | bin_logical op a b r : logical_op op a b r -> binary op (QBool a) (QBool b) (QBool r).

  (** The alternatives are brought to a common type. *)
  Inductive conditional : quantity -> quantity -> quantity -> quantity -> Prop :=
  | cond_bools c a b : conditional (QBool c) (QBool a) (QBool b) (QBool (if c then a else b))
  | cond_whole c p q a b : ~ (exists x y, p = QBool x /\ q = QBool y) -> whole p = Some a -> whole q = Some b ->
      conditional (QBool c) p q (QInt (if c then a else b))
  | cond_double c p q a b : some_float p q -> as_double p a -> as_double q b -> conditional (QBool c) p q (QFloat (if c then a else b)).

  (** A tree built through the API may call the operators by the names they have
      as functions. *)
  Definition unary_name (op : unop) : string :=
    match op with UMinus => "operator-" | UBitNot => "operator~" | ULogNot => "operator!" end.
  Definition binary_name (op : binop) : string :=
    match op with
    | BPow => "operator**" | BMul => "operator*" | BDiv => "operator/" | BMod => "operator%" | BAdd => "operator+" | BSub => "operator-"
    | BShl => "operator<<" | BShr => "operator>>" | BGt => "operator>" | BLt => "operator<" | BGe => "operator>=" | BLe => "operator<="
    | BEq => "operator==" | BNe => "operator!=" | BBitAnd => "operator&" | BBitXor => "operator^" | BBitOr => "operator|"
    | BLogAnd => "operator&&" | BLogXor => "operator^^" | BLogOr => "operator||"
    end.
  Inductive function : string -> list quantity -> quantity -> Prop :=
  | fn_abs q z : whole q = Some z -> fits (Z.abs z) -> function "abs" [q] (QInt (Z.abs z))
  | fn_abs_double f : function "abs" [QFloat f] (QFloat (magnitude f))
  | fn_sqrt q f r : as_double q f -> ieee_sqrt f r -> function "sqrt" [q] (QFloat r)
  | fn_library name g q f : In (name, g) library -> as_double q f -> function name [q] (QFloat (g f))
  | fn_unary op q r : unary op q r -> function (unary_name op) [q] r
  | fn_binary op p q r : binary op p q r -> function (binary_name op) [p; q] r
  | fn_conditional c p q r : conditional c p q r -> function "operator?:" [c; p; q] r.

  (** ** Expressions *)
  Inductive constant : string -> quantity -> Prop :=
  | constant_true : constant "true" (QBool true)
  | constant_false : constant "false" (QBool false)
  | constant_pi f : finite_double f -> real_of f = nearest_double PI -> constant "pi" (QFloat f)
  | constant_tau f : finite_double f -> real_of f = nearest_double (2 * PI) -> constant "tau" (QFloat f)
  | constant_eu f : finite_double f -> real_of f = nearest_double (exp 1) -> constant "eu" (QFloat f).

  Inductive evaluates : expr -> quantity -> Prop :=
  | ev_bool l b : evaluates (EBool l b) (QBool b)
  | ev_int l z : evaluates (EInt l z) (QInt z)
  | ev_float l f : evaluates (EFloat l f) (QFloat f)
  | ev_constant l n q : constant n q -> evaluates (EIdent l n) q
  | ev_unary l op e p q : evaluates e p -> unary op p q -> evaluates (EUnary l op e) q
  | ev_binary l op e1 e2 p1 p2 q : evaluates e1 p1 -> evaluates e2 p2 -> binary op p1 p2 q -> evaluates (EBinary l op e1 e2) q
  | ev_ternary l c e1 e2 pc p1 p2 q : evaluates c pc -> evaluates e1 p1 -> evaluates e2 p2 -> conditional pc p1 p2 q ->
      evaluates (ETernary l c e1 e2) q
  | ev_call l n es ps q : evaluate_all es ps -> function n ps q -> evaluates (ECall l n (Some es)) q
  with evaluate_all : list expr -> list quantity -> Prop :=
  | ev_none : evaluate_all [] []
  | ev_more e es p ps : evaluates e p -> evaluate_all es ps -> evaluate_all (e :: es) (p :: ps).
End Library.
