(** Independent specification of constant folding (C19-C26). The data types of
    the model (values, expressions) are used, none of its functions except the
    API calls [default_analyzer] and [global_scope] that say which analyzers are
    meant. *)
From Coq Require Import Reals SpecFloat.
From Verif Require Import Base ModelError ModelTypes ModelOverload ModelFunctions ModelAst ModelAnalyzer SpecTypes.
Local Open Scope string_scope.

(** An analyzer whose registered functions are those of default_analyzer: the
    default analyzer itself, whatever has been declared, registered or analysed
    with it since, as long as no function was registered. *)
Definition has_default_functions (lm : libm) (st : analyzer) : Prop :=
  exists st0 g0 g, default_analyzer lm "3.0" = Ok st0 /\ global_scope st0 = Ok g0 /\
    global_scope st = Ok g /\ sc_functions g = sc_functions g0.

(** ** The language table of operators and functions *)

Definition numeric (k : type_kind) : bool := match k with TBool | TInt | TFloat => true | _ => false end.
Definition integral (k : type_kind) : bool := match k with TBool | TInt => true | _ => false end.
Definition boolean (k : type_kind) : bool := match k with TBool => true | _ => false end.

(** float if one operand is a float, int otherwise *)
Definition arith (a b : type_kind) : option type_kind :=
  if numeric a && numeric b then Some (if integral a && integral b then TInt else TFloat) else None.
Definition both (p : type_kind -> bool) (r a b : type_kind) : option type_kind :=
  if p a && p b then Some r else None.

Definition arithmetic_names : list string := [ "operator+"; "operator-"; "operator*"; "operator/" ].
Definition comparison_names : list string :=
  [ "operator=="; "operator!="; "operator<"; "operator<="; "operator>"; "operator>=" ].
Definition bitwise_names : list string :=
  [ "operator%"; "operator&"; "operator^"; "operator|"; "operator<<"; "operator>>" ].
Definition logical_names : list string := [ "operator&&"; "operator||"; "operator^^" ].
Definition math_names : list string :=
  [ "sqrt"; "exp"; "log"; "sin"; "cos"; "tan"; "sinh"; "cosh"; "tanh"; "asin"; "acos"; "atan";
    "asinh"; "acosh"; "atanh" ].

Definition among (l : list string) (n : string) : bool := existsb (String.eqb n) l.

(** The result type of a call, from the types of its arguments; [None]: not in
    the language. *)
Definition result_kind (name : string) (args : list type_kind) : option type_kind :=
  match args with
  | [a] =>
      if (name =? "operator-") || (name =? "abs")
      then if numeric a then Some (if integral a then TInt else TFloat) else None
      else if name =? "operator~" then if integral a then Some TInt else None
      else if name =? "operator!" then if boolean a then Some TBool else None
      else if among math_names name then if numeric a then Some TFloat else None
      else None
  | [a; b] =>
      if among arithmetic_names name then arith a b
      else if name =? "operator**" then both numeric TFloat a b
      else if among comparison_names name then both numeric TBool a b
      else if among bitwise_names name then both integral TInt a b
      else if among logical_names name then both boolean TBool a b
      else None
  | [c; a; b] =>
      if (name =? "operator?:") && boolean c
      then if boolean a && boolean b then Some TBool else arith a b
      else None
  | _ => None
  end.

(** ** The mathematical meaning of integer and boolean expressions *)

Inductive number : Set := NBool (b : bool) | NInt (z : Z).

Definition int_of (v : number) : Z := match v with NBool true => 1 | NBool false => 0 | NInt z => z end.
Definition fits (z : Z) : Prop := (- 2 ^ 63 <= z < 2 ^ 63)%Z.

(** Meaning of the operators on 64-bit integers; no rule applies when the result
    does not fit, the divisor is 0 or the shift count is not in 0..63. *)
Inductive int_op : binop -> Z -> Z -> Z -> Prop :=
| op_add a b : fits (a + b) -> int_op BAdd a b (a + b)
| op_sub a b : fits (a - b) -> int_op BSub a b (a - b)
| op_mul a b : fits (a * b) -> int_op BMul a b (a * b)
(** division truncates: the remainder is smaller than the divisor and has the
    sign of the dividend *)
| op_div a b q r : b <> 0%Z -> a = (q * b + r)%Z -> (Z.abs r < Z.abs b)%Z -> (0 <= r * a)%Z -> fits q ->
                   int_op BDiv a b q
| op_mod a b q r : b <> 0%Z -> a = (q * b + r)%Z -> (Z.abs r < Z.abs b)%Z -> (0 <= r * a)%Z -> fits q ->
                   int_op BMod a b r
(** bit by bit, on the infinite two's complement representation *)
| op_and a b c : (forall i, (0 <= i)%Z -> Z.testbit c i = Z.testbit a i && Z.testbit b i) -> int_op BBitAnd a b c
| op_or a b c : (forall i, (0 <= i)%Z -> Z.testbit c i = Z.testbit a i || Z.testbit b i) -> int_op BBitOr a b c
| op_xor a b c : (forall i, (0 <= i)%Z -> Z.testbit c i = xorb (Z.testbit a i) (Z.testbit b i)) -> int_op BBitXor a b c
(** a * 2^k modulo 2^64 *)
| op_shl a k c m : (0 <= k < 64)%Z -> fits c -> (c = a * 2 ^ k + m * 2 ^ 64)%Z -> int_op BShl a k c
(** rounded towards minus infinity *)
| op_shr a k c : (0 <= k < 64)%Z -> (c * 2 ^ k <= a < (c + 1) * 2 ^ k)%Z -> int_op BShr a k c.

Inductive comparison_op : binop -> Z -> Z -> bool -> Prop :=
| cmp_eq a b r : (r = true <-> a = b) -> comparison_op BEq a b r
| cmp_ne a b r : (r = true <-> a <> b) -> comparison_op BNe a b r
| cmp_lt a b r : (r = true <-> (a < b)%Z) -> comparison_op BLt a b r
| cmp_le a b r : (r = true <-> (a <= b)%Z) -> comparison_op BLe a b r
| cmp_gt a b r : (r = true <-> (a > b)%Z) -> comparison_op BGt a b r
| cmp_ge a b r : (r = true <-> (a >= b)%Z) -> comparison_op BGe a b r.

Inductive logical_op : binop -> bool -> bool -> bool -> Prop :=
| log_and a b r : (r = true <-> a = true /\ b = true) -> logical_op BLogAnd a b r
| log_or a b r : (r = true <-> a = true \/ b = true) -> logical_op BLogOr a b r
| log_xor a b r : (r = true <-> a <> b) -> logical_op BLogXor a b r.

(** [means e v]: the expression e has the value v. *)
Inductive means : expr -> number -> Prop :=
| means_bool l b : means (EBool l b) (NBool b)
| means_int l z : means (EInt l z) (NInt z)
| means_neg l e v : means e v -> fits (- int_of v) -> means (EUnary l UMinus e) (NInt (- int_of v))
| means_bitnot l e v c : means e v -> (forall i, (0 <= i)%Z -> Z.testbit c i = negb (Z.testbit (int_of v) i)) ->
    means (EUnary l UBitNot e) (NInt c)
| means_not l e b : means e (NBool b) -> means (EUnary l ULogNot e) (NBool (negb b))
| means_int_op l op e1 e2 v1 v2 r : means e1 v1 -> means e2 v2 -> int_op op (int_of v1) (int_of v2) r ->
    means (EBinary l op e1 e2) (NInt r)
(** booleans compare as false < true *)
| means_comparison l op e1 e2 v1 v2 r : means e1 v1 -> means e2 v2 ->
    comparison_op op (int_of v1) (int_of v2) r -> means (EBinary l op e1 e2) (NBool r)
| means_logical l op e1 e2 b1 b2 r : means e1 (NBool b1) -> means e2 (NBool b2) -> logical_op op b1 b2 r ->
    means (EBinary l op e1 e2) (NBool r)
(** both branches must have a value; a boolean branch counts as an integer when
    the other one is an integer *)
| means_cond_bool l c e1 e2 b b1 b2 : means c (NBool b) -> means e1 (NBool b1) -> means e2 (NBool b2) ->
    means (ETernary l c e1 e2) (NBool (if b then b1 else b2))
| means_cond_int l c e1 e2 b v1 v2 : means c (NBool b) -> means e1 v1 -> means e2 v2 ->
    (forall b1 b2, ~ (v1 = NBool b1 /\ v2 = NBool b2)) ->
    means (ETernary l c e1 e2) (NInt (if b then int_of v1 else int_of v2)).

(** The expressions in question: literals, the operators above, ?:. Literals
    fit in 64 bits (the parser rejects others). *)
Inductive sort : Set := SBool | SInt.
Inductive well_typed : expr -> sort -> Prop :=
| wt_bool l b : well_typed (EBool l b) SBool
| wt_int l z : fits z -> well_typed (EInt l z) SInt
| wt_unary l op e s : op = UMinus \/ op = UBitNot -> well_typed e s -> well_typed (EUnary l op e) SInt
| wt_not l e : well_typed e SBool -> well_typed (EUnary l ULogNot e) SBool
| wt_int_op l op e1 e2 s1 s2 :
    In op [BAdd; BSub; BMul; BDiv; BMod; BBitAnd; BBitOr; BBitXor; BShl; BShr] ->
    well_typed e1 s1 -> well_typed e2 s2 -> well_typed (EBinary l op e1 e2) SInt
| wt_comparison l op e1 e2 s1 s2 : In op [BEq; BNe; BLt; BLe; BGt; BGe] ->
    well_typed e1 s1 -> well_typed e2 s2 -> well_typed (EBinary l op e1 e2) SBool
| wt_logical l op e1 e2 : In op [BLogAnd; BLogOr; BLogXor] ->
    well_typed e1 SBool -> well_typed e2 SBool -> well_typed (EBinary l op e1 e2) SBool
| wt_cond l c e1 e2 s1 s2 : well_typed c SBool -> well_typed e1 s1 -> well_typed e2 s2 ->
    well_typed (ETernary l c e1 e2) (match s1, s2 with SBool, SBool => SBool | _, _ => SInt end).

Definition value_of_number (v : number) : value := match v with NBool b => VBool b | NInt z => VInt z end.

(** ** Doubles *)

(** IEEE 754 rounding of a real number to the nearest double, ties to even;
    numbers that round to 2^1024 or more become infinite. *)
Definition rounds_to (f : float) (x : R) : Prop :=
  ((Rabs (nearest_double x) < 2 ^ 1024)%R /\ finite_double f /\ real_of f = nearest_double x) \/
  ((2 ^ 1024 <= Rabs (nearest_double x))%R /\ ((x < 0)%R /\ f = S754_infinity true \/ (x > 0)%R /\ f = S754_infinity false)).

(** The order of doubles: NaN has no place in it, both zeros are the same number. *)
Inductive extended : Type := MinusInfinity | Finite (x : R) | PlusInfinity.
Definition extended_of (f : float) : option extended :=
  match f with
  | S754_nan => None
  | S754_infinity true => Some MinusInfinity
  | S754_infinity false => Some PlusInfinity
  | _ => Some (Finite (real_of f))
  end.
Definition extended_lt (x y : extended) : Prop :=
  match x, y with
  | MinusInfinity, MinusInfinity => False
  | MinusInfinity, _ => True
  | Finite a, Finite b => (a < b)%R
  | Finite _, PlusInfinity => True
  | _, _ => False
  end.
Definition valid_double (f : float) : Prop := SpecFloat.valid_binary 53 1024 f = true.

Inductive float_comparison : binop -> extended -> extended -> Prop :=
| fcmp_eq x : float_comparison BEq x x
| fcmp_lt x y : extended_lt x y -> float_comparison BLt x y
| fcmp_le x y : extended_lt x y \/ x = y -> float_comparison BLe x y
| fcmp_gt x y : extended_lt y x -> float_comparison BGt x y
| fcmp_ge x y : extended_lt y x \/ x = y -> float_comparison BGe x y.
(** Both operands are numbers and stand in the relation. *)
Definition float_compares (op : binop) (a b : float) : Prop :=
  exists x y, extended_of a = Some x /\ extended_of b = Some y /\ float_comparison op x y.
