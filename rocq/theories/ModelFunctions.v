(** Model of include/libqasm/v3x/register_consteval_core_functions.hpp and
    src/v3x/register_consteval_core_functions.cpp. *)
From Coq Require Import SpecFloat.
From Verif Require Import Base ModelError ModelTypes ModelOverload.
Local Open Scope string_scope.

(** The C math library functions used for constant folding: external, their
    results are not specified by the model. sqrt and fabs are exact IEEE
    operations and are modelled. *)
Record libm := mkLibm {
  lm_pow : float -> float -> float;
  lm_exp : float -> float; lm_log : float -> float;
  lm_sin : float -> float; lm_cos : float -> float; lm_tan : float -> float;
  lm_sinh : float -> float; lm_cosh : float -> float; lm_tanh : float -> float;
  lm_asin : float -> float; lm_acos : float -> float; lm_atan : float -> float;
  lm_asinh : float -> float; lm_acosh : float -> float; lm_atanh : float -> float
}.

(** [vs[i].as<ParamValue>()->value] on a value of another kind: the overload
    resolver never lets this happen; tree-gen throws. *)
Definition bad_args {A : Type} : outcome error A := Throw "tree-gen: dereferencing empty node".

(** hpp:39-46 uf_cp *)
Definition unary_i (F : Z -> outcome error value) : core_function := fun vs =>
  let! _ := check_const vs in match vs with VInt a :: _ => F a | _ => bad_args end.
Definition unary_f (F : float -> outcome error value) : core_function := fun vs =>
  let! _ := check_const vs in match vs with VFloat a :: _ => F a | _ => bad_args end.
Definition unary_b (F : bool -> outcome error value) : core_function := fun vs =>
  let! _ := check_const vs in match vs with VBool a :: _ => F a | _ => bad_args end.

(** hpp:51-59 bf_cp *)
Definition binary_i (F : Z -> Z -> outcome error value) : core_function := fun vs =>
  let! _ := check_const vs in match vs with VInt a :: VInt b :: _ => F a b | _ => bad_args end.
Definition binary_f (F : float -> float -> outcome error value) : core_function := fun vs =>
  let! _ := check_const vs in match vs with VFloat a :: VFloat b :: _ => F a b | _ => bad_args end.
Definition binary_b (F : bool -> bool -> outcome error value) : core_function := fun vs =>
  let! _ := check_const vs in match vs with VBool a :: VBool b :: _ => F a b | _ => bad_args end.

(** hpp:64-73 tf_cp with hpp:129 tcnd *)
Definition cond_i : core_function := fun vs =>
  let! _ := check_const vs in
  match vs with VBool c :: VInt a :: VInt b :: _ => Ok (VInt (if c then a else b)) | _ => bad_args end.
Definition cond_f : core_function := fun vs =>
  let! _ := check_const vs in
  match vs with VBool c :: VFloat a :: VFloat b :: _ => Ok (VFloat (if c then a else b)) | _ => bad_args end.
Definition cond_b : core_function := fun vs =>
  let! _ := check_const vs in
  match vs with VBool c :: VBool a :: VBool b :: _ => Ok (VBool (if c then a else b)) | _ => bad_args end.

(** Signed 64-bit results *)
Definition int_result (z : Z) : outcome error value := let! r := ret_int64 z in Ok (VInt r).

(** hpp:76 std::negate, hpp:79,81,84 std::plus, std::minus, std::multiplies on Int *)
Definition op_neg_i (a : Z) : outcome error value := int_result (- a).
Definition op_add_ii (a b : Z) : outcome error value := int_result (a + b).
Definition op_sub_ii (a b : Z) : outcome error value := int_result (a - b).
Definition op_mul_ii (a b : Z) : outcome error value := int_result (a * b).
(** hpp:86 std::divides on Int: truncation; undefined on 0 and on overflow *)
Definition op_div_ii (a b : Z) : outcome error value :=
  if (b =? 0)%Z then UB DivisionByZero else int_result (Z.quot a b).
(** hpp:87 std::modulus on Int: undefined when a/b is *)
Definition op_mod_ii (a b : Z) : outcome error value :=
  if (b =? 0)%Z then UB DivisionByZero
  else if in_int64 (Z.quot a b) then Ok (VInt (Z.rem a b)) else UB SignedOverflow.

(** hpp:113-116 bit operations on the two's complement representation *)
Definition op_binv_i (a : Z) : outcome error value := Ok (VInt (Z.lnot a)).
Definition op_band_ii (a b : Z) : outcome error value := Ok (VInt (Z.land a b)).
Definition op_bxor_ii (a b : Z) : outcome error value := Ok (VInt (Z.lxor a b)).
Definition op_bor_ii (a b : Z) : outcome error value := Ok (VInt (Z.lor a b)).

(** Conversion of a mathematical integer to int64 modulo 2^64 (C++20). *)
Definition wrap_int64 (z : Z) : Z := ((z + 2 ^ 63) mod 2 ^ 64 - 2 ^ 63)%Z.

(** hpp:118-121 shl, shr: C++20 [expr.shift] *)
Definition op_shl_ii (a b : Z) : outcome error value :=
  if ((b <? 0) || (64 <=? b))%Z then UB InvalidShift else Ok (VInt (wrap_int64 (a * 2 ^ b))).
Definition op_shr_ii (a b : Z) : outcome error value :=
  if ((b <? 0) || (64 <=? b))%Z then UB InvalidShift else Ok (VInt (a / 2 ^ b)%Z).

(** hpp:164-166 std::abs on Int: undefined on INT64_MIN *)
Definition fn_abs_i (a : Z) : outcome error value := int_result (Z.abs a).

(** Comparisons, hpp:92-111 *)
Definition ret_b (b : bool) : outcome error value := Ok (VBool b).
Definition ret_f (f : float) : outcome error value := Ok (VFloat f).

(** bool comparisons on promoted operands (false < true) *)
Definition bool_ltb (a b : bool) : bool := negb a && b.
Definition bool_leb (a b : bool) : bool := negb a || b.

(** hpp:125 lxor: !lhs ^ !rhs *)
Definition lxor_b (a b : bool) : bool := xorb (negb a) (negb b).

Section WithLibm.
  Variable lm : libm.

  (** src/v3x/register_consteval_core_functions.cpp:12-86, in registration
      order: name, parameter specification, implementation. *)
  Definition default_functions : list (string * string * core_function) :=
    [ ("operator-", "f", unary_f (fun a => ret_f (SFopp a)));
      ("operator-", "i", unary_i op_neg_i);

      ("operator+", "ff", binary_f (fun a b => ret_f (SFadd prec emax a b)));
      ("operator+", "ii", binary_i op_add_ii);
      ("operator-", "ff", binary_f (fun a b => ret_f (SFsub prec emax a b)));
      ("operator-", "ii", binary_i op_sub_ii);

      ("operator*", "ff", binary_f (fun a b => ret_f (SFmul prec emax a b)));
      ("operator*", "ii", binary_i op_mul_ii);
      ("operator/", "ff", binary_f (fun a b => ret_f (SFdiv prec emax a b)));
      ("operator/", "ii", binary_i op_div_ii);
      ("operator%", "ii", binary_i op_mod_ii);

      ("operator**", "ff", binary_f (fun a b => ret_f (lm_pow lm a b)));

      ("operator==", "ff", binary_f (fun a b => ret_b (SFeqb a b)));
      ("operator!=", "ff", binary_f (fun a b => ret_b (negb (SFeqb a b))));
      ("operator>=", "ff", binary_f (fun a b => ret_b (SFleb b a)));
      ("operator>", "ff", binary_f (fun a b => ret_b (SFltb b a)));
      ("operator<=", "ff", binary_f (fun a b => ret_b (SFleb a b)));
      ("operator<", "ff", binary_f (fun a b => ret_b (SFltb a b)));

      ("operator==", "ii", binary_i (fun a b => ret_b (a =? b)%Z));
      ("operator!=", "ii", binary_i (fun a b => ret_b (negb (a =? b)%Z)));
      ("operator>=", "ii", binary_i (fun a b => ret_b (b <=? a)%Z));
      ("operator>", "ii", binary_i (fun a b => ret_b (b <? a)%Z));
      ("operator<=", "ii", binary_i (fun a b => ret_b (a <=? b)%Z));
      ("operator<", "ii", binary_i (fun a b => ret_b (a <? b)%Z));

      ("operator==", "bb", binary_b (fun a b => ret_b (Bool.eqb a b)));
      ("operator!=", "bb", binary_b (fun a b => ret_b (negb (Bool.eqb a b))));
      ("operator>=", "bb", binary_b (fun a b => ret_b (bool_leb b a)));
      ("operator>", "bb", binary_b (fun a b => ret_b (bool_ltb b a)));
      ("operator<=", "bb", binary_b (fun a b => ret_b (bool_leb a b)));
      ("operator<", "bb", binary_b (fun a b => ret_b (bool_ltb a b)));

      ("operator~", "i", unary_i op_binv_i);
      ("operator&", "ii", binary_i op_band_ii);
      ("operator^", "ii", binary_i op_bxor_ii);
      ("operator|", "ii", binary_i op_bor_ii);

      ("operator<<", "ii", binary_i op_shl_ii);
      ("operator>>", "ii", binary_i op_shr_ii);

      ("operator!", "b", unary_b (fun a => ret_b (negb a)));
      ("operator&&", "bb", binary_b (fun a b => ret_b (a && b)));
      ("operator^^", "bb", binary_b (fun a b => ret_b (lxor_b a b)));
      ("operator||", "bb", binary_b (fun a b => ret_b (a || b)));

      ("operator?:", "bff", cond_f);
      ("operator?:", "bii", cond_i);
      ("operator?:", "bbb", cond_b);

      ("sqrt", "f", unary_f (fun a => ret_f (SFsqrt prec emax a)));
      ("exp", "f", unary_f (fun a => ret_f (lm_exp lm a)));
      ("log", "f", unary_f (fun a => ret_f (lm_log lm a)));
      ("sin", "f", unary_f (fun a => ret_f (lm_sin lm a)));
      ("cos", "f", unary_f (fun a => ret_f (lm_cos lm a)));
      ("tan", "f", unary_f (fun a => ret_f (lm_tan lm a)));
      ("sinh", "f", unary_f (fun a => ret_f (lm_sinh lm a)));
      ("cosh", "f", unary_f (fun a => ret_f (lm_cosh lm a)));
      ("tanh", "f", unary_f (fun a => ret_f (lm_tanh lm a)));
      ("asin", "f", unary_f (fun a => ret_f (lm_asin lm a)));
      ("acos", "f", unary_f (fun a => ret_f (lm_acos lm a)));
      ("atan", "f", unary_f (fun a => ret_f (lm_atan lm a)));
      ("asinh", "f", unary_f (fun a => ret_f (lm_asinh lm a)));
      ("acosh", "f", unary_f (fun a => ret_f (lm_acosh lm a)));
      ("atanh", "f", unary_f (fun a => ret_f (lm_atanh lm a)));
      ("abs", "f", unary_f (fun a => ret_f (SFabs a)));
      ("abs", "i", unary_i fn_abs_i) ].
End WithLibm.
