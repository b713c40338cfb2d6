(** Base: outcomes of C++ calls and byte-string helpers shared by all model files.
    Nothing here models a particular function of the code, except the few
    standard-library and fmt facilities named below. *)
From Coq Require Export String Ascii List ZArith Bool Lia.
From Coq Require Import DecimalString.
Export ListNotations.

(** ** Outcomes *)

(** Kinds of undefined behaviour (or violated asserted precondition) that the
    modelled code can execute. *)
Inductive ub_kind : Set :=
| SignedOverflow     (* signed integer arithmetic leaves the type *)
| DivisionByZero     (* integer / or % by zero *)
| InvalidShift       (* shift count negative or >= width *)
| NullDereference    (* member access through an empty pointer *)
| EmptyContainer     (* front()/back()/pop_front() on an empty container *)
| AssertFailed.      (* an assert() of the code does not hold *)

(** Outcome of a call: normal return, thrown [E] (the library's own error
    class), some other C++ exception that escapes, or undefined behaviour. *)
Inductive outcome (E A : Type) : Type :=
| Ok (a : A)
| Err (e : E)
| Throw (what : string)
| UB (k : ub_kind).
Arguments Ok {E A} _. Arguments Err {E A} _.
Arguments Throw {E A} _. Arguments UB {E A} _.

Definition bind {E A B : Type} (m : outcome E A) (f : A -> outcome E B) : outcome E B :=
  match m with
  | Ok a => f a
  | Err e => Err e
  | Throw w => Throw w
  | UB k => UB k
  end.
Notation "'let!' x ':=' m 'in' k" := (bind m (fun x => k))
  (at level 200, x pattern, m at level 100, k at level 200, right associativity).

(** [try m catch (Error& e) { f e }] *)
Definition catch {E A : Type} (m : outcome E A) (f : E -> outcome E A) : outcome E A :=
  match m with Err e => f e | _ => m end.

Definition map_outcome {E A B : Type} (f : A -> B) (m : outcome E A) : outcome E B :=
  let! a := m in Ok (f a).

(** Left-to-right traversal stopping at the first non-[Ok]. *)
Section MapM.
  Context {E A B : Type} (f : A -> outcome E B).
  Fixpoint mapM (l : list A) : outcome E (list B) :=
    match l with
    | [] => Ok []
    | a :: l' => let! b := f a in let! bs := mapM l' in Ok (b :: bs)
    end.
End MapM.

(** ** Bytes and strings *)

Definition byte_val (c : ascii) : N := N_of_ascii c.

Definition is_digit (c : ascii) : bool := ((48 <=? byte_val c) && (byte_val c <=? 57))%N.
Definition is_upper (c : ascii) : bool := ((65 <=? byte_val c) && (byte_val c <=? 90))%N.
Definition is_lower (c : ascii) : bool := ((97 <=? byte_val c) && (byte_val c <=? 122))%N.
(** std::isspace in the "C" locale. *)
Definition is_space (c : ascii) : bool :=
  ((byte_val c =? 32) || ((9 <=? byte_val c) && (byte_val c <=? 13)))%N.

Definition digit_val (c : ascii) : Z := Z.of_N (byte_val c) - 48.

Definition char_string (c : ascii) : string := String c EmptyString.

Fixpoint concat_map (f : ascii -> string) (s : string) : string :=
  match s with
  | EmptyString => EmptyString
  | String c s' => (f c ++ concat_map f s')%string
  end.

Fixpoint map_bytes (f : ascii -> ascii) (s : string) : string :=
  match s with
  | EmptyString => EmptyString
  | String c s' => String (f c) (map_bytes f s')
  end.

Fixpoint forall_bytes (p : ascii -> bool) (s : string) : bool :=
  match s with
  | EmptyString => true
  | String c s' => p c && forall_bytes p s'
  end.

(** fmt::join / std::accumulate with a separator. *)
Fixpoint join (sep : string) (l : list string) : string :=
  match l with
  | [] => ""
  | [x] => x
  | x :: l' => (x ++ sep ++ join sep l')%string
  end.

(** The C string seen through [const char*]: cut at the first NUL. *)
Fixpoint c_str (s : string) : string :=
  match s with
  | EmptyString => EmptyString
  | String c s' => if (byte_val c =? 0)%N then EmptyString else String c (c_str s')
  end.

(** fmt "{}" of an integer. *)
Definition dec_Z (z : Z) : string := NilZero.string_of_int (Z.to_int z).
Definition dec_N (n : N) : string := NilZero.string_of_uint (N.to_uint n).

(** Upper-case hexadecimal digit of 0..15. *)
Definition hex_digit (n : N) : ascii :=
  ascii_of_N (if (n <? 10)%N then 48 + n else 55 + n)%N.

(** ** Signed 64-bit integers *)
Definition int64_min : Z := - 2 ^ 63.
Definition int64_max : Z := 2 ^ 63 - 1.
Definition in_int64 (z : Z) : bool := (int64_min <=? z)%Z && (z <=? int64_max)%Z.

(** Signed arithmetic whose mathematical result is [z]. *)
Definition ret_int64 {E : Type} (z : Z) : outcome E Z :=
  if in_int64 z then Ok z else UB SignedOverflow.
