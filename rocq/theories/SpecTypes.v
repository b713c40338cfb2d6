(** Independent specifications about values, types and overloads (C14-C18). Only
    the data types of the model are used, and [type_of]/[promote] as the API
    functions being specified. *)
From Coq Require Import Reals SpecFloat.
From Flocq Require Import Core BinarySingleNaN.
From Verif Require Import Base ModelError ModelTypes ModelOverload.

(** ** Doubles *)

(** The real number denoted by a finite double, and the rounding of a real
    number to the nearest double, ties to even (smallest exponent -1074, 53
    bits), ignoring overflow. *)
Definition real_of (f : float) : R := SF2R radix2 f.
Definition nearest_double (x : R) : R := round radix2 (FLT_exp (-1074) 53) ZnearestE x.
Definition finite_double (f : float) : Prop := SpecFloat.valid_binary 53 1024 f = true /\ is_finite_SF f = true.

(** ** Constants *)

Definition is_const (v : value) : Prop :=
  match v with VBool _ | VInt _ | VFloat _ => True | VVar _ | VIndex _ _ => False end.

Definition const_kind (v : value) : type_kind :=
  match v with
  | VBool _ => TBool | VInt _ => TInt | VFloat _ => TFloat
  | VVar x | VIndex x _ => kind (var_type x)
  end.

(** bool < int < float *)
Definition below (a b : type_kind) : Prop :=
  match a, b with
  | TBool, TInt | TBool, TFloat | TInt, TFloat => True
  | _, _ => False
  end.

(** The number denoted by a constant (true and false are 1 and 0). *)
Definition number_of (v : value) : R :=
  match v with
  | VBool b => if b then 1 else 0
  | VInt z => IZR z
  | VFloat f => real_of f
  | VVar _ | VIndex _ _ => 0
  end%R.

Definition quantum_or_bit (k : type_kind) : Prop :=
  match k with TQubit | TBit | TQubitArray | TBitArray => True | _ => False end.

(** References the analyzer creates: to a qubit, bit or an array of these, or to
    elements of such an array. *)
Definition language_reference (v : value) : Prop :=
  match v with
  | VVar x => quantum_or_bit (kind (var_type x))
  | VIndex x _ => kind (var_type x) = TQubitArray \/ kind (var_type x) = TBitArray
  | _ => False
  end.

(** ** Overloads *)

(** A registration: name, tag, parameter types. *)
Definition registration (T : Type) : Type := (string * T * list type)%type.

(** The arguments promote one by one to the parameter types, giving [args']. *)
Definition promotes_all (args : list value) (params : list type) (args' : list value) : Prop :=
  length args = length params /\ length args' = length params /\
  forall i a p a', nth_error args i = Some a -> nth_error params i = Some p -> nth_error args' i = Some a' ->
    promote a p = Ok (Some a').

Definition applicable {T : Type} (name : string) (args : list value) (r : registration T) : Prop :=
  fst (fst r) = name /\ exists args', promotes_all args (snd r) args'.

(** Arguments whose type is known (every value the analyzer builds). *)
Definition typed (v : value) : Prop := exists t, type_of v = Ok t.

(** The table an API user has after performing the registrations of [h] in order,
    starting from an empty table; the same for variables, where a failed
    registration leaves the table as it was. *)
Definition register_all {T : Type} (h : list (registration T)) : table T :=
  fold_left (fun t r => add_overload (fst (fst r)) (snd (fst r)) (snd r) t) h [].
Definition declare_all (h : list (string * value)) : variable_table :=
  fold_left (fun t r => match variable_add (fst r) (snd r) t with Ok t' => t' | _ => t end) h [].
