(** Model of src/v3x/types.{cpp,tree}, src/v3x/values.{cpp,tree}. *)
From Coq Require Import SpecFloat.
From Verif Require Import Base ModelError.
Local Open Scope string_scope.

(** ** Floats *)

(** src/v3x/primitives.hpp (include) Float = double: IEEE binary64. NaN payloads
    and signs are not modelled. *)
Definition float := spec_float.
Definition prec : Z := 53.
Definition emax : Z := 1024.

(** static_cast<double>(std::int64_t), round to nearest even. *)
Definition float_of_Z (z : Z) : float := binary_normalize prec emax z 0 false.
(** static_cast<double>(bool) *)
Definition float_of_bool (b : bool) : float := float_of_Z (if b then 1 else 0).

(** ** Types *)

(** src/v3x/types.tree: the node kinds *)
Inductive type_kind : Set := TQubit | TBit | TBool | TInt | TFloat | TQubitArray | TBitArray.

(** src/v3x/types.tree: type_base { size: Int } *)
Record type : Set := mkType { kind : type_kind; tsize : Z }.

Definition kind_eqb (a b : type_kind) : bool :=
  match a, b with
  | TQubit, TQubit | TBit, TBit | TBool, TBool | TInt, TInt | TFloat, TFloat
  | TQubitArray, TQubitArray | TBitArray, TBitArray => true
  | _, _ => false
  end.

(** tree::make<types::K>(): size initialised by initialize<Int>() = 0,
    src/v3x/primitives.cpp:72-75. *)
Definition make_type (k : type_kind) : type := mkType k 0.

(** src/v3x/types.cpp:24-35 from_spec(char) *)
Definition type_of_char (c : ascii) : outcome error type :=
  if Ascii.eqb c "Q" then Ok (make_type TQubit)
  else if Ascii.eqb c "B" then Ok (make_type TBit)
  else if Ascii.eqb c "b" then Ok (make_type TBool)
  else if Ascii.eqb c "i" then Ok (make_type TInt)
  else if Ascii.eqb c "f" then Ok (make_type TFloat)
  else if Ascii.eqb c "V" then Ok (make_type TQubitArray)
  else if Ascii.eqb c "W" then Ok (make_type TBitArray)
  else Throw "std::invalid_argument: unknown type code encountered".

(** src/v3x/types.cpp:37-43 from_spec(string) *)
Definition types_of_spec (s : string) : outcome error (list type) :=
  mapM type_of_char (list_ascii_of_string s).

(** src/v3x/types.cpp:48-50 type_check: same node kind *)
Definition type_check (expected actual : type) : bool := kind_eqb (kind actual) (kind expected).

(** include/libqasm/v3x/types.hpp: the type names; src/v3x/types.cpp:62-84 *)
Definition type_to_string (t : type) : string :=
  match kind t with
  | TQubit => "qubit" | TBit => "bit" | TBool => "bool" | TInt => "int" | TFloat => "float"
  | TQubitArray => "qubit array" | TBitArray => "bit array"
  end.

(** src/v3x/types.cpp:89-91 *)
Definition types_to_string (ts : list type) : string := join ", " (map type_to_string ts).

(** ** Values *)

(** src/v3x/semantic.tree: annotated/variable. [var_id] is the identity of the
    node (its address in C++): links compare by identity. *)
Record variable : Set := mkVariable { var_id : nat; var_name : string; var_type : type }.

(** src/v3x/values.tree. Source locations attached to value nodes are not
    modelled (see ModelAnalyzer, [check_const]). *)
Inductive value : Set :=
| VBool (b : bool)
| VInt (z : Z)
| VFloat (f : float)
| VVar (v : variable)
| VIndex (v : variable) (indices : list Z).

(** src/v3x/values.cpp:84-92 element_type_of *)
Definition element_type_of (t : type) : outcome error type :=
  if type_check t (make_type TQubitArray) then Ok (make_type TQubit)
  else if type_check t (make_type TBitArray) then Ok (make_type TBit)
  else Throw ("std::runtime_error: type (" ++ type_to_string t ++ ") is not of array type").

(** src/v3x/values.cpp:133-143 size_of *)
Definition size_of (v : value) : Z :=
  match v with
  | VBool _ | VInt _ | VFloat _ => 1
  | VIndex _ idx => Z.of_nat (List.length idx)
  | VVar x => tsize (var_type x)
  end.

(** src/v3x/values.cpp:97-117 type_of *)
Definition type_of (v : value) : outcome error type :=
  match v with
  | VBool _ => Ok (make_type TBool)
  | VInt _ => Ok (make_type TInt)
  | VFloat _ => Ok (make_type TFloat)
  | VIndex x _ => if (size_of v =? 1)%Z then element_type_of (var_type x) else Ok (var_type x)
  | VVar x => Ok (var_type x)
  end.

(** src/v3x/values.cpp:122-128 types_of *)
Definition types_of (vs : list value) : outcome error (list type) := mapM type_of vs.

(** src/v3x/values.cpp:30-64 promote; [None] is the empty node. *)
Definition promote (v : value) (t : type) : outcome error (option value) :=
  let! tv := type_of v in
  if type_check t tv then Ok (Some v)
  else
    let r1 := match kind t with
              | TInt =>
                  match v with
                  | VBool b => Some (VInt (if b then 1 else 0))
                  | VVar _ => if type_check tv (make_type TBool) then Some v else None
                  | _ => None
                  end
              | _ => None
              end in
    let r2 := match kind t with
              | TFloat =>
                  match v with
                  | VBool b => Some (VFloat (float_of_bool b))
                  | VInt z => Some (VFloat (float_of_Z z))
                  | _ => r1
                  end
              | _ => r1
              end in
    Ok r2.

(** src/v3x/values.cpp:69-78 check_promote *)
Definition check_promote (from to : type) : bool :=
  if type_check from to then true
  else match kind from with
       | TBool => match kind to with TInt | TFloat => true | _ => false end
       | TInt => match kind to with TFloat => true | _ => false end
       | _ => false
       end.

(** src/v3x/values.cpp:149-153 check_const(Value). The C++ error carries the
    value's own location; here it has none and receives the location of the
    enclosing call expression from its context. The two differ only for values
    registered through the API, as no cQASM 3.0 variable has a constant type. *)
Definition check_const_value (v : value) : outcome error unit :=
  match v with
  | VBool _ | VInt _ | VFloat _ => Ok tt
  | VVar _ | VIndex _ _ => Err (mk_error "dynamic values are not supported here")
  end.

(** src/v3x/values.cpp:159-163 check_const(Values) *)
Definition check_const (vs : list value) : outcome error unit :=
  let! _ := mapM check_const_value vs in Ok tt.
