(** Model of the serialisation and printing of primitives: src/v3x/primitives.cpp,
    src/v3x/instruction.cpp, src/v3x/core_function.cpp and
    python/module/cqasm/v3x/{primitives,instruction}.py.

    The CBOR library is part of tree-gen, not of the code: its maps are modelled
    as lists of keys and items, and the bytes they are written as are not
    modelled. The nodes of types are serialised by code that tree-gen generates:
    it is the parameters [write_type] and [read_type]. *)
From Verif Require Import Base ModelVersion ModelError ModelTypes ModelOverload ModelLexer.
Local Open Scope string_scope.

(** tree::cbor: the items the code writes *)
Inductive cbor : Set :=
| CInt (z : Z)
| CFloat (f : float)
| CBool (b : bool)
| CText (s : string)      (* append_string *)
| CBytes (s : string)     (* append_binary *)
| CArray (l : list cbor).
(** tree::cbor::MapWriter, MapReader *)
Definition cbor_map := list (string * cbor).

(** MapReader::count, at *)
Fixpoint lookup (key : string) (m : cbor_map) : option cbor :=
  match m with
  | [] => None
  | (k, v) :: m' => if key =? k then Some v else lookup key m'
  end.
Definition at_key (key : string) (m : cbor_map) : outcome error cbor :=
  match lookup key m with Some v => Ok v | None => Throw "std::out_of_range: key not found" end.
(** Reader::as_int, as_float, as_bool, as_string, as_binary, as_array: an item of
    another kind is an exception. *)
Definition wrong {A : Type} : outcome error A := Throw "std::runtime_error: unexpected CBOR type".
Definition as_int (v : cbor) : outcome error Z := match v with CInt z => Ok z | _ => wrong end.
Definition as_float (v : cbor) : outcome error float := match v with CFloat f => Ok f | _ => wrong end.
Definition as_bool (v : cbor) : outcome error bool := match v with CBool b => Ok b | _ => wrong end.
Definition as_string (v : cbor) : outcome error string := match v with CText s => Ok s | _ => wrong end.
Definition as_binary (v : cbor) : outcome error string := match v with CBytes s => Ok s | _ => wrong end.
Definition as_array (v : cbor) : outcome error (list cbor) := match v with CArray l => Ok l | _ => wrong end.

(** ** src/v3x/primitives.cpp *)

(** include/libqasm/v3x/primitives.hpp:58-64 Axis *)
Record axis : Set := mkAxis { axis_x : float; axis_y : float; axis_z : float }.

(** src/v3x/primitives.cpp:22-29 *)
Definition serialize_str (x : string) : cbor_map := [("x", CBytes x)].
Definition deserialize_str (m : cbor_map) : outcome error string := let! v := at_key "x" m in as_binary v.
(** src/v3x/primitives.cpp:40-49 *)
Definition serialize_axis (a : axis) : cbor_map := [("x", CFloat (axis_x a)); ("y", CFloat (axis_y a)); ("z", CFloat (axis_z a))].
Definition deserialize_axis (m : cbor_map) : outcome error axis :=
  let! x := (let! v := at_key "x" m in as_float v) in
  let! y := (let! v := at_key "y" m in as_float v) in
  let! z := (let! v := at_key "z" m in as_float v) in
  Ok (mkAxis x y z).
(** src/v3x/primitives.cpp:60-67 *)
Definition serialize_bool (x : bool) : cbor_map := [("x", CBool x)].
Definition deserialize_bool (m : cbor_map) : outcome error bool := let! v := at_key "x" m in as_bool v.
(** src/v3x/primitives.cpp:78-85 *)
Definition serialize_int (x : Z) : cbor_map := [("x", CInt x)].
Definition deserialize_int (m : cbor_map) : outcome error Z := let! v := at_key "x" m in as_int v.
(** src/v3x/primitives.cpp:96-103 *)
Definition serialize_float (x : float) : cbor_map := [("x", CFloat x)].
Definition deserialize_float (m : cbor_map) : outcome error float := let! v := at_key "x" m in as_float v.
(** src/v3x/primitives.cpp:109-117: a complex number as a pair *)
Definition serialize_complex (c : float * float) : cbor_map := [("r", CFloat (fst c)); ("i", CFloat (snd c))].
Definition deserialize_complex (m : cbor_map) : outcome error (float * float) :=
  let! r := (let! v := at_key "r" m in as_float v) in
  let! i := (let! v := at_key "i" m in as_float v) in
  Ok (r, i).
(** src/v3x/primitives.cpp:123-138 *)
Definition serialize_version (v : version) : cbor_map := [("x", CArray (map CInt v))].
Definition deserialize_version (m : cbor_map) : outcome error version :=
  let! v := at_key "x" m in
  let! l := as_array v in
  mapM as_int l.

(** ** src/v3x/instruction.cpp, src/v3x/core_function.cpp *)

(** include/libqasm/v3x/core_function.hpp:29-56; the reference types
    InstructionRef and CoreFunctionRef are optional values. *)
Record fn_signature : Set := mkSignature { fn_name : string; fn_params : list type; fn_return : type }.

Section Types.
  (** tree::base::serialize(Maybe<TypeBase>), tree::base::deserialize<types::Node>:
      generated by tree-gen from src/v3x/types.tree *)
  Variables (write_type : type -> string) (read_type : string -> outcome error type).

  (** src/v3x/instruction.cpp:48-58 *)
  Definition serialize_instruction (r : option instruction) : cbor_map :=
    match r with
    | None => []
    | Some i => [("name", CText (instr_name i)); ("operand_types", CArray (map (fun t => CBytes (write_type t)) (operand_types i)))]
    end.
  (** src/v3x/instruction.cpp:61-75 *)
  Definition deserialize_instruction (m : cbor_map) : outcome error (option instruction) :=
    match lookup "name" m with
    | None => Ok None
    | Some _ =>
        let! n := (let! v := at_key "name" m in as_string v) in
        let! l := (let! v := at_key "operand_types" m in as_array v) in
        let! ts := mapM (fun e => let! s := as_binary e in read_type s) l in
        Ok (Some (mkInstruction n ts))
    end.
  (** src/v3x/core_function.cpp:49-61 *)
  Definition serialize_function (r : option fn_signature) : cbor_map :=
    match r with
    | None => []
    | Some f => [("name", CText (fn_name f)); ("param_types", CArray (map (fun t => CBytes (write_type t)) (fn_params f)));
                 ("return_type", CBytes (write_type (fn_return f)))]
    end.
  (** src/v3x/core_function.cpp:64-79 *)
  Definition deserialize_function (m : cbor_map) : outcome error (option fn_signature) :=
    match lookup "name" m with
    | None => Ok None
    | Some _ =>
        let! n := (let! v := at_key "name" m in as_string v) in
        let! l := (let! v := at_key "param_types" m in as_array v) in
        let! ts := mapM (fun e => let! s := as_binary e in read_type s) l in
        let! t := (let! v := at_key "return_type" m in let! s := as_binary v in read_type s) in
        Ok (Some (mkSignature n ts t))
    end.
End Types.

(** *** Printing *)

(** src/v3x/instruction.cpp:32-41; src/v3x/core_function.cpp:33-42 *)
Definition instruction_to_string (i : instruction) : string := instr_name i ++ "(" ++ types_to_string (operand_types i) ++ ")".
Definition function_to_string (f : fn_signature) : string :=
  fn_name f ++ "(" ++ types_to_string (fn_params f) ++ ") -> " ++ type_to_string (fn_return f).
Definition ref_to_string {A : Type} (print : A -> string) (r : option A) : string := match r with None => "unresolved" | Some x => print x end.

(** ** python/module/cqasm/v3x *)

(** Python objects that the tree-gen generated reader makes of CBOR items: text
    becomes str, binary becomes bytes. A str is modelled by its UTF-8 encoding. *)
Definition raises {A : Type} (what : string) : outcome error A := Throw what.
Definition py_at (key : string) (m : cbor_map) : outcome error cbor :=
  match lookup key m with Some v => Ok v | None => raises "KeyError" end.
(** bytes.decode('utf-8'), strict *)
Definition py_decode (s : string) : outcome error string := if valid_utf8 s then Ok s else raises "UnicodeDecodeError".
(** python/module/cqasm/v3x/primitives.py:48-54: Str. Values of other types than
    str and bytes are converted with str(): not modelled. *)
Definition py_deserialize_str (m : cbor_map) : outcome error string :=
  let! v := py_at "x" m in
  match v with CBytes s => py_decode s | CText s => Ok s | _ => raises "not modelled" end.
(** python/module/cqasm/v3x/primitives.py:55-60: Bool, Int, Float. The conversions
    from other types are not modelled. *)
Definition py_deserialize_bool (m : cbor_map) : outcome error bool :=
  let! v := py_at "x" m in match v with CBool b => Ok b | _ => raises "not modelled" end.
Definition py_deserialize_int (m : cbor_map) : outcome error Z :=
  let! v := py_at "x" m in match v with CInt z => Ok z | _ => raises "not modelled" end.
Definition py_deserialize_float (m : cbor_map) : outcome error float :=
  let! v := py_at "x" m in match v with CFloat f => Ok f | _ => raises "not modelled" end.
(** python/module/cqasm/v3x/primitives.py:11-17, 61-62: Version(elements) *)
Definition py_deserialize_version (m : cbor_map) : outcome error version :=
  let! v := py_at "x" m in
  match v with CArray l => mapM (fun e => match e with CInt z => Ok z | _ => raises "not modelled" end) l | _ => raises "not modelled" end.
(** python/module/cqasm/v3x/primitives.py:23-32, the same types: the keys are those
    of the C++ code, a str is written as text. *)
Definition py_serialize_str (x : string) : cbor_map := [("x", CText x)].
Definition py_serialize_bool (x : bool) : cbor_map := [("x", CBool x)].
Definition py_serialize_int (x : Z) : cbor_map := [("x", CInt x)].
Definition py_serialize_float (x : float) : cbor_map := [("x", CFloat x)].
Definition py_serialize_version (v : version) : cbor_map := [("x", CArray (map CInt v))].

Section PyTypes.
  (** cqasm.v3x.types.Node.serialize, deserialize: generated by tree-gen *)
  Variables (py_write_type : type -> cbor) (py_read_type : cbor -> outcome error type).
  (** python/module/cqasm/v3x/primitives.py:33-41 *)
  Definition py_serialize_instruction (r : option instruction) : cbor_map :=
    match r with
    | None => []
    | Some i => [("n", CText (instr_name i)); ("t", CArray (map py_write_type (operand_types i)))]
    end.
  (** python/module/cqasm/v3x/primitives.py:63-70, instruction.py:4-14, 29-36 *)
  Definition py_deserialize_instruction (m : cbor_map) : outcome error (option instruction) :=
    match lookup "n" m with
    | Some n =>
        let! n' := match n with CText s => Ok s | _ => raises "not modelled" end in
        let! t := py_at "t" m in
        match t with
        | CArray l => let! ts := mapM py_read_type l in Ok (Some (mkInstruction n' ts))
        | _ => raises "not modelled"
        end
    | None => Ok None
    end.
End PyTypes.
