(** Model of src/v3x/instruction_set.cpp, include/libqasm/v3x/instruction_set.hpp
    and src/v3x/register_instructions.cpp. *)
From Verif Require Import Base ModelUtils ModelError ModelTypes ModelOverload.
Local Open Scope string_scope.

(** src/v3x/instruction_set.cpp:11-72: name, parameter types, operand types.
    A std::multimap iterates in key order; entries of one key keep this order,
    which is all that matters since tables are per name. *)
Definition named_gate_map : list (string * (option string * string)) :=
  [ ("CNOT", (None, "QQ")); ("CNOT", (None, "QV")); ("CNOT", (None, "VQ")); ("CNOT", (None, "VV"));
    ("CR", (Some "f", "QQ")); ("CR", (Some "f", "QV")); ("CR", (Some "f", "VQ")); ("CR", (Some "f", "VV"));
    ("CRk", (Some "i", "QQ")); ("CRk", (Some "i", "QV")); ("CRk", (Some "i", "VQ")); ("CRk", (Some "i", "VV"));
    ("CZ", (None, "QQ")); ("CZ", (None, "QV")); ("CZ", (None, "VQ")); ("CZ", (None, "VV"));
    ("H", (None, "Q")); ("H", (None, "V"));
    ("I", (None, "Q")); ("I", (None, "V"));
    ("mX90", (None, "Q")); ("mX90", (None, "V"));
    ("mY90", (None, "Q")); ("mY90", (None, "V"));
    ("mZ90", (None, "Q")); ("mZ90", (None, "V"));
    ("Rn", (Some "fffff", "Q")); ("Rn", (Some "fffff", "V"));
    ("Rx", (Some "f", "Q")); ("Rx", (Some "f", "V"));
    ("Ry", (Some "f", "Q")); ("Ry", (Some "f", "V"));
    ("Rz", (Some "f", "Q")); ("Rz", (Some "f", "V"));
    ("S", (None, "Q")); ("S", (None, "V"));
    ("Sdag", (None, "Q")); ("Sdag", (None, "V"));
    ("SWAP", (None, "QQ")); ("SWAP", (None, "QV")); ("SWAP", (None, "VQ")); ("SWAP", (None, "VV"));
    ("T", (None, "Q")); ("T", (None, "V"));
    ("Tdag", (None, "Q")); ("Tdag", (None, "V"));
    ("U", (Some "fff", "Q")); ("U", (Some "fff", "V"));
    ("X", (None, "Q")); ("X", (None, "V"));
    ("X90", (None, "Q")); ("X90", (None, "V"));
    ("Y", (None, "Q")); ("Y", (None, "V"));
    ("Y90", (None, "Q")); ("Y90", (None, "V"));
    ("Z", (None, "Q")); ("Z", (None, "V"));
    ("Z90", (None, "Q")); ("Z90", (None, "V")) ].

(** src/v3x/instruction_set.cpp:73-90 *)
Definition non_gate_map : list (string * (option string * string)) :=
  [ ("measure", (None, "BQ")); ("measure", (None, "WV")); ("measure", (None, "BV")); ("measure", (None, "WQ"));
    ("measure", (Some "fff", "BQ")); ("measure", (Some "fff", "WV"));
    ("measure", (Some "fff", "BV")); ("measure", (Some "fff", "WQ"));
    ("reset", (None, "Q")); ("reset", (None, "V"));
    ("init", (None, "Q")); ("init", (None, "V"));
    ("barrier", (None, "Q")); ("barrier", (None, "V"));
    ("wait", (Some "i", "Q")); ("wait", (Some "i", "V")) ].

(** src/v3x/instruction_set.cpp:91-95 *)
Definition gate_modifier_map : list (string * option string) :=
  [ ("inv", None); ("pow", Some "f"); ("ctrl", None) ].

(** src/v3x/instruction_set.cpp:96-98 *)
Definition single_qubit_named_gate_list : list string :=
  [ "H"; "I"; "mX90"; "mY90"; "mZ90"; "Rn"; "Rx"; "Ry"; "Rz"; "S"; "Sdag"; "T"; "Tdag"; "U"; "X"; "X90"; "Y"; "Y90";
    "Z"; "Z90" ].
(** src/v3x/instruction_set.cpp:99-101 *)
Definition two_qubit_named_gate_list : list string := [ "CNOT"; "CR"; "CRk"; "CZ"; "SWAP" ].
(** src/v3x/instruction_set.cpp:102-104 *)
Definition non_gate_list : list string := [ "measure"; "reset"; "init"; "barrier"; "wait" ].

(** include/libqasm/v3x/instruction_set.hpp:34-35 *)
Definition single_qubit_gate_composition_prefix : string := "1q".
Definition two_qubit_gate_composition_prefix : string := "2q".

Definition contains (l : list string) (name : string) : bool := existsb (String.eqb name) l.

(** src/v3x/instruction_set.cpp:137-171 *)
Definition is_single_qubit_named_gate (n : string) : bool := contains single_qubit_named_gate_list n.
Definition is_two_qubit_named_gate (n : string) : bool := contains two_qubit_named_gate_list n.
Definition is_named_gate (n : string) : bool := is_single_qubit_named_gate n || is_two_qubit_named_gate n.
Definition is_single_qubit_gate_composition (n : string) : bool :=
  starts_with single_qubit_gate_composition_prefix n.
Definition is_two_qubit_gate_composition (n : string) : bool :=
  starts_with two_qubit_gate_composition_prefix n.
Definition is_single_qubit_gate (n : string) : bool :=
  is_single_qubit_named_gate n || is_single_qubit_gate_composition n.
Definition is_two_qubit_gate (n : string) : bool :=
  is_two_qubit_named_gate n || is_two_qubit_gate_composition n.
Definition is_gate_composition (n : string) : bool :=
  is_single_qubit_gate_composition n || is_two_qubit_gate_composition n.
Definition is_gate (n : string) : bool := is_named_gate n || is_gate_composition n.

(** src/v3x/instruction_set.cpp:173-219 *)
Definition is_measure (n : string) : bool := n =? "measure".
Definition is_reset (n : string) : bool := n =? "reset".
Definition is_init (n : string) : bool := n =? "init".
Definition is_barrier (n : string) : bool := n =? "barrier".
Definition is_wait (n : string) : bool := n =? "wait".
Definition is_non_gate (n : string) : bool := contains non_gate_list n.
Definition is_inv_gate_modifier (n : string) : bool := n =? "inv".
Definition is_pow_gate_modifier (n : string) : bool := n =? "pow".
Definition is_ctrl_gate_modifier (n : string) : bool := n =? "ctrl".
Definition is_single_qubit_gate_modifier (n : string) : bool :=
  is_inv_gate_modifier n || is_pow_gate_modifier n.
Definition is_two_qubit_gate_modifier (n : string) : bool := is_ctrl_gate_modifier n.
Definition is_gate_modifier (n : string) : bool :=
  is_inv_gate_modifier n || is_pow_gate_modifier n || is_ctrl_gate_modifier n.

(** src/v3x/instruction_set.cpp:221-227; multimap::find is modelled as the first
    entry of the key (all entries of a gate have the same parameter types). *)
Definition get_named_gate_param_types (n : string) : outcome error (option string) :=
  match table_find n named_gate_map with
  | Some (p, _) => Ok p
  | None => Err (mk_error ("couldn't find gate '" ++ n ++ "'"))
  end.

(** src/v3x/instruction_set.cpp:229-235 *)
Definition get_non_gate_param_types (n : string) : outcome error (option string) :=
  match table_find n non_gate_map with
  | Some (p, _) => Ok p
  | None => Err (mk_error ("couldn't find non-unitary instruction '" ++ n ++ "'"))
  end.

(** src/v3x/instruction_set.cpp:237-242 *)
Definition get_gate_modifier_param_types (n : string) : outcome error (option string) :=
  match table_find n gate_modifier_map with
  | Some p => Ok p
  | None => Err (mk_error ("couldn't find gate modifier '" ++ n ++ "'"))
  end.

(** src/v3x/instruction_set.cpp:244-253 *)
Definition get_instruction_param_types (n : string) : outcome error (option string) :=
  if is_named_gate n then get_named_gate_param_types n
  else if is_non_gate n then get_non_gate_param_types n
  else if is_gate_modifier n then get_gate_modifier_param_types n
  else Err (mk_error ("couldn't find instruction '" ++ n ++ "'")).

(** src/v3x/instruction_set.cpp:255-271: the loop over the entries of the name.
    [None] stands both for "no entry" and for an entry without parameters, as
    in the code. *)
Fixpoint param_types_with_count (n : string) (count : nat)
         (m : list (string * (option string * string))) : option string :=
  match m with
  | [] => None
  | (k, (p, _)) :: m' =>
      if k =? n then
        match p with
        | None => if Nat.eqb count 0 then None else param_types_with_count n count m'
        | Some s => if Nat.eqb (String.length s) count then Some s else param_types_with_count n count m'
        end
      else param_types_with_count n count m'
  end.
Definition get_non_gate_param_types_with_param_count (n : string) (count : nat) : option string :=
  param_types_with_count n count non_gate_map.

(** src/v3x/register_instructions.cpp:14-60: the (name, operand specification)
    pairs passed to Analyzer::register_instruction, in order. *)
Definition default_instructions : list (string * string) :=
  (map (fun e => (fst e, snd (snd e))) named_gate_map ++
   flat_map (fun e => if is_single_qubit_named_gate (fst e)
                      then [(single_qubit_gate_composition_prefix ++ "_" ++ fst e, snd (snd e))%string]
                      else []) named_gate_map ++
   flat_map (fun e => if is_single_qubit_named_gate (fst e)
                      then [(two_qubit_gate_composition_prefix ++ "_" ++ fst e, "Q" ++ snd (snd e))%string;
                            (two_qubit_gate_composition_prefix ++ "_" ++ fst e, "V" ++ snd (snd e))%string]
                      else []) named_gate_map ++
   map (fun e => (fst e, snd (snd e))) non_gate_map)%list.
