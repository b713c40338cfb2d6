(** Model of include/libqasm/overload.hpp and of the tables of
    include/libqasm/v3x/resolver.hpp, src/v3x/resolver.cpp. *)
From Verif Require Import Base ModelError ModelTypes.
Local Open Scope string_scope.

Section Overloads.
  Context {T : Type}.

  (** include/libqasm/overload.hpp:29-71 Overload *)
  Record overload := mkOverload { ov_tag : T; ov_params : list type }.

  (** include/libqasm/overload.hpp:86-92: overloads in registration order *)
  Definition resolver := list overload.

  (** include/libqasm/overload.hpp:146: name -> resolver. The order of the
      association list is not observable. *)
  Definition table := list (string * resolver).

  (** include/libqasm/overload.hpp:113-122: promote the arguments one by one,
      stopping at the first failure. Only called with equal lengths. *)
  Fixpoint promote_args (args : list value) (params : list type) : outcome error (option (list value)) :=
    match args, params with
    | [], _ => Ok (Some [])
    | a :: args', p :: params' =>
        let! r := promote a p in
        match r with
        | None => Ok None
        | Some a' =>
            let! rs := promote_args args' params' in
            Ok (match rs with None => None | Some l => Some (a' :: l) end)
        end
    | _ :: _, [] => Throw "std::out_of_range"
    end.

  (** include/libqasm/overload.hpp:108-128, the loop over reversed overloads;
      [None] is the OverloadResolutionFailure. *)
  Fixpoint resolve_loop (rev_overloads : list overload) (args : list value)
    : outcome error (option (T * list value)) :=
    match rev_overloads with
    | [] => Ok None
    | o :: os =>
        if negb (Nat.eqb (List.length (ov_params o)) (List.length args)) then resolve_loop os args
        else let! r := promote_args args (ov_params o) in
             match r with
             | Some args' => Ok (Some (ov_tag o, args'))
             | None => resolve_loop os args
             end
    end.
  Definition resolve_overload (r : resolver) (args : list value)
    : outcome error (option (T * list value)) := resolve_loop (rev r) args.

  Fixpoint table_find {A : Type} (name : string) (t : list (string * A)) : option A :=
    match t with
    | [] => None
    | (n, a) :: t' => if n =? name then Some a else table_find name t'
    end.

  (** include/libqasm/overload.hpp:159-167 add_overload *)
  Fixpoint add_overload (name : string) (tag : T) (params : list type) (t : table) : table :=
    match t with
    | [] => [(name, [mkOverload tag params])]
    | (n, r) :: t' => if n =? name then (n, r ++ [mkOverload tag params])%list :: t'
                      else (n, r) :: add_overload name tag params t'
    end.

  (** include/libqasm/overload.hpp:176-181 wrapped by
      include/libqasm/v3x/resolver.hpp:71-80 *)
  Definition resolve (t : table) (name : string) (args : list value) : outcome error (T * list value) :=
    match table_find name t with
    | None => Err (mk_error ("failed to resolve '" ++ name ++ "'"))
    | Some r =>
        let! o := resolve_overload r args in
        match o with
        | Some x => Ok x
        | None =>
            let! ts := types_of args in
            Err (mk_error ("failed to resolve overload for '" ++ name ++ "' with argument pack (" ++
                           types_to_string ts ++ ")"))
        end
    end.
End Overloads.
Arguments overload T : clear implicits.
Arguments resolver T : clear implicits.
Arguments table T : clear implicits.

(** ** VariableTable *)

Definition variable_table := list (string * value).

(** src/v3x/resolver.cpp:24-29 VariableTable::add *)
Definition variable_add (name : string) (v : value) (t : variable_table) : outcome error variable_table :=
  match table_find name t with
  | Some _ => Err (mk_error ("trying to redeclare variable '" ++ name ++ "'"))
  | None => Ok (t ++ [(name, v)])%list
  end.

(** src/v3x/resolver.cpp:35-40 VariableTable::resolve (returns a clone) *)
Definition variable_resolve (name : string) (t : variable_table) : outcome error value :=
  match table_find name t with
  | Some v => Ok v
  | None => Err (mk_error ("failed to resolve variable '" ++ name ++ "'"))
  end.

(** ** ConstEvalCoreFunctionTable *)

(** include/libqasm/v3x/resolver.hpp:114 *)
Definition core_function := list value -> outcome error value.
Definition function_table := table core_function.

(** src/v3x/resolver.cpp:88-94 ConstEvalCoreFunctionTable::resolve *)
Definition function_resolve (t : function_table) (name : string) (args : list value) : outcome error value :=
  let! r := resolve t name args in (fst r) (snd r).

(** ** InstructionTable *)

(** include/libqasm/v3x/instruction.hpp: Instruction *)
Record instruction : Set := mkInstruction { instr_name : string; operand_types : list type }.

(** src/v3x/instruction.cpp:18-20 Instruction::Instruction *)
Definition make_instruction (name : string) (spec : option string) : outcome error instruction :=
  let! ts := types_of_spec (match spec with Some s => s | None => "" end) in
  Ok (mkInstruction name ts).

Definition instruction_table := table instruction.

(** src/v3x/resolver.cpp:121-123 InstructionTable::add *)
Definition instruction_add (i : instruction) (t : instruction_table) : instruction_table :=
  add_overload (instr_name i) i (operand_types i) t.
