(** Model of the Analyzer class: its scope stack, registration and resolution.
    src/v3x/analyzer.cpp, include/libqasm/v3x/{analyzer,scope}.hpp, src/v3x/cqasm.cpp. *)
From Coq Require Import SpecFloat.
From Verif Require Import Base ModelUtils ModelVersion ModelError ModelTypes ModelOverload ModelFunctions
  ModelInstructionSet ModelAst.
Local Open Scope string_scope.

(** include/libqasm/v3x/scope.hpp:12-39. The block is always present: both the
    constructor and push_scope create it. *)
Record scope := mkScope {
  sc_variables_table : variable_table;
  sc_functions : function_table;
  sc_instructions : instruction_table;
  sc_block : block;
  sc_variables : list sem_variable }.

(** A Scope{} whose block has been set to a fresh Block. *)
Definition empty_scope : scope := mkScope [] [] [] (mkBlock [] None) [].

(** include/libqasm/v3x/analyzer.hpp:44-59: the API version and the scope stack,
    front (current scope) first. [next_id] numbers the variable nodes created. *)
Record analyzer := mkAnalyzer {
  api_version : version;
  scopes : list scope;
  next_id : nat }.

(** src/v3x/analyzer.cpp:26-33 Analyzer::Analyzer *)
Definition new_analyzer (v : version) : outcome error analyzer :=
  let! v30 := version_of_string "3.0" in
  if version_eqb v v30 then Ok (mkAnalyzer v [empty_scope] 0)
  else Throw "std::invalid_argument: this analyzer only supports cQASM 3.0".

(** src/v3x/analyzer.cpp:35-56: back() and front() of the stack *)
Fixpoint last_scope (l : list scope) : outcome error scope :=
  match l with [] => UB EmptyContainer | [s] => Ok s | _ :: l' => last_scope l' end.
Definition global_scope (st : analyzer) : outcome error scope := last_scope (scopes st).
Definition current_scope (st : analyzer) : outcome error scope :=
  match scopes st with [] => UB EmptyContainer | s :: _ => Ok s end.

Definition update_current (st : analyzer) (f : scope -> outcome error scope) : outcome error analyzer :=
  match scopes st with
  | [] => UB EmptyContainer
  | s :: rest => let! s' := f s in Ok (mkAnalyzer (api_version st) (s' :: rest) (next_id st))
  end.
Fixpoint update_last (l : list scope) (f : scope -> scope) : outcome error (list scope) :=
  match l with
  | [] => UB EmptyContainer
  | [s] => Ok [f s]
  | s :: l' => let! l'' := update_last l' f in Ok (s :: l'')
  end.

(** src/v3x/analyzer.cpp:133-136 push_scope *)
Definition push_scope (st : analyzer) : analyzer :=
  mkAnalyzer (api_version st) (empty_scope :: scopes st) (next_id st).

(** src/v3x/analyzer.cpp:141-143 pop_scope *)
Definition pop_scope (st : analyzer) : outcome error analyzer :=
  match scopes st with
  | [] => UB EmptyContainer
  | _ :: rest => Ok (mkAnalyzer (api_version st) rest (next_id st))
  end.

(** src/v3x/analyzer.cpp:148-165 add_statement_to_current_scope *)
Definition block_add (s : sem_statement) (b : block) : block :=
  mkBlock (blk_statements b ++ [s])
    (match sem_statement_loc s with
     | None => blk_loc b
     | Some sl =>
         match blk_loc b with
         | None => Some sl
         | Some bl => Some (expand_to_include (expand_to_include bl (first (loc_range sl)))
                                              (last (loc_range sl)))
         end
     end).
Definition add_statement (st : analyzer) (s : sem_statement) : outcome error analyzer :=
  update_current st (fun sc =>
    Ok (mkScope (sc_variables_table sc) (sc_functions sc) (sc_instructions sc)
                (block_add s (sc_block sc)) (sc_variables sc))).

(** src/v3x/analyzer.cpp:170-172 add_variable_to_current_scope *)
Definition add_variable (st : analyzer) (v : sem_variable) : outcome error analyzer :=
  update_current st (fun sc =>
    Ok (mkScope (sc_variables_table sc) (sc_functions sc) (sc_instructions sc)
                (sc_block sc) (sc_variables sc ++ [v]))).

(** src/v3x/analyzer.cpp:178-187 resolve_variable *)
Fixpoint resolve_variable_in (l : list scope) (name : string) : outcome error value :=
  match l with
  | [] => Err (mk_error ("failed to resolve variable '" ++ name ++ "'"))
  | s :: l' => match variable_resolve name (sc_variables_table s) with
               | Err _ => resolve_variable_in l' name
               | r => r
               end
  end.
Definition resolve_variable (st : analyzer) (name : string) : outcome error value :=
  resolve_variable_in (scopes st) name.

(** src/v3x/analyzer.cpp:192-194 register_variable *)
Definition register_variable (st : analyzer) (name : string) (v : value) : outcome error analyzer :=
  update_current st (fun sc =>
    let! t := variable_add name v (sc_variables_table sc) in
    Ok (mkScope t (sc_functions sc) (sc_instructions sc) (sc_block sc) (sc_variables sc))).

(** src/v3x/analyzer.cpp:204-206 resolve_function *)
Definition resolve_function (st : analyzer) (name : string) (args : list value) : outcome error value :=
  let! g := global_scope st in function_resolve (sc_functions g) name args.

(** src/v3x/analyzer.cpp:211-214 register_consteval_core_function *)
Definition register_function (st : analyzer) (name : string) (params : list type) (f : core_function)
  : outcome error analyzer :=
  let! l := update_last (scopes st) (fun sc =>
    mkScope (sc_variables_table sc) (add_overload name f params (sc_functions sc))
            (sc_instructions sc) (sc_block sc) (sc_variables sc)) in
  Ok (mkAnalyzer (api_version st) l (next_id st)).

(** src/v3x/analyzer.cpp:221-224, the overload taking a type specification *)
Definition register_function_spec (st : analyzer) (name spec : string) (f : core_function)
  : outcome error analyzer :=
  let! ts := types_of_spec spec in register_function st name ts f.

(** src/v3x/analyzer.cpp:233-264 resolve_instruction (both overloads look up the
    same way; the caller builds the node). *)
Fixpoint resolve_instruction_in (l : list scope) (name : string) (args : list value)
  : outcome error (instruction * list value) :=
  match l with
  | [] => let! ts := types_of args in
          Err (mk_error ("failed to resolve instruction '" ++ name ++ "' with argument pack (" ++
                         types_to_string ts ++ ")"))
  | s :: l' => match resolve (sc_instructions s) name args with
               | Err _ => resolve_instruction_in l' name args
               | r => r
               end
  end.
Definition resolve_instruction (st : analyzer) (name : string) (args : list value)
  : outcome error (instruction * list value) := resolve_instruction_in (scopes st) name args.

(** src/v3x/analyzer.cpp:269-271 register_instruction *)
Definition register_instruction (st : analyzer) (i : instruction) : outcome error analyzer :=
  update_current st (fun sc =>
    Ok (mkScope (sc_variables_table sc) (sc_functions sc) (instruction_add i (sc_instructions sc))
                (sc_block sc) (sc_variables sc))).

(** src/v3x/analyzer.cpp:277-279 register_instruction(name, operand_types) *)
Definition register_instruction_spec (st : analyzer) (name : string) (spec : option string)
  : outcome error analyzer :=
  let! i := make_instruction name spec in register_instruction st i.

Fixpoint foldM {A : Type} (f : analyzer -> A -> outcome error analyzer) (st : analyzer) (l : list A)
  : outcome error analyzer :=
  match l with
  | [] => Ok st
  | a :: l' => let! st' := f st a in foldM f st' l'
  end.

(** std::numbers::pi and std::numbers::e as doubles; 2 * pi *)
Definition const_pi : float := S754_finite false 7074237752028440 (-51).
Definition const_eu : float := S754_finite false 6121026514868073 (-51).
Definition const_tau : float := SFmul prec emax (float_of_Z 2) const_pi.

(** src/v3x/analyzer.cpp:61-68 register_default_constants *)
Definition default_constants : list (string * value) :=
  [ ("true", VBool true); ("false", VBool false);
    ("pi", VFloat const_pi); ("eu", VFloat const_eu); ("tau", VFloat const_tau) ].
Definition register_default_constants (st : analyzer) : outcome error analyzer :=
  foldM (fun st e => register_variable st (fst e) (snd e)) st default_constants.

(** src/v3x/analyzer.cpp:73-75 register_default_functions *)
Definition register_default_functions (lm : libm) (st : analyzer) : outcome error analyzer :=
  foldM (fun st e => register_function_spec st (fst (fst e)) (snd (fst e)) (snd e)) st (default_functions lm).

(** src/v3x/analyzer.cpp:80-82 register_default_instructions *)
Definition register_default_instructions (st : analyzer) : outcome error analyzer :=
  foldM (fun st e => register_instruction_spec st (fst e) (Some (snd e))) st default_instructions.

(** src/v3x/cqasm.cpp:41-49 default_analyzer; [analyzer::Analyzer analyzer{ api_version }]
    converts the string to a Version. *)
Definition default_analyzer (lm : libm) (api : string) : outcome error analyzer :=
  let! v := version_of_string api in
  let! st0 := new_analyzer v in
  let! st1 := register_default_constants st0 in
  let! st2 := register_default_functions lm st1 in
  register_default_instructions st2.
