(** Model of analyzers and analysis results as C++ objects. A scope, and the
    program of a result, own their block through a shared pointer (tree::One,
    std::shared_ptr): the program returned by analyze points to the block of the
    analyzer's current scope, and a copied analyzer to the blocks of the original.
    ModelAnalyzer and ModelSemantic give the value of these blocks; here they are
    references into a heap.

    What is not modelled: registered values are plain values; calls on analyzers
    that do not exist or have no scope are undefined behaviour; the
    register_default functions are called only by default_analyzer; an exception
    that escapes the traversal ends the run. *)
From Verif Require Import Base ModelUtils ModelVersion ModelError ModelTypes ModelOverload ModelFunctions ModelAst ModelAnalyzer ModelSemantic.
Local Open Scope string_scope.

(** include/libqasm/v3x/scope.hpp:12-39, with a reference to the block. Copying a
    scope copies the tables (src/v3x/resolver.cpp:46-59, 95-108) and the vector of
    variables, but only the pointer to the block. *)
Record object_scope := mkObjectScope {
  os_table : variable_table;
  os_functions : function_table;
  os_instructions : instruction_table;
  os_block : nat;
  os_variables : list sem_variable }.
(** include/libqasm/v3x/analyzer.hpp:44-59 *)
Record object := mkObject { ob_version : version; ob_scopes : list object_scope }.
(** src/v3x/semantic.tree: program, with a reference to the block *)
Record object_program := mkObjectProgram {
  op_api_version : version;
  op_version : version; op_version_loc : loc;
  op_block : nat;
  op_variables : list sem_variable }.
Definition object_result : Type := result object_program.

(** All blocks, all analyzers and the number of variable nodes made so far *)
Record world := mkWorld { w_blocks : list block; w_analyzers : list object; w_next : nat }.
Definition empty_world : world := mkWorld [] [] 0.

Definition block_at (w : world) (b : nat) : block := nth b (w_blocks w) (mkBlock [] None).
(** What the fields of an analyzer and of a program show at a moment *)
Definition show_scope (w : world) (s : object_scope) : scope :=
  mkScope (os_table s) (os_functions s) (os_instructions s) (block_at w (os_block s)) (os_variables s).
Definition show_analyzer (w : world) (o : object) : analyzer :=
  mkAnalyzer (ob_version o) (map (show_scope w) (ob_scopes o)) (w_next w).
Definition show_program (w : world) (p : object_program) : sem_program :=
  mkSemProgram (op_api_version p) (op_version p) (op_version_loc p) (block_at w (op_block p)) (op_variables p).
Definition show_result (w : world) (r : object_result) : result sem_program :=
  mkResult (option_map (show_program w) (res_root r)) (res_errors r).

Fixpoint replace_nth {A : Type} (n : nat) (x : A) (l : list A) : list A :=
  match l, n with
  | [], _ => []
  | _ :: l', O => x :: l'
  | y :: l', S n' => y :: replace_nth n' x l'
  end.

(** A method has changed the fields of an analyzer: its scopes keep their
    references, what these refer to changes. *)
Definition written_scope (o : object_scope) (s : scope) : object_scope :=
  mkObjectScope (sc_variables_table s) (sc_functions s) (sc_instructions s) (os_block o) (sc_variables s).
Fixpoint write_scopes (os : list object_scope) (ss : list scope) (blocks : list block) : list object_scope * list block :=
  match os, ss with
  | o :: os', s :: ss' =>
      let (os'', blocks') := write_scopes os' ss' (replace_nth (os_block o) (sc_block s) blocks) in
      (written_scope o s :: os'', blocks')
  | _, _ => ([], blocks)
  end.
Definition write_analyzer (w : world) (i : nat) (o : object) (st : analyzer) : world :=
  let (os, blocks) := write_scopes (ob_scopes o) (scopes st) (w_blocks w) in
  mkWorld blocks (replace_nth i (mkObject (api_version st) os) (w_analyzers w)) (next_id st).

(** A new analyzer with the given contents *)
Fixpoint allocate (b : nat) (ss : list scope) : list object_scope :=
  match ss with
  | [] => []
  | s :: ss' => mkObjectScope (sc_variables_table s) (sc_functions s) (sc_instructions s) b (sc_variables s) :: allocate (S b) ss'
  end.
Definition add_analyzer (w : world) (st : analyzer) : world :=
  mkWorld (w_blocks w ++ map sc_block (scopes st))
    (w_analyzers w ++ [mkObject (api_version st) (allocate (List.length (w_blocks w)) (scopes st))]) (w_next w).

(** The calls of a user *)
Inductive user_call : Type :=
| CNew (v : version)
| CDefault (lm : libm) (api : string)
| CCopy (i : nat)
| CRegisterVariable (i : nat) (n : string) (v : value)
| CRegisterFunction (i : nat) (n : string) (ps : list type) (f : core_function)
| CRegisterInstruction (i : nat) (x : instruction)
| CPush (i : nat)
| CPop (i : nat)
| CAnalyze (i : nat) (p : program).
(** How a call ends *)
Inductive ending : Type :=
| EDone
| EReturns (r : object_result)
| EFails (e : error)
| EThrows (k : string).

(** A method of an analyzer that fails before it changes anything, or succeeds; it
    changes none of its references *)
Definition method (w : world) (i : nat) (f : analyzer -> outcome error analyzer) : outcome error (world * ending) :=
  match nth_error (w_analyzers w) i with
  | None => UB EmptyContainer
  | Some o =>
      match f (show_analyzer w o) with
      | Ok st => Ok (write_analyzer w i o st, EDone)
      | Err e => Ok (w, EFails e)
      | Throw k => Ok (w, EThrows k)
      | UB k => UB k
      end
  end.

Definition create (w : world) (m : outcome error analyzer) : outcome error (world * ending) :=
  match m with
  | Ok st => Ok (add_analyzer w st, EDone)
  | Err e => Ok (w, EFails e)
  | Throw k => Ok (w, EThrows k)
  | UB k => UB k
  end.

Definition perform (w : world) (c : user_call) : outcome error (world * ending) :=
  match c with
  | CNew v =>
      (** src/v3x/analyzer.cpp:26-33 *)
      create w (new_analyzer v)
  | CDefault lm api =>
      (** src/v3x/cqasm.cpp:41-49 *)
      create w (default_analyzer lm api)
  | CCopy i =>
      (** the implicit copy constructor of include/libqasm/v3x/analyzer.hpp:44-59 *)
      match nth_error (w_analyzers w) i with
      | None => UB EmptyContainer
      | Some o => Ok (mkWorld (w_blocks w) (w_analyzers w ++ [o]) (w_next w), EDone)
      end
  | CRegisterVariable i n v => method w i (fun st => register_variable st n v)
  | CRegisterFunction i n ps f => method w i (fun st => register_function st n ps f)
  | CRegisterInstruction i x => method w i (fun st => register_instruction st x)
  | CPush i =>
      (** src/v3x/analyzer.cpp:133-136 *)
      match nth_error (w_analyzers w) i with
      | None => UB EmptyContainer
      | Some o => Ok (mkWorld (w_blocks w ++ [mkBlock [] None])
                        (replace_nth i (mkObject (ob_version o) (mkObjectScope [] [] [] (List.length (w_blocks w)) [] :: ob_scopes o)) (w_analyzers w)) (w_next w), EDone)
      end
  | CPop i =>
      (** src/v3x/analyzer.cpp:141-143; results still own the block *)
      match nth_error (w_analyzers w) i with
      | None => UB EmptyContainer
      | Some o =>
          match ob_scopes o with
          | [] => UB EmptyContainer
          | _ :: rest => Ok (mkWorld (w_blocks w) (replace_nth i (mkObject (ob_version o) rest) (w_analyzers w)) (w_next w), EDone)
          end
      end
  | CAnalyze i p =>
      (** src/v3x/analyzer.cpp:87-101 and src/v3x/semantic_analyzer.cpp:24-32: the
          result's block is a copy of the pointer to the current block *)
      match nth_error (w_analyzers w) i with
      | None => UB EmptyContainer
      | Some o =>
          match visit_program (show_analyzer w o) p with
          | (Ok (st, sp), es) =>
              let w' := write_analyzer w i o st in
              match ob_scopes o with
              | [] => UB EmptyContainer
              | s :: _ =>
                  let root := mkObjectProgram (sp_api_version sp) (sp_version sp) (sp_version_loc sp) (os_block s) (sp_variables sp) in
                  match es with
                  | [] => if program_well_formed (show_program w' root) then Ok (w', EReturns (mkResult (Some root) []))
                          else Ok (w', EThrows "std::runtime_error: no semantic errors returned, but semantic tree is incomplete.")
                  | _ => Ok (w', EReturns (mkResult (Some root) es))
                  end
              end
          | (Err e, _) => Err e
          | (Throw k, _) => Throw k
          | (UB k, _) => UB k
          end
      end
  end.

Fixpoint perform_all (w : world) (cs : list user_call) : outcome error (world * list ending) :=
  match cs with
  | [] => Ok (w, [])
  | c :: cs' =>
      let! x := perform w c in
      let! y := perform_all (fst x) cs' in
      Ok (fst y, snd x :: snd y)
  end.
