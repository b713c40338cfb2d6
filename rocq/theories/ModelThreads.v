(** Model of threads that use the library at the same time. Blocks are in one heap
    for all threads (ModelObjects); a thread has references to the analyzers it
    made. The threads take turns in any order. In a turn a thread does one call,
    except that an analysis takes a turn to begin, one for every statement, and one
    to end. Variable nodes are numbered thread by thread: nodes of different threads
    never meet in one tree, since their trees share no block (C96).

    What is not modelled: races inside one statement, which only matter if two
    threads refer to the same block (C96); the instruction set, a local static
    variable (src/v3x/instruction_set.cpp:108-111) that is never written after its
    initialisation; caches of the ANTLR runtime, which guards them itself. *)
From Verif Require Import Base ModelUtils ModelVersion ModelError ModelTypes ModelOverload ModelFunctions ModelAst ModelAnalyzer ModelSemantic ModelObjects.
Local Open Scope string_scope.

(** What a thread is doing: nothing, or an analysis with its i-th analyzer, of which
    the version has been checked and the statements ss are left, with the errors es
    so far *)
Inductive activity : Type :=
| Idle
| Analysing (i : nat) (v : version) (version_loc block_loc : loc) (ss : list statement) (es : list error).
(** The analyzers a thread has made, the number of variable nodes it has made, the
    calls it will make and how those it made ended *)
Record thread := mkThread {
  th_analyzers : list object; th_next : nat;
  th_activity : activity; th_calls : list user_call; th_endings : list ending }.
Record machine := mkMachine { m_blocks : list block; m_threads : list thread }.

(** What a thread refers to *)
Definition thread_world (blocks : list block) (t : thread) : world := mkWorld blocks (th_analyzers t) (th_next t).
Definition turned (w : world) (a : activity) (cs : list user_call) (es : list ending) : list block * thread :=
  (w_blocks w, mkThread (w_analyzers w) (w_next w) a cs es).

(** src/v3x/analyzer.cpp:87-101 and src/v3x/semantic_analyzer.cpp:24-32 in parts *)
Definition begin_analysis (w : world) (i : nat) (p : program) : outcome error activity :=
  match nth_error (w_analyzers w) i with
  | None => UB EmptyContainer
  | Some o =>
      match visit_version (ob_version o) (prog_version p) (prog_version_loc p) with
      | (Ok v, es) => Ok (Analysing i v (prog_version_loc p) (prog_block_loc p) (prog_statements p) es)
      | (Err e, _) => Err e
      | (Throw k, _) => Throw k
      | (UB k, _) => UB k
      end
  end.
(** include/libqasm/v3x/semantic_analyzer.hpp:110-120, one turn of the loop *)
Definition analyse_statement (w : world) (i : nat) (l : loc) (s : statement) : outcome error (world * list error) :=
  match nth_error (w_analyzers w) i with
  | None => UB EmptyContainer
  | Some o =>
      match catch_log l (show_analyzer w o) (visit_statement (show_analyzer w o) s) with
      | (Ok st, es) => Ok (write_analyzer w i o st, es)
      | (Err e, _) => Err e
      | (Throw k, _) => Throw k
      | (UB k, _) => UB k
      end
  end.
Definition end_analysis (w : world) (i : nat) (v : version) (vl : loc) (es : list error) : outcome error ending :=
  match nth_error (w_analyzers w) i with
  | None => UB EmptyContainer
  | Some o =>
      match ob_scopes o with
      | [] => UB EmptyContainer
      | s :: _ =>
          let root := mkObjectProgram (ob_version o) v vl (os_block s) (os_variables s) in
          match es with
          | [] => if program_well_formed (show_program w root) then Ok (EReturns (mkResult (Some root) []))
                  else Ok (EThrows "std::runtime_error: no semantic errors returned, but semantic tree is incomplete.")
          | _ => Ok (EReturns (mkResult (Some root) es))
          end
      end
  end.

(** One turn of a thread *)
Definition thread_step (blocks : list block) (t : thread) : outcome error (list block * thread) :=
  let w := thread_world blocks t in
  match th_activity t with
  | Idle =>
      match th_calls t with
      | [] => Ok (blocks, t)
      | CAnalyze i p :: cs => let! a := begin_analysis w i p in Ok (turned w a cs (th_endings t))
      | c :: cs => let! x := perform w c in Ok (turned (fst x) Idle cs (th_endings t ++ [snd x]))
      end
  | Analysing i v vl bl (s :: ss) es =>
      let! x := analyse_statement w i bl s in
      Ok (turned (fst x) (Analysing i v vl bl ss (es ++ snd x)) (th_calls t) (th_endings t))
  | Analysing i v vl bl [] es =>
      let! e := end_analysis w i v vl es in Ok (turned w Idle (th_calls t) (th_endings t ++ [e]))
  end.

(** One turn of the i-th thread. Undefined behaviour and exceptions that end a
    thread end everything. *)
Definition machine_step (m : machine) (i : nat) : outcome error machine :=
  match nth_error (m_threads m) i with
  | None => Ok m
  | Some t => let! x := thread_step (m_blocks m) t in Ok (mkMachine (fst x) (replace_nth i (snd x) (m_threads m)))
  end.
(** The threads take turns in the given order. *)
Fixpoint take_turns (m : machine) (schedule : list nat) : outcome error machine :=
  match schedule with
  | [] => Ok m
  | i :: schedule' => let! m' := machine_step m i in take_turns m' schedule'
  end.

(** Threads that will make these calls *)
Definition new_thread (cs : list user_call) : thread := mkThread [] 0 Idle cs [].
Definition new_machine (css : list (list user_call)) : machine := mkMachine [] (map new_thread css).
