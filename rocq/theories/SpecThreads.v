(** Specification of what threads that use the library at the same time may expect
    (C96). *)
From Verif Require Import Base ModelVersion ModelError ModelTypes ModelAst ModelAnalyzer ModelSemantic ModelObjects ModelThreads SpecAnalyzer SpecObjects.

(** The number of turns the i-th thread gets *)
Fixpoint turns (i : nat) (schedule : list nat) : nat :=
  match schedule with
  | [] => 0
  | j :: schedule' => (if Nat.eqb i j then 1 else 0) + turns i schedule'
  end.
(** The number of turns the calls take at most *)
Definition call_turns (c : user_call) : nat :=
  match c with CAnalyze _ p => 2 + List.length (prog_statements p) | _ => 1 end.
Definition calls_turns (cs : list user_call) : nat := list_sum (map call_turns cs).

(** The thread is between two calls. *)
Definition between_calls (t : thread) : Prop := th_activity t = Idle.
(** What a thread sees of its analyzers and results: nothing else can be asked of them. *)
Definition seen_analyzers (blocks : list block) (t : thread) : list analyzer :=
  map (show_analyzer (thread_world blocks t)) (th_analyzers t).
Inductive seen_ending : Type :=
| SDone
| SReturns (r : result sem_program)
| SFails (e : error)
| SThrows (k : string).
Definition see (w : world) (e : ending) : seen_ending :=
  match e with
  | EDone => SDone
  | EReturns r => SReturns (show_result w r)
  | EFails x => SFails x
  | EThrows k => SThrows k
  end.
Definition seen_endings (blocks : list block) (t : thread) : list seen_ending :=
  map (see (thread_world blocks t)) (th_endings t).

(** The blocks a thread refers to *)
Definition result_block (e : ending) : list nat :=
  match e with EReturns r => match res_root r with Some p => [op_block p] | None => [] end | _ => [] end.
Definition refers_to (t : thread) (b : nat) : Prop :=
  (exists o s, In o (th_analyzers t) /\ In s (ob_scopes o) /\ os_block s = b) \/ (exists e, In e (th_endings t) /\ In b (result_block e)).

(** The thread, alone, from the beginning: the calls made so far have led to this world
    and have ended like this. *)
Definition alone (cs : list user_call) (t : thread) (w : world) (es : list ending) : Prop :=
  exists made, cs = (made ++ th_calls t)%list /\ history made w es.
