(** Property C96: threads that use the library at the same time. *)
From Coq Require Import Permutation.
From Verif Require Import Base ModelUtils ModelVersion ModelError ModelTypes ModelOverload ModelFunctions ModelAst ModelAnalyzer ModelSemantic ModelObjects ModelThreads
  SpecTypes SpecFunctions SpecInstructions SpecAnalyzer SpecObjects SpecThreads ProofsAnalyzer ProofsAnalyzer2 ProofsThreads2 PropertiesAnalyzer PropertiesObjects.
Local Open Scope string_scope.

(** C96: whatever the order of the turns, a thread that is between two calls sees what
    it would see if the calls it has made were the only ones: the same analyzers, the
    same results. *)
Theorem C96_as_alone : forall css schedule m i cs t, take_turns (new_machine css) schedule = Ok m -> nth_error css i = Some cs ->
  nth_error (m_threads m) i = Some t -> between_calls t -> exists w es, alone cs t w es /\
    seen_analyzers (m_blocks m) t = map (show_analyzer w) (w_analyzers w) /\ seen_endings (m_blocks m) t = map (see w) es.
Proof. intros css s m i cs t H Hc Ht Hb. destruct (threads_as_alone css s m i cs H Hc) as (t' & Ht' & K & _). replace t with t' in * by congruence. now apply K. Qed.
(** No thread waits for another: it has made all its calls after a number of its own
    turns that depends on nothing but the calls. *)
Theorem C96_no_waiting : forall css schedule m i cs, take_turns (new_machine css) schedule = Ok m -> nth_error css i = Some cs ->
  (calls_turns cs <= turns i schedule)%nat -> exists t, nth_error (m_threads m) i = Some t /\ between_calls t /\ th_calls t = [].
Proof. intros css s m i cs H Hc Hn. destruct (threads_as_alone css s m i cs H Hc) as (t & Ht & _ & K). exists t. split; [exact Ht|]. now apply K. Qed.
(** In particular, for threads that analyse a program each: *)
Theorem C96_results : forall css schedule m i lm api st p st' r, take_turns (new_machine css) schedule = Ok m -> nth_error css i = Some [CDefault lm api; CAnalyze 0 p] ->
  default_analyzer lm api = Ok st -> analyze_ast st p = Ok (st', r) -> (3 + List.length (prog_statements p) <= turns i schedule)%nat ->
  exists t, nth_error (m_threads m) i = Some t /\ seen_endings (m_blocks m) t = [SDone; SReturns r].
Proof. exact each_thread. Qed.
(** No two threads refer to the same block, so that there are no races; *)
Theorem C96_no_sharing : forall css schedule m i j ti tj b, take_turns (new_machine css) schedule = Ok m -> i <> j ->
  nth_error (m_threads m) i = Some ti -> nth_error (m_threads m) j = Some tj -> refers_to ti b -> ~ refers_to tj b.
Proof. exact no_sharing. Qed.
(** a turn of one thread changes nothing another thread sees, not even during an analysis. *)
Theorem C96_turn : forall css schedule m i m' j t, take_turns (new_machine css) schedule = Ok m -> machine_step m i = Ok m' -> j <> i ->
  nth_error (m_threads m) j = Some t ->
  nth_error (m_threads m') j = Some t /\ seen_analyzers (m_blocks m') t = seen_analyzers (m_blocks m) t /\ seen_endings (m_blocks m') t = seen_endings (m_blocks m) t.
Proof. exact other_turns. Qed.
(** If the threads together end in undefined behaviour or in an exception, one of them
    alone does. *)
Theorem C96_undefined : forall css schedule k, take_turns (new_machine css) schedule = UB k -> exists i cs, nth_error css i = Some cs /\ perform_all empty_world cs = UB k.
Proof.
  intros css s k H. pose proof (threads_fail css s) as F. rewrite H in F. destruct F as (i & cs & Hc & F). exists i, cs. split; [exact Hc|].
  destruct (perform_all empty_world cs); try contradiction. cbn in F. congruence.
Qed.
Theorem C96_exception : forall css schedule k, take_turns (new_machine css) schedule = Throw k -> exists i cs, nth_error css i = Some cs /\ perform_all empty_world cs = Throw k.
Proof.
  intros css s k H. pose proof (threads_fail css s) as F. rewrite H in F. destruct F as (i & cs & Hc & F). exists i, cs. split; [exact Hc|].
  destruct (perform_all empty_world cs); try contradiction. cbn in F. congruence.
Qed.

(** Three threads; the second uses its analyzer twice and the third copies its own. *)
Definition three_threads lm : list (list user_call) :=
  [ [CDefault lm "3.0"; CAnalyze 0 (gate_program "q" "H")];
    [CDefault lm "3"; CAnalyze 0 (prog [qubit_decl "q"]); CAnalyze 0 (prog [gate_on "X" [] [name "q"]])];
    [CDefault lm "3.0"; CCopy 0; CAnalyze 1 (prog [gate_on "X" [] [name "q"]])] ].
Definition three_schedule : list nat := [0; 1; 2; 2; 0; 1; 1; 2; 0; 1; 2; 1; 0; 2; 1; 1; 0; 2; 1; 0; 2]%nat.
Definition errors_of (e : seen_ending) : option (list string) := match e with SReturns r => Some (map message (res_errors r)) | _ => None end.
Example C96_case : forall lm, exists m t0 t1 t2, take_turns (new_machine (three_threads lm)) three_schedule = Ok m /\ m_threads m = [t0; t1; t2] /\
  (forall i cs, nth_error (three_threads lm) i = Some cs -> (calls_turns cs <= turns i three_schedule)%nat) /\
  Forall between_calls [t0; t1; t2] /\ (exists b0 b1, refers_to t0 b0 /\ refers_to t1 b1) /\
  map errors_of (seen_endings (m_blocks m) t0) = [None; Some []] /\
  map errors_of (seen_endings (m_blocks m) t1) = [None; Some []; Some []] /\
  map errors_of (seen_endings (m_blocks m) t2) = [None; None; Some ["failed to resolve variable 'q'"]] /\
  (exists m', machine_step m 1 = Ok m') /\ (exists k, take_turns (new_machine [[CPop 0]]) [0%nat] = UB k).
Proof.
  intros lm.
  assert (X : match take_turns (new_machine (three_threads lm)) three_schedule with
    | Ok m => match m_threads m with
      | [t0; t1; t2] => match th_activity t0, th_activity t1, th_activity t2 with Idle, Idle, Idle => True | _, _, _ => False end /\
          (match th_analyzers t0, th_analyzers t1 with o0 :: _, o1 :: _ => match ob_scopes o0, ob_scopes o1 with _ :: _, _ :: _ => True | _, _ => False end | _, _ => False end) /\
          map errors_of (seen_endings (m_blocks m) t0) = [None; Some []] /\
          map errors_of (seen_endings (m_blocks m) t1) = [None; Some []; Some []] /\
          map errors_of (seen_endings (m_blocks m) t2) = [None; None; Some ["failed to resolve variable 'q'"]] /\
          th_calls t1 = []
      | _ => False end
    | _ => False end).
  { vm_compute. split; [exact I|]. split; [exact I|]. split; [reflexivity|]. split; [reflexivity|]. split; reflexivity. }
  destruct (take_turns (new_machine (three_threads lm)) three_schedule) as [m| | |]; try contradiction.
  destruct (m_threads m) as [|t0 [|t1 [|t2 [|]]]] eqn:Et; try contradiction. destruct X as (A & B & E0 & E1 & E2 & Ec).
  exists m, t0, t1, t2. split; [reflexivity|]. split; [exact Et|]. split; [|split; [|split; [|split; [exact E0|split; [exact E1|split; [exact E2|split]]]]]].
  - intros [|[|[|i]]] cs H; try (destruct i; discriminate); injection H as <-; vm_compute; lia.
  - unfold between_calls. destruct (th_activity t0) eqn:A0; [|contradiction]. destruct (th_activity t1) eqn:A1; [|contradiction]. destruct (th_activity t2) eqn:A2; [|contradiction].
    constructor; [exact A0|]. constructor; [exact A1|]. constructor; [exact A2|constructor].
  - destruct (th_analyzers t0) as [|o0 l0] eqn:F0; [contradiction|]. destruct (th_analyzers t1) as [|o1 l1] eqn:F1; [contradiction|].
    destruct (ob_scopes o0) as [|s0 r0] eqn:G0; [contradiction|]. destruct (ob_scopes o1) as [|s1 r1] eqn:G1; [contradiction|].
    exists (os_block s0), (os_block s1). split; left; [exists o0, s0; rewrite F0, G0|exists o1, s1; rewrite F1, G1]; split; (now left) || (split; [now left|reflexivity]).
  - unfold machine_step. rewrite Et. cbn [nth_error]. unfold thread_step.
    destruct (th_activity t0); [|contradiction]. destruct (th_activity t1); [|contradiction]. rewrite Ec. cbn [bind]. eauto.
  - eexists. vm_compute. reflexivity.
Qed.
(** The limit: if a thread is given a copy of the analyzer of another, the two refer to the
    same block, and what a thread gets depends on the order of the turns. (Each thread makes
    one variable; they are numbered 0 and 1.) *)
Definition sharing (w : world) (cs cs' : list user_call) : machine :=
  mkMachine (w_blocks w) (map (fun x => mkThread [fst x] (fst (snd x)) Idle (snd (snd x)) []) (combine (w_analyzers w) [(0%nat, cs); (1%nat, cs')])).
Theorem C96_copies : forall lm, exists w es schedule schedule' m m' t t', history [CDefault lm "3.0"; CCopy 0] w es /\ Permutation schedule schedule' /\
  let start := sharing w [CAnalyze 0 (gate_program "q" "H")] [CAnalyze 0 (gate_program "r" "X")] in
  take_turns start schedule = Ok m /\ take_turns start schedule' = Ok m' /\ nth_error (m_threads m) 0 = Some t /\ nth_error (m_threads m') 0 = Some t' /\
  (exists r, seen_endings (m_blocks m) t = [SReturns r] /\ res_errors r = []) /\ (exists k, seen_endings (m_blocks m') t' = [SThrows k]).
Proof.
  intros lm. set (s := [0; 0; 0; 0; 1; 1; 1; 1]%nat). set (s' := [1; 1; 1; 1; 0; 0; 0; 0]%nat).
  assert (X : match perform_all empty_world [CDefault lm "3.0"; CCopy 0] with
    | Ok (w, es) => let start := sharing w [CAnalyze 0 (gate_program "q" "H")] [CAnalyze 0 (gate_program "r" "X")] in
        match take_turns start s, take_turns start s' with
        | Ok m, Ok m' => match nth_error (m_threads m) 0, nth_error (m_threads m') 0 with
          | Some t, Some t' => match seen_endings (m_blocks m) t, seen_endings (m_blocks m') t' with
             | [SReturns r], [SThrows k] => res_errors r = [] | _, _ => False end
          | _, _ => False end
        | _, _ => False end
    | _ => False end) by (vm_compute; reflexivity).
  destruct (perform_all empty_world [CDefault lm "3.0"; CCopy 0]) as [[w es]| | |] eqn:E; try contradiction. cbv zeta in X.
  destruct (take_turns (sharing w _ _) s) as [m| | |] eqn:E1; try contradiction. destruct (take_turns (sharing w _ _) s') as [m'| | |] eqn:E2; try contradiction.
  destruct (nth_error (m_threads m) 0) as [t|] eqn:E3; [|contradiction]. destruct (nth_error (m_threads m') 0) as [t'|] eqn:E4; [|contradiction].
  destruct (seen_endings (m_blocks m) t) as [|[|r| |] [|]] eqn:E5; try contradiction. destruct (seen_endings (m_blocks m') t') as [|[| | |k] [|]] eqn:E6; try contradiction.
  exists w, es, s, s', m, m', t, t'. split; [exact E|]. split; [exact (Permutation_app_comm [0; 0; 0; 0]%nat [1; 1; 1; 1]%nat)|].
  cbv zeta. split; [exact E1|]. split; [exact E2|]. split; [exact E3|]. split; [exact E4|]. split; [exists r; auto|exists k; auto].
Qed.
Print Assumptions C96_as_alone. Print Assumptions C96_no_waiting. Print Assumptions C96_results. Print Assumptions C96_no_sharing. Print Assumptions C96_turn.
Print Assumptions C96_undefined. Print Assumptions C96_exception. Print Assumptions C96_copies.
