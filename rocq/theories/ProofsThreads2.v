(** Proofs about threads (C96): a thread alone, and threads that take turns. *)
From Verif Require Import Base ModelUtils ModelVersion ModelError ModelTypes ModelOverload ModelFunctions ModelAst ModelAnalyzer ModelSemantic ModelObjects ModelThreads
  SpecTypes SpecFunctions SpecInstructions SpecAnalyzer SpecObjects SpecThreads ProofsFunctions ProofsAnalyzer ProofsAnalyzer2 ProofsObjects ProofsThreads.
Local Open Scope string_scope.

(** ** Writing twice *)
Lemma replace_twice {A} (x y : A) l : forall n, replace_nth n y (replace_nth n x l) = replace_nth n y l.
Proof. induction l as [|a l IH]; intros [|n]; cbn; try reflexivity. now rewrite IH. Qed.
Lemma replace_swap {A} (x y : A) l : forall n m, n <> m -> replace_nth n x (replace_nth m y l) = replace_nth m y (replace_nth n x l).
Proof. induction l as [|a l IH]; intros [|n] [|m] H; cbn; try reflexivity; try congruence. rewrite IH by congruence. reflexivity. Qed.
Lemma replace_id {A} (d : A) l : forall n, replace_nth n (nth n l d) l = l.
Proof. induction l as [|a l IH]; intros [|n]; cbn; try reflexivity. now rewrite IH. Qed.
Lemma replace_self {A} (x : A) l : forall n, nth_error l n = Some x -> replace_nth n x l = l.
Proof. induction l as [|a l IH]; intros [|n] H; cbn in *; try discriminate; [congruence|]. now rewrite IH. Qed.
Lemma write_swap os : forall ss bs b x, ~ In b (map os_block os) ->
  write_scopes os ss (replace_nth b x bs) = (fst (write_scopes os ss bs), replace_nth b x (snd (write_scopes os ss bs))).
Proof.
  induction os as [|o os IH]; intros ss bs b x N; [reflexivity|]. destruct ss as [|s ss]; [reflexivity|]. cbn [write_scopes map] in *.
  rewrite (replace_swap (sc_block s) x bs (os_block o) b) by (intros E; apply N; now left). rewrite IH by (intros H; apply N; now right).
  destruct (write_scopes os ss (replace_nth (os_block o) (sc_block s) bs)) as [os' bs']. reflexivity.
Qed.
Lemma write_ids os : forall ss bs, List.length os = List.length ss -> map os_block (fst (write_scopes os ss bs)) = map os_block os.
Proof.
  induction os as [|o os IH]; intros ss bs L; destruct ss as [|s ss]; cbn in L; try discriminate; [reflexivity|]. cbn [write_scopes].
  specialize (IH ss (replace_nth (os_block o) (sc_block s) bs) ltac:(lia)). destruct (write_scopes os ss _) as [os' bs']. cbn in *. now rewrite IH.
Qed.
Lemma write_again os : forall ss ss' bs os1 bs1, NoDup (map os_block os) -> List.length os = List.length ss -> List.length os = List.length ss' ->
  write_scopes os ss bs = (os1, bs1) -> write_scopes os1 ss' bs1 = write_scopes os ss' bs.
Proof.
  induction os as [|o os IH]; intros ss ss' bs os1 bs1 N L L' H.
  - destruct ss; [|discriminate]. destruct ss'; [|discriminate]. injection H as <- <-. reflexivity.
  - destruct ss as [|s ss]; [discriminate|]. destruct ss' as [|s' ss']; [discriminate|]. cbn in L, L'. inversion N as [|? ? N1 N2]; subst.
    cbn [write_scopes] in H |- *. rewrite write_swap in H by exact N1. pose proof (write_ids os ss bs ltac:(lia)) as Ids.
    destruct (write_scopes os ss bs) as [os2 X] eqn:E. cbn [fst snd] in *. injection H as <- <-. cbn [write_scopes written_scope os_block]. rewrite replace_twice.
    rewrite write_swap by (rewrite Ids; exact N1). rewrite (write_swap os) by exact N1. rewrite (IH ss ss' bs os2 X N2 ltac:(lia) ltac:(lia) E).
    reflexivity.
Qed.
Lemma write_shown os : forall bs, write_scopes os (map (show_in bs) os) bs = (os, bs).
Proof.
  assert (X : forall os bs bs0, bs = bs0 -> write_scopes os (map (show_in bs0) os) bs = (os, bs)); [|intros bs; now apply X].
  clear os. induction os as [|o os IH]; intros bs bs0 ->; [reflexivity|]. cbn [map write_scopes]. cbn [show_in sc_block]. unfold blk at 1. rewrite replace_id.
  rewrite IH by reflexivity. f_equal. f_equal. now destruct o.
Qed.

Lemma written_shown w i o : nth_error (w_analyzers w) i = Some o -> write_analyzer w i o (show_analyzer w o) = w.
Proof.
  intros E. unfold write_analyzer. rewrite show_analyzer_scopes, write_shown. cbn [show_analyzer api_version next_id]. destruct w as [bs as_ n]. cbn in *. f_equal.
  replace (mkObject (ob_version o) (ob_scopes o)) with o by now destruct o. now apply replace_self.
Qed.
(** The analyzer that has been written *)
Lemma written_at w i o st : sound w -> nth_error (w_analyzers w) i = Some o -> List.length (scopes st) = List.length (ob_scopes o) ->
  exists o', nth_error (w_analyzers (write_analyzer w i o st)) i = Some o' /\ show_analyzer (write_analyzer w i o st) o' = st /\ ids o' = ids o /\
    forall st', List.length (scopes st') = List.length (ob_scopes o) -> write_analyzer (write_analyzer w i o st) i o' st' = write_analyzer w i o st'.
Proof.
  intros S E L. destruct (write_analyzer_spec w i o st S E L) as (o1 & E1 & E2 & E3 & _ & _ & _).
  assert (Li : (i < List.length (w_analyzers w))%nat) by (apply nth_error_Some; congruence).
  exists o1. split; [rewrite E1; now apply replace_same|]. split; [exact E2|]. split; [exact E3|]. intros st' L'.
  destruct (S o (nth_error_In _ _ E)) as [N _].
  unfold write_analyzer in *. destruct (write_scopes (ob_scopes o) (scopes st) (w_blocks w)) as [os bs] eqn:W. cbn [w_analyzers w_blocks] in *.
  assert (o1 = mkObject (api_version st) os) as ->.
  { assert (X : nth_error (replace_nth i o1 (w_analyzers w)) i = Some (mkObject (api_version st) os)) by (rewrite <- E1; now apply replace_same).
    rewrite replace_same in X by exact Li. congruence. }
  cbn [ob_scopes]. rewrite (write_again _ _ (scopes st') _ _ _ N (eq_sym L) (eq_sym L') W).
  destruct (write_scopes (ob_scopes o) (scopes st') (w_blocks w)) as [os' bs']. f_equal. apply replace_twice.
Qed.

(** ** A thread alone *)
Fixpoint lone (n : nat) (cs : list user_call) : outcome error (list block * thread) :=
  match n with
  | O => Ok ([], new_thread cs)
  | S n' => let! x := lone n' cs in thread_step (fst x) (snd x)
  end.

Lemma perform_all_snoc made c w es : history made w es -> forall rest, perform_all empty_world (made ++ c :: rest) =
  bind (perform w c) (fun x => bind (perform_all (fst x) rest) (fun y => Ok (fst y, (es ++ snd x :: snd y)%list))).
Proof.
  unfold history. generalize empty_world as w0. intros w0 H rest. revert w0 w es H. induction made as [|d made IH]; intros w0 w es H; cbn [app perform_all] in *.
  - injection H as <- <-. destruct (perform w0 c) as [x| | |]; cbn [bind]; reflexivity.
  - destruct (perform w0 d) as [x| | |]; cbn [bind] in *; try discriminate.
    destruct (perform_all (fst x) made) as [[w1 es1]| | |] eqn:E; cbn [bind] in *; try discriminate. injection H as <- <-. rewrite (IH _ _ _ E).
    destruct (perform w1 c) as [y| | |]; cbn [bind]; try reflexivity.
    destruct (perform_all (fst y) rest) as [z| | |]; cbn [bind]; reflexivity.
Qed.
Lemma history_snoc made c w es w' e : history made w es -> perform w c = Ok (w', e) -> history (made ++ [c]) w' (es ++ [e]).
Proof. intros H E. unfold history. rewrite (perform_all_snoc _ _ _ _ H), E. reflexivity. Qed.

Definition fails {A B : Type} (m : outcome error A) (m' : outcome error B) : Prop :=
  match m, m' with
  | Throw k, Throw k' => k = k'
  | UB k, UB k' => k = k'
  | Err e, Err e' => e = e'
  | _, _ => False
  end.
Lemma fails_all {A} made c w es rest (m : outcome error A) : history made w es -> fails m (perform w c) -> fails m (perform_all empty_world (made ++ c :: rest)).
Proof.
  intros H F. rewrite (perform_all_snoc _ _ _ _ H). destruct (perform w c) as [x| | |], m; cbn [fails bind] in *; try contradiction; exact F.
Qed.

Inductive lone_state (cs : list user_call) (w : world) (t : thread) : Prop :=
| lone_idle made : th_activity t = Idle -> cs = (made ++ th_calls t)%list -> history made w (th_endings t) -> lone_state cs w t
| lone_busy i v vl bl ss es made p w0 o st es1 es2 before : th_activity t = Analysing i v vl bl ss es ->
    cs = (made ++ CAnalyze i p :: th_calls t)%list -> history made w0 (th_endings t) -> nth_error (w_analyzers w0) i = Some o ->
    prog_statements p = (before ++ ss)%list -> vl = prog_version_loc p -> bl = prog_block_loc p ->
    visit_version (ob_version o) (prog_version p) (prog_version_loc p) = (Ok v, es1) ->
    visit_block bl (show_analyzer w0 o) before = (Ok st, es2) -> es = (es1 ++ es2)%list -> w = write_analyzer w0 i o st -> lone_state cs w t.

Lemma visit_block_app l ss : forall st ss', visit_block l st (ss ++ ss') = lbind (visit_block l st ss) (fun st' => visit_block l st' ss').
Proof.
  induction ss as [|s ss IH]; intros st ss'.
  - cbn. now destruct (visit_block l st ss').
  - cbn [app]. rewrite !visit_block_cons. destruct (visit_statement st s) as [[a|e|k|k] es]; cbn [lbind]; try reflexivity.
    rewrite IH. destruct (visit_block l a ss) as [[b|e|k|k] es']; cbn [lbind]; try reflexivity.
    destruct (visit_block l b ss') as [r es'']. now rewrite app_assoc.
Qed.
Lemma visit_statement_not_err st s e es : visit_statement st s <> (Err e, es).
Proof.
  destruct s as [l n t an|l g ops an|l n ops ps an|l n c an]; cbn [visit_statement]; unfold visit_variable, visit_gate_instruction, visit_non_gate_instruction, visit_asm_declaration; apply catch_log_not_err.
Qed.
Lemma block_scopes l ss st st' es : visit_block l st ss = (Ok st', es) -> state_extends st st' /\ List.length (scopes st') = List.length (scopes st).
Proof. intros H. apply block_run_iff, block_extends in H. split; [exact H|]. now apply extends_length. Qed.
Lemma shown_scopes w o : List.length (scopes (show_analyzer w o)) = List.length (ob_scopes o).
Proof. cbn. apply map_length. Qed.

(** What a call to analyze does, in the parts of ModelThreads *)
Lemma perform_parts w i p o v es1 : nth_error (w_analyzers w) i = Some o -> visit_version (ob_version o) (prog_version p) (prog_version_loc p) = (Ok v, es1) ->
  match visit_block (prog_block_loc p) (show_analyzer w o) (prog_statements p) with
  | (Ok st, es2) => sound w -> perform w (CAnalyze i p) = bind (end_analysis (write_analyzer w i o st) i v (prog_version_loc p) (es1 ++ es2)) (fun e => Ok (write_analyzer w i o st, e))
  | (m, _) => fails m (perform w (CAnalyze i p))
  end.
Proof.
  intros E V. cbn [perform]. rewrite E. unfold visit_program. change (api_version (show_analyzer w o)) with (ob_version o). rewrite V. cbn [lbind].
  destruct (visit_block _ _ _) as [[st|e|k|k] es2] eqn:B; cbn [lbind]; try reflexivity. intros S.
  destruct (block_scopes _ _ _ _ _ B) as [X L]. rewrite shown_scopes in L.
  destruct (written_at w i o st S E L) as (o' & W1 & W2 & W3 & _). unfold end_analysis. rewrite W1.
  unfold current_scope. pose proof (f_equal scopes W2) as W4. cbn [show_analyzer scopes] in W4.
  assert (W5 : ob_version o' = ob_version o) by (pose proof (f_equal api_version W2) as Q; cbn in Q; rewrite Q; apply X).
  destruct (ob_scopes o) as [|s rest] eqn:Eo.
  - destruct (scopes st) as [|sc rest]; [|discriminate]. cbn [lift lbind].
    destruct (ob_scopes o') as [|s' rest']; [reflexivity|discriminate].
  - destruct (scopes st) as [|sc rest2] eqn:Es; [discriminate|]. cbn [lift lbind]. rewrite !app_nil_r.
    unfold ids in W3. rewrite Eo in W3. destruct (ob_scopes o') as [|s' rest']; [discriminate|]. cbn [map] in W3, W4. injection W3 as W3 _. injection W4 as W4 _.
    cbn [sp_api_version sp_version sp_version_loc sp_variables]. rewrite W5, W3.
    replace (sc_variables sc) with (os_variables s') by now rewrite <- W4.
    destruct (es1 ++ es2)%list; [|reflexivity]. destruct (program_well_formed _); reflexivity.
Qed.

Lemma lone_step cs bs t : lone_state cs (thread_world bs t) t ->
  match thread_step bs t with
  | Ok x => lone_state cs (thread_world (fst x) (snd x)) (snd x)
  | m => fails m (perform_all empty_world cs)
  end.
Proof.
  intros [made A C H|i v vl bl ss es made p w0 o st es1 es2 before A C H E P Vl Bl V B Ees W]; unfold thread_step; rewrite A.
  - destruct (th_calls t) as [|c rest] eqn:Ec; [cbn [fst snd]; eapply lone_idle; [exact A|rewrite Ec; exact C|exact H]|].
    assert (N : (forall i p, c <> CAnalyze i p) -> match bind (perform (thread_world bs t) c) (fun x => Ok (turned (fst x) Idle rest (th_endings t ++ [snd x]))) with
      | Ok x => lone_state cs (thread_world (fst x) (snd x)) (snd x) | m => fails m (perform_all empty_world cs) end).
    { intros N. pose proof (fails_all made c (thread_world bs t) (th_endings t) rest (perform (thread_world bs t) c) H) as F.
      destruct (perform (thread_world bs t) c) as [[w e]|e|k|k] eqn:Ep; cbn [bind]; [|subst cs; now apply F..].
      rewrite world_turned. eapply (lone_idle _ _ _ (made ++ [c])); [reflexivity| |cbn; eapply history_snoc; eauto]. cbn. rewrite <- app_assoc. exact C. }
    destruct c as [v|lm api|i|i n v|i n ps h|i x|i|i|i p]; try (apply N; discriminate). clear N.
    unfold begin_analysis. destruct (nth_error (w_analyzers (thread_world bs t)) i) as [o|] eqn:E.
    + destruct (visit_version _ _ _) as [[v|e|k|k] es] eqn:V; cbn [bind].
      * rewrite world_turned. eapply lone_busy with (before := []) (p := p); [reflexivity|exact C|exact H|exact E|reflexivity|reflexivity|reflexivity|exact V|reflexivity|now rewrite app_nil_r|].
        symmetry. now apply written_shown.
      * unfold visit_version in V. now apply catch_log_not_err in V.
      * unfold visit_version in V. destruct (existsb _ _); [discriminate|]. destruct (negb _); discriminate.
      * unfold visit_version in V. destruct (existsb _ _); [discriminate|]. destruct (negb _); discriminate.
    + cbn [bind]. subst cs. eapply fails_all; [exact H|]. cbn [perform]. rewrite E. reflexivity.
  - pose proof (proj1 (history_sound _ _ _ H)) as S. destruct (block_scopes _ _ _ _ _ B) as [_ L]. rewrite shown_scopes in L.
    destruct (written_at w0 i o st S E L) as (o' & W1 & W2 & _ & W3). subst vl bl.
    pose proof (perform_parts w0 i p o v es1 E V) as Q. rewrite P in Q. destruct ss as [|s ss].
    + rewrite app_nil_r in Q. rewrite B in Q. specialize (Q S). rewrite W. rewrite Ees.
      destruct (end_analysis _ _ _ _ _) as [e|e|k|k] eqn:En; cbn [bind] in *; [|subst cs; eapply fails_all; [exact H|]; rewrite Q; reflexivity..].
      rewrite world_turned. eapply (lone_idle _ _ _ (made ++ [CAnalyze i p])); [reflexivity| |eapply history_snoc; eauto]. cbn. rewrite <- app_assoc. exact C.
    + rewrite visit_block_app, B in Q. cbn [lbind] in Q. rewrite visit_block_cons in Q. unfold analyse_statement. rewrite W, W1, W2.
      assert (Cl : catch_log (prog_block_loc p) st (visit_statement st s) = visit_statement st s).
      { pose proof (visit_statement_not_err st s) as Ne. destruct (visit_statement st s) as [[a|e|k|k] es']; try reflexivity. destruct (Ne e es' eq_refl). }
      rewrite Cl. destruct (visit_statement st s) as [[st'|e|k|k] es'] eqn:Vs; cbn [bind]; [|subst cs; eapply fails_all; [exact H|exact Q]..].
      rewrite world_turned. cbn [fst snd].
      assert (L' : List.length (scopes st') = List.length (ob_scopes o)) by (rewrite <- L; eapply extends_length, effect_extends, statement_effect, Vs).
      eapply lone_busy with (before := (before ++ [s])%list) (p := p) (es2 := (es2 ++ es')%list) (st := st'); [reflexivity|exact C|exact H|exact E| |reflexivity|reflexivity|exact V| | |].
      * rewrite <- app_assoc. exact P.
      * rewrite visit_block_app, B. cbn [lbind]. rewrite visit_block_cons, Vs. cbn. now rewrite app_nil_r.
      * rewrite Ees. now rewrite app_assoc.
      * now apply W3.
Qed.
Lemma lone_run n cs : match lone n cs with
  | Ok x => lone_state cs (thread_world (fst x) (snd x)) (snd x)
  | m => fails m (perform_all empty_world cs)
  end.
Proof.
  induction n as [|n IH]; cbn [lone].
  - eapply (lone_idle _ _ _ []); reflexivity.
  - destruct (lone n cs) as [[bs t]|e|k|k]; cbn [bind]; try exact IH. now apply lone_step.
Qed.

(** ** How many turns it takes *)
Definition rest_turns (t : thread) : nat :=
  calls_turns (th_calls t) + match th_activity t with Idle => 0 | Analysing _ _ _ _ ss _ => S (List.length ss) end.
Lemma calls_turns_cons c cs : calls_turns (c :: cs) = (call_turns c + calls_turns cs)%nat. Proof. reflexivity. Qed.
Lemma step_turns bs t bs' t' : thread_step bs t = Ok (bs', t') -> rest_turns t = 0%nat \/ rest_turns t = S (rest_turns t').
Proof.
  unfold thread_step, rest_turns. destruct (th_activity t) as [|i v vl bl [|s ss] es]; intros H.
  - destruct (th_calls t) as [|c cs] eqn:Ec; [now left|right].
    assert (N : call_turns c = 1%nat -> bind (perform (thread_world bs t) c) (fun x => Ok (turned (fst x) Idle cs (th_endings t ++ [snd x]))) = Ok (bs', t') ->
      (calls_turns (c :: cs) + 0 = S (calls_turns (th_calls t') + match th_activity t' with Idle => 0 | Analysing _ _ _ _ ss _ => S (List.length ss) end))%nat).
    { intros Ct X. destruct (perform _ c) as [[w e]| | |]; try discriminate. injection X as <- <-. rewrite calls_turns_cons, Ct. cbn [turned snd th_calls th_activity]. lia. }
    destruct c as [v|lm api|i|i n v|i n ps h|i x|i|i|i p]; try (apply N; [reflexivity|exact H]).
    unfold begin_analysis in H. destruct (nth_error _ i) as [o|]; [|discriminate]. destruct (visit_version _ _ _) as [[v|e|k|k] es]; try discriminate.
    injection H as <- <-. rewrite calls_turns_cons. cbn [turned snd th_calls th_activity call_turns]. lia.
  - right. destruct (end_analysis _ _ _ _ _); try discriminate. injection H as <- <-. cbn [turned snd th_calls th_activity List.length]. lia.
  - right. destruct (analyse_statement _ _ _ _) as [[w e]| | |]; try discriminate. injection H as <- <-. cbn [turned snd th_calls th_activity List.length]. lia.
Qed.
Lemma lone_turns n cs bs t : lone n cs = Ok (bs, t) -> (rest_turns t = calls_turns cs - n)%nat.
Proof.
  revert bs t. induction n as [|n IH]; intros bs t H; cbn [lone] in H.
  - injection H as <- <-. unfold rest_turns. cbn [new_thread th_calls th_activity]. lia.
  - destruct (lone n cs) as [[bs1 t1]| | |]; try discriminate. cbn [bind fst snd] in H. specialize (IH _ _ eq_refl). pose proof H as H'. apply step_turns in H. destruct H as [H|H].
    + assert (rest_turns t = 0%nat); [|lia]. unfold rest_turns in H. unfold thread_step in H'. destruct (th_activity t1) eqn:A; [|lia].
      destruct (th_calls t1) as [|c cs1] eqn:C; [injection H' as <- <-; unfold rest_turns; rewrite A, C; reflexivity|].
      rewrite calls_turns_cons in H. destruct c; cbn [call_turns] in H; lia.
    + lia.
Qed.
Lemma rest_nothing t : rest_turns t = 0%nat -> between_calls t /\ th_calls t = [].
Proof.
  unfold rest_turns, between_calls. intros H. destruct (th_activity t); [|lia]. split; [reflexivity|]. destruct (th_calls t) as [|c cs]; [reflexivity|]. rewrite calls_turns_cons in H. destruct c; cbn [call_turns] in H; lia.
Qed.

(** ** Threads that take turns *)
Record machine_state (css : list (list user_call)) (count : nat -> nat) (m : machine) : Prop := {
  ms_length : List.length (m_threads m) = List.length css;
  ms_threads : exists F B T,
    (forall i cs t', nth_error css i = Some cs -> nth_error (m_threads m) i = Some t' -> lone (count i) cs = Ok (B i, T i) /\ twins (F i) (B i) (T i) (m_blocks m) t') /\
    (forall i j a b, i <> j -> (i < List.length css)%nat -> (j < List.length css)%nat -> (a < List.length (B i))%nat -> (b < List.length (B j))%nat -> F i a <> F j b) }.
Lemma new_state css : machine_state css (fun _ => 0%nat) (new_machine css).
Proof.
  constructor; [apply map_length|]. exists (fun _ b => b), (fun _ => []), (fun i => new_thread (nth i css [])). split.
  - intros i cs t' Hi Ht. cbn [new_machine m_threads m_blocks] in *. rewrite nth_error_map, Hi in Ht. injection Ht as <-.
    rewrite (nth_error_nth css i [] Hi). split; [reflexivity|]. constructor; try reflexivity; [|constructor].
    constructor; try reflexivity; [|intros o []]. constructor; cbn; intros; lia.
  - cbn. intros. lia.
Qed.
Definition upd {A : Type} (f : nat -> A) (i : nat) (x : A) : nat -> A := fun j => if Nat.eqb j i then x else f j.
Lemma upd_same {A} (f : nat -> A) i x : upd f i x i = x. Proof. unfold upd. now rewrite Nat.eqb_refl. Qed.
Lemma upd_other {A} (f : nat -> A) i x j : j <> i -> upd f i x j = f j. Proof. intros H. unfold upd. apply Nat.eqb_neq in H. now rewrite H. Qed.

(** Another thread took a turn. *)
Lemma twins_frame f bs t bs' t' bs'' : twins f bs t bs' t' -> (List.length bs' <= List.length bs'')%nat ->
  (forall b, (b < List.length bs)%nat -> blk bs'' (f b) = blk bs' (f b)) -> twins f bs t bs'' t'.
Proof.
  intros [M A C E H] L K. constructor; auto. destruct M as [M1 M2 [M3 M4] M5]. constructor; auto. constructor; [|exact M4].
  intros b Hb. cbn in *. destruct (M3 b Hb) as [X1 X2]. split; [lia|]. exact (eq_trans (K b Hb) X2).
Qed.
Lemma machine_turn css count m i : machine_state css count m ->
  match machine_step m i with
  | Ok m' => machine_state css (fun j => (count j + if Nat.eqb j i then 1 else 0)%nat) m'
  | r => exists cs, nth_error css i = Some cs /\ fails r (perform_all empty_world cs)
  end.
Proof.
  intros [L (F & B & T & H & D)]. unfold machine_step. destruct (nth_error (m_threads m) i) as [t'|] eqn:E.
  - assert (Hi : exists cs, nth_error css i = Some cs).
    { destruct (nth_error css i) as [cs|] eqn:Ec; [eauto|]. apply nth_error_None in Ec. assert (i < List.length (m_threads m))%nat by (apply nth_error_Some; congruence). lia. }
    destruct Hi as [cs Hc]. destruct (H i cs t' Hc E) as [Hl Tw]. pose proof (thread_both _ _ _ _ _ Tw) as A. pose proof (lone_run (S (count i)) cs) as R. cbn [lone] in R. rewrite Hl in R. cbn [bind fst snd] in R.
    assert (Bad : forall r : outcome error (list block * thread), alike (turned_both (F i) (B i) (T i) (m_blocks m) t') (thread_step (B i) (T i)) r -> r = thread_step (m_blocks m) t' ->
      match r with Ok _ => True | _ => exists cs, nth_error css i = Some cs /\ fails r (perform_all empty_world cs) end).
    { intros r Ar _. destruct (thread_step (B i) (T i)) as [x|e|k|k], r as [y|e'|k'|k']; cbn [alike] in Ar; try contradiction; try exact I; exists cs; (split; [exact Hc|]); subst; exact R. }
    specialize (Bad _ A eq_refl). clear R. destruct (thread_step (m_blocks m) t') as [[bs1' t1']|e|k|k]; cbn [bind]; [|exact Bad..]. clear Bad.
    destruct (thread_step (B i) (T i)) as [[bs1 t1]|e|k|k] eqn:St; cbn [alike] in A; try contradiction. destruct A as (g & Bo & Tw'). cbn [fst snd] in *.
    pose proof (both_old _ _ _ _ _ _ Bo) as O1. pose proof (both_more _ _ _ _ _ _ Bo) as O2. pose proof (both_new _ _ _ _ _ _ Bo) as O3.
    pose proof (both_more' _ _ _ _ _ _ Bo) as O4. pose proof (both_frame _ _ _ _ _ _ Bo) as O5. cbn [thread_world w_blocks] in O1, O2, O3, O4. unfold outside in O5. cbn [thread_world w_blocks] in O5.
    assert (Li : (i < List.length css)%nat) by (apply nth_error_Some; congruence).
    assert (Old : forall j cs' t', j <> i -> nth_error css j = Some cs' -> nth_error (m_threads m) j = Some t' ->
      forall b, (b < List.length (B j))%nat -> (F j b < List.length (m_blocks m))%nat).
    { intros j cs' u Hj Hcj Htj b Hb. destruct (H j cs' u Hcj Htj) as [_ Tj]. apply (agree_at _ _ _ (moved_blocks _ _ _ (twins_moved _ _ _ _ _ Tj))). exact Hb. }
    constructor; [cbn [m_threads]; now rewrite replace_length|]. exists (upd F i g), (upd B i bs1), (upd T i t1). cbn [m_threads m_blocks]. split.
    + intros j cs' u Hcj Hu. destruct (Nat.eq_dec j i) as [->|Nj].
      * rewrite !upd_same, Nat.eqb_refl, Nat.add_1_r. cbn [lone]. replace cs' with cs in * by congruence. rewrite Hl. cbn [bind fst snd]. split; [exact St|].
        rewrite replace_same in Hu by (apply nth_error_Some; congruence). injection Hu as <-. exact Tw'.
      * rewrite !upd_other by exact Nj. apply Nat.eqb_neq in Nj as Nb. rewrite Nb, Nat.add_0_r. rewrite replace_other in Hu by auto. destruct (H j cs' u Hcj Hu) as [Hlj Tj]. split; [exact Hlj|].
        eapply twins_frame; [exact Tj|exact O4|]. intros b Hb. change (blk bs1' (F j b)) with (block_at (thread_world bs1' t1') (F j b)). change (blk (m_blocks m) (F j b)) with (block_at (thread_world (m_blocks m) t') (F j b)).
        assert (Lj : (j < List.length css)%nat) by (apply nth_error_Some; congruence).
        apply O5; [eapply Old; eauto|]. intros a Ha. apply D; auto.
    + assert (K : forall j a b, j <> i -> (j < List.length css)%nat -> (a < List.length bs1)%nat -> (b < List.length (B j))%nat -> g a <> F j b).
      { intros j a b Nj Lj Ha Hb. destruct (Nat.lt_ge_cases a (List.length (B i))) as [Ho|Hn].
        - rewrite O1 by exact Ho. apply D; auto.
        - specialize (O3 a (conj Hn Ha)). 
          assert (Q : exists u, nth_error (m_threads m) j = Some u). { destruct (nth_error (m_threads m) j) eqn:Q; [eauto|]. apply nth_error_None in Q. lia. }
          destruct Q as [u Q]. assert (Q' : exists c', nth_error css j = Some c'). { destruct (nth_error css j) eqn:Q'; [eauto|]. apply nth_error_None in Q'. lia. }
          destruct Q' as [c' Q']. pose proof (Old j c' u Nj Q' Q b Hb). lia. }
      intros j k a b Njk Lj Lk Ha Hb. destruct (Nat.eq_dec j i) as [->|Nj].
      * rewrite (upd_same B) in Ha. rewrite (upd_other B) in Hb by auto. rewrite (upd_same F), (upd_other F) by auto. apply K; auto.
      * rewrite (upd_other B) in Ha by auto. rewrite (upd_other F i g j) by auto. destruct (Nat.eq_dec k i) as [->|Nk].
        -- rewrite (upd_same B) in Hb. rewrite (upd_same F). intros Q. symmetry in Q. revert Q. apply K; auto.
        -- rewrite (upd_other B) in Hb by auto. rewrite (upd_other F) by auto. apply D; auto.
  - constructor; [exact L|]. exists F, B, T. split; [|exact D]. intros j cs' u Hcj Hu. destruct (Nat.eqb j i) eqn:Q; [apply Nat.eqb_eq in Q; subst; congruence|]. rewrite Nat.add_0_r. now apply H.
Qed.
Lemma machine_ext css c c' m : (forall i, c i = c' i) -> machine_state css c m -> machine_state css c' m.
Proof. intros E [L (F & B & T & H & D)]. constructor; [exact L|]. exists F, B, T. split; [|exact D]. intros. rewrite <- E. now apply H. Qed.
Lemma machine_run css sched : forall count m, machine_state css count m ->
  match take_turns m sched with
  | Ok m' => machine_state css (fun j => (count j + turns j sched)%nat) m'
  | r => exists i cs, nth_error css i = Some cs /\ fails r (perform_all empty_world cs)
  end.
Proof.
  induction sched as [|i sched IH]; intros count m H; cbn [take_turns turns].
  - eapply machine_ext; [|exact H]. intros j. cbn. lia.
  - pose proof (machine_turn css count m i H) as X. destruct (machine_step m i) as [m1|e|k|k]; cbn [bind]; [|exists i; exact X..].
    specialize (IH _ _ X). destruct (take_turns m1 sched) as [m2|e|k|k]; try exact IH. eapply machine_ext; [|exact IH]. intros j. cbn. lia.
Qed.

(** ** The theorems *)
Lemma threads_as_alone css sched m i cs : take_turns (new_machine css) sched = Ok m -> nth_error css i = Some cs ->
  exists t, nth_error (m_threads m) i = Some t /\
    (between_calls t -> exists w es, alone cs t w es /\
       seen_analyzers (m_blocks m) t = map (show_analyzer w) (w_analyzers w) /\ seen_endings (m_blocks m) t = map (see w) es) /\
    ((calls_turns cs <= turns i sched)%nat -> between_calls t /\ th_calls t = []).
Proof.
  intros H Hc. pose proof (machine_run css sched _ _ (new_state css)) as R. rewrite H in R. destruct R as [L (F & B & T & K & _)]. cbn [Nat.add] in K.
  assert (Q : exists t, nth_error (m_threads m) i = Some t).
  { destruct (nth_error (m_threads m) i) eqn:Q; [eauto|]. apply nth_error_None in Q. assert (i < List.length css)%nat by (apply nth_error_Some; congruence). lia. }
  destruct Q as [t Ht]. exists t. split; [exact Ht|]. destruct (K i cs t Hc Ht) as [Hl Tw]. split.
  - intros Hb. pose proof (lone_run (turns i sched) cs) as R. rewrite Hl in R. cbn [fst snd] in R. unfold between_calls in Hb. rewrite (twins_activity _ _ _ _ _ Tw) in Hb.
    destruct R as [made A C Hh|]; [|congruence]. exists (thread_world (B i) (T i)), (th_endings (T i)). split.
    + exists made. rewrite (twins_calls _ _ _ _ _ Tw). auto.
    + split; [now apply (twins_analyzers (F i))|now apply (twins_seen (F i))].
  - intros Hn. apply lone_turns in Hl. assert (Z : rest_turns (T i) = 0%nat) by lia. apply rest_nothing in Z. unfold between_calls in *.
    rewrite (twins_activity _ _ _ _ _ Tw), (twins_calls _ _ _ _ _ Tw). exact Z.
Qed.
Lemma threads_fail css sched : match take_turns (new_machine css) sched with
  | Ok _ => True
  | r => exists i cs, nth_error css i = Some cs /\ fails r (perform_all empty_world cs)
  end.
Proof. pose proof (machine_run css sched _ _ (new_state css)) as R. destruct (take_turns _ _); auto. Qed.
Lemma refers_held f bs t bs' t' b : twins f bs t bs' t' -> refers_to t' b -> exists a, (a < List.length bs)%nat /\ b = f a.
Proof.
  intros [[M1 _ _ M4] _ _ E H] [(o' & s' & Ho & Hs & <-)|(e' & He & Hb)].
  - cbn in M1. rewrite M1 in Ho. apply in_map_iff in Ho. destruct Ho as (o & <- & Ho). cbn in Hs. apply in_map_iff in Hs. destruct Hs as (s & <- & Hs). exists (os_block s). split; [|reflexivity].
    destruct (M4 o Ho) as [_ Fo]. rewrite Forall_forall in Fo. now apply Fo.
  - rewrite E in He. apply in_map_iff in He. destruct He as (e & <- & He). rewrite Forall_forall in H. specialize (H e He).
    destruct e as [|[[p|] es]| |]; cbn in Hb; try contradiction. destruct Hb as [<-|[]]. exists (op_block p). split; [|reflexivity]. unfold held in H. cbn in H. now inversion H.
Qed.
Lemma no_sharing css sched m i j ti tj b : take_turns (new_machine css) sched = Ok m -> i <> j -> nth_error (m_threads m) i = Some ti -> nth_error (m_threads m) j = Some tj ->
  refers_to ti b -> ~ refers_to tj b.
Proof.
  intros H N Hi Hj Ri Rj. pose proof (machine_run css sched _ _ (new_state css)) as R. rewrite H in R. destruct R as [L (F & B & T & K & D)].
  assert (Q : forall i t, nth_error (m_threads m) i = Some t -> (i < List.length css)%nat /\ exists c, nth_error css i = Some c).
  { intros k t Hk. assert (X : (k < List.length css)%nat) by (rewrite <- L; apply nth_error_Some; congruence). split; [exact X|]. destruct (nth_error css k) eqn:Y; [eauto|]. apply nth_error_None in Y. lia. }
  destruct (Q i ti Hi) as [Li [ci Ci]]. destruct (Q j tj Hj) as [Lj [cj Cj]]. destruct (K i ci ti Ci Hi) as [_ Ti]. destruct (K j cj tj Cj Hj) as [_ Tj].
  destruct (refers_held _ _ _ _ _ _ Ti Ri) as (a & Ha & ->). destruct (refers_held _ _ _ _ _ _ Tj Rj) as (a' & Ha' & E). exact (D i j a a' N Li Lj Ha Ha' E).
Qed.
Lemma other_turns css sched m i m' j t : take_turns (new_machine css) sched = Ok m -> machine_step m i = Ok m' -> j <> i -> nth_error (m_threads m) j = Some t ->
  nth_error (m_threads m') j = Some t /\ seen_analyzers (m_blocks m') t = seen_analyzers (m_blocks m) t /\ seen_endings (m_blocks m') t = seen_endings (m_blocks m) t.
Proof.
  intros H St N Hj. pose proof (machine_run css sched _ _ (new_state css)) as R. rewrite H in R. pose proof (machine_turn _ _ _ i R) as R'. rewrite St in R'.
  assert (Hj' : nth_error (m_threads m') j = Some t).
  { unfold machine_step in St. destruct (nth_error (m_threads m) i) as [ti|]; [|congruence]. destruct (thread_step _ _) as [x| | |]; try discriminate. injection St as <-. cbn [m_threads]. now rewrite replace_other by auto. }
  split; [exact Hj'|]. destruct R as [L (F & B & T & K & _)], R' as [L' (F' & B' & T' & K' & _)].
  assert (Q : exists c, nth_error css j = Some c). { destruct (nth_error css j) eqn:Q; [eauto|]. apply nth_error_None in Q. assert (j < List.length (m_threads m))%nat by (apply nth_error_Some; congruence). lia. }
  destruct Q as [c Q]. destruct (K j c t Q Hj) as [E1 T1]. destruct (K' j c t Q Hj') as [E2 T2]. apply Nat.eqb_neq in N. rewrite N, Nat.add_0_r in E2. rewrite E2 in E1. injection E1 as E3 E4. rewrite E3, E4 in T2.
  rewrite (twins_analyzers _ _ _ _ _ T1), (twins_analyzers _ _ _ _ _ T2), (twins_seen _ _ _ _ _ T1), (twins_seen _ _ _ _ _ T2). auto.
Qed.
Lemma each_thread css sched m i lm api st p st' r : take_turns (new_machine css) sched = Ok m -> nth_error css i = Some [CDefault lm api; CAnalyze 0 p] ->
  default_analyzer lm api = Ok st -> analyze_ast st p = Ok (st', r) -> (3 + List.length (prog_statements p) <= turns i sched)%nat ->
  exists t, nth_error (m_threads m) i = Some t /\ seen_endings (m_blocks m) t = [SDone; SReturns r].
Proof.
  intros H Hc D A Hn. destruct (threads_as_alone css sched m i _ H Hc) as (t & Ht & K1 & K2). destruct (K2 ltac:(cbn; lia)) as [Hb Hd].
  destruct (K1 Hb) as (w & es & (made & Cs & Hh) & _ & Hs). rewrite Hd, app_nil_r in Cs. subst made. exists t. split; [exact Ht|]. rewrite Hs. clear - Hh D A.
  assert (H1 : history [CDefault lm api] (add_analyzer empty_world st) [EDone]).
  { unfold history. cbn [perform_all perform]. rewrite D. reflexivity. }
  apply default_analyzer_inv in D. destruct D as (v & _ & _ & ->). set (st := mkAnalyzer v [default_scope lm] 0) in *. set (o := mkObject v (allocate 0 [default_scope lm])).
  assert (Es : show_analyzer (add_analyzer empty_world st) o = st).
  { unfold show_analyzer, o, st. cbn [ob_version ob_scopes allocate map add_analyzer w_next empty_world]. reflexivity. }
  pose proof (analyze_returns _ _ _ 0%nat o p H1 eq_refl) as R. rewrite Es, A in R. destruct R as (w' & r' & o' & E & Sr & _).
  pose proof (history_snoc _ _ _ _ _ _ H1 E) as H2. unfold history in Hh, H2. cbn [app] in H2. rewrite H2 in Hh. injection Hh as <- <-. cbn [map see]. now rewrite Sr.
Qed.
