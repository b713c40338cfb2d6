(** Proofs about threads (C96): references do not matter. A thread that runs alone
    and one that runs among others refer to different blocks, which show the same. *)
From Verif Require Import Base ModelUtils ModelVersion ModelError ModelTypes ModelOverload ModelFunctions ModelAst ModelAnalyzer ModelSemantic ModelObjects ModelThreads
  SpecAnalyzer SpecObjects SpecThreads ProofsAnalyzer ProofsObjects.

(** ** Moving references *)
Definition move_scope (f : nat -> nat) (s : object_scope) : object_scope :=
  mkObjectScope (os_table s) (os_functions s) (os_instructions s) (f (os_block s)) (os_variables s).
Definition move (f : nat -> nat) (o : object) : object := mkObject (ob_version o) (map (move_scope f) (ob_scopes o)).
Definition move_program (f : nat -> nat) (p : object_program) : object_program :=
  mkObjectProgram (op_api_version p) (op_version p) (op_version_loc p) (f (op_block p)) (op_variables p).
Definition move_ending (f : nat -> nat) (e : ending) : ending :=
  match e with EReturns r => EReturns (mkResult (option_map (move_program f) (res_root r)) (res_errors r)) | _ => e end.

(** The blocks of the first heap are in the second heap, at the references f. *)
Record agree (f : nat -> nat) (bs bs' : list block) : Prop := {
  agree_at : forall b, (b < List.length bs)%nat -> (f b < List.length bs')%nat /\ blk bs' (f b) = blk bs b;
  agree_inj : forall a b, (a < List.length bs)%nat -> (b < List.length bs)%nat -> f a = f b -> a = b }.
Definition outside (f : nat -> nat) (bs : list block) (b : nat) : Prop := forall a, (a < List.length bs)%nat -> f a <> b.

Lemma replace_agree f bs bs' b x : agree f bs bs' -> (b < List.length bs)%nat ->
  agree f (replace_nth b x bs) (replace_nth (f b) x bs') /\ forall c, outside f bs c -> blk (replace_nth (f b) x bs') c = blk bs' c.
Proof.
  intros [A J] Hb. split.
  - constructor.
    + intros c. rewrite !replace_length. intros Hc. destruct (A c Hc) as [A1 A2]. split; [exact A1|]. unfold blk in *.
      destruct (Nat.eq_dec b c) as [->|N].
      * rewrite !replace_nth_same; auto. 
      * rewrite !replace_nth_other; auto.
    + rewrite replace_length. exact J.
  - intros c Hc. unfold blk. apply replace_nth_other. now apply Hc.
Qed.
Lemma write_scopes_agree f os : forall ss bs bs' os1 bs1, agree f bs bs' -> Forall (fun s => (os_block s < List.length bs)%nat) os ->
  write_scopes os ss bs = (os1, bs1) -> exists bs1', write_scopes (map (move_scope f) os) ss bs' = (map (move_scope f) os1, bs1') /\
    agree f bs1 bs1' /\ List.length bs1 = List.length bs /\ List.length bs1' = List.length bs' /\ forall c, outside f bs c -> blk bs1' c = blk bs' c.
Proof.
  induction os as [|o os IH]; intros ss bs bs' os1 bs1 A F H.
  - injection H as <- <-. exists bs'. auto.
  - destruct ss as [|s ss].
    + injection H as <- <-. exists bs'. auto.
    + cbn [write_scopes map] in *. inversion F as [|? ? F1 F2]; subst. destruct (write_scopes os ss _) as [os2 bs2] eqn:E. injection H as <- <-.
      destruct (replace_agree f bs bs' _ (sc_block s) A F1) as [A' K]. destruct (IH _ _ _ _ _ A' ltac:(now rewrite replace_length) E) as (bs1' & E' & A1 & L1 & L2 & K').
      exists bs1'. cbn [move_scope os_block]. rewrite E'. split; [reflexivity|]. split; [exact A1|]. rewrite replace_length in L1, L2. split; [exact L1|]. split; [exact L2|].
      intros c Hc. rewrite K', K; auto. intros a. rewrite replace_length. auto.
Qed.

(** ** Worlds *)
Record moved (f : nat -> nat) (w w' : world) : Prop := {
  moved_analyzers : w_analyzers w' = map (move f) (w_analyzers w);
  moved_next : w_next w' = w_next w;
  moved_blocks : agree f (w_blocks w) (w_blocks w');
  moved_sound : sound w }.
(** A step of both: new blocks are new in both, and no other blocks of the second world change. *)
Record both (f : nat -> nat) (w w' : world) (g : nat -> nat) (v v' : world) : Prop := {
  both_moved : moved g v v';
  both_old : forall b, (b < List.length (w_blocks w))%nat -> g b = f b;
  both_more : (List.length (w_blocks w) <= List.length (w_blocks v))%nat;
  both_new : forall b, (List.length (w_blocks w) <= b < List.length (w_blocks v))%nat -> (List.length (w_blocks w') <= g b)%nat;
  both_more' : (List.length (w_blocks w') <= List.length (w_blocks v'))%nat;
  both_frame : forall b, (b < List.length (w_blocks w'))%nat -> outside f (w_blocks w) b -> block_at v' b = block_at w' b }.

Lemma both_same f w w' : moved f w w' -> both f w w' f w w'.
Proof. intros M. constructor; auto; lia. Qed.
Lemma nth_moved f w w' i : moved f w w' -> nth_error (w_analyzers w') i = option_map (move f) (nth_error (w_analyzers w) i).
Proof. intros M. rewrite (moved_analyzers _ _ _ M). apply nth_error_map. Qed.
Lemma show_moved f w w' o : moved f w w' -> In o (w_analyzers w) -> show_analyzer w' (move f o) = show_analyzer w o.
Proof.
  intros M I. unfold show_analyzer. rewrite (moved_next _ _ _ M). cbn [move ob_version ob_scopes]. f_equal. rewrite map_map. apply map_ext_in. intros s Hs.
  destruct (moved_sound _ _ _ M o I) as [_ F]. rewrite Forall_forall in F. specialize (F s Hs).
  unfold show_scope. cbn [move_scope os_table os_functions os_instructions os_block os_variables]. f_equal. apply (agree_at _ _ _ (moved_blocks _ _ _ M)). exact F.
Qed.
Lemma replace_map {A B} (f : A -> B) x l : forall n, replace_nth n (f x) (map f l) = map f (replace_nth n x l).
Proof. induction l as [|a l IH]; intros [|n]; cbn; try reflexivity. now rewrite IH. Qed.

Lemma write_both f w w' i o st : moved f w w' -> nth_error (w_analyzers w) i = Some o -> List.length (scopes st) = List.length (ob_scopes o) ->
  both f w w' f (write_analyzer w i o st) (write_analyzer w' i (move f o) st).
Proof.
  intros M Hi L. destruct (write_analyzer_spec w i o st (moved_sound _ _ _ M) Hi L) as (_ & _ & _ & _ & _ & _ & S).
  destruct (moved_sound _ _ _ M o (nth_error_In _ _ Hi)) as [_ F]. unfold write_analyzer in *. cbn [move ob_scopes].
  destruct (write_scopes (ob_scopes o) (scopes st) (w_blocks w)) as [os bs] eqn:E.
  destruct (write_scopes_agree f _ _ _ _ _ _ (moved_blocks _ _ _ M) F E) as (bs' & E' & A & L1 & L2 & K). rewrite E'.
  constructor; cbn [w_blocks]; try lia; try reflexivity.
  - constructor; cbn [w_analyzers w_next w_blocks]; [|reflexivity|exact A|exact S]. rewrite (moved_analyzers _ _ _ M).
    change (mkObject (api_version st) (map (move_scope f) os)) with (move f (mkObject (api_version st) os)). apply replace_map.
  - intros b _ Hb. now apply K.
Qed.

(** New references for new blocks *)
Definition extended (f : nat -> nat) (n n' : nat) : nat -> nat := fun b => if (b <? n)%nat then f b else (b - n + n')%nat.
Lemma extended_old f n n' b : (b < n)%nat -> extended f n n' b = f b.
Proof. intros H. unfold extended. apply Nat.ltb_lt in H. now rewrite H. Qed.
Lemma extended_new f n n' b : (n <= b)%nat -> extended f n n' b = (b - n + n')%nat.
Proof. intros H. unfold extended. apply Nat.ltb_ge in H. now rewrite H. Qed.
Lemma blk_new l m b : (List.length l <= b)%nat -> blk (l ++ m) b = blk m (b - List.length l).
Proof. intros H. unfold blk. now apply app_nth2. Qed.
Lemma extended_agree f bs bs' more : agree f bs bs' -> agree (extended f (List.length bs) (List.length bs')) (bs ++ more) (bs' ++ more).
Proof.
  intros [A J]. constructor.
  - intros b Hb. rewrite app_length in Hb. destruct (Nat.lt_ge_cases b (List.length bs)) as [H|H].
    + rewrite extended_old by exact H. destruct (A b H) as [A1 A2]. rewrite app_length. split; [lia|]. rewrite !blk_app_old by assumption. exact A2.
    + rewrite extended_new by exact H. rewrite app_length. split; [lia|]. rewrite !blk_new by lia. f_equal. lia.
  - intros a b. rewrite app_length. intros Ha Hb E.
    destruct (Nat.lt_ge_cases a (List.length bs)) as [H|H], (Nat.lt_ge_cases b (List.length bs)) as [H'|H'].
    + rewrite !extended_old in E by assumption. now apply J.
    + rewrite extended_old, extended_new in E by assumption. pose proof (proj1 (A a H)). lia.
    + rewrite extended_new, extended_old in E by assumption. pose proof (proj1 (A b H')). lia.
    + rewrite !extended_new in E by assumption. lia.
Qed.
Lemma move_old f g w o : sound_object w o -> (forall b, (b < List.length (w_blocks w))%nat -> g b = f b) -> move g o = move f o.
Proof.
  intros [_ F] H. unfold move. f_equal. apply map_ext_in. intros s Hs. rewrite Forall_forall in F. unfold move_scope. f_equal. auto.
Qed.
Lemma move_all f g w : sound w -> (forall b, (b < List.length (w_blocks w))%nat -> g b = f b) -> map (move g) (w_analyzers w) = map (move f) (w_analyzers w).
Proof. intros S H. apply map_ext_in. intros o Ho. eapply move_old; eauto. Qed.
Lemma allocate_moved f bs n ss : (forall b, (bs <= b)%nat -> f b = (b - bs + n)%nat) -> forall k,
  map (move_scope f) (allocate (bs + k) ss) = allocate (n + k) ss.
Proof.
  intros H. induction ss as [|s ss IH]; intros k; [reflexivity|]. cbn [allocate map]. f_equal.
  - unfold move_scope. cbn. f_equal. rewrite H by lia. lia.
  - specialize (IH (S k)). now rewrite <- !plus_n_Sm in IH.
Qed.
(** Both worlds get more blocks and some analyzers are replaced. *)
Lemma grow_both f w w' more os os' n : moved f w w' -> let g := extended f (List.length (w_blocks w)) (List.length (w_blocks w')) in
  os' = map (move g) os -> sound (mkWorld (w_blocks w ++ more) os n) -> n = w_next w ->
  both f w w' g (mkWorld (w_blocks w ++ more) os n) (mkWorld (w_blocks w' ++ more) os' n).
Proof.
  intros M g -> S ->. constructor; cbn [w_blocks]; rewrite ?app_length; try lia.
  - constructor; cbn [w_analyzers w_next w_blocks]; [reflexivity|reflexivity|apply extended_agree, M|exact S].
  - intros b Hb. now apply extended_old.
  - intros b Hb. unfold g. rewrite extended_new by lia. lia.
  - intros b Hb _. unfold block_at. cbn [w_blocks]. now apply blk_app_old.
Qed.

(** ** Calls *)
Definition alike {A A' : Type} (R : A -> A' -> Prop) (x : outcome error A) (y : outcome error A') : Prop :=
  match x, y with
  | Ok a, Ok b => R a b
  | Err e, Err e' => e = e'
  | Throw k, Throw k' => k = k'
  | UB k, UB k' => k = k'
  | _, _ => False
  end.
Definition called (f : nat -> nat) (w w' : world) (x y : world * ending) : Prop :=
  snd y = snd x /\ result_block (snd x) = [] /\ exists g, both f w w' g (fst x) (fst y).

Lemma create_both f w w' m : moved f w w' -> alike (called f w w') (create w m) (create w' m).
Proof.
  intros M. destruct m as [st|e|k|k]; cbn [create alike]; try reflexivity.
  2: { split; [reflexivity|]. split; [reflexivity|]. exists f. now apply both_same. }
  2: { split; [reflexivity|]. split; [reflexivity|]. exists f. now apply both_same. }
  split; [reflexivity|]. split; [reflexivity|]. eexists. cbn [fst]. unfold add_analyzer. rewrite (moved_next _ _ _ M). apply grow_both; [exact M| | |reflexivity].
  - rewrite map_app. cbn [map]. f_equal.
    + rewrite (moved_analyzers _ _ _ M). symmetry. apply move_all; [apply M|]. intros b Hb. now apply extended_old.
    + f_equal. unfold move. cbn [ob_version ob_scopes]. f_equal. symmetry.
      pose proof (allocate_moved (extended f (List.length (w_blocks w)) (List.length (w_blocks w'))) (List.length (w_blocks w)) (List.length (w_blocks w')) (scopes st)
        (fun b Hb => extended_new _ _ _ _ Hb) 0) as X. now rewrite !Nat.add_0_r in X.
  - pose proof (step_create w (CNew []) (Ok st) (add_analyzer w st) EDone (moved_sound _ _ _ M) eq_refl eq_refl) as X. apply X.
Qed.
Lemma method_both f w w' i h : moved f w w' -> steps h -> alike (called f w w') (method w i h) (method w' i h).
Proof.
  intros M H. unfold method. rewrite (nth_moved f w w' i M). destruct (nth_error (w_analyzers w) i) as [o|] eqn:E; [|reflexivity]. cbn [option_map].
  rewrite (show_moved f w w' o M (nth_error_In _ _ E)).
  destruct (h (show_analyzer w o)) as [st|e|k|k] eqn:Eh; cbn [alike]; try reflexivity.
  2: { split; [reflexivity|]. split; [reflexivity|]. exists f. now apply both_same. }
  2: { split; [reflexivity|]. split; [reflexivity|]. exists f. now apply both_same. }
  split; [reflexivity|]. split; [reflexivity|]. exists f. cbn [fst]. apply write_both; [exact M|exact E|].
  apply H in Eh. apply (f_equal (@List.length _)) in Eh. rewrite !map_length in Eh. rewrite Eh. cbn. apply map_length.
Qed.
Lemma replace_app {A} (x : A) l m : forall n, (n < List.length l)%nat -> replace_nth n x (l ++ m) = (replace_nth n x l ++ m)%list.
Proof. induction l as [|a l IH]; intros [|n] H; cbn in *; try lia; [reflexivity|]. rewrite IH by lia. reflexivity. Qed.
Lemma perform_both f w w' c : moved f w w' -> (forall i p, c <> CAnalyze i p) -> alike (called f w w') (perform w c) (perform w' c).
Proof.
  intros M N. destruct c as [v|lm api|i|i n v|i n ps h|i x|i|i|i p]; cbn [perform].
  - now apply create_both.
  - now apply create_both.
  - rewrite (nth_moved f w w' i M). destruct (nth_error (w_analyzers w) i) as [o|] eqn:E; [|reflexivity]. cbn [option_map alike].
    split; [reflexivity|]. split; [reflexivity|]. exists f. cbn [fst]. constructor; cbn [w_blocks]; try lia; try reflexivity.
    constructor; cbn [w_analyzers w_next w_blocks]; [|apply M|apply M|].
    + rewrite map_app, (moved_analyzers _ _ _ M). reflexivity.
    + intros o' Ho. apply in_app_or in Ho. destruct Ho as [Ho|[<-|[]]]; apply (moved_sound _ _ _ M); [exact Ho|eapply nth_error_In, E].
  - apply method_both; [exact M|apply register_variable_steps].
  - apply method_both; [exact M|apply register_function_steps].
  - apply method_both; [exact M|apply register_instruction_steps].
  - rewrite (nth_moved f w w' i M). destruct (nth_error (w_analyzers w) i) as [o|] eqn:E; [|reflexivity]. cbn [option_map alike].
    split; [reflexivity|]. split; [reflexivity|]. eexists. cbn [fst]. rewrite (moved_next _ _ _ M). apply grow_both; [exact M| | |reflexivity].
    + rewrite <- replace_map. f_equal.
      * unfold move. cbn [ob_version ob_scopes map]. f_equal. f_equal.
        -- unfold move_scope. cbn. rewrite extended_new by lia. f_equal. lia.
        -- symmetry. pose proof (move_old f (extended f (List.length (w_blocks w)) (List.length (w_blocks w'))) w o (moved_sound _ _ _ M o (nth_error_In _ _ E))
             ltac:(intros b Hb; now apply extended_old)) as X. unfold move in X. now injection X as X.
      * rewrite (moved_analyzers _ _ _ M). symmetry. apply move_all; [apply M|]. intros b Hb. now apply extended_old.
    + pose proof (perform_step w (CPush i)) as X. cbn [perform] in X. rewrite E in X. specialize (X _ _ (moved_sound _ _ _ M) eq_refl). apply X.
  - rewrite (nth_moved f w w' i M). destruct (nth_error (w_analyzers w) i) as [o|] eqn:E; [|reflexivity]. cbn [option_map move ob_scopes].
    pose proof (perform_step w (CPop i)) as X. cbn [perform] in X. rewrite E in X.
    destruct (ob_scopes o) as [|s rest] eqn:Eo; [reflexivity|]. cbn [map alike].
    split; [reflexivity|]. split; [reflexivity|]. exists f. cbn [fst]. constructor; cbn [w_blocks]; try lia; try reflexivity.
    constructor; cbn [w_analyzers w_next w_blocks]; [|apply M|apply M|].
    + rewrite (moved_analyzers _ _ _ M). change (mkObject (ob_version (move f o)) (map (move_scope f) rest)) with (move f (mkObject (ob_version o) rest)). apply replace_map.
    + specialize (X _ _ (moved_sound _ _ _ M) eq_refl). apply X.
  - destruct (N i p eq_refl).
Qed.

(** ** Parts of an analysis *)
Lemma statement_scopes l st s st' es : catch_log l st (visit_statement st s) = (Ok st', es) -> List.length (scopes st') = List.length (scopes st).
Proof.
  intros H. apply catch_log_inv in H. destruct H as [H|(e & es1 & _ & -> & _)]; [|reflexivity]. eapply extends_length, effect_extends, statement_effect, H.
Qed.
Lemma statement_both f w w' i l s : moved f w w' ->
  alike (fun x y => snd y = snd x /\ both f w w' f (fst x) (fst y)) (analyse_statement w i l s) (analyse_statement w' i l s).
Proof.
  intros M. unfold analyse_statement. rewrite (nth_moved f w w' i M). destruct (nth_error (w_analyzers w) i) as [o|] eqn:E; [|reflexivity]. cbn [option_map].
  rewrite (show_moved f w w' o M (nth_error_In _ _ E)).
  destruct (catch_log l _ _) as [[st|e|k|k] es] eqn:Eh; cbn [alike]; try reflexivity.
  split; [reflexivity|]. cbn [fst]. apply write_both; [exact M|exact E|]. rewrite (statement_scopes _ _ _ _ _ Eh). cbn. apply map_length.
Qed.
Lemma end_both f w w' i v vl es : moved f w w' ->
  alike (fun x y => y = move_ending f x /\ Forall (fun b => (b < List.length (w_blocks w))%nat) (result_block x)) (end_analysis w i v vl es) (end_analysis w' i v vl es).
Proof.
  intros M. unfold end_analysis. rewrite (nth_moved f w w' i M). destruct (nth_error (w_analyzers w) i) as [o|] eqn:E; [|reflexivity]. cbn [option_map move ob_scopes].
  destruct (moved_sound _ _ _ M o (nth_error_In _ _ E)) as [_ F].
  destruct (ob_scopes o) as [|s rest]; [reflexivity|]. cbn [map ob_version move_scope os_block os_variables]. inversion F as [|? ? F1 _]; subst.
  assert (B : block_at w' (f (os_block s)) = block_at w (os_block s)) by (apply (agree_at _ _ _ (moved_blocks _ _ _ M)); exact F1).
  destruct es as [|e es].
  - unfold show_program. cbn [op_api_version op_version op_version_loc op_block op_variables]. rewrite B.
    destruct (program_well_formed _); cbn [alike]; (split; [reflexivity|]); cbn; auto.
  - cbn [alike]. split; [reflexivity|]. cbn. auto.
Qed.
Lemma begin_both f w w' i p : moved f w w' -> begin_analysis w' i p = begin_analysis w i p.
Proof.
  intros M. unfold begin_analysis. rewrite (nth_moved f w w' i M). destruct (nth_error (w_analyzers w) i) as [o|]; reflexivity.
Qed.

(** ** Threads *)
Definition held (bs : list block) (e : ending) : Prop := Forall (fun b => (b < List.length bs)%nat) (result_block e).
Record twins (f : nat -> nat) (bs : list block) (t : thread) (bs' : list block) (t' : thread) : Prop := {
  twins_moved : moved f (thread_world bs t) (thread_world bs' t');
  twins_activity : th_activity t' = th_activity t;
  twins_calls : th_calls t' = th_calls t;
  twins_endings : th_endings t' = map (move_ending f) (th_endings t);
  twins_held : Forall (held bs) (th_endings t) }.
Lemma endings_moved f g bs es : Forall (held bs) es -> (forall b, (b < List.length bs)%nat -> g b = f b) -> map (move_ending g) es = map (move_ending f) es.
Proof.
  intros H E. apply map_ext_in. intros e He. rewrite Forall_forall in H. specialize (H e He). destruct e as [|[root es']| |]; try reflexivity. cbn.
  destruct root as [p|]; [|reflexivity]. cbn in *. unfold held in H. cbn in H. inversion H; subst. unfold move_program. rewrite E by assumption. reflexivity.
Qed.
Lemma held_more bs bs' es : (List.length bs <= List.length bs')%nat -> Forall (held bs) es -> Forall (held bs') es.
Proof. intros L. apply Forall_impl. intros e. apply Forall_impl. intros b. lia. Qed.
Lemma world_turned w a cs es : thread_world (fst (turned w a cs es)) (snd (turned w a cs es)) = w.
Proof. now destruct w. Qed.

Definition turned_both (f : nat -> nat) bs t bs' t' (x y : list block * thread) : Prop := exists g,
  both f (thread_world bs t) (thread_world bs' t') g (thread_world (fst x) (snd x)) (thread_world (fst y) (snd y)) /\
  twins g (fst x) (snd x) (fst y) (snd y).
Lemma twins_turned f g bs t bs' t' w w' a cs es es' : twins f bs t bs' t' -> both f (thread_world bs t) (thread_world bs' t') g w w' ->
  es' = map (move_ending g) es -> Forall (held (w_blocks w)) es ->
  turned_both f bs t bs' t' (turned w a cs es) (turned w' a cs es').
Proof.
  intros T B -> H. exists g. rewrite !world_turned. split; [exact B|].
  constructor; [rewrite !world_turned; apply B|reflexivity..|exact H].
Qed.
Lemma thread_both f bs t bs' t' : twins f bs t bs' t' -> alike (turned_both f bs t bs' t') (thread_step bs t) (thread_step bs' t').
Proof.
  intros T. pose proof (twins_moved _ _ _ _ _ T) as M. unfold thread_step. rewrite (twins_activity _ _ _ _ _ T), (twins_calls _ _ _ _ _ T).
  assert (Hold : forall g w w', both f (thread_world bs t) (thread_world bs' t') g w w' ->
    th_endings t' = map (move_ending g) (th_endings t) /\ Forall (held (w_blocks w)) (th_endings t)).
  { intros g w w' B. split.
    - rewrite (twins_endings _ _ _ _ _ T). symmetry. eapply endings_moved; [apply T|]. apply (both_old _ _ _ _ _ _ B).
    - eapply held_more; [apply (both_more _ _ _ _ _ _ B)|apply T]. }
  destruct (th_activity t) as [|i v vl bl [|s ss] es].
  - destruct (th_calls t) as [|c cs].
    + cbn [alike]. exists f. cbn [fst snd]. split; [now apply both_same|exact T].
    + assert (N : (forall i p, c <> CAnalyze i p) -> alike (turned_both f bs t bs' t')
        (bind (perform (thread_world bs t) c) (fun x => Ok (turned (fst x) Idle cs (th_endings t ++ [snd x]))))
        (bind (perform (thread_world bs' t') c) (fun x => Ok (turned (fst x) Idle cs (th_endings t' ++ [snd x]))))).
      { intros N. pose proof (perform_both f _ _ c M N) as P.
        destruct (perform (thread_world bs t) c) as [[w e]|e|k|k], (perform (thread_world bs' t') c) as [[w' e']|e'|k'|k']; cbn [alike] in P; try contradiction; cbn [bind alike]; try exact P.
        destruct P as (P1 & P2 & g & B). cbn [fst snd] in *. subst e'. destruct (Hold g w w' B) as [H1 H2]. eapply twins_turned; [exact T|exact B| |].
        - rewrite map_app, H1. cbn [map]. do 2 f_equal. destruct e as [|[[p|] es]| |]; try reflexivity. discriminate.
        - apply Forall_app. split; [exact H2|]. constructor; [|constructor]. unfold held. rewrite P2. constructor. }
      destruct c as [v|lm api|i|i n v|i n ps h|i x|i|i|i p]; try (apply N; discriminate).
      rewrite (begin_both f _ _ i p M). destruct (begin_analysis _ i p) as [a|e|k|k]; cbn [bind alike]; try reflexivity.
      pose proof (both_same _ _ _ M) as B. destruct (Hold _ _ _ B) as [H1 H2]. eapply twins_turned; [exact T|exact B|exact H1|exact H2].
  - pose proof (end_both f _ _ i v vl es M) as P.
    destruct (end_analysis (thread_world bs t) i v vl es) as [e|e|k|k], (end_analysis (thread_world bs' t') i v vl es) as [e'|e'|k'|k']; cbn [alike] in P; try contradiction; cbn [bind alike]; try exact P.
    destruct P as [-> P2]. pose proof (both_same _ _ _ M) as B. destruct (Hold _ _ _ B) as [H1 H2]. eapply twins_turned; [exact T|exact B| |].
    + rewrite map_app, H1. reflexivity.
    + apply Forall_app. split; [exact H2|]. constructor; [exact P2|constructor].
  - pose proof (statement_both f _ _ i bl s M) as P.
    destruct (analyse_statement (thread_world bs t) i bl s) as [[w e]|e|k|k], (analyse_statement (thread_world bs' t') i bl s) as [[w' e']|e'|k'|k']; cbn [alike] in P; try contradiction; cbn [bind alike]; try exact P.
    destruct P as [P1 B]. cbn [fst snd] in *. subst e'. destruct (Hold _ _ _ B) as [H1 H2]. eapply twins_turned; [exact T|exact B|exact H1|exact H2].
Qed.

(** ** What is seen *)
Lemma twins_analyzers f bs t bs' t' : twins f bs t bs' t' -> seen_analyzers bs' t' = seen_analyzers bs t.
Proof.
  intros T. pose proof (twins_moved _ _ _ _ _ T) as M. unfold seen_analyzers. pose proof (moved_analyzers _ _ _ M) as E. cbn [thread_world w_analyzers] in E. rewrite E, map_map.
  apply map_ext_in. intros o Ho. now apply (show_moved f).
Qed.
Lemma twins_seen f bs t bs' t' : twins f bs t bs' t' -> seen_endings bs' t' = seen_endings bs t.
Proof.
  intros T. unfold seen_endings. rewrite (twins_endings _ _ _ _ _ T), map_map. apply map_ext_in. intros e He.
  pose proof (twins_held _ _ _ _ _ T) as H. rewrite Forall_forall in H. specialize (H e He). destruct e as [|[[p|] es]| |]; try reflexivity. cbn. unfold held in H. cbn in H. inversion H; subst.
  unfold show_result. cbn. unfold show_program, move_program. cbn [op_api_version op_version op_version_loc op_block op_variables].
  pose proof (proj2 (agree_at _ _ _ (moved_blocks _ _ _ (twins_moved _ _ _ _ _ T)) (op_block p) ltac:(assumption))) as B.
  change (blk (w_blocks (thread_world bs' t')) (f (op_block p))) with (block_at (thread_world bs' t') (f (op_block p))) in B.
  change (blk (w_blocks (thread_world bs t)) (op_block p)) with (block_at (thread_world bs t) (op_block p)) in B. now rewrite B.
Qed.
