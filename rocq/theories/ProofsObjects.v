(** Lemmas for C72 and C73. *)
From Verif Require Import Base ModelUtils ModelVersion ModelError ModelTypes ModelOverload ModelFunctions ModelAst ModelAnalyzer ModelSemantic ModelObjects
  SpecTypes SpecFunctions SpecInstructions SpecAnalyzer SpecObjects ProofsFunctions ProofsFolding ProofsAnalyzer ProofsAnalyzer2 ProofsFileName.
Local Open Scope list_scope.

(** ** Lists *)
Lemma replace_length {A} (x : A) l : forall n, List.length (replace_nth n x l) = List.length l.
Proof. induction l as [|y l IH]; intros [|n]; cbn [replace_nth List.length]; auto. Qed.
Lemma replace_same {A} (x : A) l : forall n, (n < List.length l)%nat -> nth_error (replace_nth n x l) n = Some x.
Proof. induction l as [|y l IH]; intros [|n] H; cbn in *; try lia; auto. apply IH. lia. Qed.
Lemma replace_other {A} (x : A) l : forall n m, n <> m -> nth_error (replace_nth n x l) m = nth_error l m.
Proof. induction l as [|y l IH]; intros [|n] [|m] H; cbn; try congruence; auto. Qed.
Lemma replace_nth_same {A} (x d : A) l : forall n, (n < List.length l)%nat -> nth n (replace_nth n x l) d = x.
Proof. induction l as [|y l IH]; intros [|n] H; cbn in *; try lia; auto. apply IH. lia. Qed.
Lemma replace_nth_other {A} (x d : A) l : forall n m, n <> m -> nth m (replace_nth n x l) d = nth m l d.
Proof. induction l as [|y l IH]; intros [|n] [|m] H; cbn; try congruence; auto. Qed.
Lemma replace_In {A} (x y : A) l : forall n, In y (replace_nth n x l) -> y = x \/ In y l.
Proof.
  induction l as [|z l IH]; intros [|n]; cbn; try tauto.
  - intros [<-|H]; auto.
  - intros [<-|H]; auto. destruct (IH n H); auto.
Qed.

(** ** Writing an analyzer *)
Definition ids (o : object) : list nat := map os_block (ob_scopes o).
Definition blk (blocks : list block) (b : nat) : block := nth b blocks (mkBlock [] None).
Definition show_in (blocks : list block) (s : object_scope) : scope :=
  mkScope (os_table s) (os_functions s) (os_instructions s) (blk blocks (os_block s)) (os_variables s).

Lemma write_spec os : forall ss blocks os' blocks', write_scopes os ss blocks = (os', blocks') ->
  List.length os = List.length ss -> NoDup (map os_block os) -> Forall (fun s => (os_block s < List.length blocks)%nat) os ->
  map (show_in blocks') os' = ss /\ map os_block os' = map os_block os /\ List.length blocks' = List.length blocks /\
  (forall b, ~ In b (map os_block os) -> blk blocks' b = blk blocks b).
Proof.
  induction os as [|o os IH]; intros [|s ss] blocks os' blocks' H L N F; cbn in L; try discriminate.
  - injection H as <- <-. auto.
  - cbn [write_scopes] in H. destruct (write_scopes os ss _) as [os2 blocks2] eqn:E. injection H as <- <-.
    inversion N as [|? ? N1 N2]; subst. inversion F as [|? ? F1 F2]; subst.
    apply IH in E; [|lia|exact N2|now rewrite replace_length]. destruct E as (E1 & E2 & E3 & E4). rewrite replace_length in E3.
    cbn [map written_scope os_block]. rewrite E1, E2. split; [|split; [reflexivity|split; [exact E3|]]].
    + f_equal. unfold show_in. cbn [written_scope os_table os_functions os_instructions os_block os_variables]. rewrite (E4 _ N1).
      unfold blk. rewrite replace_nth_same by exact F1. now destruct s.
    + intros b Hb. rewrite E4 by (cbn in Hb; tauto). unfold blk. apply replace_nth_other. cbn in Hb. tauto.
Qed.

Definition sound_object (w : world) (o : object) : Prop :=
  NoDup (ids o) /\ Forall (fun s => (os_block s < List.length (w_blocks w))%nat) (ob_scopes o).
Definition sound (w : world) : Prop := forall o, In o (w_analyzers w) -> sound_object w o.
(** Blocks only grow, and those not among the given stay the same. *)
Definition blocks_grow (w w' : world) : Prop :=
  (List.length (w_blocks w) <= List.length (w_blocks w'))%nat /\
  forall b, (b < List.length (w_blocks w))%nat -> prefix_of (blk_statements (block_at w b)) (blk_statements (block_at w' b)).
Definition blocks_kept (w w' : world) (l : list nat) : Prop :=
  forall b, (b < List.length (w_blocks w))%nat -> ~ In b l -> block_at w' b = block_at w b.

Lemma prefix_refl {A} (l : list A) : prefix_of l l. Proof. exists []. now rewrite app_nil_r. Qed.
Lemma prefix_trans {A} (a b c : list A) : prefix_of a b -> prefix_of b c -> prefix_of a c.
Proof. intros (x & ->) (y & ->). exists (x ++ y). now rewrite app_assoc. Qed.
Lemma blocks_grow_refl w : blocks_grow w w. Proof. split; [lia|]. intros. apply prefix_refl. Qed.
Lemma blocks_grow_trans a b c : blocks_grow a b -> blocks_grow b c -> blocks_grow a c.
Proof. intros [L1 H1] [L2 H2]. split; [lia|]. intros k Hk. eapply prefix_trans; [apply H1|apply H2]; lia. Qed.

Lemma show_analyzer_scopes w o : scopes (show_analyzer w o) = map (show_in (w_blocks w)) (ob_scopes o).
Proof. reflexivity. Qed.
Lemma write_analyzer_spec w i o st : sound w -> nth_error (w_analyzers w) i = Some o ->
  List.length (scopes st) = List.length (ob_scopes o) ->
  exists o', w_analyzers (write_analyzer w i o st) = replace_nth i o' (w_analyzers w) /\
    show_analyzer (write_analyzer w i o st) o' = st /\ ids o' = ids o /\
    List.length (w_blocks (write_analyzer w i o st)) = List.length (w_blocks w) /\
    (forall b, ~ In b (ids o) -> block_at (write_analyzer w i o st) b = block_at w b) /\
    sound (write_analyzer w i o st).
Proof.
  intros Hs Hi L. pose proof (Hs o (nth_error_In _ _ Hi)) as [N F]. unfold write_analyzer.
  destruct (write_scopes (ob_scopes o) (scopes st) (w_blocks w)) as [os blocks] eqn:E.
  apply write_spec in E; [|auto|exact N|exact F]. destruct E as (E1 & E2 & E3 & E4).
  exists (mkObject (api_version st) os). split; [reflexivity|]. split; [|split; [exact E2|split; [exact E3|split; [exact E4|]]]].
  - unfold show_analyzer. change (map (show_scope _) _) with (map (show_in blocks) os). rewrite E1. now destruct st.
  - intros o1 H1. cbn [w_analyzers] in H1. apply replace_In in H1. destruct H1 as [->|H1].
    + split; [unfold ids; cbn [ob_scopes]; rewrite E2; exact N|]. cbn [ob_scopes w_blocks]. rewrite E3.
      rewrite Forall_forall in F |- *. intros s Hin. apply (in_map os_block) in Hin. rewrite E2 in Hin. apply in_map_iff in Hin.
      destruct Hin as (s0 & <- & Hin). auto.
    + destruct (Hs o1 H1) as [N1 F1]. split; [exact N1|]. cbn [w_blocks]. now rewrite E3.
Qed.

(** ** Methods *)
Definition scope_step (s s' : scope) : Prop := prefix_of (blk_statements (sc_block s)) (blk_statements (sc_block s')).
(** What a method does to the blocks of its analyzer *)
Definition steps (f : analyzer -> outcome error analyzer) : Prop := forall st st', f st = Ok st' -> map sc_block (scopes st') = map sc_block (scopes st).
Lemma register_variable_steps n v : steps (fun st => register_variable st n v).
Proof.
  intros st st'. unfold register_variable, update_current. destruct (scopes st); [discriminate|]. intros H. apply bind_ok_inv in H.
  destruct H as (s' & E & [= <-]). apply bind_ok_inv in E. destruct E as (t & _ & [= <-]). reflexivity.
Qed.
Lemma register_instruction_steps x : steps (fun st => register_instruction st x).
Proof. intros st st'. unfold register_instruction, update_current. destruct (scopes st); [discriminate|]. cbn [bind]. now intros [= <-]. Qed.
Lemma update_last_steps f l l' : (forall s, sc_block (f s) = sc_block s) -> update_last l f = Ok l' -> map sc_block l' = map sc_block l.
Proof.
  intros Hf. revert l'. induction l as [|s l IH]; intros l'; [discriminate|]. cbn [update_last]. destruct l as [|s2 l].
  - intros [= <-]. cbn. now rewrite Hf.
  - intros H. apply bind_ok_inv in H. destruct H as (l2 & E & [= <-]). apply IH in E. cbn [map] in *. now rewrite E.
Qed.
Lemma register_function_steps n ps f : steps (fun st => register_function st n ps f).
Proof.
  intros st st' H. unfold register_function in H. apply bind_ok_inv in H. destruct H as (l & E & [= <-]). cbn [scopes].
  eapply update_last_steps; [|exact E]. reflexivity.
Qed.

Lemma create_inv w m w' e : create w m = Ok (w', e) -> w' = w \/ exists st, m = Ok st /\ w' = add_analyzer w st /\ e = EDone.
Proof. unfold create. destruct m; try discriminate; intros [= <- <-]; eauto. Qed.
Lemma allocate_ids ss : forall b, map os_block (allocate b ss) = seq b (List.length ss).
Proof. induction ss as [|s ss IH]; intros b; cbn; [reflexivity|]. now rewrite IH. Qed.
Lemma blk_app_old l m b : (b < List.length l)%nat -> blk (l ++ m) b = blk l b.
Proof. intros H. unfold blk. now apply app_nth1. Qed.

(** The blocks a call may change *)
Definition current_block (o : object) : list nat := match ob_scopes o with [] => [] | s :: _ => [os_block s] end.
Definition touched (w : world) (c : user_call) : list nat :=
  match c with
  | CAnalyze i _ => match nth_error (w_analyzers w) i with Some o => current_block o | None => [] end
  | _ => []
  end.
Definition result_blocks (e : ending) : list nat :=
  match e with EReturns r => match res_root r with Some p => [op_block p] | None => [] end | _ => [] end.

(** One call *)
Record step (w : world) (c : user_call) (w' : world) (e : ending) : Prop := {
  step_sound : sound w';
  step_length : (List.length (w_blocks w) <= List.length (w_blocks w'))%nat;
  step_grow : forall b, (b < List.length (w_blocks w))%nat -> prefix_of (blk_statements (block_at w b)) (blk_statements (block_at w' b));
  step_kept : blocks_kept w w' (touched w c);
  step_others : forall j o, nth_error (w_analyzers w) j = Some o -> subject c <> Some j -> nth_error (w_analyzers w') j = Some o;
  step_old : forall j o, nth_error (w_analyzers w) j = Some o -> exists o', nth_error (w_analyzers w') j = Some o' /\
    forall b, In b (ids o') -> In b (ids o) \/ (List.length (w_blocks w) <= b)%nat;
  step_new : forall j o, nth_error (w_analyzers w') j = Some o -> nth_error (w_analyzers w) j = None ->
    j = List.length (w_analyzers w) /\ subject c = None /\
    ((forall b, In b (ids o) -> (List.length (w_blocks w) <= b)%nat) \/ (exists i, c = CCopy i /\ nth_error (w_analyzers w) i = Some o));
  step_result : Forall (fun b => (b < List.length (w_blocks w'))%nat) (result_blocks e) }.

Lemma sound_more w w' : sound w -> (List.length (w_blocks w) <= List.length (w_blocks w'))%nat ->
  forall o, In o (w_analyzers w) -> sound_object w' o.
Proof.
  intros H L o Ho. destruct (H o Ho) as [N F]. split; [exact N|]. eapply Forall_impl; [|exact F]. cbn. intros s. lia.
Qed.
Lemma step_same w c : sound w -> forall e, result_blocks e = [] -> step w c w e.
Proof.
  intros H e He. constructor; auto.
  - intros. apply prefix_refl.
  - intros b _ _. reflexivity.
  - intros j o E. eauto.
  - intros j o E1 E2. congruence.
  - rewrite He. constructor.
Qed.
Lemma nth_error_snoc {A} (l : list A) x j y : nth_error (l ++ [x]) j = Some y -> nth_error l j = Some y \/ (j = List.length l /\ y = x).
Proof.
  intros H. destruct (Nat.lt_ge_cases j (List.length l)) as [L|L].
  - left. now rewrite nth_error_app1 in H.
  - right. rewrite nth_error_app2 in H by exact L. destruct (j - List.length l) as [|[|n]] eqn:E; cbn in H; try congruence. split; [lia|congruence].
Qed.
Lemma step_create w c m w' e : sound w -> subject c = None -> create w m = Ok (w', e) -> step w c w' e.
Proof.
  intros Hs Hc H. unfold create in H. destruct m as [st|x|k|k]; try discriminate.
  2,3: injection H as <- <-; now apply step_same.
  injection H as <- <-. set (n := List.length (w_blocks w)).
  assert (L : (List.length (w_blocks w) <= List.length (w_blocks (add_analyzer w st)))%nat) by (cbn; rewrite app_length; lia).
  constructor; auto.
  - intros o Ho. cbn [add_analyzer w_analyzers] in Ho. apply in_app_iff in Ho. destruct Ho as [Ho|[<-|[]]]; [eapply sound_more; eauto|].
    split; [unfold ids; cbn [ob_scopes]; rewrite allocate_ids; apply seq_NoDup|]. apply Forall_forall. cbn [ob_scopes]. intros s Hin.
    apply (in_map os_block) in Hin. rewrite allocate_ids in Hin. apply in_seq in Hin. cbn. rewrite app_length, map_length. fold n in Hin |- *. lia.
  - intros b Hb. replace (block_at (add_analyzer w st) b) with (block_at w b); [apply prefix_refl|]. symmetry. now apply blk_app_old.
  - intros b Hb _. now apply blk_app_old.
  - intros j o Hj _. cbn. rewrite nth_error_app1; [exact Hj|]. apply nth_error_Some. congruence.
  - intros j o Hj. exists o. split; [|auto]. cbn. rewrite nth_error_app1; [exact Hj|]. apply nth_error_Some. congruence.
  - intros j o Hj Hn. cbn in Hj. apply nth_error_snoc in Hj. destruct Hj as [Hj|[-> ->]]; [congruence|]. split; [reflexivity|].
    split; [exact Hc|]. left. intros b Hb.
    unfold ids in Hb. cbn [ob_scopes] in Hb. rewrite allocate_ids in Hb. apply in_seq in Hb. lia.
  - constructor.
Qed.
Lemma step_write w i o st c e : sound w -> nth_error (w_analyzers w) i = Some o -> subject c = Some i ->
  List.length (scopes st) = List.length (ob_scopes o) ->
  (forall b, In b (ids o) -> ~ In b (touched w c) -> block_at (write_analyzer w i o st) b = block_at w b) ->
  (forall b, In b (touched w c) -> prefix_of (blk_statements (block_at w b)) (blk_statements (block_at (write_analyzer w i o st) b))) ->
  Forall (fun b => In b (ids o)) (result_blocks e) ->
  step w c (write_analyzer w i o st) e.
Proof.
  intros Hs Hi Hc L Hk Hg Hr. destruct (write_analyzer_spec w i o st Hs Hi L) as (o' & E1 & E2 & E3 & E4 & E5 & E6).
  set (w' := write_analyzer w i o st) in *.
  assert (K : blocks_kept w w' (touched w c)).
  { intros b Hb Hn. destruct (in_dec Nat.eq_dec b (ids o)) as [I|I]; [now apply Hk|now apply E5]. }
  assert (Li : (i < List.length (w_analyzers w))%nat) by (apply nth_error_Some; congruence).
  constructor; auto.
  - lia.
  - intros b Hb. destruct (in_dec Nat.eq_dec b (touched w c)) as [I|I]; [now apply Hg|]. rewrite K by assumption. apply prefix_refl.
  - intros j oj Hj Hsub. rewrite E1, replace_other; [exact Hj|congruence].
  - intros j oj Hj. rewrite E1. destruct (Nat.eq_dec i j) as [<-|N].
    + exists o'. rewrite replace_same by exact Li. split; [reflexivity|]. intros b. rewrite E3. replace oj with o by congruence. auto.
    + exists oj. rewrite replace_other by exact N. auto.
  - intros j oj Hj Hn. apply nth_error_None in Hn. assert (j < List.length (w_analyzers w'))%nat by (apply nth_error_Some; congruence).
    rewrite E1, replace_length in H. lia.
  - eapply Forall_impl; [|exact Hr]. intros b Hb. rewrite E4. destruct (Hs o (nth_error_In _ _ Hi)) as [_ F].
    unfold ids in Hb. apply in_map_iff in Hb. destruct Hb as (s & <- & Hin). rewrite Forall_forall in F. now apply F.
Qed.
Lemma blocks_shown w o b : In b (ids o) -> exists k, nth_error (map sc_block (scopes (show_analyzer w o))) k = Some (block_at w b) /\ nth_error (ids o) k = Some b.
Proof.
  intros H. apply In_nth_error in H. destruct H as (k & H). exists k. split; [|exact H]. unfold ids in H. rewrite nth_error_map in H.
  rewrite nth_error_map. cbn [show_analyzer scopes]. rewrite nth_error_map. destruct (nth_error (ob_scopes o) k) as [s|]; [|discriminate].
  cbn in H. injection H as <-. reflexivity.
Qed.
(** The blocks of the written analyzer are those of the state *)
Lemma written_block w i o st b : sound w -> nth_error (w_analyzers w) i = Some o -> List.length (scopes st) = List.length (ob_scopes o) ->
  forall k, nth_error (ids o) k = Some b -> nth_error (map sc_block (scopes st)) k = Some (block_at (write_analyzer w i o st) b).
Proof.
  intros Hs Hi L k Hk. destruct (write_analyzer_spec w i o st Hs Hi L) as (o' & E1 & E2 & E3 & E4 & E5 & E6).
  rewrite <- E2 at 1. rewrite <- E3 in Hk. unfold ids in Hk. rewrite nth_error_map in Hk.
  rewrite nth_error_map. cbn [show_analyzer scopes]. rewrite nth_error_map. destruct (nth_error (ob_scopes o') k) as [s|]; [|discriminate].
  cbn in Hk. injection Hk as <-. reflexivity.
Qed.
Lemma step_method w i f c w' e : sound w -> subject c = Some i -> touched w c = [] -> steps f -> method w i f = Ok (w', e) -> step w c w' e.
Proof.
  intros Hs Hc Ht Hf H. unfold method in H. destruct (nth_error (w_analyzers w) i) as [o|] eqn:Hi; [|discriminate].
  destruct (f (show_analyzer w o)) as [st|x|k|k] eqn:E; try discriminate.
  2,3: injection H as <- <-; now apply step_same.
  injection H as <- <-. apply Hf in E.
  assert (L : List.length (scopes st) = List.length (ob_scopes o)).
  { apply (f_equal (@List.length _)) in E. rewrite !map_length in E. rewrite E. cbn. apply map_length. }
  apply step_write; auto.
  - intros b Hb _. destruct (blocks_shown w o b Hb) as (k & K1 & K2). pose proof (written_block w i o st b Hs Hi L k K2) as K3.
    rewrite E, K1 in K3. congruence.
  - rewrite Ht. contradiction.
  - constructor.
Qed.

Lemma visit_program_extends st p st' sp es : visit_program st p = (Ok (st', sp), es) -> state_extends st st' /\
  exists s rest, scopes st' = s :: rest /\ sp_block sp = sc_block s /\ sp_variables sp = sc_variables s.
Proof.
  intros E. unfold visit_program in E. apply lbind_ok in E. destruct E as (v & e1 & e2 & Ev & E & ->).
  apply lbind_ok in E. destruct E as (st2 & e3 & e4 & Eb & E & ->). apply lbind_ok in E. destruct E as (sc & e5 & e6 & Es & E & ->).
  apply lift_ok in Es. destruct Es as [Es ->]. apply lift_ok in E. destruct E as [E ->]. injection E as <- <-.
  unfold current_scope in Es. destruct (scopes st2) as [|s rest] eqn:Sc; [discriminate|]. injection Es as ->.
  apply block_run_iff in Eb. split; [eapply block_extends, Eb|]. exists sc, rest. auto.
Qed.
Lemma extends_length st st' : state_extends st st' -> List.length (scopes st') = List.length (scopes st).
Proof. intros [_ H]. destruct (scopes st), (scopes st'); try contradiction; [reflexivity|]. destruct H as [_ ->]. reflexivity. Qed.

Lemma step_analyze w i o p st sp es c e : sound w -> nth_error (w_analyzers w) i = Some o -> c = CAnalyze i p ->
  visit_program (show_analyzer w o) p = (Ok (st, sp), es) -> Forall (fun b => In b (ids o)) (result_blocks e) ->
  step w c (write_analyzer w i o st) e.
Proof.
  intros Hs Hi -> E Hr. apply visit_program_extends in E. destruct E as [X _].
  assert (L : List.length (scopes st) = List.length (ob_scopes o)).
  { rewrite (extends_length _ _ X). cbn. apply map_length. }
  pose proof (Hs o (nth_error_In _ _ Hi)) as [N _].
  apply step_write; auto.
  - intros b Hb Hn. cbn [touched] in Hn. rewrite Hi in Hn. destruct (blocks_shown w o b Hb) as (k & K1 & K2).
    pose proof (written_block w i o st b Hs Hi L k K2) as K3.
    destruct X as [_ X]. unfold current_block in Hn. unfold ids in K2. cbn [show_analyzer scopes] in X, K1. destruct (ob_scopes o) as [|s r]; [destruct k; discriminate|].
    cbn [map] in X, K1, K2. destruct (scopes st) as [|s' r']; [contradiction|]. destruct X as [_ ->].
    destruct k as [|k]; cbn in K1, K2, K3; [|congruence]. injection K2 as <-. destruct Hn. now left.
  - intros b Hb. cbn [touched] in Hb. rewrite Hi in Hb. unfold current_block in Hb.
    destruct (ob_scopes o) as [|s r] eqn:Eo; [contradiction|]. destruct Hb as [<-|[]].
    assert (K2 : nth_error (ids o) 0 = Some (os_block s)) by (unfold ids; rewrite Eo; reflexivity).
    pose proof (written_block w i o st _ Hs Hi ltac:(now rewrite Eo) 0 K2) as K3.
    destruct X as [_ X]. cbn [show_analyzer scopes] in X. rewrite Eo in X. cbn [map] in X.
    destruct (scopes st) as [|s' r']; [contradiction|]. destruct X as [[_ _ _ _ (xs & X)] _]. cbn in K3. injection K3 as <-.
    exists xs. exact X.
Qed.

Lemma perform_step w c w' e : sound w -> perform w c = Ok (w', e) -> step w c w' e.
Proof.
  intros Hs H. destruct c as [v|lm api|i|i n v|i n ps f|i x|i|i|i p]; cbn [perform] in H.
  - eapply step_create; eauto.
  - eapply step_create; eauto.
  - destruct (nth_error (w_analyzers w) i) as [o|] eqn:Hi; [|discriminate]. injection H as <- <-.
    constructor; cbn [w_blocks w_analyzers]; auto.
    + intros o' Ho. apply in_app_iff in Ho. destruct Ho as [Ho|[<-|[]]]; [exact (Hs o' Ho)|exact (Hs o (nth_error_In _ _ Hi))].
    + intros b _. apply prefix_refl.
    + intros b _ _. reflexivity.
    + intros j oj Hj _. rewrite nth_error_app1; [exact Hj|]. apply nth_error_Some. congruence.
    + intros j oj Hj. exists oj. split; [|auto]. rewrite nth_error_app1; [exact Hj|]. apply nth_error_Some. congruence.
    + intros j oj Hj Hn. apply nth_error_snoc in Hj. destruct Hj as [Hj|[-> ->]]; [congruence|]. split; [reflexivity|]. split; [reflexivity|]. right. eauto.
    + constructor.
  - eapply step_method; [exact Hs|reflexivity|reflexivity|apply (register_variable_steps n v)|exact H].
  - eapply step_method; [exact Hs|reflexivity|reflexivity|apply (register_function_steps n ps f)|exact H].
  - eapply step_method; [exact Hs|reflexivity|reflexivity|apply (register_instruction_steps x)|exact H].
  - destruct (nth_error (w_analyzers w) i) as [o|] eqn:Hi; [|discriminate]. injection H as <- <-.
    assert (Li : (i < List.length (w_analyzers w))%nat) by (apply nth_error_Some; congruence).
    assert (L : (List.length (w_blocks w) <= List.length (w_blocks w ++ [mkBlock [] None]))%nat) by (rewrite app_length; lia).
    constructor; cbn [w_blocks w_analyzers]; auto.
    + intros o' Ho. apply replace_In in Ho. destruct Ho as [->|Ho].
      * destruct (Hs o (nth_error_In _ _ Hi)) as [N F]. split.
        -- unfold ids. cbn [ob_scopes map os_block]. constructor; [|exact N]. intros I. apply in_map_iff in I. destruct I as (s & E & I).
           rewrite Forall_forall in F. specialize (F s I). lia.
        -- cbn [ob_scopes w_blocks]. constructor; [cbn; rewrite app_length; cbn; lia|]. eapply Forall_impl; [|exact F]. cbn. intros s. rewrite app_length. lia.
      * destruct (Hs o' Ho) as [N F]. split; [exact N|]. eapply Forall_impl; [|exact F]. cbn. intros s. rewrite app_length. lia.
    + intros b Hb. unfold block_at. cbn [w_blocks]. rewrite app_nth1 by exact Hb. apply prefix_refl.
    + intros b Hb _. unfold block_at. cbn [w_blocks]. now rewrite app_nth1 by exact Hb.
    + intros j oj Hj Hn. rewrite replace_other; [exact Hj|]. intros ->. now apply Hn.
    + intros j oj Hj. destruct (Nat.eq_dec i j) as [<-|N].
      * eexists. rewrite replace_same by exact Li. split; [reflexivity|]. replace oj with o by congruence. intros b. unfold ids. cbn. intros [<-|Hb]; auto.
      * exists oj. rewrite replace_other by exact N. auto.
    + intros j oj Hj Hn. apply nth_error_None in Hn. assert (j < List.length (replace_nth i (mkObject (ob_version o) (mkObjectScope [] [] [] (List.length (w_blocks w)) [] :: ob_scopes o)) (w_analyzers w)))%nat by (apply nth_error_Some; congruence).
      rewrite replace_length in H. lia.
    + constructor.
  - destruct (nth_error (w_analyzers w) i) as [o|] eqn:Hi; [|discriminate]. destruct (ob_scopes o) as [|s r] eqn:Eo; [discriminate|]. injection H as <- <-.
    assert (Li : (i < List.length (w_analyzers w))%nat) by (apply nth_error_Some; congruence).
    constructor; cbn [w_blocks w_analyzers]; auto.
    + intros o' Ho. apply replace_In in Ho. destruct Ho as [->|Ho]; [|exact (Hs o' Ho)].
      destruct (Hs o (nth_error_In _ _ Hi)) as [N F]. unfold sound_object, ids in *. rewrite Eo in N, F. cbn [ob_scopes]. inversion N; inversion F; auto.
    + intros b _. apply prefix_refl.
    + intros b _ _. reflexivity.
    + intros j oj Hj Hn. rewrite replace_other; [exact Hj|]. intros ->. now apply Hn.
    + intros j oj Hj. destruct (Nat.eq_dec i j) as [<-|N].
      * eexists. rewrite replace_same by exact Li. split; [reflexivity|]. replace oj with o by congruence. intros b. unfold ids. rewrite Eo. cbn. auto.
      * exists oj. rewrite replace_other by exact N. auto.
    + intros j oj Hj Hn. apply nth_error_None in Hn. assert (j < List.length (replace_nth i (mkObject (ob_version o) r) (w_analyzers w)))%nat by (apply nth_error_Some; congruence).
      rewrite replace_length in H. lia.
    + constructor.
  - destruct (nth_error (w_analyzers w) i) as [o|] eqn:Hi; [|discriminate].
    destruct (visit_program (show_analyzer w o) p) as [[[st sp]|x|k|k] es] eqn:E; try discriminate.
    destruct (ob_scopes o) as [|s r] eqn:Eo; [discriminate|].
    assert (I : In (os_block s) (ids o)) by (unfold ids; rewrite Eo; now left).
    assert (K : forall e, Forall (fun b => In b (ids o)) (result_blocks e) -> step w (CAnalyze i p) (write_analyzer w i o st) e)
      by (intros e0 He; eapply step_analyze; eauto).
    destruct es as [|x es]; [destruct (program_well_formed _)|]; injection H as <- <-; apply K; cbn; auto.
Qed.

(** ** Histories *)
Lemma perform_all_cons w c cs w' es : perform_all w (c :: cs) = Ok (w', es) -> exists w1 e es1,
  perform w c = Ok (w1, e) /\ perform_all w1 cs = Ok (w', es1) /\ es = e :: es1.
Proof.
  cbn [perform_all]. intros H. apply bind_ok_inv in H. destruct H as ([w1 e] & E1 & H). apply bind_ok_inv in H.
  destruct H as ([w2 es1] & E2 & [= <- <-]). exists w1, e, es1. auto.
Qed.
Lemma perform_all_app cs : forall w ds w' es, perform_all w (cs ++ ds) = Ok (w', es) <-> exists w1 es1 es2,
  perform_all w cs = Ok (w1, es1) /\ perform_all w1 ds = Ok (w', es2) /\ es = es1 ++ es2.
Proof.
  induction cs as [|c cs IH]; intros w ds w' es; cbn [app].
  - split; [intros H; exists w, [], es; auto|]. intros (w1 & es1 & es2 & [= <- <-] & H & ->). exact H.
  - split.
    + intros H. apply perform_all_cons in H. destruct H as (w1 & e & es1 & H1 & H2 & ->). apply IH in H2.
      destruct H2 as (w2 & es2 & es3 & H2 & H3 & ->). exists w2, (e :: es2), es3. split; [|auto]. cbn [perform_all]. rewrite H1. cbn [bind fst snd]. now rewrite H2.
    + intros (w1 & es1 & es2 & H1 & H2 & ->). apply perform_all_cons in H1. destruct H1 as (w2 & e & es3 & H1 & H3 & ->).
      cbn [perform_all app]. rewrite H1. cbn [bind fst snd]. assert (H4 : perform_all w2 (cs ++ ds) = Ok (w', es3 ++ es2)) by (apply IH; exists w1, es3, es2; auto).
      now rewrite H4.
Qed.
Lemma sound_empty : sound empty_world. Proof. intros o []. Qed.

Definition bounded (w : world) (e : ending) : Prop := Forall (fun b => (b < List.length (w_blocks w))%nat) (result_blocks e).
Lemma bounded_more w w' e : (List.length (w_blocks w) <= List.length (w_blocks w'))%nat -> bounded w e -> bounded w' e.
Proof. intros L. apply Forall_impl. intros b. lia. Qed.
Lemma run_sound cs : forall w w' es, sound w -> perform_all w cs = Ok (w', es) ->
  sound w' /\ blocks_grow w w' /\ Forall (bounded w') es.
Proof.
  induction cs as [|c cs IH]; intros w w' es Hs H.
  - injection H as <- <-. split; [exact Hs|]. split; [apply blocks_grow_refl|constructor].
  - apply perform_all_cons in H. destruct H as (w1 & e & es1 & H1 & H2 & ->). apply perform_step in H1; [|exact Hs].
    destruct (IH _ _ _ (step_sound _ _ _ _ H1) H2) as (S & G & F). split; [exact S|]. split.
    + eapply blocks_grow_trans; [|exact G]. split; apply H1.
    + constructor; [|exact F]. eapply bounded_more; [apply G|]. apply H1.
Qed.
Lemma history_sound cs w es : history cs w es -> sound w /\ Forall (bounded w) es.
Proof. intros H. apply run_sound in H; [tauto|apply sound_empty]. Qed.

Lemma result_grown_when w w' r : bounded w (EReturns r) -> blocks_grow w w' -> result_grown (show_result w r) (show_result w' r).
Proof.
  intros B [_ G]. split; [reflexivity|]. cbn [show_result res_root]. unfold bounded in B. cbn [result_blocks] in B.
  destruct (res_root r) as [p|]; cbn [option_map]; [|exact I]. inversion B; subst. unfold program_grown. cbn. repeat (split; [reflexivity|]). now apply G.
Qed.
Lemma results_grow cs w es r ds w' es' : history cs w es -> In (EReturns r) es -> perform_all w ds = Ok (w', es') ->
  result_grown (show_result w r) (show_result w' r).
Proof.
  intros H Hr H'. apply history_sound in H. destruct H as [S B]. apply run_sound in H'; [|exact S]. destruct H' as (_ & G & _).
  apply result_grown_when; [|exact G]. rewrite Forall_forall in B. now apply B.
Qed.

(** Only analyses of other blocks *)
Definition later (n N : nat) (w : world) : Prop := (N <= List.length (w_blocks w))%nat /\ (n <= List.length (w_analyzers w))%nat /\
  forall j o b, (n <= j)%nat -> nth_error (w_analyzers w) j = Some o -> In b (ids o) -> (N <= b)%nat.
Lemma later_step n N w c w' e : later n N w -> leaves_alone n c -> step w c w' e -> later n N w' /\ forall b, (b < N)%nat -> block_at w' b = block_at w b.
Proof.
  intros (L1 & L2 & L3) Hc Hst. split.
  - split; [pose proof (step_length _ _ _ _ Hst); lia|]. split.
    { destruct (Nat.eq_dec n 0) as [->|N0]; [lia|]. destruct (nth_error (w_analyzers w) (n - 1)) as [o|] eqn:E.
      - destruct (step_old _ _ _ _ Hst _ _ E) as (o' & E' & _). assert (n - 1 < List.length (w_analyzers w'))%nat by (apply nth_error_Some; congruence). lia.
      - apply nth_error_None in E. lia. }
    intros j o' b Hj Hj' Hb. destruct (nth_error (w_analyzers w) j) as [o|] eqn:E.
    + destruct (step_old _ _ _ _ Hst _ _ E) as (o1 & E1 & E2). replace o1 with o' in * by congruence. destruct (E2 b Hb) as [I|I]; [eauto|lia].
    + destruct (step_new _ _ _ _ Hst _ _ Hj' E) as (_ & _ & [H|(i & -> & H)]); [specialize (H b Hb); lia|]. cbn in Hc. eauto.
  - intros b Hb. apply (step_kept _ _ _ _ Hst); [lia|]. intros I. destruct c; cbn [touched] in I; try contradiction. cbn in Hc.
    destruct (nth_error (w_analyzers w) i) as [o|] eqn:E; [|contradiction]. assert (In b (ids o)).
    { unfold current_block, ids in *. destruct (ob_scopes o); [contradiction|]. destruct I as [<-|[]]. now left. }
    specialize (L3 _ _ _ Hc E H). lia.
Qed.
Lemma later_run n N cs : forall w w' es, sound w -> later n N w -> Forall (leaves_alone n) cs -> perform_all w cs = Ok (w', es) ->
  forall b, (b < N)%nat -> block_at w' b = block_at w b.
Proof.
  induction cs as [|c cs IH]; intros w w' es Hs HL Hc H b Hb; [injection H as <- <-; reflexivity|].
  apply perform_all_cons in H. destruct H as (w1 & e & es1 & H1 & H2 & ->). apply perform_step in H1; [|exact Hs]. inversion Hc; subst.
  destruct (later_step _ _ _ _ _ _ HL ltac:(eassumption) H1) as [HL1 K]. rewrite <- (K b Hb). eapply IH; eauto. apply H1.
Qed.
Lemma results_kept cs w es r ds w' es' : history cs w es -> In (EReturns r) es -> perform_all w ds = Ok (w', es') ->
  Forall (leaves_alone (List.length (w_analyzers w))) ds -> show_result w' r = show_result w r.
Proof.
  intros H Hr H' Hd. apply history_sound in H. destruct H as [S B]. rewrite Forall_forall in B. specialize (B _ Hr).
  assert (L : later (List.length (w_analyzers w)) (List.length (w_blocks w)) w).
  { split; [lia|]. split; [lia|]. intros j o b Hj E. assert (j < List.length (w_analyzers w))%nat by (apply nth_error_Some; congruence). lia. }
  unfold show_result. f_equal. unfold bounded in B. cbn [result_blocks] in B. destruct (res_root r) as [p|]; [|reflexivity]. cbn. inversion B; subst.
  unfold show_program. do 2 f_equal. eapply later_run; eauto.
Qed.

(** ** Other analyzers *)
Lemma others_grow cs w es c w' e j o : history cs w es -> perform w c = Ok (w', e) -> subject c <> Some j -> nth_error (w_analyzers w) j = Some o ->
  nth_error (w_analyzers w') j = Some o /\ api_version (show_analyzer w' o) = api_version (show_analyzer w o) /\
  Forall2 scope_grown (scopes (show_analyzer w o)) (scopes (show_analyzer w' o)).
Proof.
  intros H Hp Hn Hj. apply history_sound in H. destruct H as [S _]. pose proof (perform_step _ _ _ _ S Hp) as Hst.
  split; [now apply (step_others _ _ _ _ Hst)|]. split; [reflexivity|]. cbn [show_analyzer scopes].
  destruct (S o (nth_error_In _ _ Hj)) as [_ F]. induction F as [|s l Hs _ IH]; cbn [map]; constructor; [|exact IH].
  unfold scope_grown. cbn. repeat (split; [reflexivity|]). now apply (step_grow _ _ _ _ Hst).
Qed.
Lemma copied_shows cs w es i w' e o : history cs w es -> perform w (CCopy i) = Ok (w', e) -> nth_error (w_analyzers w) i = Some o ->
  e = EDone /\ exists o', nth_error (w_analyzers w') (List.length (w_analyzers w)) = Some o' /\ show_analyzer w' o' = show_analyzer w o.
Proof.
  intros _ H E. cbn [perform] in H. rewrite E in H. injection H as <- <-. split; [reflexivity|]. exists o. split; [|reflexivity].
  cbn. rewrite nth_error_app2, Nat.sub_diag by lia. reflexivity.
Qed.
Definition apart (w : world) : Prop := forall i j oi oj b, i <> j -> nth_error (w_analyzers w) i = Some oi -> nth_error (w_analyzers w) j = Some oj ->
  In b (ids oi) -> ~ In b (ids oj).
Lemma ids_bound w o b : sound w -> In o (w_analyzers w) -> In b (ids o) -> (b < List.length (w_blocks w))%nat.
Proof.
  intros S I H. destruct (S o I) as [_ F]. unfold ids in H. apply in_map_iff in H. destruct H as (s & <- & Hs). rewrite Forall_forall in F. now apply F.
Qed.
Lemma apart_step w c w' e : sound w -> apart w -> ~ is_copy c -> step w c w' e -> apart w'.
Proof.
  intros Hs HA Hc Hst.
  assert (K : forall i j oi oj b, i <> j -> subject c <> Some j -> nth_error (w_analyzers w') i = Some oi -> nth_error (w_analyzers w') j = Some oj ->
    In b (ids oi) -> ~ In b (ids oj)).
  { intros i j oi' oj' b N Hj Ei Ej Ii Ij.
    destruct (nth_error (w_analyzers w) i) as [oi|] eqn:Fi, (nth_error (w_analyzers w) j) as [oj|] eqn:Fj.
    - pose proof (step_others _ _ _ _ Hst _ _ Fj Hj). replace oj' with oj in * by congruence.
      destruct (step_old _ _ _ _ Hst _ _ Fi) as (o1 & E1 & E2). replace o1 with oi' in * by congruence. destruct (E2 b Ii) as [I|I].
      + exact (HA i j oi oj b N Fi Fj I Ij).
      + pose proof (ids_bound w oj b Hs (nth_error_In _ _ Fj) Ij). lia.
    - destruct (step_new _ _ _ _ Hst _ _ Ej Fj) as (_ & Hsub & [H|(k & -> & _)]); [|destruct (Hc I)]. specialize (H b Ij).
      pose proof (step_others _ _ _ _ Hst _ _ Fi ltac:(congruence)). replace oi' with oi in * by congruence.
      pose proof (ids_bound w oi b Hs (nth_error_In _ _ Fi) Ii). lia.
    - destruct (step_new _ _ _ _ Hst _ _ Ei Fi) as (_ & Hsub & [H|(k & -> & _)]); [|destruct (Hc I)]. specialize (H b Ii).
      pose proof (step_others _ _ _ _ Hst _ _ Fj ltac:(congruence)). replace oj' with oj in * by congruence.
      pose proof (ids_bound w oj b Hs (nth_error_In _ _ Fj) Ij). lia.
    - destruct (step_new _ _ _ _ Hst _ _ Ei Fi) as (-> & _). destruct (step_new _ _ _ _ Hst _ _ Ej Fj) as (-> & _). now apply N. }
  intros i j oi oj b N Ei Ej Ii Ij.
  assert (D : subject c <> Some j \/ subject c <> Some i) by (destruct (subject c) as [k|]; [|left; discriminate]; destruct (Nat.eq_dec k j) as [->|]; [right|left]; congruence).
  destruct D as [D|D]; [exact (K i j oi oj b N D Ei Ej Ii Ij)|]. exact (K j i oj oi b ltac:(auto) D Ej Ei Ij Ii).
Qed.
Lemma apart_run cs : forall w w' es, sound w -> apart w -> Forall (fun c => ~ is_copy c) cs -> perform_all w cs = Ok (w', es) -> apart w'.
Proof.
  induction cs as [|c cs IH]; intros w w' es Hs HA Hc H; [injection H as <- <-; exact HA|].
  apply perform_all_cons in H. destruct H as (w1 & e & es1 & H1 & H2 & ->). apply perform_step in H1; [|exact Hs]. inversion Hc; subst.
  eapply IH; [apply H1|eapply apart_step; eauto|assumption|exact H2].
Qed.
Lemma others_unchanged cs w es c w' e j o : history cs w es -> Forall (fun c => ~ is_copy c) cs -> perform w c = Ok (w', e) -> subject c <> Some j ->
  nth_error (w_analyzers w) j = Some o ->
  nth_error (w_analyzers w') j = Some o /\ scopes (show_analyzer w' o) = scopes (show_analyzer w o).
Proof.
  intros H Hc Hp Hn Hj. pose proof (apart_run _ _ _ _ sound_empty ltac:(intros [|i] ? ? ? ? ? E; discriminate) Hc H) as HA.
  apply history_sound in H. destruct H as [S _]. pose proof (perform_step _ _ _ _ S Hp) as Hst.
  split; [now apply (step_others _ _ _ _ Hst)|]. cbn [show_analyzer scopes]. apply map_ext_in. intros s Hin. unfold show_scope. f_equal.
  assert (Hb : In (os_block s) (ids o)) by (unfold ids; now apply in_map).
  apply (step_kept _ _ _ _ Hst); [eapply ids_bound; eauto; eapply nth_error_In, Hj|].
  intros I. destruct c; cbn [touched] in I; try contradiction. destruct (nth_error (w_analyzers w) i) as [oi|] eqn:E; [|contradiction].
  apply (HA i j oi o (os_block s)); auto.
  - intros ->. now apply Hn.
  - unfold current_block, ids in *. destruct (ob_scopes oi); [contradiction|]. destruct I as [<-|[]]. now left.
Qed.

(** ** What analyze returns *)
Lemma analyze_returns cs w es i o p : history cs w es -> nth_error (w_analyzers w) i = Some o ->
  match analyze_ast (show_analyzer w o) p with
  | Ok (st, r) => exists w' r' o', perform w (CAnalyze i p) = Ok (w', EReturns r') /\ show_result w' r' = r /\
      nth_error (w_analyzers w') i = Some o' /\ show_analyzer w' o' = st
  | Err e => False
  | Throw k => (exists w', perform w (CAnalyze i p) = Ok (w', EThrows k)) \/ perform w (CAnalyze i p) = Throw k
  | UB k => perform w (CAnalyze i p) = UB k
  end.
Proof.
  intros H Hi. apply history_sound in H. destruct H as [Hs _]. cbn [perform]. rewrite Hi. unfold analyze_ast.
  destruct (visit_program (show_analyzer w o) p) as [[[st sp]|x|k|k] log] eqn:E; auto.
  - destruct (visit_program_extends _ _ _ _ _ E) as (X & s' & rest' & Es & Eb & Ev). pose proof (extends_length _ _ X) as L.
    assert (L' : List.length (scopes st) = List.length (ob_scopes o)) by (rewrite L; cbn; apply map_length).
    assert (Li : (i < List.length (w_analyzers w))%nat) by (apply nth_error_Some; congruence).
    destruct (write_analyzer_spec w i o st Hs Hi L') as (o' & E1 & E2 & E3 & E4 & E5 & E6).
    destruct (ob_scopes o) as [|s r] eqn:Eo; [rewrite Es in L'; discriminate|].
    set (w' := write_analyzer w i o st) in *. set (root := mkObjectProgram _ _ _ _ _).
    assert (Hroot : show_program w' root = sp).
    { assert (K2 : nth_error (ids o) 0 = Some (os_block s)) by (unfold ids; rewrite Eo; reflexivity).
      pose proof (written_block w i o st _ Hs Hi ltac:(now rewrite Eo) 0 K2) as K3. rewrite Es in K3. cbn in K3. injection K3 as K3.
      unfold show_program, root. cbn [op_api_version op_version op_version_loc op_block op_variables]. fold w' in K3. rewrite <- K3, <- Eb. now destruct sp. }
    assert (Hi' : nth_error (w_analyzers w') i = Some o') by (rewrite E1; now apply replace_same).
    destruct log as [|x log].
    + rewrite Hroot. destruct (program_well_formed sp); [|left; eauto]. exists w', (mkResult (Some root) []), o'. split; [reflexivity|].
      split; [unfold show_result; cbn; now rewrite Hroot|]. auto.
    + exists w', (mkResult (Some root) (x :: log)), o'. split; [reflexivity|]. split; [unfold show_result; cbn; now rewrite Hroot|]. auto.
  - apply (analyze_not_err (show_analyzer w o) (mkResult (Some p) []) x). cbn [analyze res_errors res_root]. unfold analyze_ast. now rewrite E.
Qed.
