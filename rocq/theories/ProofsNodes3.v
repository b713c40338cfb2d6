(** Nodes in memory (C97): statements and programs. *)
From Coq Require Import ZifyBool ZifyNat.
From Verif Require Import Base ModelUtils ModelVersion ModelError ModelTypes ModelOverload ModelFunctions ModelInstructionSet ModelAst ModelAnalyzer ModelSemantic ModelLocated
  SpecTypes SpecFunctions SpecInstructions SpecAnalyzer ProofsTypes ProofsFunctions ProofsFolding ProofsExpr ProofsInstructions ProofsGates
  ProofsAnalyzer ProofsAnalyzer2 ProofsLocated ModelNodes SpecNodes ProofsNodes ProofsNodes2.
Local Open Scope list_scope.

(** ** What an analyzer in memory stands for stays *)
Lemma value_tree h a v : read_value h a = Some v -> exists ns, tree_at h a ns.
Proof.
  unfold read_value. destruct (nth_error h a) as [[l nd]|] eqn:E; [|discriminate]. destruct nd; try discriminate; try (intros _; exists [a]; apply (tree_node _ _ _ _ E); constructor).
  destruct (omap (read_int h) indices) as [zs|] eqn:Z; [|discriminate]. intros _. exists (a :: indices). apply (tree_node _ _ _ _ E). cbn [children c_node]. clear E. revert zs Z. induction indices as [|i is IH]; intros zs Z; [constructor|].
  cbn [omap] in Z. destruct (read_int h i) as [z|] eqn:Ri; [|discriminate]. destruct (omap (read_int h) is) as [zs'|]; [|discriminate]. apply (trees_more h i is [i] is); [|eapply IH; reflexivity].
  unfold read_int in Ri. destruct (nth_error h i) as [[li n]|] eqn:Ei; [|discriminate]. destruct n; try discriminate. apply (tree_node _ _ _ _ Ei). constructor.
Qed.
Lemma block_keeps h h' a x : keeps h h' -> read_block h a = Some x -> read_block h' a = Some x.
Proof.
  intros K. unfold read_block. destruct (nth_error h a) as [[l nd]|] eqn:E; [|discriminate]. rewrite (K _ _ E). destruct nd; try discriminate. destruct (omap (read_statement h) statements) eqn:O; [|discriminate].
  now rewrite (same_statements _ _ (keeps_stays _ _ K) (keeps_length _ _ K) _ _ O).
Qed.
Lemma scope_keeps h h' s s' : keeps h h' -> scope_in h s s' -> scope_in h' s s'.
Proof.
  intros K (A & B & C & (ls & D & E) & F). split; [exact A|]. split; [exact B|]. split; [|split; [exists ls; split; [exact (block_keeps _ _ _ _ K D)|exact E]|exact (same_variables _ _ (keeps_stays _ _ K) _ _ F)]].
  revert C. apply Forall2_imp. intros x y (X & Y). split; [exact X|exact (read_keeps _ _ _ _ K Y)].
Qed.
Lemma Forall2_In_l {A B} (P : A -> B -> Prop) l k a : Forall2 P l k -> In a l -> exists b, In b k /\ P a b.
Proof. induction 1 as [|x y l k H _ IH]; [intros []|]. intros [<-|I]; [exists y; split; [now left|exact H]|]. destruct (IH I) as (b & J & Q). exists b. split; [now right|exact Q]. Qed.
Lemma table_value h m st s x : Forall2 (scope_in h) (h_scopes m) (scopes st) -> In s (h_scopes m) -> In x (hs_table s) -> exists v, read_value h (snd x) = Some v.
Proof. intros F I J. destruct (Forall2_In_l _ _ _ _ F I) as (s' & _ & (_ & _ & T & _)). destruct (Forall2_In_l _ _ _ _ T J) as (y & _ & (_ & R)). eauto. Qed.
Lemma analyzer_keeps h h' m st : keeps h h' -> analyzer_in h m st -> analyzer_in h' m st.
Proof.
  intros K (A & B & C & ns & T & D & X). split; [exact A|]. split; [exact B|]. split; [revert C; apply Forall2_imp; intros a b; apply scope_keeps, K|]. exists ns. split; [exact (trees_keeps _ _ _ _ K T)|]. split; [exact D|].
  intros s x ms b I J Tx. destruct (table_value _ _ _ _ _ C I J) as (v & R). destruct (value_tree _ _ _ R) as (ms' & T'). rewrite <- (proj1 (trees_unique h') _ _ (tree_keeps _ _ _ _ K T') _ Tx). exact (X s x ms' b I J T').
Qed.
Lemma analyzer_knows h m st : analyzer_in h m st -> knows h m st.
Proof. intros (_ & _ & C & _). revert C. apply Forall2_imp. intros a b (A & B & C & _). split; [exact A|]. split; [exact B|exact C]. Qed.
Lemma analyzer_next h m st : analyzer_in h m st -> analyzer_in h (mkHAnalyzer (h_version m) (h_scopes m) (S (h_next m))) (fresh st).
Proof. intros (A & B & C & D). split; [exact A|]. split; [cbn; now rewrite B|]. split; [exact C|exact D]. Qed.

(** ** All nodes stay but one *)
Definition keeps_but (o : option addr) (h h' : heap) : Prop := (List.length h <= List.length h')%nat /\ forall i c, Some i <> o -> nth_error h i = Some c -> nth_error h' i = Some c.
Lemma keeps_but_keeps o h h' : keeps h h' -> keeps_but o h h'.
Proof. intros K. split; [exact (keeps_length _ _ K)|]. intros i c _. apply K. Qed.
Lemma keeps_but_trans o a b c : keeps_but o a b -> keeps_but o b c -> keeps_but o a c.
Proof. intros [L H] [L' H']. split; [lia|]. intros i x N E. apply H', H, E; exact N. Qed.
Definition answers {A B} (o : option addr) (h : heap) (m : heap * logged A) (p : logged B) (R : heap -> A -> B -> Prop) : Prop :=
  keeps_but o h (fst m) /\ snd (snd m) = snd p /\
  match fst (snd m), fst p with
  | Ok a, Ok b => R (fst m) a b
  | Err e, Err e' => e = e' /\ keeps h (fst m)
  | Throw w, Throw w' => w = w'
  | UB k, UB k' => k = k'
  | _, _ => False
  end.
Lemma answers_agrees {A B} o h (m : heap * logged A) (p : logged B) R : agrees h m p R -> answers o h m p R.
Proof. intros (K & E & M). split; [exact (keeps_but_keeps _ _ _ K)|]. split; [exact E|]. destruct (fst (snd m)), (fst p); auto. Qed.
Lemma answers_then {A B C D} o h0 h (m : hm A) (k : A -> hm C) (p : logged B) (k' : B -> logged D) R R' :
  agrees h0 (m h) p R -> (forall h1 a b, keeps h0 h1 -> R h1 a b -> answers o h1 (k a h1) (k' b) R') -> answers o h0 (hbind m k h) (lbind p k') R'.
Proof.
  intros (K & E & M) H. unfold hbind. destruct (m h) as [h1 [[a|e|w|u] es]], p as [[b|e'|w'|u'] es']; cbn in K, E, M; try contradiction; subst.
  - pose proof (H h1 a b K M) as (K' & E' & M'). destruct (k a h1) as [h2 [r es2]] eqn:Ek. cbn [lbind]. destruct (k' b) as [r' es2'] eqn:Ek'. unfold answers. cbn [fst snd] in *. subst es2'.
    split; [exact (keeps_but_trans _ _ _ _ (keeps_but_keeps _ _ _ K) K')|]. split; [reflexivity|]. destruct r, r'; auto. destruct M' as [-> K2]. split; [reflexivity|exact (keeps_trans _ _ _ K K2)].
  - split; [exact (keeps_but_keeps _ _ _ K)|]. split; [reflexivity|]. split; [reflexivity|exact K].
  - split; [exact (keeps_but_keeps _ _ _ K)|]. split; reflexivity.
  - split; [exact (keeps_but_keeps _ _ _ K)|]. split; reflexivity.
Qed.
Lemma answers_catch {A B} o h0 h l d d' (m : hm A) (p : logged B) (R : heap -> A -> B -> Prop) : answers o h0 (m h) p R -> (forall h', keeps h0 h' -> R h' d d') -> answers o h0 (hcatch l d m h) (catch_log l d' p) R.
Proof.
  intros (K & E & M) D. unfold hcatch, catch_log. destruct (m h) as [h1 [[a|e|w|u] es]], p as [[b|e'|w'|u'] es']; cbn in K, E, M; try contradiction; subst; (split; [exact K|]).
  - split; [reflexivity|exact M].
  - destruct M as [-> K']. split; [reflexivity|exact (D h1 K')].
  - split; reflexivity.
  - split; reflexivity.
Qed.

(** ** Adding a statement *)
(** The statements of the block that the current scope points to *)
Definition block_list (h : heap) (m : hanalyzer) : option (list addr) :=
  match current_node m with Some b => match nth_error h b with Some (mkCell _ (NBlock ss)) => Some ss | _ => None end | None => None end.
(** What the scopes own is what they owned, and new nodes. *)
Definition grows (h : heap) (m : hanalyzer) (h' : heap) (m' : hanalyzer) : Prop :=
  forall ns ns', trees_at h (roots (h_scopes m)) ns -> trees_at h' (roots (h_scopes m')) ns' -> forall b, In b ns' -> In b ns \/ (List.length h <= b)%nat.
(** An analysis goes on from [m] in [h] to [m'] in [h']: the analyzer stands for [st'],
    and the statements [ls] have been added. *)
Definition after (h : heap) (m : hanalyzer) (h' : heap) (m' : hanalyzer) (x : analyzer * list lstatement) : Prop :=
  analyzer_in h' m' (fst x) /\ current_node m' = current_node m /\ grows h m h' m' /\
  forall ss, block_list h m = Some ss -> exists new, block_list h' m' = Some (ss ++ new) /\ omap (read_statement h') new = Some (snd x) /\ owned (List.length h) h' new.
Lemma block_list_keeps h h' m ss : keeps h h' -> block_list h m = Some ss -> block_list h' m = Some ss.
Proof. intros K. unfold block_list. destruct (current_node m) as [b|]; [|discriminate]. destruct (nth_error h b) as [c|] eqn:E; [|discriminate]. now rewrite (K _ _ E). Qed.
Lemma grows_later h m h1 m1 st1 h' m' : analyzer_in h1 m1 st1 -> grows h m h1 m1 -> keeps h1 h' -> roots (h_scopes m') = roots (h_scopes m1) -> grows h m h' m'.
Proof.
  intros (_ & _ & _ & n1 & T1 & _) G K E ns ns' T T'. rewrite E in T'. rewrite <- (proj2 (trees_unique h') _ _ (trees_keeps _ _ _ _ K T1) _ T'). exact (G ns n1 T T1).
Qed.
Lemma grows_refl h m : grows h m h m.
Proof. intros ns ns' T T'. rewrite (proj2 (trees_unique h) _ _ T _ T'). auto. Qed.
Lemma after_nothing h m h' st : keeps h h' -> analyzer_in h m st -> after h m h' m (st, []).
Proof.
  intros K A. split; [exact (analyzer_keeps _ _ _ _ K A)|]. split; [reflexivity|]. split; [exact (grows_later _ _ _ _ _ _ _ A (grows_refl h m) K eq_refl)|]. intros ss B. exists []. rewrite app_nil_r. split; [exact (block_list_keeps _ _ _ _ K B)|]. split; [reflexivity|apply owned_nil].
Qed.
Lemma statement_cell h a x : read_statement h a = Some x -> exists c, nth_error h a = Some c /\ c_loc c = sem_statement_loc (erase_statement x) /\ (forall ss, c_node c <> NBlock ss).
Proof.
  unfold read_statement. destruct (nth_error h a) as [[l nd]|]; [|discriminate]. intros H. exists (mkCell l nd). split; [reflexivity|]. destruct nd; try discriminate.
  - destruct (read_any_gate h gate), (omap (read_value h) operands), (omap (read_annotation h) annots); try discriminate. injection H as <-. split; [reflexivity|discriminate].
  - destruct (omap (read_value h) operands), (omap (read_value h) params), (omap (read_annotation h) annots); try discriminate. injection H as <-. split; [reflexivity|discriminate].
  - destruct (omap (read_annotation h) annots); try discriminate. injection H as <-. split; [reflexivity|discriminate].
Qed.
Lemma put_stays h b l ss l' ss' : nth_error h b = Some (mkCell l (NBlock ss)) -> forall i c, nth_error h i = Some c -> match c_node c with NBlock _ => True | _ => nth_error (put b (mkCell l' (NBlock ss')) h) i = Some c end.
Proof.
  intros E i c F. destruct (Nat.eq_dec b i) as [<-|N]; [rewrite E in F; injection F as <-; exact Logic.I|]. rewrite nth_put_other by exact N. now destruct (c_node c).
Qed.
Lemma scope_other h b l ss l' ss' s s' : nth_error h b = Some (mkCell l (NBlock ss)) -> hs_block s <> b -> scope_in h s s' -> scope_in (put b (mkCell l' (NBlock ss')) h) s s'.
Proof.
  intros E N (A & B & C & (ls & D & F) & G). pose proof (put_stays h b l ss l' ss' E) as S. assert (L : (List.length h <= List.length (put b (mkCell l' (NBlock ss')) h))%nat) by (rewrite length_put; lia).
  split; [exact A|]. split; [exact B|]. split; [revert C; apply Forall2_imp; intros x y (X & Y); split; [exact X|exact (same_value _ _ S _ _ Y)]|]. split; [|exact (same_variables _ _ S _ _ G)].
  exists ls. split; [|exact F]. unfold read_block in *. rewrite nth_put_other by congruence. destruct (nth_error h (hs_block s)) as [[lb nb]|]; [|discriminate]. destruct nb; try discriminate.
  destruct (omap (read_statement h) statements) eqn:O; [|discriminate]. now rewrite (same_statements _ _ S L _ _ O).
Qed.
Lemma trees_put h b c l ns : ~ In b ns -> trees_at h l ns -> trees_at (put b c h) l ns.
Proof. intros N T. apply (proj2 (trees_move h _) _ _ T). intros x y I E. exists y. split; [|reflexivity]. rewrite nth_put_other; [exact E|]. intros ->. exact (N I). Qed.
Lemma roots_in s l : In s l -> In (hs_block s) (roots l).
Proof. intros I. unfold roots. apply in_flat_map. exists s. split; [exact I|now left]. Qed.
Lemma trees_head h l ns a : trees_at h l ns -> In a l -> In a ns.
Proof. intros T. induction T using trees_at_ind2 with (P := fun x ns => In x ns); [now left|intros []|]. intros [<-|I]; apply in_or_app; auto. Qed.

Lemma hadd_agrees h h5 m st s x : analyzer_in h m st -> keeps h h5 -> owned (List.length h) h5 [s] -> read_statement h5 s = Some x ->
  answers (current_node m) h5 ((let^ _ := hadd_statement m s in hret m) h5) (lift (ladd_statement st x)) (after h m).
Proof.
  intros A K O R. pose proof (analyzer_keeps _ _ _ _ K A) as A5. unfold hadd_statement, ladd_statement, add_statement, update_current, current_node.
  destruct A5 as (Av & An & Sc & ns & T & D & X). destruct (h_scopes m) as [|sc rest] eqn:Hm, (scopes st) as [|ss srest] eqn:Hs; try (now inversion Sc).
  inversion Sc as [|? ? ? ? S1 S2]; subst. destruct S1 as (Sf & Si & St & (ls & Sb & Sl) & Sv). destruct (statement_cell _ _ _ R) as (c & Ec & Lc & Nc).
  unfold read_block in Sb. destruct (nth_error h5 (hs_block sc)) as [[lb nb]|] eqn:Eb; [|discriminate]. destruct nb; try discriminate. destruct (omap (read_statement h5) statements) as [ls'|] eqn:Ol; [|discriminate]. injection Sb as Elb ->.
  rewrite bind_assoc, (peek_bind _ _ _ c) by exact Ec. rewrite bind_assoc, (peek_bind _ _ _ _ Eb). cbn [c_node c_loc]. rewrite write_bind. cbn [bind].
  match goal with |- answers _ _ (hret m (put _ (mkCell ?l _) _)) _ _ => set (l' := l) end. set (b := hs_block sc) in *. set (h6 := put b (mkCell l' (NBlock (statements ++ [s]))) h5).
  pose proof (put_stays h5 b lb statements l' (statements ++ [s]) Eb) as Stay. fold h6 in Stay. assert (L6 : (List.length h5 <= List.length h6)%nat) by (unfold h6; rewrite length_put; lia).
  assert (E6 : nth_error h6 b = Some (mkCell l' (NBlock (statements ++ [s])))) by (apply nth_put_same; exact (nth_lt _ _ _ Eb)).
  assert (R6 : omap (read_statement h6) (statements ++ [s]) = Some (ls ++ [x])).
  { apply omap_app; [exact (same_statements _ _ Stay L6 _ _ Ol)|]. cbn. now rewrite (same_statement _ _ Stay L6 _ _ R). }
  (* the nodes *)
  destruct A as (_ & _ & Sc0 & ns0 & T0 & D0 & X0). rewrite Hm in T0, X0, Sc0. assert (ns0 = ns) as -> by (apply (proj2 (trees_unique h5) (roots (sc :: rest))); [exact (trees_keeps _ _ _ _ K T0)|exact T]).
  pose proof (proj1 (Forall_forall _ _) (proj2 (trees_lt h) _ _ T0)) as Lt0. cbn beta in Lt0.
  destruct O as (os & To & Do & Fo). rewrite Forall_forall in Fo.
  assert (Bn : In b ns) by (apply (trees_head _ _ _ _ T); now left). pose proof (Lt0 _ Bn) as Lb.
  cbn [roots flat_map] in T. rewrite <- app_comm_cons in T. inversion T as [|? ? nb nr Tb Tr]; subst. inversion Tb as [? cb nss Eb' Ts]; subst. pose proof (eq_trans (eq_sym Eb) Eb') as E'. injection E' as <-. cbn [c_node children] in Ts.
  cbn [app] in D, X, Lt0, X0, D0. inversion D as [|? ? Nb D']; subst.
  assert (Nos : ~ In b os) by (intros I; pose proof (Fo _ I); cbn in *; lia).
  assert (T6 : trees_at h6 (roots (sc :: rest)) ((b :: nss ++ os) ++ nr)).
  { cbn [roots flat_map]. rewrite <- app_comm_cons. constructor; [|apply trees_put; [rewrite in_app_iff in Nb; tauto|exact Tr]]. apply (tree_node _ _ _ _ E6). cbn [c_node children]. apply trees_app; apply trees_put; [rewrite in_app_iff in Nb; tauto|exact Ts|exact Nos|exact To]. }
  assert (D6 : NoDup ((b :: nss ++ os) ++ nr)).
  { cbn [app]. constructor; [rewrite !in_app_iff in *; tauto|]. destruct (nodup_app_inv _ _ D') as (D1 & D2 & D3). apply nodup_app; [apply nodup_app; [exact D1|exact Do|]|exact D2|].
    - intros y I J. pose proof (Lt0 y). pose proof (Fo y J). cbn in *. assert (y < List.length h)%nat by (apply Lt0; right; apply in_or_app; auto). lia.
    - intros y I J. apply in_app_or in I. destruct I as [I|I]; [exact (D3 y I J)|]. pose proof (Fo y I). cbn in *. assert (y < List.length h)%nat by (apply Lt0; right; apply in_or_app; auto). lia. }
  unfold answers. cbn [hret hlift lift fst snd]. split; [|split; [reflexivity|]].
  { split; [exact L6|]. intros i ci N Ei. unfold h6. rewrite nth_put_other; [exact Ei|]. intros E. apply N. now rewrite E. }
  unfold after. split; [|split; [reflexivity|split]].
  - unfold analyzer_in. rewrite Hm. cbn [fst api_version next_id scopes]. split; [exact Av|]. split; [exact An|]. split.
    + constructor.
      * unfold scope_in. cbn [sc_functions sc_instructions sc_variables_table sc_block sc_variables]. split; [exact Sf|]. split; [exact Si|]. split; [revert St; apply Forall2_imp; intros y z (Y & Z); split; [exact Y|exact (same_value _ _ Stay _ _ Z)]|].
        split; [|exact (same_variables _ _ Stay _ _ Sv)]. exists (ls ++ [x]). split.
        -- unfold read_block. fold b. rewrite E6, R6. unfold block_add. cbn [blk_loc]. f_equal. f_equal. unfold l'. rewrite Lc. reflexivity.
        -- rewrite map_app, Sl. reflexivity.
      * assert (Dif : forall y, In y rest -> hs_block y <> b).
        { intros y I E. apply Nb. apply in_or_app. right. apply (trees_head _ _ _ _ Tr). apply in_or_app. right. change (In b (roots rest)). rewrite <- E. apply roots_in, I. }
        clear - S2 Dif Eb. induction S2 as [|y z l k H _ IH]; constructor; [apply (scope_other h5 b _ statements _ _ _ _ Eb); [apply Dif; now left|exact H]|apply IH; intros w I; apply Dif; now right].
    + exists ((b :: nss ++ os) ++ nr). split; [exact T6|]. split; [exact D6|]. intros s1 y ms z I J Ty Iz.
      destruct (table_value h m st s1 y) as (v & Rv); [rewrite Hm; exact Sc0|rewrite Hm; exact I|exact J|]. destruct (value_tree _ _ _ Rv) as (ms' & Ty'). pose proof (X0 s1 y ms') as X1.
      assert (Nm : ~ In b ms') by (intros Ib; exact (X1 b I J Ty' Ib (or_introl eq_refl))).
      assert (ms' = ms) as ->. { apply (proj1 (trees_unique h6) (snd y)); [|exact Ty]. apply tree_single. apply trees_put; [exact Nm|]. apply tree_single. exact (tree_keeps _ _ _ _ K Ty'). }
      pose proof (proj1 (Forall_forall _ _) (proj1 (trees_lt h) _ _ Ty') _ Iz) as Lz. cbn in Lz. specialize (X1 z I J Ty' Iz). cbn [app In] in X1 |- *. rewrite !in_app_iff in *. intros [E|[[I1|I1]|I1]]; try tauto.
      pose proof (Fo _ I1). cbn in *. lia.
  - intros ms ms' Tm Tm' z I. rewrite Hm in Tm, Tm'. rewrite <- (proj2 (trees_unique h) _ _ T0 _ Tm). rewrite <- (proj2 (trees_unique h6) _ _ T6 _ Tm') in I. cbn [app In] in I |- *. rewrite !in_app_iff in *. destruct I as [E|[[I|I]|I]]; try tauto. right. exact (Fo _ I).
  - intros ss0 Bl. unfold block_list, current_node in *. rewrite Hm in *. fold b in Bl. fold b. destruct (nth_error h b) as [cb|] eqn:Eh; [|discriminate]. apply K in Eh. rewrite Eb in Eh. injection Eh as <-. injection Bl as <-. rewrite E6.
    exists [s]. split; [reflexivity|]. split; [cbn; now rewrite (same_statement _ _ Stay L6 _ _ R)|]. exists os. split; [apply trees_put; [exact Nos|exact To]|]. split; [exact Do|]. rewrite Forall_forall. exact Fo.
Qed.
