(** Nodes in memory (C97): blocks, programs, results. *)
From Coq Require Import ZifyBool ZifyNat.
From Verif Require Import Base ModelUtils ModelVersion ModelError ModelTypes ModelOverload ModelFunctions ModelInstructionSet ModelAst ModelAnalyzer ModelSemantic ModelLocated
  SpecTypes SpecFunctions SpecInstructions SpecAnalyzer ProofsTypes ProofsFunctions ProofsFolding ProofsExpr ProofsInstructions ProofsGates
  ProofsAnalyzer ProofsAnalyzer2 ProofsLocated ModelNodes SpecNodes ProofsNodes ProofsNodes2 ProofsNodes3 ProofsNodes4.
Local Open Scope list_scope.

(** ** Blocks *)
Lemma current_block h m st b : analyzer_in h m st -> current_node m = Some b -> exists l ss, nth_error h b = Some (mkCell l (NBlock ss)).
Proof.
  intros (_ & _ & Sc & _) C. unfold current_node in C. destruct Sc as [|s s' ml sl (_ & _ & _ & (ls & R & _) & _) _]; [discriminate|]. injection C as <-. unfold read_block in R. destruct (nth_error h (hs_block s)) as [[l nd]|]; [|discriminate]. destruct nd; try discriminate. eauto.
Qed.
Lemma but_stays h m st h' : analyzer_in h m st -> keeps_but (current_node m) h h' -> forall i c, nth_error h i = Some c -> match c_node c with NBlock _ => True | _ => nth_error h' i = Some c end.
Proof.
  intros A (_ & K) i c E. destruct (current_node m) as [b|] eqn:C.
  - destruct (Nat.eq_dec i b) as [->|N]; [|specialize (K i c ltac:(congruence) E); now destruct (c_node c)]. destruct (current_block _ _ _ _ A C) as (l & ss & E'). rewrite E in E'. injection E' as ->. exact I.
  - specialize (K i c ltac:(discriminate) E). now destruct (c_node c).
Qed.
Lemma after_trans h m h1 m1 st1 l1 h2 m2 st2 l2 : (List.length h <= List.length h1)%nat -> after h m h1 m1 (st1, l1) -> keeps_but (current_node m) h1 h2 -> after h1 m1 h2 m2 (st2, l2) -> after h m h2 m2 (st2, l1 ++ l2).
Proof.
  intros L (A1 & C1 & G1 & B1) K (A2 & C2 & G2 & B2). cbn [fst snd] in *. split; [exact A2|]. split; [now rewrite C2|]. split.
  - intros ns ns' T T' b I. destruct A1 as (_ & _ & _ & n1 & T1 & _). destruct (G2 n1 ns' T1 T' b I) as [J|J]; [exact (G1 ns n1 T T1 b J)|right; lia].
  - intros ss B. destruct (B1 ss B) as (new1 & E1 & R1 & O1). destruct (B2 _ E1) as (new2 & E2 & R2 & O2). exists (new1 ++ new2). rewrite app_assoc. split; [exact E2|].
    pose proof K as K'. rewrite <- C1 in K'. pose proof (but_stays _ _ _ _ A1 K') as S. destruct K as [L' K]. split; [apply omap_app; [exact (same_statements _ _ S L' _ _ R1)|exact R2]|].
    unfold block_list in B. destruct (current_node m) as [b|]; [|discriminate]. destruct (nth_error h b) as [c|] eqn:E; [|discriminate]. pose proof (nth_lt _ _ _ E) as Lb.
    destruct O1 as (o1 & T1 & D1 & F1), O2 as (o2 & T2 & D2 & F2). exists (o1 ++ o2). rewrite Forall_forall in *. split; [|split].
    + apply trees_app; [|exact T2]. apply (proj2 (trees_move h1 _) _ _ T1). intros z cz I Ez. exists cz. split; [|reflexivity]. apply K; [|exact Ez]. specialize (F1 z I). cbn in F1. intros X. injection X as X. lia.
    + apply nodup_app; [exact D1|exact D2|]. intros z I J. pose proof (proj1 (Forall_forall _ _) (proj2 (trees_lt h1) _ _ T1) _ I) as X. specialize (F2 z J). cbn in X, F2. lia.
    + intros z I. apply in_app_or in I. destruct I as [I|I]; [exact (F1 z I)|]. specialize (F2 z I). cbn in *. lia.
Qed.

Definition replies {A B} (o : option addr) (h : heap) (m : heap * logged A) (p : logged B) (R : heap -> A -> B -> Prop) : Prop :=
  keeps_but o h (fst m) /\ snd (snd m) = snd p /\
  match fst (snd m), fst p with
  | Ok a, Ok b => R (fst m) a b
  | Err e, Err e' => e = e'
  | Throw w, Throw w' => w = w'
  | UB k, UB k' => k = k'
  | _, _ => False
  end.
Lemma answers_replies {A B} o h (m : heap * logged A) (p : logged B) R : answers o h m p R -> replies o h m p R.
Proof. intros (K & E & M). split; [exact K|]. split; [exact E|]. destruct (fst (snd m)), (fst p); auto. destruct M; auto. Qed.
Lemma replies_bind {A B C D} o h0 h (m : hm A) (k : A -> hm C) (p : logged B) (k' : B -> logged D) R R' :
  replies o h0 (m h) p R -> (forall h1 a b, keeps_but o h0 h1 -> R h1 a b -> replies o h1 (k a h1) (k' b) R') -> replies o h0 (hbind m k h) (lbind p k') R'.
Proof.
  intros (K & E & M) H. unfold hbind. destruct (m h) as [h1 [[a|e|w|u] es]], p as [[b|e'|w'|u'] es']; cbn in K, E, M; try contradiction; subst; try (split; [exact K|split; reflexivity]).
  pose proof (H h1 a b K M) as (K' & E' & M'). destruct (k a h1) as [h2 [r es2]] eqn:Ek. cbn [lbind]. destruct (k' b) as [r' es2'] eqn:Ek'. unfold replies. cbn [fst snd] in *. subst es2'.
  split; [exact (keeps_but_trans _ _ _ _ K K')|]. split; [reflexivity|]. destruct r, r'; auto.
Qed.
Lemma replies_map {A B D} o h (m : heap * logged A) (p : logged B) (f : B -> D) (R : heap -> A -> B -> Prop) (R' : heap -> A -> D -> Prop) : replies o h m p R -> (forall h1 a b, keeps_but o h h1 -> R h1 a b -> R' h1 a (f b)) -> replies o h m (lbind p (fun b => lift (Ok (f b)))) R'.
Proof.
  intros (K & E & M) H. destruct m as [h1 [r es]], p as [r' es']. cbn [fst snd] in *. subst es'. destruct r, r'; try contradiction; cbn; rewrite ?app_nil_r; (split; [exact K|]; split; [reflexivity|]); cbn; auto.
Qed.

Section Keep.
  Variable keep : bool.
  Lemma block_agrees l : forall ss m st h, analyzer_in h m st -> replies (current_node m) h (hvisit_block keep l m ss h) (lvisit_block keep l st ss) (after h m).
  Proof.
    induction ss as [|s ss IH]; intros m st h A; cbn [hvisit_block lvisit_block].
    - split; [exact (keeps_but_keeps _ _ _ (keeps_refl h))|]. split; [reflexivity|]. apply after_nothing; [apply keeps_refl|exact A].
    - eapply replies_bind.
      + apply answers_replies. apply answers_catch; [apply statement_agrees, A|]. intros h' K. apply after_nothing; [exact K|exact A].
      + intros h1 m1 [st1 l1] K1 X. cbn [fst snd]. pose proof X as (A1 & C1 & _). cbn [fst] in A1. rewrite <- C1. eapply replies_map; [apply IH, A1|]. intros h2 m2 [st2 l2] K2 Y. cbn [fst snd]. rewrite C1 in K2. exact (after_trans _ _ _ _ _ _ _ _ _ _ (proj1 K1) X K2 Y).
  Qed.

  (** ** Programs *)
  (** What a program in memory is *)
  Definition program_in (h' : heap) (m' : hanalyzer) (root : addr) (sp : sem_program) (ls : list lstatement) : Prop :=
    (exists before, read_program h' root = Some (sp, before ++ ls)) /\
    exists ns, tree_at h' root ns /\ NoDup ns /\ forall s x ms b, In s (h_scopes m') -> In x (hs_table s) -> tree_at h' (snd x) ms -> In b ms -> ~ In b ns.
  Lemma value_node h a v ns : read_value h a = Some v -> tree_at h a ns -> forall b c, In b ns -> nth_error h b = Some c -> forall w, c_node c <> NVersion w.
  Proof.
    intros R T b c I E w N. inversion T as [? ca nl Ea Tl]; subst. unfold read_value in R. rewrite Ea in R. destruct ca as [l nd]. cbn [c_node] in *.
    destruct I as [<-|I]; [rewrite E in Ea; injection Ea as ->; cbn in N; subst nd; discriminate|].
    destruct nd; try discriminate; cbn [children] in Tl; try (inversion Tl; subst; destruct I).
    destruct (omap (read_int h) indices) as [zs|] eqn:Z; [|discriminate]. clear - Tl Z I E N. revert zs nl Tl Z I. induction indices as [|i is IH]; intros zs nl Tl Z I; [inversion Tl; subst; destruct I|].
    cbn [omap] in Z. destruct (read_int h i) as [z|] eqn:Ri; [|discriminate]. destruct (omap (read_int h) is) as [zs'|]; [|discriminate]. inversion Tl as [|? ? n1 n2 T1 T2]; subst. apply in_app_or in I. destruct I as [I|I]; [|eapply IH; [exact T2|reflexivity|exact I]].
    inversion T1 as [? ci nl Ei Tc]; subst. unfold read_int in Ri. rewrite Ei in Ri. destruct ci as [li ni]. destruct ni; try discriminate. cbn in Tc. inversion Tc; subst. destruct I as [<-|[]]. rewrite E in Ei. injection Ei as ->. discriminate.
  Qed.
  Lemma program_agrees m st p h : analyzer_in h m st ->
    replies (current_node m) h (hvisit_program keep m p h) (lvisit_program keep st p) (fun h' x y => after h m h' (fst x) (fst (fst y), snd y) /\ program_in h' (fst x) (snd x) (snd (fst y)) (snd y)).
  Proof.
    intros A. unfold hvisit_program, lvisit_program. assert (Ev : h_version m = api_version st) by apply A. rewrite Ev.
    eapply replies_bind; [apply answers_replies, answers_agrees, agrees_lift, keeps_refl|]. intros ? v ? _ (-> & <- & _). rewrite alloc_bind. set (cv := mkCell (prog_version_loc p) (NVersion v)). set (h1 := h ++ [cv]).
    assert (K1 : keeps h h1) by apply keeps_snoc. assert (E1 : nth_error h1 (List.length h) = Some cv) by apply nth_snoc. pose proof (analyzer_keeps _ _ _ _ K1 A) as A1.
    assert (Base : forall X Y (x : heap * logged X) (y : logged Y) R, replies (current_node m) h1 x y R -> replies (current_node m) h x y R) by (intros X Y x y R (K & E & M); split; [exact (keeps_but_trans _ _ _ _ (keeps_but_keeps _ _ _ K1) K)|auto]).
    apply Base. eapply replies_bind; [apply block_agrees, A1|]. intros h2 m2 [st2 ls] [L2 K2] X. cbn [fst snd]. pose proof X as ((Av & An & Sc & ns & T & D & Tab) & C & G & B). cbn [fst snd] in *. unfold current_scope.
    destruct (h_scopes m2) as [|sc rest] eqn:Hm, (scopes st2) as [|ss srest] eqn:Hs; try (now inversion Sc).
    rewrite alloc_bind. cbn [lift lbind app]. set (cr := mkCell None (NProgram (api_version st) (List.length h) (hs_block sc) (hs_variables sc))). set (h3 := h2 ++ [cr]). assert (K3 : keeps h2 h3) by apply keeps_snoc.
    assert (E3 : nth_error h3 (List.length h2) = Some cr) by apply nth_snoc.
    split; [exact (keeps_but_keeps _ _ _ K3)|]. split; [reflexivity|]. unfold hret, hlift. cbn [fst snd lift].
    assert (Lh1 : List.length h1 = S (List.length h)) by (unfold h1; rewrite app_length; cbn; lia).
    assert (Ev3 : nth_error h3 (List.length h) = Some cv).
    { apply K3, K2; [|exact E1]. intros Eb. symmetry in Eb. destruct (current_block _ _ _ _ A Eb) as (? & ? & Ex). pose proof (nth_lt _ _ _ Ex). lia. }
    assert (A2 : analyzer_in h2 m2 st2) by apply X. split.
    - assert (X1 : after h m h1 m (st, [])) by (apply after_nothing; [exact K1|exact A]).
      assert (X2 : after h m h2 m2 (st2, ls)) by exact (after_trans _ _ _ _ _ _ _ _ _ _ (keeps_length _ _ K1) X1 (conj L2 K2) X).
      pose proof (after_nothing h2 m2 h3 st2 K3 A2) as X3. rewrite <- (app_nil_r ls). destruct X2 as (Y1 & Y2 & Y3). rewrite <- Y2 in *. refine (after_trans _ _ _ _ _ _ _ _ _ _ _ (conj Y1 (conj Y2 Y3)) _ X3); [lia|exact (keeps_but_keeps _ _ _ K3)].
    - inversion Sc as [|? ? ? ? (S1 & S2 & S3 & (all & S4 & S4') & S5) Sr]; subst.
      assert (Cn : current_node m = Some (hs_block sc)) by (rewrite <- C; unfold current_node; now rewrite Hm).
      split.
      + destruct (current_block _ _ _ _ A1 Cn) as (l0 & ss0 & E0). assert (Bl : block_list h1 m = Some ss0) by (unfold block_list; now rewrite Cn, E0). destruct (B _ Bl) as (new & Bl2 & Rn & _).
        assert (exists before, all = before ++ ls) as (before & ->).
        { unfold block_list in Bl2. rewrite C, Cn in Bl2. unfold read_block in S4. destruct (nth_error h2 (hs_block sc)) as [[lb nb]|]; [|discriminate]. destruct nb; try discriminate. injection Bl2 as ->.
          destruct (omap (read_statement h2) (ss0 ++ new)) as [all'|] eqn:O; [|discriminate]. injection S4 as _ ->. clear - O Rn. revert all O. induction ss0 as [|x l IH]; intros all O; [cbn in O; rewrite Rn in O; injection O as <-; now exists []|].
          cbn in O. destruct (read_statement h2 x); [|discriminate]. destruct (omap (read_statement h2) (l ++ new)); [|discriminate]. injection O as <-. destruct (IH _ eq_refl) as (b & ->). now exists (l0 :: b). }
        exists before. unfold read_program. rewrite E3. unfold cr. rewrite Ev3. unfold cv. rewrite (block_keeps _ _ _ _ K3 S4), (same_variables _ _ (keeps_stays _ _ K3) _ _ S5), S4'. now destruct (sc_block ss).
      + assert (Nv : ~ In (List.length h) ns).
        { intros I. destruct A1 as (_ & _ & _ & n1 & T1 & D1 & _). destruct A as (_ & _ & _ & n0 & T0 & _). destruct (G n1 ns T1 ltac:(rewrite Hm; exact T) _ I) as [J|J]; [|lia].
          rewrite <- (proj2 (trees_unique h1) _ _ (trees_keeps _ _ _ _ K1 T0) _ T1) in J. pose proof (proj1 (Forall_forall _ _) (proj2 (trees_lt h) _ _ T0) _ J) as Lt. cbn in Lt. lia. }
        cbn [roots flat_map] in T. apply trees_app_inv in T. destruct T as (n1 & n2 & -> & T1 & T2). destruct (nodup_app_inv _ _ D) as (D1 & D2 & D3).
        pose proof (proj1 (Forall_forall _ _) (proj2 (trees_lt h2) _ _ T1)) as Lt. cbn beta in Lt. exists (List.length h2 :: List.length h :: n1). split; [|split].
        * apply (tree_node _ _ _ _ E3). unfold cr. cbn [c_node children]. change (List.length h :: n1) with ([List.length h] ++ n1). constructor; [apply (tree_node _ _ _ _ Ev3); constructor|exact (trees_keeps _ _ _ _ K3 T1)].
        * assert (Lv : (List.length h < List.length h2)%nat) by lia. constructor; [intros [E|I]; [lia|specialize (Lt _ I); lia]|]. constructor; [rewrite in_app_iff in Nv; tauto|exact D1].
        * intros s x ms b I J Ty Iz. rewrite Hm in I. destruct (table_value h2 m2 st2 s x) as (v0 & Rv); [rewrite Hm, Hs; exact Sc|rewrite Hm; exact I|exact J|]. destruct (value_tree _ _ _ Rv) as (ms' & Ty').
          rewrite <- (proj1 (trees_unique h3) _ _ (tree_keeps _ _ _ _ K3 Ty') _ Ty) in Iz. pose proof (proj1 (Forall_forall _ _) (proj1 (trees_lt h2) _ _ Ty') _ Iz) as Lz. cbn in Lz.
          intros [<-|[<-|I1]]; [lia| |].
          -- refine (value_node h3 (snd x) v0 ms' (read_keeps _ _ _ _ K3 Rv) (tree_keeps _ _ _ _ K3 Ty') (List.length h) cv Iz Ev3 v eq_refl).
          -- apply (Tab s x ms' b I J Ty' Iz). apply in_or_app. now left.
  Qed.
End Keep.

(** ** The check for complete trees *)
Lemma collect_tree h : (forall a ns, tree_at h a ns -> forall n, (List.length ns <= n)%nat -> collect n h a = Some ns) /\
  (forall l ns, trees_at h l ns -> forall n, (List.length ns <= n)%nat -> exists ls, omap (collect n h) l = Some ls /\ concat ls = ns).
Proof.
  apply tree_trees_ind.
  - intros a c ns E _ IH [|n] L; cbn [List.length] in L; [lia|]. cbn [collect]. rewrite E. destruct (IH n ltac:(lia)) as (ls & -> & <-). reflexivity.
  - intros n _. exists []. split; reflexivity.
  - intros a l ns ms _ IH _ IH2 n L. rewrite app_length in L. cbn [omap]. rewrite (IH n ltac:(lia)). destruct (IH2 n ltac:(lia)) as (ls & -> & <-). exists (ns :: ls). split; reflexivity.
Qed.
Lemma all_different_iff l : all_different l = true <-> NoDup l.
Proof.
  induction l as [|a l IH]; cbn [all_different]; [split; [constructor|reflexivity]|]. rewrite andb_true_iff, IH, negb_true_iff. split.
  - intros [E D]. constructor; [|exact D]. intros I. rewrite <- not_true_iff_false in E. apply E. apply existsb_exists. exists a. split; [exact I|apply Nat.eqb_refl].
  - intros D. inversion D as [|? ? N D']; subst. split; [|exact D']. rewrite <- not_true_iff_false. intros E. apply existsb_exists in E. destruct E as (b & I & Eb). apply Nat.eqb_eq in Eb. subst b. exact (N I).
Qed.
Lemma nodup_bound l n : NoDup l -> Forall (fun b => (b < n)%nat) l -> (List.length l <= n)%nat.
Proof. intros D F. rewrite <- (seq_length n 0). apply NoDup_incl_length; [exact D|]. intros b I. rewrite Forall_forall in F. specialize (F b I). cbn in F. apply in_seq. lia. Qed.
Lemma tree_checked h root ns sp ls : tree_at h root ns -> NoDup ns -> read_program h root = Some (sp, ls) -> check_well_formed h root = program_well_formed sp.
Proof.
  intros T D R. unfold check_well_formed. rewrite (proj1 (collect_tree h) _ _ T _ (nodup_bound _ _ D (proj1 (trees_lt h) _ _ T))), R. now rewrite (proj2 (all_different_iff _) D).
Qed.

(** ** Places *)
Lemma walk_in h : (forall a ns, tree_at h a ns -> forall p b, walk h a p = Some b -> In b ns) /\ (forall l ns, trees_at h l ns -> forall i a p b, nth_error l i = Some a -> walk h a p = Some b -> In b ns).
Proof.
  apply tree_trees_ind.
  - intros a c ns E _ IH [|i p] b W; cbn [walk] in W; rewrite E in W; [injection W as <-; now left|]. destruct (nth_error _ i) as [x|] eqn:N; [|discriminate]. right. exact (IH i x p b N W).
  - intros [|i]; discriminate.
  - intros a l ns ms _ IH _ IH2 [|i] x p b N W; cbn in N; apply in_or_app; [injection N as <-; left; exact (IH p b W)|right; exact (IH2 i x p b N W)].
Qed.
Lemma walk_once h : (forall a ns, tree_at h a ns -> NoDup ns -> forall p q b, walk h a p = Some b -> walk h a q = Some b -> p = q) /\
  (forall l ns, trees_at h l ns -> NoDup ns -> forall i j x y p q b, nth_error l i = Some x -> nth_error l j = Some y -> walk h x p = Some b -> walk h y q = Some b -> i = j /\ p = q).
Proof.
  apply tree_trees_ind.
  - intros a c ns E T IH D p q b W W'. inversion D as [|? ? N D']; subst.
    assert (In_ns : forall i x p b, nth_error (children (c_node c)) i = Some x -> walk h x p = Some b -> In b ns) by exact (proj2 (walk_in h) _ _ T).
    destruct p as [|i p], q as [|j q]; cbn [walk] in W, W'; rewrite E in W, W'; try reflexivity; repeat match goal with H : match nth_error ?l ?i with _ => _ end = _ |- _ => destruct (nth_error l i) eqn:?; [|discriminate] end.
    + exfalso. injection W as <-. eauto.
    + exfalso. injection W' as <-. eauto.
    + destruct (IH D' i j _ _ p q b ltac:(eassumption) ltac:(eassumption) W W') as [-> ->]. reflexivity.
  - intros _ [|i]; discriminate.
  - intros a l ns ms T1 IH T2 IH2 D i j x y p q b N N' W W'. destruct (nodup_app_inv _ _ D) as (D1 & D2 & D3). destruct i as [|i], j as [|j]; cbn in N, N'.
    + injection N as <-. injection N' as <-. split; [reflexivity|exact (IH D1 p q b W W')].
    + injection N as <-. exfalso. exact (D3 b (proj1 (walk_in h) _ _ T1 _ _ W) (proj2 (walk_in h) _ _ T2 _ _ _ _ N' W')).
    + injection N' as <-. exfalso. exact (D3 b (proj1 (walk_in h) _ _ T1 _ _ W') (proj2 (walk_in h) _ _ T2 _ _ _ _ N W)).
    + destruct (IH2 D2 i j x y p q b N N' W W') as [-> ->]. split; reflexivity.
Qed.
