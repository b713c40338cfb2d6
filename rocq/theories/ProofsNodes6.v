(** Nodes in memory (C97): whole analyses, new analyzers. *)
From Coq Require Import ZifyBool ZifyNat.
From Verif Require Import Base ModelUtils ModelVersion ModelError ModelTypes ModelOverload ModelFunctions ModelInstructionSet ModelAst ModelAnalyzer ModelSemantic ModelLocated
  SpecTypes SpecFunctions SpecInstructions SpecAnalyzer ProofsTypes ProofsFunctions ProofsFolding ProofsExpr ProofsInstructions ProofsGates
  ProofsAnalyzer ProofsAnalyzer2 ProofsLocated ModelNodes SpecNodes ProofsNodes ProofsNodes2 ProofsNodes3 ProofsNodes4 ProofsNodes5.
Local Open Scope list_scope.

Section Keep.
  Variable keep : bool.
  Lemma hanalyze_agrees m st p h : analyzer_in h m st ->
    let '(h', o) := hanalyze keep m p h in
    keeps_but (current_node m) h h' /\
    match o, lanalyze_ast keep st p with
    | Ok (m', r), Ok (st', r', ls) =>
        analyzer_in h' m' st' /\ grows h m h' m' /\ res_errors r = res_errors r' /\
        exists root sp, res_root r = Some root /\ res_root r' = Some sp /\ program_in h' m' root sp ls
    | Err e, Err e' => e = e'
    | Throw w, Throw w' => w = w'
    | UB k, UB k' => k = k'
    | _, _ => False
    end.
  Proof.
    intros A. pose proof (program_agrees keep m st p h A) as (K & E & M). unfold hanalyze, lanalyze_ast. destruct (hvisit_program keep m p h) as [h' [[[m' root]|e|w|u] es]], (lvisit_program keep st p) as [[[[st' sp] ls]|e'|w'|u'] es'];
      cbn [fst snd] in *; try contradiction; subst; try (split; [exact K|reflexivity]).
    split; [exact K|]. destruct M as ((A' & _ & G & _) & P). cbn [fst snd] in *. destruct es' as [|e es'].
    - destruct P as ((before & R) & ns & T & D & X). rewrite (tree_checked _ _ _ _ _ T D R). destruct (program_well_formed sp); [|reflexivity]. split; [exact A'|]. split; [exact G|]. split; [reflexivity|]. exists root, sp. repeat (split; [reflexivity|]).
      split; [now exists before|]. exists ns. auto.
    - split; [exact A'|]. split; [exact G|]. split; [reflexivity|]. exists root, sp. repeat (split; [reflexivity|]). exact P.
  Qed.
  Lemma hanalyze_ok m st p h h' m' r : analyzer_in h m st -> hanalyze keep m p h = (h', Ok (m', r)) ->
    keeps_but (current_node m) h h' /\ exists st' r' ls root sp, lanalyze_ast keep st p = Ok (st', r', ls) /\ analyzer_in h' m' st' /\ grows h m h' m' /\ res_errors r = res_errors r' /\
      res_root r = Some root /\ res_root r' = Some sp /\ program_in h' m' root sp ls.
  Proof.
    intros A E. pose proof (hanalyze_agrees m st p h A) as H. rewrite E in H. destruct H as (K & H). split; [exact K|]. destruct (lanalyze_ast keep st p) as [[[st' r'] ls]|?|?|?]; try contradiction.
    destruct H as (A' & G & Er & root & sp & H1 & H2 & P). exists st', r', ls, root, sp. auto 10.
  Qed.
  Lemma never_twice m st p h h' m' r root : analyzer_in h m st -> hanalyze keep m p h = (h', Ok (m', r)) -> res_root r = Some root -> no_node_twice h' root.
  Proof.
    intros A E R. destruct (hanalyze_ok _ _ _ _ _ _ _ A E) as (_ & st' & r' & ls & root' & sp & _ & _ & _ & _ & R' & _ & (_ & ns & T & D & _)). rewrite R in R'. injection R' as <-.
    intros q q' b. exact (proj1 (walk_once h') _ _ T D q q' b).
  Qed.
  Lemma registered_apart m st p h h' m' r root : analyzer_in h m st -> hanalyze keep m p h = (h', Ok (m', r)) -> res_root r = Some root ->
    forall s n a path path' b, In s (h_scopes m') -> In (n, a) (hs_table s) -> walk h' a path = Some b -> walk h' root path' <> Some b.
  Proof.
    intros A E R s n a path path' b I J W W'. destruct (hanalyze_ok _ _ _ _ _ _ _ A E) as (_ & st' & r' & ls & root' & sp & _ & A' & _ & _ & R' & _ & (_ & ns & T & D & X)). rewrite R in R'. injection R' as <-.
    destruct A' as (_ & _ & Sc & _). destruct (table_value _ _ _ _ _ Sc I J) as (v & Rv). destruct (value_tree _ _ _ Rv) as (ms & Tv).
    exact (X s (n, a) ms b I J Tv (proj1 (walk_in h') _ _ Tv _ _ W) (proj1 (walk_in h') _ _ T _ _ W')).
  Qed.
  Lemma others_stay m st p h : analyzer_in h m st -> forall i c, nth_error h i = Some c -> Some i <> current_node m -> nth_error (fst (hanalyze keep m p h)) i = Some c.
  Proof. intros A i c E N. pose proof (hanalyze_agrees m st p h A) as H. destruct (hanalyze keep m p h) as [h' o]. destruct H as ((_ & K) & _). exact (K i c N E). Qed.
End Keep.

(** ** New analyzers *)
Lemma load_table_gives t : forall h, exists h' l, load_table t h = (h', (Ok l, [])) /\ keeps h h' /\ table_in h' l t /\
  forall x ms b, In x l -> tree_at h' (snd x) ms -> In b ms -> (List.length h <= b < List.length h')%nat.
Proof.
  induction t as [|[n v] t IH]; intros h; unfold load_table; cbn [hmapM].
  - exists h, []. split; [reflexivity|]. split; [apply keeps_refl|]. split; [constructor|intros x ms b []].
  - pose proof (alloc_value_agrees (bare v) h) as (K & Es & M). cbn [fst snd] in *. rewrite bind_assoc. unfold hbind at 1. destruct (alloc_value (bare v) h) as [h1 [[a|e|w|u] es]]; cbn in K, Es, M; try contradiction. subst es.
    rewrite ret_bind. destruct M as (Rv & O). destruct (IH h1) as (h2 & l & E & K2 & T & B). unfold load_table in E. unfold hbind at 1. rewrite E. unfold hret, hlift. cbn [lift app].
    exists h2, ((n, a) :: l). split; [reflexivity|]. split; [exact (keeps_trans _ _ _ K K2)|]. split; [constructor; [split; [reflexivity|exact (read_keeps _ _ _ _ K2 Rv)]|exact T]|].
    intros x ms b [<-|I] Tx Ib.
    + cbn [snd] in Tx. destruct O as (os & To & _ & Fo). apply tree_single in To. rewrite <- (proj1 (trees_unique h2) _ _ (tree_keeps _ _ _ _ K2 To) _ Tx) in Ib. rewrite Forall_forall in Fo. pose proof (Fo _ Ib) as F.
      pose proof (proj1 (Forall_forall _ _) (proj1 (trees_lt h1) _ _ To) _ Ib) as L. cbn in F, L. pose proof (keeps_length _ _ K2). lia.
    + pose proof (B x ms b I Tx Ib). pose proof (keeps_length _ _ K). lia.
Qed.

Lemma load_scopes_gives sl : Forall new_scope sl -> forall h, exists h' ml ns, hmapM load_scope sl h = (h', (Ok ml, [])) /\ keeps h h' /\ Forall2 (scope_in h') ml sl /\
  trees_at h' (roots ml) ns /\ NoDup ns /\ Forall (fun b => (List.length h <= b)%nat) ns /\
  forall s x ms b, In s ml -> In x (hs_table s) -> tree_at h' (snd x) ms -> In b ms -> (List.length h <= b)%nat /\ ~ In b ns.
Proof.
  induction 1 as [|s sl [Nb Nv] _ IH]; intros h; cbn [hmapM].
  - exists h, [], []. split; [reflexivity|]. split; [apply keeps_refl|]. split; [constructor|]. split; [constructor|]. split; [constructor|]. split; [constructor|]. intros s x ms b [].
  - unfold load_scope at 1. destruct (load_table_gives (sc_variables_table s) h) as (h1 & t & E & K1 & T & B). rewrite bind_assoc. unfold hbind at 1. rewrite E. rewrite bind_assoc, alloc_bind, ret_bind. set (c := mkCell None (NBlock [])). set (h2 := h1 ++ [c]).
    destruct (IH h2) as (h3 & ml & ns & E3 & K3 & F & Tr & D & G & X). unfold hbind at 1. rewrite E3. unfold hret, hlift. cbn [lift app]. set (b := List.length h1). assert (K2 : keeps h1 h2) by apply keeps_snoc.
    assert (Eb : nth_error h3 b = Some c) by (apply K3; apply nth_snoc). assert (L2 : List.length h2 = S b) by (unfold h2, b; rewrite app_length; cbn; lia). pose proof (keeps_length _ _ K1) as L1. pose proof (keeps_trans _ _ _ K2 K3) as K23. rewrite Forall_forall in G.
    exists h3, (mkHScope t (sc_functions s) (sc_instructions s) b [] :: ml), (b :: ns). split; [reflexivity|]. split; [exact (keeps_trans _ _ _ K1 K23)|]. split; [|split; [|split; [|split]]].
    + constructor; [|exact F]. split; [reflexivity|]. split; [reflexivity|]. split; [cbn [hs_table]; revert T; apply Forall2_imp; intros y z (Y & Z); split; [exact Y|exact (read_keeps _ _ _ _ K23 Z)]|]. rewrite Nb, Nv. split; [|reflexivity].
      exists []. cbn [hs_block blk_loc blk_statements map]. split; [|reflexivity]. unfold read_block. rewrite Eb. reflexivity.
    + change (roots (mkHScope t (sc_functions s) (sc_instructions s) b [] :: ml)) with ([b] ++ roots ml). change (b :: ns) with ([b] ++ ns). apply trees_app; [|exact Tr]. apply tree_single. apply (tree_node _ _ _ _ Eb). constructor.
    + constructor; [|exact D]. intros I. specialize (G _ I). cbn in G. lia.
    + constructor; [exact L1|]. rewrite Forall_forall. intros z I. specialize (G _ I). cbn in G. lia.
    + intros s1 x ms z [<-|I] J Tx Iz.
      * cbn [hs_table] in J. destruct (Forall2_In_l _ _ _ _ T J) as (y & _ & (_ & Ry)). destruct (value_tree _ _ _ Ry) as (ms' & Ty). rewrite <- (proj1 (trees_unique h3) _ _ (tree_keeps _ _ _ _ K23 Ty) _ Tx) in Iz. pose proof (B x ms' z J Ty Iz) as Bz.
        split; [lia|]. intros [E0|I0]; [unfold b in *; lia|]. specialize (G _ I0). cbn in G. unfold b in *. lia.
      * destruct (X s1 x ms z I J Tx Iz) as [Lz Nz]. split; [lia|]. intros [E0|I0]; [lia|exact (Nz I0)].
Qed.
Lemma load_gives st h : Forall new_scope (scopes st) -> exists h' m, load st h = (h', (Ok m, [])) /\ keeps h h' /\ analyzer_in h' m st.
Proof.
  intros F. destruct (load_scopes_gives _ F h) as (h' & ml & ns & E & K & Sc & T & D & _ & X). unfold load, hbind. rewrite E. unfold hret, hlift. cbn. exists h', (mkHAnalyzer (api_version st) ml (next_id st)). split; [reflexivity|]. split; [exact K|].
  split; [reflexivity|]. split; [reflexivity|]. split; [exact Sc|]. exists ns. split; [exact T|]. split; [exact D|]. intros s x ms b I J Tx Ib. exact (proj2 (X s x ms b I J Tx Ib)).
Qed.
Lemma reached_in keep h m st : reached keep h m st -> analyzer_in h m st.
Proof.
  induction 1 as [st h h' m F E|h m st p h' m' r st' r' ls _ IH E E'].
  - destruct (load_gives st h F) as (h2 & m2 & E2 & _ & A). rewrite E in E2. injection E2 as <- <-. exact A.
  - destruct (hanalyze_ok _ _ _ _ _ _ _ _ IH E) as (_ & st2 & r2 & ls2 & root & sp & E2 & A & _). rewrite E' in E2. injection E2 as <- <- <-. exact A.
Qed.
