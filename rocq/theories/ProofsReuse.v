(** Lemmas for C92. *)
From Coq Require Import Reals SpecFloat ZArith Lia ZifyBool.
From Verif Require Import Base ModelUtils ModelVersion ModelError ModelTypes ModelOverload ModelFunctions ModelInstructionSet ModelAst ModelAnalyzer ModelSemantic
  SpecUtils SpecError SpecTypes SpecFunctions SpecInstructions SpecAnalyzer SpecMachine SpecSites SpecDiagnosis SpecHull SpecVersion
  ProofsTypes ProofsFunctions ProofsAnalyzer ProofsAnalyzer2 ProofsAnalyzer3 ProofsMachine ProofsHull
  SpecEvaluate SpecMeaning ProofsMeaning ProofsMeaning2 SpecOutcome ProofsOutcome3 SpecReuse.
Local Open Scope list_scope.

Lemma block_run_unique st ss st1 es1 st2 es2 : block_run st ss st1 es1 -> block_run st ss st2 es2 -> st1 = st2 /\ es1 = es2.
Proof.
  intros A B. apply (block_run_iff None) in A. apply (block_run_iff None) in B. rewrite A in B. injection B as -> ->. auto.
Qed.

Section Reuse.
  Variables (lm : libm) (api : list Z).
  Hypotheses (Sv : version_same api [3; 0]%Z) (L : machine_libm lm).
  Let st0 := mkAnalyzer api [default_scope lm] 0.
  (** What is known of the analyzer after the programs ps *)
  Record after (ps : list program) (st : analyzer) : Prop := {
    af_grammar : Forall grammar_statement (flat_map prog_statements ps);
    af_machine : Forall machine_statement (flat_map prog_statements ps);
    af_spans : current_spans st;
    af_run : exists es, block_run st0 (flat_map prog_statements ps) st es }.
  Lemma after_nothing : after [] st0.
  Proof. split; cbn; try constructor; auto. exists []. constructor. Qed.
  Lemma after_one ps st p st' r : after ps st -> grammar_program p -> machine_program p -> ordered_locations p -> analyze_ast st p = Ok (st', r) -> after (ps ++ [p]) st'.
  Proof.
    intros [G M S (es & R)] Gp Mp O E. destruct (analyze_spans _ _ _ _ E O S) as [S' _]. apply analyze_ast_inv in E. destruct E as (v & es1 & es2 & s & rest & _ & B & _).
    split; rewrite ?flat_map_app; cbn [flat_map]; rewrite ?app_nil_r.
    - apply Forall_app. auto.
    - apply Forall_app. auto.
    - exact S'.
    - exists (es ++ es2). apply block_run_app. exists st, es, es2. auto.
  Qed.
  Lemma od0 : ordinary lm st0. Proof. apply default_ordinary_any. Qed.
  Lemma reuse_outcome ps st p q es : after ps st -> grammar_program p -> machine_program p -> ordered_locations p ->
    ((exists st', analyze_ast st p = Ok (st', mkResult (Some q) es)) <-> reused_gives lm api ps p q es).
  Proof.
    intros [G M Sp (es0 & R)] Gp Mp O.
    destruct (block_outcome lm api L _ G M 0 [] [] [] _ (point_default lm api od0)) as [F1 F2].
    assert (G' : Forall grammar_statement (flat_map prog_statements ps ++ prog_statements p)) by (apply Forall_app; auto).
    assert (M' : Forall machine_statement (flat_map prog_statements ps ++ prog_statements p)) by (apply Forall_app; auto).
    destruct (block_outcome lm api L _ G' M' 0 [] [] [] _ (point_default lm api od0)) as [F1' F2'].
    destruct (F1 _ _ R) as (n & vars & ds0 & xs0 & H0 & P0). cbn [app] in P0.
    pose proof (pt_api _ _ _ _ _ _ _ P0) as Api.
    assert (S : forall st' r q', analyze_ast st p = Ok (st', r) -> res_root r = Some q' -> spans_statements (sp_block q')).
    { intros st' r q' A Q. exact (proj2 (analyze_spans _ _ _ _ A O Sp) q' Q). }
    split.
    - intros (st' & A). pose proof (S _ _ _ A eq_refl) as Sq. apply analyze_ast_inv in A. destruct A as (v' & es1 & es2 & s & rest & V & B & Sc & E & _). injection E as -> ->.
      rewrite Api in *. cbn [sp_block] in *. apply (version_outcome api _ _ _ _ Sv) in V.
      assert (B' : block_run st0 (flat_map prog_statements ps ++ prog_statements p) st' (es0 ++ es2)) by (apply block_run_app; exists st, es0, es2; auto).
      destruct (F1' _ _ B') as (n' & vars' & ds & ys & H & P). cbn [app] in P.
      pose proof (pt_statements _ _ _ _ _ _ _ P) as X. pose proof (pt_variables _ _ _ _ _ _ _ P) as Y. unfold statements_of, variables_of in X, Y. rewrite Sc in X, Y.
      rewrite Y. econstructor; [exact V|exact H0| |exact Sq]. now rewrite X.
    - intros H. destruct H as [v ves ds1 xs1 es1 ds b es2 V H1 H Sb]. apply (version_outcome api _ _ _ _ Sv) in V.
      destruct (F2 _ _ _ H1) as (n1 & vars1 & st1 & B1 & _). destruct (block_run_unique _ _ _ _ _ _ R B1) as [<- <-].
      destruct (F2' _ _ _ H) as (n' & vars' & st' & B & P). cbn [app] in P.
      apply block_run_app in B. destruct B as (st2 & e1 & e2 & B2 & B & E). destruct (block_run_unique _ _ _ _ _ _ R B2) as [<- <-]. apply app_inv_head in E. subst e2.
      destruct (re_scope _ _ _ P) as [s Sc].
      pose proof (pt_statements _ _ _ _ _ _ _ P) as X. pose proof (pt_variables _ _ _ _ _ _ _ P) as Y. unfold statements_of, variables_of in X, Y. rewrite Sc in X, Y.
      assert (I : inv true st').
      { eapply (inv_block lm); [apply block_run_app; exists st, es0, es2; split; [exact R|split; [exact B|reflexivity]]|exact od0|apply inv_default|].
        intros _. eapply Forall_impl; [|exact G']. intros s0 (_ & J & _). exact J. }
      rewrite <- Api in V.
      pose proof (analyze_ast_intro st p v ves st' es2 s [] V B Sc) as A. rewrite Api in A.
      specialize (A (fun _ => inv_well_formed st' s [] api v (prog_version_loc p) I Sc)).
      exists st'. rewrite A. rewrite Y. do 5 f_equal. apply spans_unique; [apply (S _ _ _ A eq_refl)|exact Sb|exact X].
  Qed.
  Lemma reuse_total ps st p : after ps st -> grammar_program p ->
    (exists st' q es, analyze_ast st p = Ok (st', mkResult (Some q) es)) \/ (exists k, analyze_ast st p = UB k).
  Proof.
    intros [G M Sp (es0 & R)] Gp. pose proof R as R'.
    destruct (block_outcome lm api L _ G M 0 [] [] [] _ (point_default lm api od0)) as [F1 _].
    destruct (F1 _ _ R) as (n & vars & ds0 & xs0 & _ & P0). pose proof (re_ordinary _ _ _ P0) as Od.
    destruct (visit_version (api_version st) (prog_version p) (prog_version_loc p)) as [r es1] eqn:Ev.
    destruct (visit_version_ok _ _ _ _ _ Ev) as [v ->].
    destruct (block_total lm (prog_block_loc p) (prog_statements p) Gp st Od) as [(st' & es2 & B)|(k & es2 & B)].
    - left. apply block_run_iff in B.
      assert (I : inv true st').
      { eapply (inv_block lm); [apply block_run_app; exists st, es0, es2; split; [exact R|split; [exact B|reflexivity]]|exact od0|apply inv_default|].
        intros _. apply Forall_app. split; [eapply Forall_impl; [|exact G]; intros s0 (_ & J & _); exact J|now apply grammar_indexed]. }
      destruct (inv_scope _ _ I) as [g Eg].
      rewrite (analyze_ast_intro st p v es1 st' es2 g [] Ev B Eg); [eauto|]. intros _. eapply inv_well_formed; eauto.
    - right. exists k. unfold analyze_ast, visit_program. rewrite Ev. cbn [lbind]. rewrite B. reflexivity.
  Qed.
  Lemma reuse_undefined ps st p : after ps st -> grammar_program p -> machine_program p -> ordered_locations p ->
    ((exists k, analyze_ast st p = UB k) <-> forall q es, ~ reused_gives lm api ps p q es).
  Proof.
    intros A G M O. split.
    - intros (k & E) q es H. apply (reuse_outcome ps st p q es A G M O) in H. destruct H as [st' H]. rewrite H in E. discriminate.
    - intros N. destruct (reuse_total ps st p A G) as [(st' & q & es & E)|U]; [|exact U]. exfalso. apply (N q es), (reuse_outcome ps st p q es A G M O). eauto.
  Qed.
End Reuse.

Lemma analysed_after lm text api ps st : version_text text api -> version_same api [3; 0]%Z ->
  has_analysed lm text ps st -> Forall (fun p => grammar_program p /\ machine_program p /\ ordered_locations p) ps -> after lm api ps st.
Proof.
  intros T S H. induction H as [st D|ps st p st' r H IH E]; intros F.
  - rewrite (version_text_analyzer lm text api T S) in D. injection D as <-. apply after_nothing.
  - apply Forall_app in F. destruct F as [F1 F2]. inversion F2 as [|? ? (G & M & O) _]; subst. eapply after_one; eauto.
Qed.
