(** The file name only labels the output (C57). *)
From Verif Require Import Base ModelUtils ModelVersion ModelError ModelTypes ModelFunctions ModelAst ModelLexer ModelParser ModelAnalyzer ModelSemantic ModelSyntactic
  SpecInstructions SpecAnalyzer SpecRelocate ProofsExpr ProofsFunctions ProofsAnalyzer ProofsAnalyzer2 ProofsRelocate ProofsLayout2.
Local Open Scope string_scope.

Lemma visit_block_not_err l ss : forall st e es, visit_block l st ss <> (Err e, es).
Proof.
  induction ss as [|s ss IH]; intros st e es; [discriminate|]. rewrite visit_block_cons. intros H. apply lbind_err in H.
  destruct H as [H|(st1 & e1 & e2 & H1 & H2 & _)]; [exact (visit_statement_not_err _ _ _ _ H)|exact (IH _ _ _ H2)].
Qed.
Lemma analyze_not_err st r e : analyze st r <> Err e.
Proof.
  unfold analyze. destruct r as [[p|] [|x es]]; cbn [res_errors res_root]; try discriminate. unfold analyze_ast. destruct (visit_program st p) as [[[st1 sp]|e1|w|k] es] eqn:V; try discriminate.
  - destruct es; [|discriminate]. destruct (program_well_formed sp); discriminate.
  - exfalso. unfold visit_program in V. apply lbind_err in V. destruct V as [V|(v & e2 & e3 & _ & V & _)]; [unfold visit_version in V; exact (catch_log_not_err _ _ _ _ _ V)|].
    apply lbind_err in V. destruct V as [V|(st2 & e4 & e5 & _ & V & _)]; [exact (visit_block_not_err _ _ _ _ _ V)|].
    apply lbind_err in V. destruct V as [V|(sc & e6 & e7 & _ & V & _)]; [|discriminate V]. unfold current_scope in V. destruct (scopes st2); discriminate V.
Qed.
Lemma omap_not_err {A B} f (g : A -> B) (m : outcome error A) : (forall e, m <> Err e) -> omap f g m = map_outcome g m.
Proof. intros H. destruct m; try reflexivity. now destruct (H e). Qed.

Lemma analyze_string_in_file lm st rtl data f1 f2 : ordinary lm st ->
  analyze_string rtl (relocate_analyzer (in_file f2) st) data f2 =
  map_outcome (relocate_analysis (in_file f2)) (analyze_string rtl st data f1).
Proof.
  intros Hst. unfold analyze_string. rewrite (parse_in_file f1 f2). unfold map_outcome. destruct (parse_string f1 rtl data) as [r|e|w|k]; cbn [bind]; try reflexivity.
  rewrite (rel_analyze _ (in_file_compatible f2) lm st r Hst). apply omap_not_err. intros e. apply analyze_not_err.
Qed.
