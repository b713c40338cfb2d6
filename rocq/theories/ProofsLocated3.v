(** Locations of the values of a result (C81): texts. *)
From Verif Require Import Base ModelUtils ModelVersion ModelError ModelTypes ModelOverload ModelFunctions ModelInstructionSet ModelAst ModelAnalyzer ModelSemantic ModelLocated ModelLexer ModelSyntactic
  SpecUtils SpecTypes SpecFunctions SpecInstructions SpecAnalyzer SpecLocated SpecLexer SpecParser SpecSyntax SpecLiteral SpecTree SpecReading SpecSites
  ProofsAnalyzer ProofsAnalyzer2 ProofsSites ProofsLocated2 PropertiesSyntax.
Local Open Scope string_scope.

Lemma expr_site e : exists P, In (expr_loc e, P) (expr_sites e).
Proof. destruct e; cbn [expr_loc expr_sites]; eexists; now left. Qed.
Lemma values_sites es vs v : Forall2 value_of_expr es vs -> In v vs -> exists P, In (lv_loc v, P) (flat_map expr_sites es).
Proof.
  induction 1 as [|e w es vs [L _] _ IH]; [contradiction|]. cbn [flat_map]. intros [<-|I].
  - rewrite L. destruct (expr_site e) as [P H]. exists P. apply in_or_app. now left.
  - destruct (IH I) as [P H]. exists P. apply in_or_app. now right.
Qed.
Lemma gate_value_sites g g' v : gate_of g g' -> In v (gate_parameters g') -> exists P, In (lv_loc v, P) (gate_sites g).
Proof.
  induction 1 as [l n ps an ps' an' F|l n g ps an g' ps' an' _ IH F]; cbn [gate_parameters gate_sites]; intros I.
  - rewrite app_nil_r in I. destruct (values_sites _ _ _ F I) as [P H]. exists P. now right.
  - apply in_app_or in I. destruct I as [I|I]; [destruct (values_sites _ _ _ F I) as [P H]|destruct (IH I) as [P H]]; exists P; right; apply in_or_app; auto.
Qed.
Lemma statement_value_sites s x v : statement_of s x -> In v (statement_values x) -> exists P, In (lv_loc v, P) (statement_sites s).
Proof.
  intros [l g ops an r g' ops' an' G F|l n ops ps an r ops' ps' an' Fo Fp|l n c an an']; cbn [statement_values statement_sites]; intros I; [| |contradiction];
    apply in_app_or in I; destruct I as [I|I].
  - destruct (values_sites _ _ _ F I) as [P H]. exists P. right. apply in_or_app. now right.
  - destruct (gate_value_sites _ _ _ G I) as [P H]. exists P. right. apply in_or_app. now left.
  - destruct (values_sites _ _ _ Fo I) as [P H]. exists P. right. apply in_or_app. now left.
  - destruct (values_sites _ _ _ Fp I) as [P H]. exists P. right. apply in_or_app. now right.
Qed.
Lemma some_of_in ss xs x : some_of ss xs -> In x xs -> exists s, In s ss /\ statement_of s x.
Proof.
  induction 1 as [|s ss xs _ IH|s y ss xs S _ IH]; intros I; [contradiction| |].
  - destruct (IH I) as (t & It & St). exists t. split; [now right|exact St].
  - destruct I as [->|I]; [exists s; split; [now left|exact S]|]. destruct (IH I) as (t & It & St). exists t. split; [now right|exact St].
Qed.
Lemma values_in_text keep lm file rtl data s st p st' r ls : ordinary lm st -> text_of data s -> utf8 s -> parse_string file rtl data = Ok (mkResult (Some p) []) ->
  lanalyze_ast keep st p = Ok (st', r, ls) -> Forall (fun x => Forall (fun v => exists l, lv_loc v = Some l /\ in_text file s l) (statement_values x)) ls.
Proof.
  intros O T U E A. assert (Q : exists q, res_root r = Some q).
  { unfold lanalyze_ast in A. destruct (lvisit_program keep st p) as [[[[st1 sp] ls1]|e|w|k] es]; try discriminate. destruct es; [destruct (program_well_formed sp); [|discriminate]|]; injection A as <- <- <-; eexists; reflexivity. }
  destruct Q as (q & Q). destruct (analyze_of keep lm st p st' r ls q O A Q) as [_ F]. apply Forall_forall. intros x Ix. destruct (some_of_in _ _ _ F Ix) as (t & It & St).
  apply Forall_forall. intros v Iv. destruct (statement_value_sites _ _ _ St Iv) as [P H]. destruct (C53_locations file rtl data s p T U E) as [Pl _]. rewrite Forall_forall in Pl.
  assert (I : In (lv_loc v, P) (program_sites p)) by (right; apply in_flat_map; eauto). destruct (Pl _ I) as [(a & tx & b & Es & _ & L) _]. cbn [fst] in L. eexists. split; [exact L|]. exists a, tx, b. auto.
Qed.
