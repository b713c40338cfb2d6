(** Nodes in memory (C97): each kind of statement, blocks, programs. *)
From Coq Require Import ZifyBool ZifyNat.
From Verif Require Import Base ModelUtils ModelVersion ModelError ModelTypes ModelOverload ModelFunctions ModelInstructionSet ModelAst ModelAnalyzer ModelSemantic ModelLocated
  SpecTypes SpecFunctions SpecInstructions SpecAnalyzer ProofsTypes ProofsFunctions ProofsFolding ProofsExpr ProofsInstructions ProofsGates
  ProofsAnalyzer ProofsAnalyzer2 ProofsLocated ModelNodes SpecNodes ProofsNodes ProofsNodes2 ProofsNodes3.
Local Open Scope list_scope.

Lemma answers_base {A B} o h0 h (m : heap * logged A) (p : logged B) R : keeps h0 h -> answers o h m p R -> answers o h0 m p R.
Proof. intros K (G & E & M). split; [exact (keeps_but_trans _ _ _ _ (keeps_but_keeps _ _ _ K) G)|]. split; [exact E|]. destruct (fst (snd m)), (fst p); auto. destruct M as [-> K']. split; [reflexivity|exact (keeps_trans _ _ _ K K')]. Qed.
Lemma new_statement h h4 m st l nd x : analyzer_in h m st -> keeps h h4 -> owned (List.length h) h4 (children nd) -> read_statement (h4 ++ [mkCell l nd]) (List.length h4) = Some x ->
  answers (current_node m) h4 ((let^ s := alloc (mkCell l nd) in let^ _ := hadd_statement m s in hret m) h4) (lift (ladd_statement st x)) (after h m).
Proof.
  intros A K O R. rewrite alloc_bind. apply (answers_base _ _ _ _ _ _ (keeps_snoc h4 (mkCell l nd))). apply hadd_agrees; [exact A|exact (keeps_trans _ _ _ K (keeps_snoc _ _))| |exact R].
  apply owned_new; [exact (keeps_length _ _ K)|exact O].
Qed.

Section Keep.
  Variable keep : bool.
  Variable m : hanalyzer.
  Variable st : analyzer.

  Lemma gate_instruction_agrees h l g ops ans : analyzer_in h m st -> answers (current_node m) h (hvisit_gate_instruction keep m l g ops ans h) (lvisit_gate_instruction keep st l g ops ans) (after h m).
  Proof.
    intros A. pose proof (analyzer_knows _ _ _ A) as Kn. unfold hvisit_gate_instruction, lvisit_gate_instruction. apply answers_catch; [|intros h' K; apply after_nothing; [exact K|exact A]].
    eapply answers_then; [apply hvisit_gate_agrees, Kn|]. intros h1 a g' K1 [Rg Og]. pose proof (knows_keeps _ _ _ _ K1 Kn) as Kn1.
    eapply answers_then; [apply hvisit_list_agrees, Kn1|]. intros h2 vs ws K2 [R O]. rewrite (peek_bind _ _ _ g') by exact (gate_keeps _ _ _ _ K2 Rg). pose proof (knows_keeps _ _ _ _ K2 Kn1) as Kn2.
    eapply answers_then; [apply hresolve_instruction_agrees; [exact Kn2|exact R]|]. intros h3 x y K3 [E P]. rewrite E. pose proof (promoted_Vs _ _ _ _ _ _ (keeps_length _ _ K2) O P) as [Rp Op].
    rewrite (peek_bind _ _ _ (snd y)) by exact Rp. eapply answers_then; [apply agrees_lift, keeps_refl|]. intros ? ? ? _ (-> & _). pose proof (knows_keeps _ _ _ _ K3 Kn2) as Kn3.
    eapply answers_then; [apply hvisit_annotated_agrees, Kn3|]. intros h4 ans' sans K4 [Ra Oa]. pose proof (keeps_trans _ _ _ K2 K3) as K23.
    apply new_statement; [exact A|exact (keeps_trans _ _ _ K1 (keeps_trans _ _ _ K23 K4))| |].
    - cbn [children]. apply (owned_seq _ h1 h4 [a]); [exact (keeps_length _ _ K1)|exact Og|exact (keeps_trans _ _ _ K23 K4)|]. exact (owned_seq _ _ _ _ _ (keeps_length _ _ K23) Op K4 Oa).
    - unfold read_statement. rewrite nth_snoc. pose proof (keeps_snoc h4 (mkCell l (NGateInstr (fst y) a (snd x) ans'))) as K5.
      rewrite (gate_keeps _ _ _ _ (keeps_trans _ _ _ K23 (keeps_trans _ _ _ K4 K5)) Rg), (reads_keeps _ _ _ _ K5 (reads_keeps _ _ _ _ K4 Rp)), (same_annotations _ _ (keeps_stays _ _ K5) _ _ Ra). reflexivity.
  Qed.
  Lemma non_gate_agrees h l n ops ps ans : analyzer_in h m st -> answers (current_node m) h (hvisit_non_gate_instruction keep m l n ops ps ans h) (lvisit_non_gate_instruction keep st l n ops ps ans) (after h m).
  Proof.
    intros A. pose proof (analyzer_knows _ _ _ A) as Kn. unfold hvisit_non_gate_instruction, lvisit_non_gate_instruction. apply answers_catch; [|intros h' K; apply after_nothing; [exact K|exact A]].
    eapply answers_then; [apply hvisit_list_agrees, Kn|]. intros h2 vs ws K2 [R O]. pose proof (knows_keeps _ _ _ _ K2 Kn) as Kn2.
    eapply answers_then; [apply hresolve_instruction_agrees; [exact Kn2|exact R]|]. intros h3 x y K3 [E P]. rewrite E. pose proof (promoted_Vs _ _ _ _ _ _ (keeps_length _ _ K2) O P) as [Rp Op]. pose proof (knows_keeps _ _ _ _ K3 Kn2) as Kn3.
    eapply answers_then; [apply hvisit_list_agrees, Kn3|]. intros h4 qs us K4 [Rq Oq]. eapply answers_then; [apply hparameters_agrees, Rq|]. intros h5 qs' us' K5 Y. pose proof (promoted_Vs _ _ _ _ _ _ (keeps_length _ _ K4) Oq Y) as [Rq' Oq'].
    pose proof (keeps_trans _ _ _ K4 K5) as K45. pose proof (keeps_trans _ _ _ K2 K3) as K23.
    rewrite (peek_bind _ _ _ (snd y)) by exact (reads_keeps _ _ _ _ K45 Rp). eapply answers_then; [apply agrees_lift, keeps_refl|]. intros ? ? ? _ (-> & _). pose proof (knows_keeps _ _ _ _ K45 Kn3) as Kn5.
    eapply answers_then; [apply hvisit_annotated_agrees, Kn5|]. intros h6 ans' sans K6 [Ra Oa].
    apply new_statement; [exact A|exact (keeps_trans _ _ _ K23 (keeps_trans _ _ _ K45 K6))| |].
    - cbn [children]. apply (owned_seq _ h3 h6); [exact (keeps_length _ _ K23)|exact Op|exact (keeps_trans _ _ _ K45 K6)|]. exact (owned_seq _ _ _ _ _ (keeps_length _ _ K45) Oq' K6 Oa).
    - unfold read_statement. rewrite nth_snoc. pose proof (keeps_snoc h6 (mkCell l (NNonGate (fst y) n (snd x) qs' ans'))) as K7.
      rewrite (reads_keeps _ _ _ _ (keeps_trans _ _ _ K45 (keeps_trans _ _ _ K6 K7)) Rp), (reads_keeps _ _ _ _ (keeps_trans _ _ _ K6 K7) Rq'), (same_annotations _ _ (keeps_stays _ _ K7) _ _ Ra). reflexivity.
  Qed.
  Lemma asm_agrees h l n c ans : analyzer_in h m st -> answers (current_node m) h (hvisit_asm_declaration keep m l n c ans h) (lvisit_asm_declaration st l n c ans) (after h m).
  Proof.
    intros A. pose proof (analyzer_knows _ _ _ A) as Kn. unfold hvisit_asm_declaration, lvisit_asm_declaration. apply answers_catch; [|intros h' K; apply after_nothing; [exact K|exact A]].
    eapply answers_then; [apply hvisit_annotated_agrees, Kn|]. intros h6 ans' sans K6 [Ra Oa]. apply new_statement; [exact A|exact K6|exact Oa|].
    unfold read_statement. rewrite nth_snoc. now rewrite (same_annotations _ _ (keeps_stays _ _ (keeps_snoc h6 (mkCell l (NAsm n c ans')))) _ _ Ra).
  Qed.
End Keep.

Lemma add_variable_agrees h h4 m st v x : analyzer_in h m st -> keeps h h4 -> owned (List.length h) h4 [v] -> read_variable h4 v = Some x ->
  agrees h4 (hadd_variable m v h4) (lift (add_variable st x)) (fun h' m' st' => h' = h4 /\ analyzer_in h4 m' st' /\ current_node m' = current_node m /\ grows h m h4 m').
Proof.
  intros A K O R. pose proof (analyzer_keeps _ _ _ _ K A) as A4. unfold hadd_variable, hupdate_current, add_variable, update_current.
  destruct A as (_ & _ & Sc0 & ns & T0 & _ & X0). destruct A4 as (Av & An & Sc & ns4 & T & D & X). assert (ns4 = ns) as -> by (apply (proj2 (trees_unique h4) (roots (h_scopes m))); [exact T|exact (trees_keeps _ _ _ _ K T0)]).
  pose proof (proj1 (Forall_forall _ _) (proj2 (trees_lt h) _ _ T0)) as Lt0. cbn beta in Lt0. destruct O as (os & To & Do & Fo). rewrite Forall_forall in Fo.
  unfold current_node. destruct (h_scopes m) as [|sc rest] eqn:Hm, (scopes st) as [|ss srest] eqn:Hs; try (now inversion Sc).
  cbn [bind lift hlift]. unfold hbind, hlift, hret. cbn [lift fst snd app]. split; [apply keeps_refl|]. split; [reflexivity|]. cbn [fst snd]. split; [reflexivity|].
  assert (Gr : grows h m h4 (mkHAnalyzer (h_version m) (mkHScope (hs_table sc) (hs_functions sc) (hs_instructions sc) (hs_block sc) (hs_variables sc ++ [v]) :: rest) (h_next m))).
  { intros ms ms' Tm Tm' z I. rewrite Hm in Tm. rewrite <- (proj2 (trees_unique h) _ _ T0 _ Tm). cbn [h_scopes roots flat_map hs_block hs_variables] in T, Tm'. apply trees_app_inv in T. destruct T as (n1 & n2 & -> & T1 & T2).
    assert (Ts : trees_at h4 ((hs_block sc :: hs_variables sc ++ [v]) ++ roots rest) ((n1 ++ os) ++ n2)) by (apply trees_app; [rewrite app_comm_cons; apply trees_app; [exact T1|exact To]|exact T2]).
    rewrite <- (proj2 (trees_unique h4) _ _ Ts _ Tm') in I. rewrite !in_app_iff in *. destruct I as [[I|I]|I]; try tauto. right. exact (Fo _ I). }
  split; [|split; [reflexivity|exact Gr]].
  split; [exact Av|]. split; [exact An|]. cbn [h_scopes scopes]. inversion Sc as [|? ? ? ? (S1 & S2 & S3 & S4 & S5) Sr]; subst. split.
  - constructor; [|exact Sr]. split; [exact S1|]. split; [exact S2|]. split; [exact S3|]. split; [exact S4|]. cbn [hs_variables sc_variables]. apply omap_app; [exact S5|]. cbn. now rewrite R.
  - cbn [roots flat_map] in T |- *. cbn [hs_block hs_variables]. apply trees_app_inv in T. destruct T as (n1 & n2 & -> & T1 & T2). destruct (nodup_app_inv _ _ D) as (D1 & D2 & D3).
    assert (Dis : forall z, In z os -> In z (n1 ++ n2) -> False) by (intros z I J; specialize (Fo z I); specialize (Lt0 z J); cbn in Fo; lia).
    exists ((n1 ++ os) ++ n2). split; [|split].
    + apply trees_app; [|exact T2]. rewrite app_comm_cons. apply trees_app; [exact T1|exact To].
    + apply nodup_app; [apply nodup_app; [exact D1|exact Do|]|exact D2|].
      * intros z I J. apply (Dis z J). apply in_or_app. now left.
      * intros z I J. apply in_app_or in I. destruct I as [I|I]; [exact (D3 z I J)|]. apply (Dis z I). apply in_or_app. now right.
    + intros s1 y ms z I J Ty Iz. assert (exists s0, In s0 (sc :: rest) /\ In y (hs_table s0)) as (s0 & I0 & J0) by (destruct I as [<-|I]; [exists sc; split; [now left|exact J]|exists s1; split; [now right|exact J]]).
      pose proof (X s0 y ms z I0 J0 Ty Iz) as N. rewrite !in_app_iff in *. intros [[I1|I1]|I1]; try tauto.
      destruct (table_value h m st s0 y) as (v0 & Rv); [rewrite Hm, Hs; exact Sc0|rewrite Hm; exact I0|exact J0|]. destruct (value_tree _ _ _ Rv) as (ms' & Ty').
      assert (ms' = ms) as -> by (apply (proj1 (trees_unique h4) (snd y)); [exact (tree_keeps _ _ _ _ K Ty')|exact Ty]).
      pose proof (proj1 (Forall_forall _ _) (proj1 (trees_lt h) _ _ Ty') _ Iz) as Lz. pose proof (Fo _ I1) as Ge. cbn in Lz, Ge. lia.
Qed.
Lemma register_agrees h m st n x : analyzer_in h m st ->
  let h' := h ++ [mkCell None (NVar x)] in
  agrees h' (hregister_variable m n (List.length h) h') (lift (register_variable st n (VVar x))) (fun h2 m' st' => h2 = h' /\ analyzer_in h' m' st' /\ current_node m' = current_node m /\ roots (h_scopes m') = roots (h_scopes m)).
Proof.
  intros A h'. pose proof (keeps_snoc h (mkCell None (NVar x))) as K. fold h' in K. pose proof (analyzer_keeps _ _ _ _ K A) as A4. unfold hregister_variable, hupdate_current, register_variable, update_current, variable_add.
  destruct A as (_ & _ & Sc0 & ns & T0 & _ & X0). destruct A4 as (Av & An & Sc & ns4 & T & D & X). assert (ns4 = ns) as -> by (apply (proj2 (trees_unique h') (roots (h_scopes m))); [exact T|exact (trees_keeps _ _ _ _ K T0)]).
  pose proof (proj1 (Forall_forall _ _) (proj2 (trees_lt h) _ _ T0)) as Lt0. cbn beta in Lt0.
  unfold current_node. destruct (h_scopes m) as [|sc rest] eqn:Hm, (scopes st) as [|ss srest] eqn:Hs; try (now inversion Sc).
  inversion Sc as [|? ? ? ? (S1 & S2 & S3 & S4 & S5) Sr]; subst. pose proof (table_find_in _ _ _ n S3) as F. destruct (table_find n (hs_table sc)), (table_find n (sc_variables_table ss)); try contradiction.
  { split; [apply keeps_refl|]. split; reflexivity. }
  cbn [bind lift hlift]. unfold hbind, hlift, hret. cbn [lift fst snd app]. split; [apply keeps_refl|]. split; [reflexivity|]. cbn [fst snd]. split; [reflexivity|]. split; [|split; [reflexivity|reflexivity]].
  assert (E : nth_error h' (List.length h) = Some (mkCell None (NVar x))) by apply nth_snoc.
  split; [exact Av|]. split; [exact An|]. cbn [h_scopes scopes]. split.
  - constructor; [|exact Sr]. split; [exact S1|]. split; [exact S2|]. split; [|split; [exact S4|exact S5]]. cbn [hs_table sc_variables_table]. apply Forall2_app; [exact S3|]. constructor; [|constructor]. split; [reflexivity|]. cbn [snd]. unfold read_value. now rewrite E.
  - exists ns. split; [exact T|]. split; [exact D|]. intros s1 y ms z [<-|I] J Ty Iz.
    + cbn [hs_table] in J. apply in_app_or in J. destruct J as [J|[<-|[]]]; [exact (X sc y ms z (or_introl eq_refl) J Ty Iz)|]. cbn [snd] in Ty.
      inversion Ty as [? c ? Ec Tc]; subst. rewrite E in Ec. injection Ec as <-. cbn in Tc. inversion Tc; subst. destruct Iz as [<-|[]]. intros I. specialize (Lt0 _ I). lia.
    + exact (X s1 y ms z (or_intror I) J Ty Iz).
Qed.

Lemma after_same h m h' m' st' : analyzer_in h' m' st' -> keeps h h' -> current_node m' = current_node m -> grows h m h' m' -> after h m h' m' (st', []).
Proof.
  intros A K C Gr. split; [exact A|]. split; [exact C|]. split; [exact Gr|]. intros ss B. exists []. rewrite app_nil_r. split; [|split; [reflexivity|apply owned_nil]].
  unfold block_list in *. rewrite C. destruct (current_node m) as [b|]; [|discriminate]. destruct (nth_error h b) as [c|] eqn:E; [|discriminate]. now rewrite (K _ _ E).
Qed.
Section Keep2.
  Variable keep : bool.
  Lemma variable_agrees m st h l n t ans : analyzer_in h m st -> agrees h (hvisit_variable keep m l n t ans h) (visit_variable st l n t ans) (fun h' m' st' => after h m h' m' (st', [])).
  Proof.
    intros A0. pose proof (analyzer_next _ _ _ A0) as A. assert (Ei : h_next m = next_id st) by apply A0. unfold hvisit_variable, visit_variable. cbv zeta. rewrite Ei in *. set (m0 := mkHAnalyzer _ _ _) in *.
    apply agrees_catch; [|intros h' K; apply after_same; [exact (analyzer_keeps _ _ _ _ K A)|exact K|reflexivity|exact (grows_later h m h m st h' m0 A0 (grows_refl _ _) K eq_refl)]].
    eapply agrees_then; [apply agrees_lift, keeps_refl|]. intros ? ty ? _ (-> & <- & _). rewrite alloc_bind. set (h1 := h ++ [mkCell None (NType ty)]). rewrite alloc_bind. set (h2 := h1 ++ [mkCell None (NType ty)]). set (ta := List.length h1).
    assert (K1 : keeps h h1) by apply keeps_snoc. assert (K2 : keeps h1 h2) by apply keeps_snoc. pose proof (keeps_trans _ _ _ K1 K2) as K12. apply (agrees_base _ _ _ _ _ K12).
    assert (E2 : nth_error h2 ta = Some (mkCell None (NType ty))) by apply nth_snoc.
    eapply agrees_then; [apply hvisit_annotated_agrees; exact (knows_keeps _ _ _ _ K12 (analyzer_knows _ _ _ A))|]. intros h3 ans' sans K3 [Ra Oa]. cbv zeta. rewrite alloc_bind.
    set (x := mkVariable (next_id st) n ty). set (cv := mkCell None (NVariable x ta ans')). set (h4 := h3 ++ [cv]). assert (K4 : keeps h3 h4) by apply keeps_snoc. pose proof (keeps_trans _ _ _ K12 (keeps_trans _ _ _ K3 K4)) as K.
    apply (agrees_base _ _ _ _ _ K4). eapply agrees_then.
    { apply (add_variable_agrees h h4 m0 (fresh st) (List.length h3) (mkSemVariable x sans) A K).
      - apply owned_new; [exact (keeps_length _ _ (keeps_trans _ _ _ K12 K3))|]. cbn [children]. apply (owned_seq _ h2 h3 [ta]); [exact (keeps_length _ _ K12)| |exact K3|exact Oa].
        apply owned_new; [exact (keeps_length _ _ K1)|apply owned_nil].
      - unfold read_variable. replace (nth_error h4 (List.length h3)) with (Some cv) by (symmetry; apply nth_snoc). unfold cv. cbn [c_node]. rewrite (K4 _ _ (K3 _ _ E2)). rewrite (same_annotations _ _ (keeps_stays _ _ K4) _ _ Ra). reflexivity. }
    intros ? m1 st1 _ (-> & A1 & C1 & Gr1). rewrite alloc_bind. pose proof (keeps_snoc h4 (mkCell None (NVar x))) as K5. apply (agrees_base _ _ _ _ _ K5).
    apply agrees_catch; [|intros h' K'; apply after_same; [exact (analyzer_keeps _ _ _ _ (keeps_trans _ _ _ K5 K') A1)|exact (keeps_trans _ _ _ K (keeps_trans _ _ _ K5 K'))|exact C1|exact (grows_later h m h4 m1 st1 h' m1 A1 Gr1 (keeps_trans _ _ _ K5 K') eq_refl)]].
    eapply agrees_mono; [|apply register_agrees, A1]. intros ? m2 st2 _ (-> & A2 & C2 & E2'). apply after_same; [exact A2|exact (keeps_trans _ _ _ K K5)|now rewrite C2|exact (grows_later h m h4 m1 st1 _ m2 A1 Gr1 K5 E2')].
  Qed.
  Lemma statement_agrees m st h s : analyzer_in h m st -> answers (current_node m) h (hvisit_statement keep m s h) (lvisit_statement keep st s) (after h m).
  Proof.
    intros A. destruct s as [l n t ans|l g ops ans|l n ops ps ans|l n c ans]; cbn [hvisit_statement lvisit_statement].
    - pose proof (variable_agrees m st h l n t ans A) as G. apply answers_agrees. unfold agrees in *. destruct (hvisit_variable keep m l n t ans h) as [h1 [r es]], (visit_variable st l n t ans) as [r' es']. cbn [fst snd] in G |- *. destruct G as (K & -> & M). cbn [fst snd].
      split; [exact K|]. destruct r, r'; try contradiction; cbn; rewrite ?app_nil_r; (split; [reflexivity|]); exact M.
    - apply gate_instruction_agrees, A.
    - apply non_gate_agrees, A.
    - apply asm_agrees, A.
  Qed.
End Keep2.
