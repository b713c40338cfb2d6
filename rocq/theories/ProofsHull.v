(** The location of the block of a result (C80). *)
From Verif Require Import Base ModelUtils ModelVersion ModelError ModelTypes ModelOverload ModelFunctions ModelInstructionSet ModelAst ModelAnalyzer ModelSemantic ModelLexer ModelSyntactic
  SpecUtils SpecError SpecPlace SpecAnalyzer SpecHull SpecLexer SpecParser SpecSyntax SpecLiteral SpecTree SpecReading SpecSites ProofsError ProofsFunctions ProofsAnalyzer ProofsAnalyzer2 ProofsTree ProofsReading ProofsSites ProofsText PropertiesSyntax.
Local Open Scope string_scope.

Lemma block_add_spans x b : (forall l, sem_statement_loc x = Some l -> ordered (loc_range l)) -> spans_statements b -> spans_statements (block_add x b).
Proof.
  intros O H. unfold spans_statements, block_add in *. cbn [blk_loc blk_statements]. unfold statement_locations. rewrite flat_map_app. fold (statement_locations (blk_statements b)).
  cbn [flat_map]. change place_of_result with sem_statement_loc. rewrite app_nil_r. destruct (sem_statement_loc x) as [sl|]; [specialize (O sl eq_refl)|].
  - destruct (blk_loc b) as [bl|].
    + destruct H as (l0 & ls & -> & F & Ob & E & L). exists l0, (ls ++ [sl])%list. split; [reflexivity|]. split; [exact F|].
      pose proof (expand_many_least [first (loc_range sl); last (loc_range sl)] (loc_range bl) Ob) as (O2 & E2 & C2 & L2).
      rewrite !expand_is_range. cbn [fold_left] in *. split; [exact O2|]. split.
      * intros s I. change (l0 :: ls ++ [sl])%list with ((l0 :: ls) ++ [sl])%list in I. apply in_app_or in I. destruct I as [I|[<-|[]]].
        -- exact (encloses_trans _ _ _ E2 (E s I)).
        -- split; [apply (C2 (first (loc_range sl))); now left|apply (C2 (last (loc_range sl))); right; now left].
      * intros r Hr. assert (Hb : encloses r (loc_range bl)) by (apply L; intros s I; apply Hr; destruct I as [<-|I]; [now left|right; apply in_or_app; now left]).
        assert (Hs : encloses r (loc_range sl)) by (apply Hr; right; apply in_or_app; right; now left). destruct Hs as [Hs1 Hs2]. destruct Hb as [Hb1 Hb2].
        apply L2; [exact (before_trans_ix _ _ _ Hs1 (before_trans_ix _ _ _ O Hs2))|split; assumption|].
        intros p [<-|[<-|[]]]; split; try assumption; [exact (before_trans_ix _ _ _ O Hs2)|exact (before_trans_ix _ _ _ Hs1 O)].
    + rewrite H. exists sl, []. split; [reflexivity|]. split; [reflexivity|]. split; [exact O|]. split; [intros s [<-|[]]; apply encloses_refl|]. intros r Hr. apply Hr. now left.
  - rewrite app_nil_r. exact H.
Qed.

Definition current_spans (st : analyzer) : Prop := match scopes st with [] => True | s :: _ => spans_statements (sc_block s) end.
Lemma effect_spans st s st' es : effect st s st' es -> (forall l, statement_loc s = Some l -> ordered (loc_range l)) -> current_spans st -> current_spans st'.
Proof.
  intros E O H. unfold current_spans in *. destruct E; unfold map_current, fresh; cbn [scopes]; try exact H; destruct (scopes st) as [|sc rest] eqn:Sc; cbn [scopes]; rewrite ?Sc; try exact I; try exact H;
    (apply block_add_spans; [exact O|exact H]).
Qed.
Lemma block_run_spans st ss st' es : block_run st ss st' es -> (forall s l, In s ss -> statement_loc s = Some l -> ordered (loc_range l)) -> current_spans st -> current_spans st'.
Proof.
  induction 1 as [|st s st1 es1 ss st2 es2 V R IH]; intros O H; [exact H|]. apply IH.
  - intros s' l I. apply O. now right.
  - apply (effect_spans st s st1 es1 (statement_effect _ _ _ _ V)); [|exact H]. intros l. apply O. now left.
Qed.
Lemma analyze_spans st p st' r : analyze_ast st p = Ok (st', r) -> ordered_locations p -> current_spans st ->
  current_spans st' /\ forall q, res_root r = Some q -> spans_statements (sp_block q).
Proof.
  intros E O H. destruct (analyze_ast_inv _ _ _ _ E) as (v & es1 & es2 & s & rest & _ & R & Sc & -> & _).
  assert (H' : current_spans st') by exact (block_run_spans _ _ _ _ R O H). split; [exact H'|]. intros q [= <-]. cbn [sp_block]. unfold current_spans in H'. rewrite Sc in H'. exact H'.
Qed.
Lemma has_analysed_spans lm api ps st : has_analysed lm api ps st -> Forall ordered_locations ps -> current_spans st.
Proof.
  induction 1 as [st D|ps st p st' r _ IH E]; intros O.
  - destruct (default_analyzer_inv _ _ _ D) as (v & _ & _ & ->). reflexivity.
  - apply Forall_app in O. destruct O as [O1 O2]. inversion O2; subst. exact (proj1 (analyze_spans _ _ _ _ E ltac:(assumption) (IH O1))).
Qed.
Lemma block_location lm api ps st p st' r q : has_analysed lm api ps st -> Forall ordered_locations ps -> ordered_locations p ->
  analyze_ast st p = Ok (st', r) -> res_root r = Some q -> spans_statements (sp_block q).
Proof. intros H O Op E. exact (proj2 (analyze_spans _ _ _ _ E Op (has_analysed_spans _ _ _ _ H O)) q). Qed.

Lemma parsed_ordered file rtl data s p : text_of data s -> utf8 s -> parse_string file rtl data = Ok (mkResult (Some p) []) -> ordered_locations p.
Proof.
  intros T U E st l I L. change (statement_loc st = Some l) in L. destruct (C53_locations file rtl data s p T U E) as [F _]. rewrite Forall_forall in F. unfold program_sites in F.
  assert (A : (exists n c an, st = SAsm None n c an) \/ exists P, In (statement_loc st, P) (statement_sites st)).
  { destruct st; cbn [statement_loc statement_sites]; try (right; eexists; now left). left. 
    apply (parse_reads file rtl data s p T U) in E. destruct E as (ts & c & _ & _ & _ & M). inversion M as [v x cs ss Mv Ms]; subst. cbn [prog_statements] in I.
    clear - Ms I. induction Ms as [|c' st' cs ss Mc Ms IH]; [contradiction|]. destruct I as [->|I]; [inversion Mc; subst; eauto|exact (IH I)]. }
  destruct A as [(n & c & an & ->)|[P IP]]; [discriminate|].
  assert (IS : In (statement_loc st, P) (flat_map statement_sites (prog_statements p))) by (apply in_flat_map; eauto).
  destruct (F _ (or_intror IS)) as [Pl _]. destruct (placed_ordered _ _ _ Pl) as (l' & E' & O'). cbn [fst] in E'. rewrite L in E'. injection E' as <-.
  destruct O' as (_ & _ & _ & _ & O'). exact O'.
Qed.
