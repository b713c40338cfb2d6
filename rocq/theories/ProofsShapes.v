(** Proofs for C102: the analysis of syntax trees of any shape. *)
From Verif Require Import Base ModelUtils ModelVersion ModelError ModelTypes ModelOverload ModelFunctions
  ModelInstructionSet ModelAst ModelAnalyzer ModelSemantic SpecUtils SpecTypes SpecFunctions SpecInstructions SpecAnalyzer SpecShapes
  ProofsVersion ProofsTypes ProofsFunctions ProofsFolding ProofsExpr ProofsInstructions ProofsGates ProofsAnalyzer ProofsAnalyzer2 ProofsAnalyzer3.
From Verif Require ProofsRename3.
Local Open Scope string_scope.

(** ** Only errors and undefined behaviour *)
Definition quiet {A} (m : logged A) : Prop := forall w, fst m <> Throw w.
Lemma quiet_lift {A} (m : outcome error A) : no_throw m -> quiet (lift m).
Proof. intros H w. exact (H w). Qed.
Lemma quiet_bind {A B} (m : logged A) (f : A -> logged B) : quiet m -> (forall a, fst m = Ok a -> quiet (f a)) -> quiet (lbind m f).
Proof.
  intros H K w. destruct m as [[a|e|w'|k] es]; cbn [lbind]; try discriminate.
  - specialize (K a eq_refl w). destruct (f a) as [r es']. exact K.
  - destruct (H w' eq_refl).
Qed.
Lemma quiet_catch {A} l (d : A) (m : logged A) : quiet m -> quiet (catch_log l d m).
Proof. intros H w. specialize (H w). destruct m as [[a|e|w'|k] es]; cbn in *; try discriminate. exact H. Qed.
Lemma quiet_context {A} l (m : logged A) : quiet m -> quiet (log_context l m).
Proof. intros H. unfold quiet, log_context. cbn [fst]. now apply no_throw_context. Qed.
Lemma caught {A} l (d : A) (m : logged A) : quiet m -> (exists a es, catch_log l d m = (Ok a, es)) \/ (exists k es, catch_log l d m = (UB k, es)).
Proof. intros H. destruct m as [[a|e|w|k] es]; cbn [catch_log]; [left; eauto|left; eauto|destruct (H w eq_refl)|right; eauto]. Qed.

Section Any.
  Variables (lm : libm) (st : analyzer).
  Hypothesis Hst : ordinary lm st.
  Lemma operands_quiet l es : quiet (visit_annotation_operands st l es).
  Proof.
    induction es as [|e es IH]; cbn [visit_annotation_operands]; [apply quiet_lift; discriminate|].
    apply quiet_bind.
    - apply quiet_catch, quiet_lift. pose proof (proj2 (visit_ordinary lm st Hst e)) as N. intros w. unfold map_outcome. destruct (visit st e) as [a|er|w'|k] eqn:E; try discriminate. exfalso. eapply N. reflexivity.
    - intros v _. apply quiet_bind; [exact IH|]. intros vs _. apply quiet_lift. discriminate.
  Qed.
  Lemma annotated_quiet l : quiet (visit_annotated st l).
  Proof.
    induction l as [|a l IH]; cbn [visit_annotated]; [apply quiet_lift; discriminate|].
    apply quiet_bind; [unfold visit_annotation_data; apply quiet_bind; [apply operands_quiet|intros; apply quiet_lift; discriminate]|].
    intros a' _. apply quiet_bind; [exact IH|]. intros. apply quiet_lift. discriminate.
  Qed.
  Lemma list_quiet es : quiet (lift (visit_expression_list st es)).
  Proof. apply quiet_lift, (visit_list_no_throw lm st Hst). Qed.
  Lemma parameters_quiet n es vs : fst (@lift (list value) (visit_expression_list st es)) = Ok vs -> quiet (lift (resolve_parameters n vs)).
  Proof. intros E. apply quiet_lift, resolve_parameters_no_throw, (visit_list_ordinary lm st Hst _ _ E). Qed.
  Lemma gate_quiet g : quiet (visit_gate st g).
  Proof.
    induction g as [l n ps an|l n g ps an IH] using gate_ind_full; rewrite visit_gate_unfold; apply quiet_context; apply quiet_bind.
    - apply quiet_lift. discriminate.
    - intros i _. apply quiet_bind; [apply list_quiet|]. intros vs E. apply quiet_bind; [eapply parameters_quiet, E|]. intros ws _.
      apply quiet_bind; [apply quiet_lift, check_gate_clean|]. intros u _. apply quiet_bind; [apply annotated_quiet|]. intros. apply quiet_lift. discriminate.
    - apply quiet_bind; [exact IH|]. intros. apply quiet_lift. discriminate.
    - intros i _. apply quiet_bind; [apply list_quiet|]. intros vs E. apply quiet_bind; [eapply parameters_quiet, E|]. intros ws _.
      apply quiet_bind; [apply quiet_lift, check_gate_clean|]. intros u _. apply quiet_bind; [apply annotated_quiet|]. intros. apply quiet_lift. discriminate.
  Qed.
  Lemma resolved_quiet n es vs : fst (@lift (list value) (visit_expression_list st es)) = Ok vs -> quiet (lift (resolve_instruction st n vs)).
  Proof. intros E. apply quiet_lift, resolve_instruction_no_throw, ordinary_typed_list, (visit_list_ordinary lm st Hst _ _ E). Qed.
  Lemma add_quiet x : quiet (lift (add_statement st x)).
  Proof. destruct (add_statement_ok lm st Hst x) as [st' ->]. apply quiet_lift. discriminate. Qed.
End Any.
Lemma fresh_ordinary lm st : ordinary lm st -> ordinary lm (fresh st).
Proof. intros H. eapply ordinary_extends; [exact H|]. apply fresh_extends. Qed.
Lemma statement_any lm st s : ordinary lm st -> (exists st' es, visit_statement st s = (Ok st', es)) \/ (exists k es, visit_statement st s = (UB k, es)).
Proof.
  intros Ho. destruct s as [l n t an|l g ops an|l n ops ps an|l n c an]; cbn [visit_statement].
  - unfold visit_variable. apply caught. apply quiet_bind; [apply quiet_lift; intros w; destruct (build_type_spec t) as [(ty & -> & _)|(e & -> & _)]; discriminate|].
    intros ty _. apply quiet_bind; [apply (annotated_quiet lm), fresh_ordinary, Ho|]. intros ans _.
    destruct (ordinary_scopes lm st Ho) as (s & r & E). unfold add_variable, update_current. cbn [fresh scopes]. rewrite E.
    apply quiet_bind; [apply quiet_lift; discriminate|]. intros st1 E1. injection E1 as <-. apply quiet_catch, quiet_lift. intros w. unfold register_variable, update_current. cbn [scopes].
    unfold variable_add. cbn [sc_variables_table]. destruct (table_find n (sc_variables_table s)); discriminate.
  - unfold visit_gate_instruction. apply caught. apply quiet_bind; [now apply (gate_quiet lm)|]. intros g' _. apply quiet_bind; [now apply (list_quiet lm)|]. intros vs E.
    apply quiet_bind; [eapply (resolved_quiet lm); eauto|]. intros r _. apply quiet_bind; [apply quiet_lift; intros w; unfold check_gate_operands; destruct (adjacent_equal _); discriminate|].
    intros u _. apply quiet_bind; [now apply (annotated_quiet lm)|]. intros ans _. now apply (add_quiet lm).
  - unfold visit_non_gate_instruction. apply caught. apply quiet_bind; [now apply (list_quiet lm)|]. intros vs E.
    apply quiet_bind; [eapply (resolved_quiet lm); eauto|]. intros r _. apply quiet_bind; [now apply (list_quiet lm)|]. intros pvs Ep.
    apply quiet_bind; [eapply (parameters_quiet lm); eauto|]. intros ws _.
    apply quiet_bind; [apply quiet_lift; intros w; unfold check_non_gate_operands; destruct (is_measure n); [destruct (_ =? _)%Z|]; discriminate|].
    intros u _. apply quiet_bind; [now apply (annotated_quiet lm)|]. intros ans _. now apply (add_quiet lm).
  - unfold visit_asm_declaration. apply caught. apply quiet_bind; [now apply (annotated_quiet lm)|]. intros ans _. now apply (add_quiet lm).
Qed.
Lemma block_any lm l ss : forall st, ordinary lm st ->
  (exists st' es, visit_block l st ss = (Ok st', es)) \/ (exists k es, visit_block l st ss = (UB k, es)).
Proof.
  induction ss as [|s ss IH]; intros st Ho; [left; cbn; unfold lift; eauto|]. rewrite visit_block_cons.
  destruct (statement_any lm st s Ho) as [(st1 & e1 & E)|(k & e1 & E)]; rewrite E; cbn [lbind]; [|eauto].
  destruct (IH st1) as [(st2 & e2 & E2)|(k & e2 & E2)]; [|rewrite E2; eauto|rewrite E2; eauto].
  eapply ordinary_extends; [exact Ho|]. eapply effect_extends, statement_effect, E.
Qed.

(** ** Analyzers that have analysed any trees *)
Lemma uses_inv lm ne st us st' : uses st us st' -> forall ps, us = map UAnalyze ps -> (ne = true -> Forall indices_given ps) -> ordinary lm st -> inv ne st -> ordinary lm st' /\ inv ne st'.
Proof.
  induction 1 as [st|st p st1 r us st2 A _ IH|st us st2 _ IH|st st1 us st2 P _ IH]; intros ps E G Ho I.
  - auto.
  - destruct ps as [|p' ps]; [discriminate|]. injection E as -> ->. apply (IH ps eq_refl).
    + intros En. specialize (G En). now inversion G.
    + eapply ordinary_analyze; eauto.
    + apply analyze_ast_inv in A. destruct A as (v & es1 & es2 & s & rest & _ & B & _). eapply inv_block; eauto. intros En. specialize (G En). now inversion G.
  - destruct ps; discriminate.
  - destruct ps; discriminate.
Qed.
Lemma analysed_inv lm ne api st0 ps st : default_analyzer lm api = Ok st0 -> analysed st0 ps st -> (ne = true -> Forall indices_given ps) -> ordinary lm st /\ inv ne st.
Proof.
  intros D H G. pose proof (default_ordinary lm api st0 D) as Ho. apply default_analyzer_inv in D. destruct D as (v & _ & _ & ->).
  eapply uses_inv; [exact H|reflexivity|exact G|exact Ho|apply inv_default].
Qed.

(** ** What is not well formed lacks an index *)
Lemma flat_forall {A B} (P : B -> Prop) (f : A -> list B) l : Forall P (flat_map f l) <-> Forall (fun a => Forall P (f a)) l.
Proof.
  induction l as [|a l IH]; cbn [flat_map]; [split; constructor|]. rewrite Forall_app, IH. split; [intros [H K]; now constructor|intros H; inversion H; auto].
Qed.
Definition wf_values (ids : list nat) : list value -> Prop := Forall (fun v => value_well_formed ids v = true).
Lemma forallb_Forall {A} (f : A -> bool) l : forallb f l = true <-> Forall (fun a => f a = true) l.
Proof. rewrite forallb_forall, Forall_forall. reflexivity. Qed.
Lemma annots_iff ids l : annots_well_formed ids l = true <-> wf_values ids (annotation_values l).
Proof.
  unfold annots_well_formed, wf_values, annotation_values. rewrite forallb_Forall, flat_forall. split; apply Forall_impl; intros a; now rewrite forallb_Forall.
Qed.
Lemma gate_iff ids g : gate_well_formed ids g = true <-> wf_values ids (gate_values g).
Proof.
  unfold wf_values. induction g as [l n ps an|l n g ps an IH] using sem_gate_ind_full; cbn [gate_values gate_well_formed]; rewrite ?Forall_app, !andb_true_iff, annots_iff, (forallb_Forall _ ps); [|rewrite IH]; unfold wf_values; cbn [app]; rewrite ?Forall_app; intuition auto.
Qed.
Lemma statement_iff ids x : statement_well_formed ids x = true <-> wf_values ids (statement_values x).
Proof.
  destruct x; cbn [statement_well_formed statement_values]; unfold wf_values; rewrite ?Forall_app, ?andb_true_iff, ?gate_iff, ?annots_iff, ?forallb_Forall; unfold wf_values; intuition auto.
Qed.
Lemma program_iff q : program_well_formed q = true <-> wf_values (map (fun v => var_id (sv_var v)) (sp_variables q)) (program_values q).
Proof.
  unfold program_well_formed, program_values, wf_values. rewrite andb_true_iff, !forallb_Forall, Forall_app, !flat_forall. split; intros [H K]; (split; eapply Forall_impl; [|eassumption| |eassumption]); cbn beta; intros a; rewrite ?statement_iff, ?annots_iff; auto.
Qed.
Lemma current_values st s rest v pv l : inv false st -> scopes st = s :: rest ->
  let q := mkSemProgram v pv l (sc_block s) (sc_variables s) in program_well_formed q = false <-> lacks_index q.
Proof.
  intros [_ _ S A _] E q. unfold vars_of, statements_of, variables_of in *. rewrite E in *.
  assert (R : Forall (reference_fine (map sv_var (sc_variables s))) (program_values q)).
  { unfold program_values, q. cbn [sp_block sp_variables]. apply Forall_app. split; apply flat_forall.
    - eapply Forall_impl; [|exact S]. intros x [F _]. eapply Forall_impl; [|exact F]. now intros w [W _].
    - eapply Forall_impl; [|exact A]. cbn beta. intros x F. eapply Forall_impl; [|exact F]. now intros w [W _]. }
  rewrite <- not_true_iff_false, program_iff. set (ids := map _ _).
  assert (I : forall x, In x (map sv_var (sc_variables s)) -> existsb (Nat.eqb (var_id x)) ids = true).
  { intros x Hx. apply existsb_exists. exists (var_id x). split; [|apply Nat.eqb_refl]. unfold ids, q. cbn [sp_variables]. rewrite <- map_map with (f := sv_var) (g := var_id). now apply in_map. }
  split.
  - intros N. unfold lacks_index. clearbody ids. induction (program_values q) as [|w ws IH]; [destruct N; constructor|]. inversion R as [|? ? Rw Rws]; subst.
    destruct (value_well_formed ids w) eqn:W.
    + destruct IH as [x Hx]; [exact Rws| |exists x; now right]. intros F. apply N. now constructor.
    + destruct w as [b|z|f|x|x idx]; cbn in W, Rw; try discriminate; [rewrite (I x Rw) in W; discriminate|]. rewrite (I x) in W by apply Rw. destruct idx; [|discriminate]. exists x. now left.
  - intros [x Hx] F. unfold wf_values in F. rewrite Forall_forall in F. specialize (F _ Hx). cbn in F. rewrite andb_false_r in F. discriminate.
Qed.

(** ** Programs *)
Lemma analyze_any lm st p : ordinary lm st -> inv false st ->
  (exists k es, analyze_ast st p = UB k /\ visit_block (prog_block_loc p) st (prog_statements p) = (UB k, es)) \/
  exists v es1 st'  es2 s, visit_version (api_version st) (prog_version p) (prog_version_loc p) = (Ok v, es1) /\
    visit_block (prog_block_loc p) st (prog_statements p) = (Ok st', es2) /\ scopes st' = [s] /\ inv false st' /\
    let q := mkSemProgram (api_version st) v (prog_version_loc p) (sc_block s) (sc_variables s) in
    analyze_ast st p = match (es1 ++ es2)%list with
                       | [] => if program_well_formed q then Ok (st', mkResult (Some q) []) else Throw incomplete
                       | es => Ok (st', mkResult (Some q) es)
                       end.
Proof.
  intros Ho I. destruct (visit_version (api_version st) (prog_version p) (prog_version_loc p)) as [r es1] eqn:Ev.
  destruct (visit_version_ok _ _ _ _ _ Ev) as [v ->].
  destruct (block_any lm (prog_block_loc p) (prog_statements p) st Ho) as [(st' & es2 & B)|(k & es2 & B)].
  - right. pose proof B as B'. apply block_run_iff in B'.
    assert (I' : inv false st') by (eapply inv_block; eauto; discriminate). destruct (inv_scope _ _ I') as [s Es].
    exists v, es1, st', es2, s. split; [reflexivity|]. split; [exact B|]. split; [exact Es|]. split; [exact I'|]. cbn zeta.
    unfold analyze_ast, visit_program. rewrite Ev. cbn [lbind]. rewrite B. cbn [lbind]. unfold current_scope. rewrite Es. cbn [lbind lift].
    rewrite !app_nil_r. destruct (es1 ++ es2)%list; reflexivity.
  - left. exists k, es2. split; [|exact B]. unfold analyze_ast, visit_program. rewrite Ev. cbn [lbind]. rewrite B. reflexivity.
Qed.
Lemma only_exception lm st p : ordinary lm st -> inv false st ->
  (exists st' q es, analyze_ast st p = Ok (st', mkResult (Some q) es)) \/ (exists k, analyze_ast st p = UB k) \/ analyze_ast st p = Throw incomplete.
Proof.
  intros Ho I. destruct (analyze_any lm st p Ho I) as [(k & es & U & _)|(v & es1 & st' & es2 & s & _ & _ & _ & _ & E)]; [eauto|]. cbn zeta in E. rewrite E.
  destruct (es1 ++ es2)%list; [|left; eauto]. destruct (program_well_formed _); [left; eauto|auto].
Qed.
Lemma given_total lm st p : ordinary lm st -> inv true st -> inv false st -> indices_given p ->
  (exists st' q es, analyze_ast st p = Ok (st', mkResult (Some q) es)) \/ (exists k, analyze_ast st p = UB k).
Proof.
  intros Ho I I0 G. destruct (analyze_any lm st p Ho I0) as [(k & es & U & _)|(v & es1 & st' & es2 & s & _ & B & Es & _ & E)]; [eauto|]. left. cbn zeta in E. rewrite E.
  destruct (es1 ++ es2)%list; [|eauto]. apply block_run_iff in B. assert (I' : inv true st') by (eapply inv_block; eauto; intros _; exact G).
  rewrite (inv_well_formed _ _ _ (api_version st) v (prog_version_loc p) I' Es). eauto.
Qed.
Lemma unknown_last l st ss st' es : visit_block l st ss = (Ok st', es) ->
  exists e, visit_block l st (ss ++ [unknown_declaration]) = (Ok (fresh st'), (es ++ [e])%list).
Proof.
  intros B. rewrite ProofsRename3.visit_block_app, B. cbn [lbind]. eexists. rewrite visit_block_cons. cbn. reflexivity.
Qed.
Lemma throws_iff lm st p w : ordinary lm st -> inv false st ->
  (analyze_ast st p = Throw w <-> w = incomplete /\
     exists st' q e, analyze_ast st (with_unknown_type p) = Ok (st', mkResult (Some q) [e]) /\ lacks_index q).
Proof.
  intros Ho I. destruct (analyze_any lm st p Ho I) as [(k & es & U & B)|(v & es1 & st' & es2 & s & V & B & Es & I' & E)].
  - rewrite U. split; [discriminate|]. intros (_ & st' & q & e & A & _). exfalso. apply analyze_ast_inv in A. destruct A as (v & es1 & es2 & s & rest & _ & B' & _).
    cbn [with_unknown_type prog_statements] in B'. apply (block_run_iff (prog_block_loc p)) in B'. rewrite ProofsRename3.visit_block_app, B in B'. discriminate.
  - cbn zeta in E. rewrite E. pose proof (current_values st' s [] (api_version st) v (prog_version_loc p) I' Es) as W. cbn zeta in W.
    destruct (unknown_last (prog_block_loc p) st (prog_statements p) st' es2 B) as [e B2].
    assert (A : analyze_ast st (with_unknown_type p) = Ok (fresh st', mkResult (Some (mkSemProgram (api_version st) v (prog_version_loc p) (sc_block s) (sc_variables s))) (es1 ++ es2 ++ [e]))).
    { apply (analyze_ast_intro st (with_unknown_type p) v es1 (fresh st') (es2 ++ [e])%list s []); [exact V|now apply block_run_iff in B2|exact Es|].
      intros X. destruct es1, es2; discriminate X. }
    rewrite A. split.
    + intros H. destruct es1; [|discriminate H]. destruct es2; [|discriminate H]. cbn [app] in *. destruct (program_well_formed _) eqn:Ew; [discriminate H|]. injection H as <-. split; [reflexivity|].
      eexists _, _, _. split; [reflexivity|]. now apply W.
    + intros (-> & st2 & q & e2 & X & L). injection X as _ <- X. destruct es1 as [|? [|]]; [|destruct es2; discriminate X..]. destruct es2 as [|? [|]]; try discriminate X. cbn [app]. apply W in L. now rewrite L.
Qed.
