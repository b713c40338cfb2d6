(** Lemmas for C36-C41, C58, C62. *)
From Coq Require Import SpecFloat ZifyBool.
From Verif Require Import Base ModelUtils ModelVersion ModelError ModelTypes ModelOverload ModelFunctions
  ModelInstructionSet ModelAst ModelAnalyzer ModelSemantic SpecUtils SpecTypes SpecFunctions SpecInstructions SpecAnalyzer
  ProofsVersion ProofsTypes ProofsFunctions ProofsFolding ProofsExpr ProofsInstructions ProofsGates ProofsAnalyzer.
Local Open Scope string_scope.

(** ** The default analyzer (C39, C62) *)
Definition register_defaults (lm : libm) (st0 : analyzer) : outcome error analyzer :=
  let! st1 := register_default_constants st0 in
  let! st2 := register_default_functions lm st1 in
  register_default_instructions st2.
Lemma register_defaults_value lm v : register_defaults lm (mkAnalyzer v [empty_scope] 0) = Ok (mkAnalyzer v [default_scope lm] 0).
Proof.
  unfold register_defaults. replace (register_default_constants (mkAnalyzer v [empty_scope] 0))
    with (Ok (mkAnalyzer v [set_variables default_constants empty_scope] 0) : outcome error analyzer) by reflexivity.
  cbn [bind]. unfold register_default_functions. rewrite foldM_functions by reflexivity.
  cbn [bind]. unfold register_default_instructions. rewrite foldM_instructions by reflexivity.
  unfold default_scope, register_all, function_history, instruction_history. rewrite !fold_left_map. reflexivity.
Qed.
Lemma default_analyzer_unfold lm api : default_analyzer lm api =
  (let! v := version_of_string api in let! st0 := new_analyzer v in register_defaults lm st0).
Proof. reflexivity. Qed.
Lemma new_analyzer_value v : new_analyzer v =
  if version_eqb v [3; 0]%Z then Ok (mkAnalyzer v [empty_scope] 0)
  else Throw "std::invalid_argument: this analyzer only supports cQASM 3.0".
Proof. reflexivity. Qed.
Lemma default_analyzer_cases lm api : default_analyzer lm api =
  let! v := version_of_string api in
  if version_eqb v [3; 0]%Z then Ok (mkAnalyzer v [default_scope lm] 0)
  else Throw "std::invalid_argument: this analyzer only supports cQASM 3.0".
Proof.
  rewrite default_analyzer_unfold. destruct (@version_of_string error api) as [v| | |]; cbn [bind]; try reflexivity.
  rewrite new_analyzer_value. destruct (version_eqb v [3; 0]%Z); cbn [bind]; [apply register_defaults_value|reflexivity].
Qed.
Lemma default_analyzer_inv lm api st : default_analyzer lm api = Ok st ->
  exists v, @version_of_string error api = Ok v /\ version_same v [3; 0]%Z /\ st = mkAnalyzer v [default_scope lm] 0.
Proof.
  rewrite default_analyzer_cases. destruct (@version_of_string error api) as [v| | |]; cbn [bind]; try discriminate.
  destruct (version_eqb v [3; 0]%Z) eqn:E; [|discriminate]. intros H. exists v. split; [reflexivity|]. split; [now apply version_eqb_iff|congruence].
Qed.
Lemma default_ordinary_any lm v n : ordinary lm (mkAnalyzer v [default_scope lm] n).
Proof.
  split; [|split].
  - eexists _, _, _. split; [apply default_analyzer_value|]. split; [reflexivity|]. split; reflexivity.
  - eexists _, _, [], _. split; [apply default_analyzer_value|]. split; [reflexivity|]. split; [reflexivity|]. split; [constructor|reflexivity].
  - repeat constructor.
Qed.
Lemma default_ordinary lm api st : default_analyzer lm api = Ok st -> ordinary lm st.
Proof. intros H. apply default_analyzer_inv in H. destruct H as (v & _ & _ & ->). apply default_ordinary_any. Qed.

Lemma ordinary_push lm st : ordinary lm st -> ordinary lm (push_scope st).
Proof.
  intros ((st0 & g0 & g & E0 & G0 & G & F) & (st0' & g0' & inner & g' & E0' & G0' & Es & In & Ig) & N).
  rewrite E0 in E0'. injection E0' as <-. rewrite G0 in G0'. injection G0' as <-.
  rewrite (global_scope_last _ _ _ Es) in G. injection G as <-.
  assert (Es' : scopes (push_scope st) = ((empty_scope :: inner) ++ [g'])%list) by (cbn [push_scope scopes]; rewrite Es; reflexivity).
  split; [|split].
  - exists st0, g0, g'. split; [exact E0|]. split; [exact G0|]. split; [exact (global_scope_last _ _ _ Es')|exact F].
  - exists st0, g0, (empty_scope :: inner), g'. split; [exact E0|]. split; [exact G0|]. split; [exact Es'|].
    split; [constructor; [reflexivity|exact In]|exact Ig].
  - cbn [push_scope scopes]. constructor; [constructor|exact N].
Qed.
Lemma ordinary_pop lm st st' : ordinary lm st -> (2 <= List.length (scopes st))%nat -> pop_scope st = Ok st' -> ordinary lm st'.
Proof.
  intros ((st0 & g0 & g & E0 & G0 & G & F) & (st0' & g0' & inner & g' & E0' & G0' & Es & In & Ig) & N) L P.
  rewrite E0 in E0'. injection E0' as <-. rewrite G0 in G0'. injection G0' as <-.
  rewrite (global_scope_last _ _ _ Es) in G. injection G as <-.
  unfold pop_scope in P. rewrite Es in P, L, N. destruct inner as [|s inner]; [cbn in L; lia|]. cbn [app] in P, N. injection P as <-.
  inversion In; subst. inversion N; subst. split; [|split].
  - exists st0, g0, g'. split; [exact E0|]. split; [exact G0|]. split; [|exact F]. apply (global_scope_last _ inner). reflexivity.
  - exists st0, g0, inner, g'. auto 6.
  - assumption.
Qed.
Lemma ordinary_analyze lm st p st' r : ordinary lm st -> analyze_ast st p = Ok (st', r) -> ordinary lm st'.
Proof.
  intros H E. apply analyze_ast_inv in E. destruct E as (v & es1 & es2 & s & rest & _ & B & _).
  eapply ordinary_extends; [exact H|]. eapply block_extends, B.
Qed.
Lemma uses_ordinary lm st us st' : uses st us st' -> ordinary lm st -> ordinary lm st'.
Proof.
  induction 1; intros Ho; auto.
  - eauto using ordinary_analyze.
  - auto using ordinary_push.
  - eauto using ordinary_pop.
Qed.
Lemma analyses_ordinary lm st : analyses lm st -> ordinary lm st.
Proof. induction 1; eauto using default_ordinary, ordinary_analyze. Qed.

(** ** Contributions (C36) *)
Lemma visit_gate_same st g : plain_gate g -> forall sg es, visit_gate st g = (Ok sg, es) -> same_gate g sg.
Proof.
  induction g as [l n ps an|l n g ps an IH] using gate_ind_full; intros [-> Hp] sg es H; rewrite visit_gate_unfold in H; apply log_context_ok in H.
  - apply lbind_ok in H. destruct H as (i & e1 & e2 & E1 & H & ->). apply lift_ok in E1. destruct E1 as [[= <-] ->].
    apply lbind_ok in H. destruct H as (vs & e3 & e4 & E2 & H & ->). apply lbind_ok in H. destruct H as (ws & e5 & e6 & E3 & H & ->).
    apply lbind_ok in H. destruct H as (u & e7 & e8 & E4 & H & ->). apply lbind_ok in H. destruct H as (ans & e9 & e10 & E5 & H & ->).
    injection E5 as <- <-. injection H as <- <-. constructor.
  - apply lbind_ok in H. destruct H as (i & e1 & e2 & E1 & H & ->). apply lbind_ok in E1. destruct E1 as (sg' & e11 & e12 & E1 & E1' & ->).
    injection E1' as <- <-.
    apply lbind_ok in H. destruct H as (vs & e3 & e4 & E2 & H & ->). apply lbind_ok in H. destruct H as (ws & e5 & e6 & E3 & H & ->).
    apply lbind_ok in H. destruct H as (u & e7 & e8 & E4 & H & ->). apply lbind_ok in H. destruct H as (ans & e9 & e10 & E5 & H & ->).
    injection E5 as <- <-. injection H as <- <-. constructor. eapply IH; eauto.
Qed.
Lemma context_location l e : l <> None -> location (error_context l e) <> None.
Proof. unfold error_context. destruct (location e) eqn:E; [congruence|]. auto. Qed.

Lemma resolve_name {T} (t : table T) name args r : resolve t name args = Ok r -> exists os o, table_find name t = Some os /\ In o os /\ fst r = ov_tag o.
Proof.
  unfold resolve. destruct (table_find name t) as [os|]; [|discriminate]. intros H. exists os.
  apply bind_ok_inv in H. destruct H as (o & E & H). destruct o as [x|]; [|destruct (types_of args); discriminate].
  injection H as ->. unfold resolve_overload in E.
  assert (G : forall l, resolve_loop l args = Ok (Some r) -> exists o, In o l /\ fst r = ov_tag o).
  { induction l as [|o l IH]; cbn [resolve_loop]; [discriminate|]. destruct (negb _).
    - intros K. destruct (IH K) as (o' & I & Eo). exists o'. split; [now right|exact Eo].
    - destruct (promote_args args (ov_params o)) as [[a|]| | |]; cbn [bind]; try discriminate.
      + intros [= <-]. exists o. split; [now left|reflexivity].
      + intros K. destruct (IH K) as (o' & I & Eo). exists o'. split; [now right|exact Eo]. }
  destruct (G _ E) as (o & I & Eo). exists o. split; [reflexivity|]. split; [now apply in_rev|exact Eo].
Qed.
(** Every instruction is registered under its own name. *)
Definition names_agree (t : instruction_table) : Prop :=
  forall n os o, table_find n t = Some os -> In o os -> instr_name (ov_tag o) = n.
Lemma ordinary_instr_name lm st n vs i ws : ordinary lm st -> Forall typed vs -> resolve_instruction st n vs = Ok (i, ws) -> instr_name i = n.
Proof.
  intros H Ht E. apply (resolve_instruction_default lm st H) in E; [|exact Ht]. destruct E as (_ & ks & _ & _ & ->). reflexivity.
Qed.

Lemma variables_of_map f st : variables_of (map_current f st) = match scopes st with [] => [] | s :: _ => sc_variables (f s) end.
Proof. unfold variables_of. rewrite map_current_scopes. destruct (scopes st); reflexivity. Qed.
Lemma statements_of_map f st : statements_of (map_current f st) = match scopes st with [] => [] | s :: _ => blk_statements (sc_block (f s)) end.
Proof. unfold statements_of. rewrite map_current_scopes. destruct (scopes st); reflexivity. Qed.
Lemma names_here_map f st : names_here (map_current f st) = match scopes st with [] => [] | s :: _ => map fst (sc_variables_table (f s)) end.
Proof. unfold names_here. rewrite map_current_scopes. destruct (scopes st); reflexivity. Qed.

Lemma statement_contribution lm st s st' es : ordinary lm st -> plain s -> visit_statement st s = (Ok st', es) ->
  exists c, contributes s c /\ variables_of st' = (variables_of st ++ new_variables c)%list /\
    statements_of st' = (statements_of st ++ new_statements c)%list /\ es = new_errors c /\
    (redeclaration c -> exists n, In n (declared_names [s]) /\ In n (names_here st)) /\
    incl (names_here st') (names_here st ++ declared_names [s]) /\
    (forall l n t an, s = SVariable l n t an -> In n (names_here st) -> new_errors c <> []).
Proof.
  intros Ho Hp H. apply statement_effect in H.
  destruct H as [l n t an e N Le|l n t an ty ans es D A Ns Ni|l n t an ty ans es e D A Ns Ni Le|l g ops an sg es1 vs i ws ans es2 G V R C A Ns
    |l n ops ps an vs i ws pvs pws ans es V R P RP C A Ns|l n c an ans es A Ns|l s e es El Pl Nv].
  - exists (Fails (error_context l e)). split; [constructor; apply context_location|]. cbn. rewrite !app_nil_r.
    split; [reflexivity|]. split; [reflexivity|]. split; [reflexivity|]. split; [tauto|]. split; [apply incl_appl, incl_refl|]. discriminate.
  - cbn in Hp. subst an. injection A as <- <-. exists (Declares (mkSemVariable (mkVariable (next_id st) n ty) [])).
    split; [now constructor|]. rewrite variables_of_map, statements_of_map, names_here_map. unfold variables_of, statements_of, names_here in *. cbn [fresh scopes].
    destruct (scopes st) as [|s rest]; [congruence|]. cbn. rewrite app_nil_r, map_app. cbn.
    split; [reflexivity|]. split; [reflexivity|]. split; [reflexivity|]. split; [tauto|]. split; [apply incl_refl|]. intros ? ? ? ? [= _ <- _ _] I. contradiction.
  - cbn in Hp. subst an. injection A as <- <-. exists (Redeclares (mkSemVariable (mkVariable (next_id st) n ty) []) (error_context l e)).
    split; [constructor; [exact D|apply context_location]|]. rewrite variables_of_map, statements_of_map, names_here_map. unfold variables_of, statements_of, names_here in *. cbn [fresh scopes].
    destruct (scopes st) as [|s rest]; [congruence|]. cbn. rewrite app_nil_r. split; [reflexivity|]. split; [reflexivity|]. split; [reflexivity|].
    split; [eauto|]. split; [apply incl_appl, incl_refl|]. discriminate.
  - destruct Hp as [Pg ->]. injection A as <- <-. exists (Adds (SemGateInstr l i sg ws [])).
    split; [constructor; eapply visit_gate_same; eauto|]. pose proof (quiet_gate st g Pg) as Q. rewrite G in Q. unfold quiet in Q. cbn [snd] in Q. subst es1.
    rewrite variables_of_map, statements_of_map, names_here_map. unfold variables_of, statements_of, names_here.
    destruct (scopes st) as [|s rest]; [congruence|]. cbn. rewrite !app_nil_r.
    split; [reflexivity|]. split; [reflexivity|]. split; [reflexivity|]. split; [tauto|]. split; [apply incl_refl|]. discriminate.
  - cbn in Hp. subst an. injection A as <- <-. exists (Adds (SemNonGate l i n ws pws [])).
    split; [constructor; eapply ordinary_instr_name; [exact Ho| |exact R]; eapply ordinary_typed_list, visit_list_ordinary; eauto|].
    rewrite variables_of_map, statements_of_map, names_here_map. unfold variables_of, statements_of, names_here.
    destruct (scopes st) as [|s rest]; [congruence|]. cbn. rewrite !app_nil_r.
    split; [reflexivity|]. split; [reflexivity|]. split; [reflexivity|]. split; [tauto|]. split; [apply incl_refl|]. discriminate.
  - cbn in Hp. subst an. injection A as <- <-. exists (Adds (SemAsm l n c [])). split; [constructor|].
    rewrite variables_of_map, statements_of_map, names_here_map. unfold variables_of, statements_of, names_here.
    destruct (scopes st) as [|s rest]; [congruence|]. cbn. rewrite !app_nil_r.
    split; [reflexivity|]. split; [reflexivity|]. split; [reflexivity|]. split; [tauto|]. split; [apply incl_refl|]. discriminate.
  - rewrite (Pl Hp). exists (Fails (error_context l e)). split; [constructor; subst l; apply context_location|]. cbn. rewrite !app_nil_r.
    split; [reflexivity|]. split; [reflexivity|]. split; [reflexivity|]. split; [tauto|]. split; [apply incl_appl, incl_refl|]. discriminate.
Qed.

Lemma declared_names_cons s ss : declared_names (s :: ss) = (declared_names [s] ++ declared_names ss)%list.
Proof. unfold declared_names. cbn [flat_map]. now rewrite app_nil_r. Qed.
Lemma block_contributions lm st ss st' es : block_run st ss st' es -> ordinary lm st -> Forall plain ss ->
  exists cs, Forall2 contributes ss cs /\ variables_of st' = (variables_of st ++ flat_map new_variables cs)%list /\
    statements_of st' = (statements_of st ++ flat_map new_statements cs)%list /\ es = flat_map new_errors cs /\
    (NoDup (declared_names ss) -> (forall n, In n (declared_names ss) -> ~ In n (names_here st)) ->
     Forall (fun c => ~ redeclaration c) cs).
Proof.
  induction 1 as [st|st s st1 es1 ss st2 es2 H _ IH]; intros Ho Hp.
  - exists []. cbn. rewrite !app_nil_r. auto.
  - inversion Hp as [|? ? Hs Hss]; subst. destruct (statement_contribution lm st s st1 es1 Ho Hs H) as (c & C & V & S & E & R & I & _).
    destruct IH as (cs & C' & V' & S' & E' & R'); [|exact Hss|].
    { eapply ordinary_extends; [exact Ho|]. eapply effect_extends, statement_effect, H. }
    exists (c :: cs). split; [now constructor|]. cbn [flat_map]. rewrite V', V, S', S, E, E', !app_assoc.
    split; [reflexivity|]. split; [reflexivity|]. split; [reflexivity|].
    rewrite declared_names_cons. intros ND NI. constructor.
    + intros Rc. destruct (R Rc) as (n & In1 & In2). apply (NI n); [apply in_or_app; now left|exact In2].
    + apply R'.
      * clear -ND. induction (declared_names [s]) as [|a l IH]; [exact ND|]. cbn in ND. inversion ND; subst. auto.
      * intros n Hn Hh. apply I in Hh. apply in_app_or in Hh. destruct Hh as [Hh|Hh].
        -- apply (NI n); [apply in_or_app; now right|exact Hh].
        -- clear -ND Hn Hh. induction (declared_names [s]) as [|a l IH]; [contradiction|]. cbn in ND. inversion ND; subst.
           destruct Hh as [<-|Hh]; [apply H1, in_or_app; now right|auto].
Qed.

(** ** Prefixes (C58) *)
Lemma extends_prefixes st st' : state_extends st st' -> prefix_of (variables_of st) (variables_of st') /\ prefix_of (statements_of st) (statements_of st').
Proof.
  intros [_ H]. unfold variables_of, statements_of. destruct (scopes st) as [|s r], (scopes st') as [|s' r']; try contradiction.
  - split; exists []; reflexivity.
  - destruct H as [[_ _ _ V S] _]. auto.
Qed.

(** ** Visible names (C37, C38) *)
Lemma resolve_variable_in_iff l n : (exists v, resolve_variable_in l n = Ok v) <-> exists s, In s l /\ In n (map fst (sc_variables_table s)).
Proof.
  induction l as [|s l IH]; cbn [resolve_variable_in].
  - split; [intros [v H]; discriminate|]. intros (s & [] & _).
  - unfold variable_resolve. destruct (table_find n (sc_variables_table s)) as [v|] eqn:E.
    + split; [|eauto]. intros _. exists s. split; [now left|]. destruct (in_dec string_dec n (map fst (sc_variables_table s))) as [I|I]; [exact I|].
      apply table_find_In in I. congruence.
    + rewrite IH. apply table_find_In in E. split; intros (s' & I & J).
      * exists s'. split; [now right|exact J].
      * destruct I as [<-|I]; [contradiction|]. eauto.
Qed.
Lemma visit_names st e : (forall v n, visit st e = Ok v -> In n (expr_names e) -> exists w, resolve_variable st n = Ok w).
Proof.
  apply (expr_ind_full (fun e => forall v n, visit st e = Ok v -> In n (expr_names e) -> exists w, resolve_variable st n = Ok w)
     (fun i => forall zs n, visit_entry st i = Ok zs -> In n (entry_names i) -> exists w, resolve_variable st n = Ok w)); clear e; try (cbn; contradiction).
  - intros l m v n H [<-|[]]. eauto.
  - intros l e idx IH1 IH2 v n H I. cbn [visit] in H. apply with_context_ok_iff in H. apply bind_ok_inv in H. destruct H as (b & Eb & H).
    apply with_context_ok_iff in Eb. cbn [expr_names] in I. apply in_app_or in I. destruct I as [I|I]; [eauto|].
    destruct b as [| | |x|]; try discriminate.
    assert (E : exists is, mapM (visit_entry st) idx = Ok is) by (destruct (kind (var_type x)); try discriminate; apply bind_ok_inv in H; destruct H as (is & H & _); eauto).
    destruct E as [is E]. apply in_flat_map in I. destruct I as (i & Ii & In). apply mapM_ok in E. clear -IH2 E Ii In.
    induction E as [|a b idx is E _ IH]; [contradiction|]. inversion IH2; subst. destruct Ii as [->|Ii]; eauto.
  - intros l m args IH v n H I. cbn [visit] in H. apply bind_ok_inv in H. destruct H as (vs & E & _).
    cbn [expr_names] in I. apply in_flat_map in I. destruct I as (i & Ii & In). apply mapM_ok in E. clear -IH E Ii In.
    induction E as [|a b idx is E _ IHE]; [contradiction|]. inversion IH; subst. apply with_context_ok_iff in E. destruct Ii as [->|Ii]; eauto.
  - intros l op e IH v n H I. cbn [visit] in H. apply bind_ok_inv in H. destruct H as (v1 & E1 & H). apply with_context_ok_iff in E1. eauto.
  - intros l op e1 e2 IH1 IH2 v n H I. cbn [visit] in H. apply bind_ok_inv in H. destruct H as (v1 & E1 & H). apply with_context_ok_iff in E1.
    apply bind_ok_inv in H. destruct H as (v2 & E2 & H). apply with_context_ok_iff in E2. cbn [expr_names] in I. apply in_app_or in I. destruct I; eauto.
  - intros l c e1 e2 IH0 IH1 IH2 v n H I. cbn [visit] in H. apply bind_ok_inv in H. destruct H as (v0 & E0 & H). apply with_context_ok_iff in E0.
    apply bind_ok_inv in H. destruct H as (v1 & E1 & H). apply with_context_ok_iff in E1.
    apply bind_ok_inv in H. destruct H as (v2 & E2 & H). apply with_context_ok_iff in E2. cbn [expr_names] in I.
    apply in_app_or in I. destruct I as [I|I]; [eauto|]. apply in_app_or in I. destruct I; eauto.
  - intros l e IH zs n H I. cbn [visit_entry] in H. apply bind_ok_inv in H. destruct H as (z & E & _).
    unfold const_int_of in E. apply bind_ok_inv in E. destruct E as (v & E & _). eauto.
  - intros l e1 e2 IH1 IH2 zs n H I. cbn [visit_entry] in H. apply bind_ok_inv in H. destruct H as (z1 & E1 & H). apply bind_ok_inv in H. destruct H as (z2 & E2 & _).
    unfold const_int_of in E1, E2. apply bind_ok_inv in E1. destruct E1 as (v1 & E1 & _). apply bind_ok_inv in E2. destruct E2 as (v2 & E2 & _).
    cbn [entry_names] in I. apply in_app_or in I. destruct I; eauto.
Qed.
Lemma visit_list_names st es vs n e : visit_expression_list st es = Ok vs -> In e es -> In n (expr_names e) -> exists w, resolve_variable st n = Ok w.
Proof.
  unfold visit_expression_list. rewrite mapM_ok. induction 1 as [|a b es vs E _ IH]; [contradiction|]. intros [->|I] N; [|auto].
  unfold visit_expression in E. apply with_context_ok_iff in E. eapply visit_names; eauto.
Qed.
Lemma annotation_operands_ok st l es vs : visit_annotation_operands st l es = (Ok vs, []) -> Forall (fun e => exists v, visit st e = Ok v) es.
Proof.
  revert vs. induction es as [|e es IH]; intros vs; [constructor|]. cbn [visit_annotation_operands]. intros H.
  apply lbind_ok in H. destruct H as (v & e1 & e2 & E1 & H & E). apply lbind_ok in H. destruct H as (ws & e3 & e4 & E2 & H & E').
  symmetry in E. apply app_eq_nil in E. destruct E as [-> ->]. symmetry in E'. apply app_eq_nil in E'. destruct E' as [-> ->].
  constructor; [|eauto]. destruct (visit st e) as [w|err| |]; cbn in E1; try discriminate. eauto.
Qed.
Lemma annotated_ok st l ans : visit_annotated st l = (Ok ans, []) -> Forall (fun e => exists v, visit st e = Ok v) (annotation_exprs l).
Proof.
  revert ans. induction l as [|a l IH]; intros ans; [constructor|]. cbn [visit_annotated]. intros H.
  apply lbind_ok in H. destruct H as (v & e1 & e2 & E1 & H & E). apply lbind_ok in H. destruct H as (ws & e3 & e4 & E2 & H & E').
  symmetry in E. apply app_eq_nil in E. destruct E as [-> ->]. symmetry in E'. apply app_eq_nil in E'. destruct E' as [-> ->].
  unfold annotation_exprs. cbn [flat_map]. apply Forall_app. split; [|eauto].
  unfold visit_annotation_data in E1. apply lbind_ok in E1. destruct E1 as (vs & e5 & e6 & E1 & _ & E). symmetry in E. apply app_eq_nil in E. destruct E as [-> ->].
  eapply annotation_operands_ok; eauto.
Qed.
Lemma gate_exprs_ok st g : forall sg, visit_gate st g = (Ok sg, []) -> Forall (fun e => exists v, visit st e = Ok v) (gate_exprs g).
Proof.
  induction g as [l n ps an|l n g ps an IH] using gate_ind_full; intros sg H; rewrite visit_gate_unfold in H; apply log_context_ok in H.
  all: apply lbind_ok in H; destruct H as (i & e1 & e2 & E1 & H & E); symmetry in E; apply app_eq_nil in E; destruct E as [-> ->].
  all: apply lbind_ok in H; destruct H as (vs & e3 & e4 & E2 & H & E); symmetry in E; apply app_eq_nil in E; destruct E as [-> ->].
  all: apply lbind_ok in H; destruct H as (ws & e5 & e6 & E3 & H & E); symmetry in E; apply app_eq_nil in E; destruct E as [-> ->].
  all: apply lbind_ok in H; destruct H as (u & e7 & e8 & E4 & H & E); symmetry in E; apply app_eq_nil in E; destruct E as [-> ->].
  all: apply lbind_ok in H; destruct H as (ans & e9 & e10 & E5 & H & E); symmetry in E; apply app_eq_nil in E; destruct E as [-> ->].
  all: cbn [gate_exprs].
  all: assert (V : Forall (fun e => exists v, visit st e = Ok v) ps) by
    (apply lift_ok in E2; destruct E2 as [E2 _]; unfold visit_expression_list in E2; apply mapM_ok in E2;
     clear -E2; induction E2 as [|a b ps vs E _ IHE]; constructor; auto; unfold visit_expression in E; apply with_context_ok_iff in E; eauto).
  all: apply annotated_ok in E5.
  - cbn [app]. apply Forall_app. auto.
  - apply Forall_app. split; [|apply Forall_app; auto].
    apply lbind_ok in E1. destruct E1 as (sg' & e11 & e12 & E1 & _ & E). symmetry in E. apply app_eq_nil in E. destruct E as [-> ->]. eauto.
Qed.
Lemma visit_list_ok st es vs : visit_expression_list st es = Ok vs -> Forall (fun e => exists v, visit st e = Ok v) es.
Proof.
  unfold visit_expression_list. rewrite mapM_ok. induction 1 as [|a b ps vs E _ IHE]; constructor; auto.
  unfold visit_expression in E. apply with_context_ok_iff in E. eauto.
Qed.
(** Annotations of a declaration are visited after the variable is created but
    before it is registered: with the same names. *)
Lemma visit_fresh st e : visit (fresh st) e = visit st e.
Proof. reflexivity. Qed.
Lemma statement_exprs_ok st s st' : visit_statement st s = (Ok st', []) -> Forall (fun e => exists v, visit st e = Ok v) (statement_exprs s).
Proof.
  intros H. apply statement_effect in H. remember (@nil error) as log eqn:Elog.
  destruct H as [l n t an e N Le|l n t an ty ans es D A Ns Ni|l n t an ty ans es e D A Ns Ni Le|l g ops an sg es1 vs i ws ans es2 G V R C A Ns
    |l n ops ps an vs i ws pvs pws ans es V R P RP C A Ns|l n c an ans es A Ns|l s e es El Pl Nv]; try discriminate.
  - subst. cbn [statement_exprs]. apply annotated_ok in A. eapply Forall_impl; [|exact A]. cbn. intros e. now rewrite visit_fresh.
  - destruct es; discriminate.
  - apply app_eq_nil in Elog. destruct Elog as [-> ->]. cbn [statement_exprs]. apply Forall_app. split; [eapply gate_exprs_ok; eauto|].
    apply Forall_app. split; [eapply visit_list_ok; eauto|eapply annotated_ok; eauto].
  - subst. cbn [statement_exprs]. apply Forall_app. split; [eapply visit_list_ok; eauto|]. apply Forall_app. split; [eapply visit_list_ok; eauto|eapply annotated_ok; eauto].
  - subst. cbn [statement_exprs]. eapply annotated_ok; eauto.
  - destruct es; discriminate.
Qed.
Lemma mentioned_resolves st s st' n : visit_statement st s = (Ok st', []) -> mentions s n -> exists w, resolve_variable st n = Ok w.
Proof.
  intros H (e & Ie & In). apply statement_exprs_ok in H. rewrite Forall_forall in H. destruct (H e Ie) as [v E]. eapply visit_names; eauto.
Qed.

(** Table of the current scope after a statement, after a block *)
Definition table_here (st : analyzer) : variable_table := match scopes st with [] => [] | s :: _ => sc_variables_table s end.
Lemma names_table st : names_here st = map fst (table_here st).
Proof. unfold names_here, table_here. destruct (scopes st); reflexivity. Qed.
Lemma statement_table st s st' es : visit_statement st s = (Ok st', es) ->
  (table_here st' = table_here st /\ forall n, legal_declaration n s -> In n (names_here st)) \/
  (exists l n t an ty, s = SVariable l n t an /\ declares_type t ty /\ ~ In n (names_here st) /\
     table_here st' = (table_here st ++ [(n, VVar (mkVariable (next_id st) n ty))])%list).
Proof.
  intros H. apply statement_effect in H.
  assert (T : forall f, (forall s, sc_variables_table (f s) = sc_variables_table s) -> table_here (map_current f st) = table_here st).
  { intros f Hf. unfold table_here. rewrite map_current_scopes. destruct (scopes st); [reflexivity|apply Hf]. }
  destruct H as [l n t an e N Le|l n t an ty ans es D A Ns Ni|l n t an ty ans es e D A Ns Ni Le|l g ops an sg es1 vs i ws ans es2 G V R C A Ns
    |l n ops ps an vs i ws pvs pws ans es V R P RP C A Ns|l n c an ans es A Ns|l s e es El Pl Nv].
  - left. split; [reflexivity|]. intros m (l' & t' & an' & ty & [= <- <- <- <-] & D). destruct (N _ D).
  - right. exists l, n, t, an, ty. split; [reflexivity|]. split; [exact D|]. split; [exact Ni|]. unfold table_here.
    rewrite map_current_scopes. cbn [fresh scopes]. destruct (scopes st) as [|s r]; [congruence|reflexivity].
  - left. split.
    + unfold table_here. rewrite map_current_scopes. cbn [fresh scopes]. destruct (scopes st) as [|s r]; reflexivity.
    + intros m (l' & t' & an' & ty' & [= <- <- <- <-] & _). exact Ni.
  - left. split; [apply T; reflexivity|]. intros m (l' & t' & an' & ty' & E & _). discriminate.
  - left. split; [apply T; reflexivity|]. intros m (l' & t' & an' & ty' & E & _). discriminate.
  - left. split; [apply T; reflexivity|]. intros m (l' & t' & an' & ty' & E & _). discriminate.
  - left. split; [reflexivity|]. intros m (l' & t' & an' & ty' & E & _). destruct (Nv _ _ _ _ E).
Qed.
Lemma block_names st ss st' es n : block_run st ss st' es ->
  (In n (names_here st') <-> In n (names_here st) \/ exists s, In s ss /\ legal_declaration n s).
Proof.
  induction 1 as [st|st s st1 es1 ss st2 es2 H _ IH].
  - split; [auto|]. intros [I|(s & [] & _)]. exact I.
  - rewrite IH. clear IH. destruct (statement_table st s st1 es1 H) as [[T L]|(l & m & t & an & ty & -> & D & N & T)].
    + rewrite (names_table st1), T, <- names_table. split.
      * intros [I|(s' & I & L')]; [now left|right; exists s'; split; [now right|exact L']].
      * intros [I|(s' & [<-|I] & L')]; [now left|left; now apply L|right; eauto].
    + rewrite (names_table st1), T, map_app, <- names_table, in_app_iff. cbn [map fst]. split.
      * intros [[I|[<-|[]]]|(s' & I & L')]; [now left|right; exists (SVariable l m t an); split; [now left|exists l, t, an, ty; auto]|right; exists s'; split; [now right|exact L']].
      * intros [I|(s' & [<-|I] & L')]; [left; now left| |right; eauto].
        destruct L' as (l' & t' & an' & ty' & [= -> -> -> ->] & _). left. right. now left.
Qed.
Lemma table_find_ext {A} n (t t' : list (string * A)) v : table_find n t = Some v -> table_find n (t ++ t') = Some v.
Proof. induction t as [|[m a] t IH]; cbn; [discriminate|]. destruct (m =? n); auto. Qed.
Lemma block_table_find st ss st' es n v : block_run st ss st' es -> table_find n (table_here st) = Some v -> table_find n (table_here st') = Some v.
Proof.
  induction 1 as [st|st s st1 es1 ss st2 es2 H _ IH]; intros F; [exact F|]. apply IH. 
  destruct (statement_table st s st1 es1 H) as [[-> L]|(l & m & t & an & ty & -> & D & N & ->)]; [exact F|]. now apply table_find_ext.
Qed.
Lemma resolve_here st n v : table_find n (table_here st) = Some v -> resolve_variable st n = Ok v.
Proof.
  unfold table_here, resolve_variable. destruct (scopes st) as [|s r]; [discriminate|]. cbn [resolve_variable_in]. unfold variable_resolve.
  intros ->. reflexivity.
Qed.
Lemma table_find_none {A} n (t t' : list (string * A)) : ~ In n (map fst t) -> table_find n (t ++ t') = table_find n t'.
Proof.
  induction t as [|[m a] t IH]; cbn; [reflexivity|]. intros H. destruct (String.eqb_spec m n) as [->|N]; [destruct H; now left|]. apply IH. tauto.
Qed.
(** After its first legal declaration a name stands for the declared variable. *)
Lemma first_declaration st ss1 l n t an ss2 st' es ty : block_run st (ss1 ++ SVariable l n t an :: ss2) st' es ->
  ~ In n (names_here st) -> (forall s, In s ss1 -> ~ legal_declaration n s) -> declares_type t ty ->
  exists id, resolve_variable st' n = Ok (VVar (mkVariable id n ty)).
Proof.
  intros B N F D. apply block_run_app in B. destruct B as (st1 & e1 & e2 & B1 & B2 & _).
  inversion B2 as [|? ? st2 e3 ? ? e4 H B3]; subst.
  assert (N1 : ~ In n (names_here st1)).
  { rewrite (block_names _ _ _ _ n B1). intros [I|(s & I & L)]; [contradiction|]. exact (F s I L). }
  destruct (statement_table _ _ _ _ H) as [[T L]|(l' & m & t' & an' & ty' & [= <- <- <- <-] & D' & _ & T)].
  - destruct N1. apply L. exists l, t, an, ty. auto.
  - assert (ty' = ty) by (clear -D D'; destruct D; inversion D'; reflexivity). subst ty'.
    exists (next_id st1). apply resolve_here. eapply block_table_find; [exact B3|]. rewrite T.
    rewrite table_find_none by (rewrite <- names_table; exact N1). cbn. now rewrite String.eqb_refl.
Qed.
Lemma redeclaration_harmless st l n t an st' es : visit_statement st (SVariable l n t an) = (Ok st', es) -> In n (names_here st) ->
  es <> [] /\ forall m, resolve_variable st' m = resolve_variable st m.
Proof.
  intros H I. pose proof (statement_effect _ _ _ _ H) as X. apply effect_extends in X. destruct X as [_ X].
  split.
  - apply statement_effect in H. inversion H as [? ? ? ? e N Le|? ? ? ? ty ans es' D A Ns Ni|? ? ? ? ty ans es' e D A Ns Ni Le| | | |? ? ? ? ? ? Nv]; subst.
    + discriminate.
    + contradiction.
    + destruct es'; discriminate.
    + destruct (Nv _ _ _ _ eq_refl).
  - intros m. destruct (statement_table _ _ _ _ H) as [[T _]|(l' & n' & t' & an' & ty' & [= <- <- <- <-] & D' & N & _)]; [|contradiction].
    unfold table_here in T. unfold resolve_variable. destruct (scopes st) as [|s r], (scopes st') as [|s' r']; try contradiction; [reflexivity|].
    destruct X as [_ ->]. cbn [resolve_variable_in]. now rewrite T.
Qed.

(** ** Versions (C39) *)
Lemma visit_version_spec api v l : version_same api [3; 0]%Z ->
  (version_same v api -> visit_version api v l = (Ok v, [])) /\
  (~ version_same v api -> exists e, visit_version api v l = (Ok api, [error_context l e]) /\ location e = None).
Proof.
  intros A. unfold visit_version. split.
  - intros S. assert (E : existsb (fun i => (i <? 0)%Z) v = false).
    { apply not_true_iff_false. intros E. apply existsb_exists in E. destruct E as (x & Hx & E). apply In_nth with (d := 0%Z) in Hx.
      destruct Hx as (i & Hi & <-). specialize (S i). specialize (A i). unfold component in S, A.
      rewrite S in E. rewrite A in E. destruct i as [|[|[|i]]]; cbn in E; lia. }
    rewrite E. assert (Q : version_eqb v api = true) by now apply version_eqb_iff. rewrite Q. reflexivity.
  - intros S. destruct (existsb _ v) eqn:E; [eexists; split; reflexivity|].
    destruct (version_eqb v api) eqn:Q; [apply version_eqb_iff in Q; contradiction|]. eexists; split; reflexivity.
Qed.
Lemma block_run_version st p st' es : block_run st (prog_statements p) st' es -> api_version st' = api_version st.
Proof. intros B. apply block_extends in B. apply B. Qed.

Lemma analyze_ast_intro st p v es1 st' es2 s rest :
  visit_version (api_version st) (prog_version p) (prog_version_loc p) = (Ok v, es1) ->
  block_run st (prog_statements p) st' es2 -> scopes st' = s :: rest ->
  ((es1 ++ es2)%list = [] -> program_well_formed (mkSemProgram (api_version st) v (prog_version_loc p) (sc_block s) (sc_variables s)) = true) ->
  analyze_ast st p = Ok (st', mkResult (Some (mkSemProgram (api_version st) v (prog_version_loc p) (sc_block s) (sc_variables s))) (es1 ++ es2)).
Proof.
  intros V B S W. unfold analyze_ast, visit_program. rewrite V. cbn [lbind].
  apply (block_run_iff (prog_block_loc p)) in B. rewrite B. cbn [lbind]. unfold current_scope. rewrite S. cbn [lift lbind]. rewrite !app_nil_r.
  destruct (es1 ++ es2)%list; [|reflexivity]. now rewrite W.
Qed.
