(** Lemmas for C85: the program of a result can be written as a text. *)
From Coq Require Import SpecFloat.
From Verif Require Import Base ModelUtils ModelVersion ModelError ModelTypes ModelOverload ModelFunctions ModelInstructionSet ModelAst ModelAnalyzer ModelSemantic ModelLexer
  SpecUtils SpecTypes SpecFunctions SpecInstructions SpecAnalyzer SpecLexer SpecSyntax SpecReading SpecPrint SpecMachine SpecFolded
  ProofsVersion ProofsTypes ProofsFunctions ProofsFolding ProofsExpr ProofsInstructions ProofsGates ProofsAnalyzer ProofsAnalyzer2 ProofsAnalyzer3 ProofsPrint2 ProofsMachine ProofsMachine2 ProofsFolded.
Local Open Scope string_scope.

(** ** Values *)
Definition expressible (v : value) : Prop :=
  match v with VVar x => usable (var_name x) | VIndex x idx => usable (var_name x) /\ idx <> [] | _ => True end.
Lemma write_infinity_writable : writable write_infinity.
Proof. unfold write_infinity. apply w_binary; apply w_float; try (split; reflexivity); reflexivity. Qed.
Lemma value_writable v : machine_value v -> expressible v -> writable (write_value v).
Proof.
  destruct v as [b|z|f|x|x idx]; cbn [machine_value expressible write_value].
  - constructor.
  - unfold fits, write_int. intros M _. destruct (Z.leb_spec 0 z); [apply w_int; unfold integer, max_int; lia|].
    destruct (Z.eqb_spec z (- 2 ^ 63)) as [->|N].
    + apply w_binary; [apply w_unary|]; apply w_int; unfold integer, max_int; lia.
    + apply w_unary, w_int. unfold integer, max_int. lia.
  - intros M _. destruct f as [[]|[]| |[] m e]; cbn [write_float]; repeat first [exact write_infinity_writable|apply w_unary|apply w_binary|apply w_float]; try reflexivity; try (split; reflexivity);
      split; try reflexivity; exact M.
  - intros _ U. now constructor.
  - intros [S F] [U N]. apply w_index; [exact U|destruct idx; [congruence|discriminate]|]. clear N. induction F as [|i idx H _ IH]; [constructor|]. cbn [map]. apply we_item; [|exact IH].
    apply w_int. unfold integer, max_int. lia.
Qed.
Lemma values_writable vs : Forall (fun v => writable (write_value v)) vs -> all_writable (map write_value vs).
Proof. induction 1; [constructor|]. cbn [map]. now constructor. Qed.

(** ** Writable expressions have no empty index *)
Lemma writable_indexed :
  (forall e, writable e -> indexed_expr e = true) /\ (forall es, all_writable es -> forallb indexed_expr es = true) /\
  (forall is, writable_entries is -> forallb indexed_entry is = true).
Proof.
  apply writable_mutind; intros; cbn [indexed_expr indexed_entry forallb]; try reflexivity; try assumption; repeat (apply andb_true_intro; split); try assumption; try reflexivity.
  destruct is; [congruence|reflexivity].
Qed.
Lemma writable_gate_plain g : writable_gate g -> plain_gate g.
Proof. induction 1; cbn [plain_gate]; split; try reflexivity; try assumption; exact I. Qed.
Lemma writable_plain s : writable_statement s -> plain s.
Proof. intros W. destruct W; cbn [plain]; try reflexivity. split; [now apply writable_gate_plain|reflexivity]. Qed.

Definition pointing (v : value) : Prop := match v with VIndex _ idx => idx <> [] | _ => True end.
Section State.
  Variables (lm : libm) (st : analyzer).
  Hypothesis Hst : ordinary lm st.
  Lemma any_tables : tables_hold (fun _ => True) st.
  Proof. unfold tables_hold. apply Forall_forall. intros s _. apply Forall_forall. intros [n v] _. cbn. now destruct v. Qed.
  Lemma visit_pointing e v : indexed_expr e = true -> visit st e = Ok v -> pointing v.
  Proof. intros I E. pose proof (visit_hold lm (fun _ => True) st e v Hst any_tables E) as H. destruct v; try exact Logic.I. exact (proj2 H I). Qed.
  Lemma visit_list_pointing es vs : all_writable es -> visit_expression_list st es = Ok vs -> Forall pointing vs /\ List.length vs = List.length es.
  Proof.
    intros W E. apply (proj1 (proj2 writable_indexed)) in W. unfold visit_expression_list in E. apply mapM_ok in E. split; [|symmetry; eapply Forall2_length; eauto].
    induction E as [|e v es vs E _ IH]; [constructor|]. cbn [forallb] in W. apply andb_prop in W. destruct W as [W1 W2]. unfold visit_expression in E. apply with_context_ok_iff in E.
    constructor; [exact (visit_pointing e v W1 E)|auto].
  Qed.
  Lemma promote_pointing v t w : promote v t = Ok (Some w) -> pointing v -> pointing w.
  Proof. intros E P. destruct (promote_from v t w E) as [->|C]; [exact P|]. destruct w; try exact I. destruct C. Qed.
  Lemma loop_pointing n : forall spec vs ws, resolve_params_loop n spec vs = Ok ws -> Forall pointing vs -> Forall pointing ws.
  Proof.
    induction spec as [|c spec IH]; intros ps ws H M; cbn [resolve_params_loop] in H; [injection H as <-; constructor|].
    destruct ps as [|p ps]; [discriminate|]. inversion M; subst. apply bind_ok_inv in H. destruct H as (tp & _ & H). apply bind_ok_inv in H. destruct H as (t & _ & H).
    destruct (negb _); [discriminate|]. apply bind_ok_inv in H. destruct H as (v & E & H). apply bind_ok_inv in H. destruct H as (vs & E' & H).
    injection H as <-. specialize (IH _ _ E' ltac:(assumption)). destruct v as [v|]; [|exact IH]. constructor; [eapply promote_pointing; eauto|exact IH].
  Qed.
  Lemma parameters_pointing name ps ws : resolve_parameters name ps = Ok ws -> Forall pointing ps -> Forall pointing ws.
  Proof.
    unfold resolve_parameters. cbv zeta. intros H M. destruct (is_non_gate name).
    - destruct (get_non_gate_param_types_with_param_count name (List.length ps)); [exact (loop_pointing _ _ _ _ H M)|].
      destruct (Nat.eqb (List.length ps) 0); [injection H as <-; constructor|discriminate].
    - apply bind_ok_inv in H. destruct H as (spec & _ & H). destruct spec as [spec|].
      + destruct (negb _); [discriminate|exact (loop_pointing _ _ _ _ H M)].
      + destruct (Nat.eqb (List.length ps) 0); [injection H as <-; constructor|discriminate].
  Qed.

  Definition good (v : value) : Prop := writable (write_value v).
  Lemma gate_text g : writable_gate g -> forall sg es, visit_gate st g = (Ok sg, es) ->
    Forall pointing (gate_values sg) /\ (Forall good (gate_values sg) -> writable_gate (write_gate sg)).
  Proof.
    assert (Step : forall l n i ps sg es, all_writable ps -> visit_gate st (Gate l n i ps []) = (Ok sg, es) -> exists i' ws es',
      sg = SemGate l n i' ws [] /\ Forall pointing ws /\ List.length ws = List.length ps /\
      match i with None => i' = None | Some g => exists sg', i' = Some sg' /\ visit_gate st g = (Ok sg', es') end).
    { intros l n i ps sg es W H. rewrite visit_gate_unfold in H. apply log_context_ok in H.
      apply lbind_ok in H; destruct H as (i' & e1 & e2 & E1 & H & _). apply lbind_ok in H; destruct H as (vs & e3 & e4 & E2 & H & _).
      apply lbind_ok in H; destruct H as (ws & e5 & e6 & E3 & H & _). apply lbind_ok in H; destruct H as (u & e7 & e8 & E4 & H & _).
      apply lbind_ok in H; destruct H as (ans & e9 & e10 & E5 & H & _). apply lift_ok in H; destruct H as [H _]; injection H as <-. apply lift_ok in E2; destruct E2 as [E2 _]. apply lift_ok in E3; destruct E3 as [E3 _].
      injection E5 as <- _. destruct (visit_list_pointing ps vs W E2) as [P L]. destruct (parameters_again n vs ws (visit_list_ordinary lm st Hst _ _ E2) E3) as [L2 _].
      destruct i as [g0|].
      - apply lbind_ok in E1. destruct E1 as (sg' & e11 & e12 & E1 & H & _). apply lift_ok in H. destruct H as [[= <-] _]. exists (Some sg'), ws, e11.
        split; [reflexivity|]. split; [exact (parameters_pointing _ _ _ E3 P)|]. split; [congruence|]. eauto.
      - apply lift_ok in E1. destruct E1 as [[= <-] _]. exists None, ws, []. split; [reflexivity|]. split; [exact (parameters_pointing _ _ _ E3 P)|]. split; [congruence|reflexivity]. }
    induction 1 as [l g W IH|l g W IH|l g e W IH We|l n ps U Wp]; intros sg es H; eapply Step in H; try (constructor; fail); try eassumption; try (constructor; [exact We|constructor]);
      destruct H as (i' & ws & es' & -> & P & L & Hi).
    1-3: destruct Hi as (sg' & -> & Hg); destruct (IH sg' es' Hg) as [Pg Wg]; cbn [gate_values annotation_values flat_map]; rewrite app_nil_r; split; [apply Forall_app; now split|];
         intros G; apply Forall_app in G; destruct G as [Gg Gw]; specialize (Wg Gg); match goal with |- writable_gate (write_gate (SemGate ?l ?n _ ?ws _)) => change (writable_gate (Gate l n (Some (write_gate sg')) (map write_value ws) [])) end.
    - destruct ws; [now constructor|discriminate].
    - destruct ws; [now constructor|discriminate].
    - destruct ws as [|w [|]]; try discriminate. inversion Gw; subst. now constructor.
    - subst i'. cbn [gate_values annotation_values flat_map]. rewrite app_nil_r. cbn [app]. split; [exact P|]. intros G. change (writable_gate (Gate l n None (map write_value ws) [])). constructor; [exact U|now apply values_writable].
  Qed.

  (** A statement adds usable variables and instructions that can be written. *)
  Definition presentable (x : sem_statement) : Prop :=
    Forall pointing (statement_values x) /\ (Forall good (statement_values x) -> writable_statement (write_statement x)).
  Lemma statement_text s st' : writable_statement s -> visit_statement st s = (Ok st', []) ->
    exists vs xs, variables_of st' = (variables_of st ++ vs)%list /\ statements_of st' = (statements_of st ++ xs)%list /\
      Forall (fun v => usable (var_name (sv_var v))) vs /\ Forall presentable xs.
  Proof.
    intros W H. apply statement_effect in H. remember (@nil error) as log eqn:Elog.
    assert (Same : exists vs xs, variables_of st = (variables_of st ++ vs)%list /\ statements_of st = (statements_of st ++ xs)%list /\ Forall (fun v => usable (var_name (sv_var v))) vs /\ Forall presentable xs).
    { exists [], []. rewrite !app_nil_r. auto. }
    assert (Add : forall x, scopes st <> [] -> presentable x -> exists vs xs, variables_of (map_current (with_statement x) st) = (variables_of st ++ vs)%list /\ statements_of (map_current (with_statement x) st) = (statements_of st ++ xs)%list /\ Forall (fun v => usable (var_name (sv_var v))) vs /\ Forall presentable xs).
    { intros x Ns P. exists [], [x]. rewrite variables_of_map, statements_of_map, app_nil_r. unfold variables_of, statements_of. destruct (scopes st); [congruence|]. repeat (split; [reflexivity|]). auto. }
    destruct H as [l n t an e N Le|l n t an ty ans es D A Ns Ni|l n t an ty ans es e D A Ns Ni Le|l g ops an sg es1 vs i ws ans es2 G V R C A Ns
      |l n ops ps an vs i ws pvs pws ans es V R P RP C A Ns|l n c an ans es A Ns|l s e es El P Nv].
    - exact Same.
    - exists [mkSemVariable (mkVariable (next_id st) n ty) ans], []. rewrite variables_of_map, statements_of_map, app_nil_r. unfold variables_of, statements_of, fresh. cbn [scopes].
      destruct (scopes st); [congruence|]. cbn. split; [reflexivity|]. split; [reflexivity|]. split; [|constructor]. constructor; [|constructor]. inversion W; subst. assumption.
    - apply app_eq_nil in Elog. destruct Elog; discriminate.
    - apply Add; [exact Ns|]. inversion W as [|? ? ? Wg No Wo| | | |]; subst. injection A as <- _. destruct (gate_text g Wg sg es1 G) as [Pg Wg']. destruct (visit_list_pointing ops vs Wo V) as [Po Lo].
      destruct (resolve_again lm st st _ _ _ _ Hst Hst (visit_list_ordinary lm st Hst _ _ V) R) as [-> _].
      split; cbn [statement_values annotation_values flat_map]; rewrite app_nil_r; [apply Forall_app; now split|]. intros Gv. apply Forall_app in Gv. destruct Gv as [Gg Go].
      cbn [write_statement]. constructor; [exact (Wg' Gg)| |exact (values_writable _ Go)]. destruct vs; [destruct ops; [congruence|discriminate]|discriminate].
    - apply Add; [exact Ns|].
      destruct (resolve_again lm st st _ _ _ _ Hst Hst (visit_list_ordinary lm st Hst _ _ V) R) as [-> _]. destruct (parameters_again n pvs pws (visit_list_ordinary lm st Hst _ _ P) RP) as [Lp _].
      assert (Wo : all_writable ops /\ all_writable ps) by (inversion W; subst; split; repeat first [assumption|apply ws_cons|apply ws_nil]). destruct Wo as [Wo Wp].
      destruct (visit_list_pointing ops vs Wo V) as [Po Lo]. destruct (visit_list_pointing ps pvs Wp P) as [Pp Lq]. pose proof (parameters_pointing _ _ _ RP Pp) as Pw. rewrite Lq in Lp.
      assert (An : ans = []) by (inversion W; subst; cbn [visit_annotated] in A; unfold lift in A; congruence). subst ans.
      split; cbn [statement_values annotation_values flat_map]; rewrite app_nil_r; [apply Forall_app; now split|].
      + intros Gv. apply Forall_app in Gv. destruct Gv as [Go Gp]. cbn [write_statement].
        inversion W; subst; cbn [List.length] in Lo, Lp.
        * destruct vs as [|b1 [|q1 [|]]]; try discriminate. inversion Go as [|? ? G1 G2]; subst. inversion G2; subst. cbn [map]. constructor; try assumption. now apply values_writable.
        * destruct vs as [|q1 [|]]; try discriminate. destruct pws as [|d1 [|]]; try discriminate. inversion Go; subst. inversion Gp; subst. cbn [map]. now constructor.
        * destruct vs as [|q1 [|]]; try discriminate. destruct pws; try discriminate. inversion Go; subst. cbn [map]. now constructor.
    - apply Add; [exact Ns|]. inversion W; subst. injection A as <-. split; [constructor|]. intros _. cbn [write_statement]. now constructor.
    - exact Same.
  Qed.
End State.

Lemma run_text lm st ss st' log : block_run st ss st' log -> log = [] -> ordinary lm st -> Forall writable_statement ss ->
  exists vs xs, variables_of st' = (variables_of st ++ vs)%list /\ statements_of st' = (statements_of st ++ xs)%list /\
    Forall (fun v => usable (var_name (sv_var v))) vs /\ Forall presentable xs.
Proof.
  induction 1 as [st|st x st1 es1 ss st2 es2 V R IH]; intros El Ho W.
  - exists [], []. rewrite !app_nil_r. auto.
  - apply app_eq_nil in El. destruct El as [-> ->]. inversion W as [|? ? W1 W2]; subst.
    assert (Ho1 : ordinary lm st1) by (eapply ordinary_extends; [exact Ho|]; eapply effect_extends, statement_effect, V).
    destruct (statement_text lm st Ho x st1 W1 V) as (vs1 & xs1 & E1 & E2 & U1 & P1). destruct (IH eq_refl Ho1 W2) as (vs2 & xs2 & E3 & E4 & U2 & P2).
    exists (vs1 ++ vs2)%list, (xs1 ++ xs2)%list. rewrite E3, E1, E4, E2, !app_assoc. repeat (split; [reflexivity|]). split; apply Forall_app; now split.
Qed.
Lemma result_writable lm api st p st' q : machine_libm lm -> default_analyzer lm api = Ok st -> writable_program p ->
  analyze_ast st p = Ok (st', mkResult (Some q) []) -> writable_program (write_result q).
Proof.
  intros Hlm D W A. pose proof (default_ordinary _ _ _ D) as Ho. pose proof (accepted_fine _ _ _ _ _ _ D A) as Fine.
  pose proof (result_machine lm api [] st p st' _ q Hlm (SpecHull.analysed_nothing _ _ _ D) (Forall_nil _) (machine_writable_program p W) A eq_refl) as Mq.
  destruct (default_analyzer_inv _ _ _ D) as (av & _ & _ & ->).
  destruct (analyze_ast_inv _ _ _ _ A) as (v & es1 & es2 & s' & rest & Vv & R & Sc' & Er & _). injection Er as -> Es. symmetry in Es. apply app_eq_nil in Es. destruct Es as [-> ->].
  assert (Ws : Forall writable_statement (prog_statements p)) by (destruct W; assumption).
  destruct (run_text lm _ _ _ _ R eq_refl Ho Ws) as (vs & xs & E1 & E2 & U & P). unfold variables_of, statements_of in E1, E2. rewrite Sc' in E1, E2. cbn [scopes] in E1, E2.
  change (sc_variables (default_scope lm)) with (@nil sem_variable) in E1. change (blk_statements (sc_block (default_scope lm))) with (@nil sem_statement) in E2. cbn [app] in E1, E2.
  unfold result_values in Mq. cbn [sp_block sp_variables] in Mq. apply Forall_app in Mq. destruct Mq as [Ms Mv]. rewrite E1 in Mv. rewrite E2 in Ms.
  destruct Fine as (Fs & _ & Fd & _). cbn [sp_block program_variables sp_variables] in Fs, Fd. rewrite E1 in Fd. rewrite E1, E2 in Fs.
  assert (Sv : Forall writable_statement (map write_variable vs)).
  { rewrite Forall_forall in *. intros y Iy. apply in_map_iff in Iy. destruct Iy as (x & <- & Ix). unfold write_variable.
    assert (T : exists t, (t = "qubit" \/ t = "bit") /\ exists o, write_type (var_type (sv_var x)) = mkAstType None t o /\ forall z, o = Some z -> z = tsize (var_type (sv_var x))).
    { unfold write_type. destruct (kind (var_type (sv_var x))); first [exists "qubit"; split; [now left|eexists; split; [reflexivity|congruence]]|exists "bit"; split; [now right|eexists; split; [reflexivity|congruence]]]. }
    destruct T as (t & T & o & -> & Z). constructor; [exact (U x Ix)|exact T|]. intros z E. rewrite (Z z E).
    assert (M : machine_value (VVar (sv_var x))) by (apply Mv, in_flat_map; exists x; split; [exact Ix|now left]). cbn [machine_value] in M. unfold integer, max_int. lia. }
  assert (Sx : Forall writable_statement (map write_statement xs)).
  { rewrite Forall_forall in *. intros y Iy. apply in_map_iff in Iy. destruct Iy as (x & <- & Ix). destruct (P x Ix) as [Pp Pw]. apply Pw. destruct (Fs x Ix) as [Fx _].
    rewrite Forall_forall in *. intros w Iw. apply value_writable; [apply Ms, in_flat_map; eauto|]. specialize (Pp w Iw). specialize (Fx w Iw).
    assert (UV : forall y, In y (map sv_var vs) -> usable (var_name y)) by (intros y Iy; apply in_map_iff in Iy; destruct Iy as (z & <- & Iz); exact (U z Iz)).
    destruct w as [b|z|f|y|y idx]; cbn [expressible reference_fine pointing] in *; auto. destruct Fx as [Iy _]. auto. }
  assert (Sa : Forall writable_statement (map write_variable vs ++ map write_statement xs)%list) by (apply Forall_app; now split).
  unfold write_result. cbn [sp_version sp_version_loc sp_variables sp_block]. rewrite E1, E2.
  assert (Ev : v = prog_version p).
  { unfold visit_version in Vv. apply catch_log_inv in Vv. destruct Vv as [H|(e & es1 & _ & _ & E)]; [|destruct es1; discriminate].
    apply lift_ok in H. destruct H as [H _]. destruct (existsb _ _); [discriminate|]. destruct (negb _); [discriminate|]. now injection H as <-. }
  rewrite Ev. destruct W; cbn [prog_version]; now constructor.
Qed.
