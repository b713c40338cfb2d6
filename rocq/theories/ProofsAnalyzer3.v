(** Lemmas for C35 and C60: invariants of the analysis. *)
From Coq Require Import SpecFloat ZifyBool.
From Verif Require Import Base ModelUtils ModelVersion ModelError ModelTypes ModelOverload ModelFunctions
  ModelInstructionSet ModelAst ModelAnalyzer ModelSemantic SpecUtils SpecTypes SpecFunctions SpecInstructions SpecAnalyzer
  ProofsVersion ProofsTypes ProofsFunctions ProofsFolding ProofsExpr ProofsInstructions ProofsGates ProofsAnalyzer ProofsAnalyzer2.
Local Open Scope string_scope.

(** ** Values come from the expressions of the statement *)
Definition from (st : analyzer) (es : list expr) (v : value) : Prop :=
  is_const v \/ exists e, In e es /\ visit st e = Ok v.
Lemma from_incl st es es' v : incl es es' -> from st es v -> from st es' v.
Proof. intros H [C|(e & I & E)]; [now left|right; eauto]. Qed.
Lemma Forall_from_incl st es es' vs : incl es es' -> Forall (from st es) vs -> Forall (from st es') vs.
Proof. intros H. apply Forall_impl. intros v. now apply from_incl. Qed.

Lemma from_list st es vs : visit_expression_list st es = Ok vs -> Forall (from st es) vs.
Proof.
  unfold visit_expression_list. rewrite mapM_ok. induction 1 as [|e v es vs E _ IH]; constructor.
  - right. exists e. split; [now left|]. unfold visit_expression in E. now apply with_context_ok_iff in E.
  - eapply Forall_from_incl; [|exact IH]. apply incl_tl, incl_refl.
Qed.
Lemma promote_from v t w : promote v t = Ok (Some w) -> w = v \/ is_const w.
Proof.
  unfold promote. destruct (type_of v) as [tv| | |]; try discriminate. cbn [bind].
  destruct (type_check t tv); [intros [= <-]; now left|].
  destruct (kind t); try discriminate; destruct v; try discriminate; try (intros [= <-]; right; exact I); destruct (type_check _ _); try discriminate;
    intros [= <-]; auto.
Qed.
Lemma params_loop_from name (P : value -> Prop) : (forall v, is_const v -> P v) -> forall spec vs ws,
  resolve_params_loop name spec vs = Ok ws -> Forall P vs -> Forall P ws.
Proof.
  intros Hc. induction spec as [|c spec IH]; intros vs ws H F; [injection H as <-; constructor|].
  destruct vs as [|v vs]; [discriminate|]. cbn [resolve_params_loop] in H. inversion F; subst.
  apply bind_ok_inv in H. destruct H as (tp & _ & H). apply bind_ok_inv in H. destruct H as (t & _ & H).
  destruct (negb _); [discriminate|]. apply bind_ok_inv in H. destruct H as (o & E & H). apply bind_ok_inv in H. destruct H as (ws' & E' & [= <-]).
  specialize (IH _ _ E' ltac:(assumption)). destruct o as [w|]; [|exact IH]. constructor; [|exact IH].
  destruct (promote_from _ _ _ E) as [->|C]; auto.
Qed.
Lemma parameters_from name (P : value -> Prop) vs ws : (forall v, is_const v -> P v) ->
  resolve_parameters name vs = Ok ws -> Forall P vs -> Forall P ws.
Proof.
  intros Hc. unfold resolve_parameters. destruct (is_non_gate name).
  - destruct (get_non_gate_param_types_with_param_count _ _).
    + now apply params_loop_from.
    + destruct (Nat.eqb _ _); [|discriminate]. intros [= <-] _. constructor.
  - intros H. apply bind_ok_inv in H. destruct H as (spec & _ & H). destruct spec.
    + destruct (negb _); [discriminate|]. revert H. now apply params_loop_from.
    + destruct (Nat.eqb _ _); [|discriminate]. injection H as <-. constructor.
Qed.
Lemma annotation_operands_from st l es vs log : visit_annotation_operands st l es = (Ok vs, log) -> Forall (from st es) vs.
Proof.
  revert vs log. induction es as [|e es IH]; intros vs log; cbn [visit_annotation_operands]; [intros [= <- _]; constructor|]. intros H.
  apply lbind_ok in H. destruct H as (v & e1 & e2 & E1 & H & _). apply lbind_ok in H. destruct H as (ws & e3 & e4 & E2 & H & _).
  injection H as <- _. specialize (IH _ _ E2). assert (F : Forall (from st (e :: es)) ws) by (eapply Forall_from_incl; [|exact IH]; apply incl_tl, incl_refl).
  destruct v as [v|]; [|exact F]. constructor; [|exact F]. right. exists e. split; [now left|].
  destruct (visit st e) as [w|err| |]; cbn in E1; unfold lift in E1; try discriminate. congruence.
Qed.
Lemma annotated_from st l ans log : visit_annotated st l = (Ok ans, log) -> Forall (from st (annotation_exprs l)) (annotation_values ans).
Proof.
  revert ans log. induction l as [|a l IH]; intros ans log; cbn [visit_annotated]; [intros [= <- _]; constructor|]. intros H.
  apply lbind_ok in H. destruct H as (v & e1 & e2 & E1 & H & _). apply lbind_ok in H. destruct H as (ws & e3 & e4 & E2 & H & _).
  injection H as <- _. unfold annotation_values, annotation_exprs. cbn [flat_map]. apply Forall_app. split.
  - unfold visit_annotation_data in E1. apply lbind_ok in E1. destruct E1 as (vs & e5 & e6 & E1 & H & _). injection H as <- _. cbn [sa_operands].
    apply annotation_operands_from in E1. eapply Forall_from_incl; [|exact E1]. apply incl_appl, incl_refl.
  - eapply Forall_from_incl; [|eapply IH; eauto]. apply incl_appr, incl_refl.
Qed.
Lemma gate_from st g : forall sg log, visit_gate st g = (Ok sg, log) -> Forall (from st (gate_exprs g)) (gate_values sg).
Proof.
  assert (C : forall es v, is_const v -> from st es v) by (intros es v H; now left).
  induction g as [l n ps an|l n g ps an IH] using gate_ind_full; intros sg log H; rewrite visit_gate_unfold in H; apply log_context_ok in H.
  all: apply lbind_ok in H; destruct H as (i & e1 & e2 & E1 & H & _).
  all: apply lbind_ok in H; destruct H as (vs & e3 & e4 & E2 & H & _); apply lift_ok in E2; destruct E2 as [E2 _].
  all: apply lbind_ok in H; destruct H as (ws & e5 & e6 & E3 & H & _); apply lift_ok in E3; destruct E3 as [E3 _].
  all: apply lbind_ok in H; destruct H as (u & e7 & e8 & E4 & H & _).
  all: apply lbind_ok in H; destruct H as (ans & e9 & e10 & E5 & H & _); injection H as <- _.
  all: apply from_list in E2; apply (parameters_from _ _ _ _ (C ps) E3) in E2; apply annotated_from in E5; cbn [gate_values gate_exprs].
  - injection E1 as <- _. cbn [app]. apply Forall_app. split; (eapply Forall_from_incl; [|eassumption]); [apply incl_appl|apply incl_appr]; apply incl_refl.
  - apply lbind_ok in E1. destruct E1 as (sg' & e11 & e12 & E1 & E1' & _). injection E1' as <- _. apply IH in E1.
    apply Forall_app. split; [eapply Forall_from_incl; [|exact E1]; apply incl_appl, incl_refl|].
    apply Forall_app. split; (eapply Forall_from_incl; [|eassumption]); apply incl_appr; [apply incl_appl|apply incl_appr]; apply incl_refl.
Qed.

(** ** References *)
Definition tables_hold (Q : variable -> Prop) (st : analyzer) : Prop :=
  Forall (fun s => Forall (fun e => match snd e with VVar x | VIndex x _ => Q x | _ => True end) (sc_variables_table s)) (scopes st).
Lemma resolve_variable_hold Q st n v : tables_hold Q st -> resolve_variable st n = Ok v -> match v with VVar x | VIndex x _ => Q x | _ => True end.
Proof.
  unfold tables_hold, resolve_variable. induction 1 as [|s l Hs _ IH]; cbn [resolve_variable_in]; [discriminate|].
  unfold variable_resolve. destruct (table_find n (sc_variables_table s)) as [w|] eqn:E; [|exact IH]. intros [= ->]. clear IH.
  induction (sc_variables_table s) as [|[m a] t IH]; [discriminate|]. cbn in E. inversion Hs; subst.
  destruct (m =? n); [injection E as ->; assumption|apply IH; assumption].
Qed.
Lemma visit_hold lm Q st e v : ordinary lm st -> tables_hold Q st -> visit st e = Ok v ->
  match v with
  | VVar x => Q x
  | VIndex x idx => Q x /\ (indexed_expr e = true -> idx <> [])
  | _ => True
  end.
Proof.
  intros Ho Ht H. pose proof (proj1 (visit_ordinary lm st Ho e) v H) as Hv.
  assert (CC : forall n args, resolve_function st n args = Ok v -> is_const v).
  { intros n args E. rewrite (resolve_function_call lm st n args (ord_functions lm st Ho)) in E. now apply call_ok_const in E. }
  assert (CD : is_const v -> match v with VVar x => Q x | VIndex x idx => Q x /\ (indexed_expr e = true -> idx <> []) | _ => True end)
    by (destruct v; cbn; tauto).
  destruct e as [l b|l z|l f|l n|l b idx|l n [args|]|l op e1|l op e1 e2|l c e1 e2]; cbn [visit] in H.
  1-3: injection H as <-; exact I.
  - pose proof (resolve_variable_hold Q st n v Ht H) as R. destruct v as [| | | |x idx]; try exact R.
    assert (N : nameable (VIndex x idx)) by (eapply resolve_variable_nameable; [apply Ho|exact H]). destruct N.
  - clear CC CD. apply with_context_ok_iff in H. apply bind_ok_inv in H. destruct H as (w & Ew & H). apply with_context_ok_iff in Ew.
    destruct w as [| | |x|]; try discriminate.
    assert (H' : exists is, mapM (visit_entry st) idx = Ok is /\ v = VIndex x (concat is)).
    { destruct (kind (var_type x)); try discriminate; apply bind_ok_inv in H; destruct H as (is & Em & H);
        apply bind_ok_inv in H; destruct H as (u & _ & [= <-]); eauto. }
    destruct H' as (is & Em & ->). split.
    + destruct b as [l' b'|l' z|l' f|l' n|l' b' idx'|l' n [args|]|l' op e1|l' op e1 e2|l' c e1 e2]; cbn [visit] in Ew.
      1-3: discriminate.
      * exact (resolve_variable_hold Q st n (VVar x) Ht Ew).
      * exfalso. apply with_context_ok_iff in Ew. apply bind_ok_inv in Ew. destruct Ew as (w & Ew & H'). destruct w; try discriminate.
        destruct (kind _); try discriminate; apply bind_ok_inv in H'; destruct H' as (? & _ & H'); try discriminate;
          apply bind_ok_inv in H'; destruct H' as (? & _ & H'); discriminate.
      * exfalso. apply bind_ok_inv in Ew. destruct Ew as (vs & _ & Ew).
        rewrite (resolve_function_call lm st _ _ (ord_functions lm st Ho)) in Ew. apply call_ok_const in Ew. apply Ew.
      * exfalso. rewrite (resolve_function_call lm st _ _ (ord_functions lm st Ho)) in Ew. apply call_ok_const in Ew. apply Ew.
      * exfalso. apply bind_ok_inv in Ew. destruct Ew as (v1 & _ & Ew).
        rewrite (resolve_function_call lm st _ _ (ord_functions lm st Ho)) in Ew. apply call_ok_const in Ew. apply Ew.
      * exfalso. apply bind_ok_inv in Ew. destruct Ew as (v1 & _ & Ew). apply bind_ok_inv in Ew. destruct Ew as (v2 & _ & Ew).
        rewrite (resolve_function_call lm st _ _ (ord_functions lm st Ho)) in Ew. apply call_ok_const in Ew. apply Ew.
      * exfalso. apply bind_ok_inv in Ew. destruct Ew as (v1 & _ & Ew). apply bind_ok_inv in Ew. destruct Ew as (v2 & _ & Ew).
        apply bind_ok_inv in Ew. destruct Ew as (v3 & _ & Ew).
        rewrite (resolve_function_call lm st _ _ (ord_functions lm st Ho)) in Ew. apply call_ok_const in Ew. apply Ew.
    + cbn [indexed_expr]. destruct idx as [|i idx]; [discriminate|]. intros _. apply mapM_ok in Em.
      inversion Em as [|? z ? zs Ei _]; subst. cbn [concat].
      assert (N : z <> []); [|destruct z; [congruence|discriminate]].
      destruct i as [l' e'|l' e1 e2]; cbn [visit_entry] in Ei.
      * apply bind_ok_inv in Ei. destruct Ei as (k & _ & [= <-]). discriminate.
      * apply bind_ok_inv in Ei. destruct Ei as (k1 & _ & Ei). apply bind_ok_inv in Ei. destruct Ei as (k2 & _ & Ei).
        unfold expand_range in Ei. destruct (Z.ltb_spec k2 k1); [discriminate|]. destruct (Z.eqb _ _); [discriminate|]. injection Ei as <-.
        destruct (Z.to_nat (k2 - k1 + 1)) eqn:E; [lia|]. discriminate.
  - apply bind_ok_inv in H. destruct H as (vs & _ & H). apply CD. eapply CC; eauto.
  - apply CD. eapply CC; eauto.
  - apply bind_ok_inv in H. destruct H as (v1 & _ & H). apply CD. eapply CC; eauto.
  - apply bind_ok_inv in H. destruct H as (v1 & _ & H). apply bind_ok_inv in H. destruct H as (v2 & _ & H). apply CD. eapply CC; eauto.
  - apply bind_ok_inv in H. destruct H as (v1 & _ & H). apply bind_ok_inv in H. destruct H as (v2 & _ & H).
    apply bind_ok_inv in H. destruct H as (v3 & _ & H). apply CD. eapply CC; eauto.
Qed.

(** ** Invariants *)
Definition value_ok (ne : bool) (vars : list variable) (v : value) : Prop :=
  reference_fine vars v /\ (ne = true -> value_well_formed (map var_id vars) v = true).
Lemma value_ok_incl ne vars vars' v : incl vars vars' -> value_ok ne vars v -> value_ok ne vars' v.
Proof.
  intros H [R W]. assert (I : forall x, In x vars' -> existsb (Nat.eqb (var_id x)) (map var_id vars') = true).
  { intros x Hx. apply existsb_exists. exists (var_id x). split; [now apply in_map|apply Nat.eqb_refl]. }
  split.
  - destruct v; cbn in *; auto. destruct R as (R1 & R2 & R3). auto.
  - intros E. specialize (W E). destruct v as [| | |x|x idx]; cbn in *; auto. apply andb_true_iff in W. destruct R as (R1 & _).
    apply andb_true_iff. split; [now apply I, H|apply W].
Qed.
Lemma from_value_ok lm ne vars st es v : ordinary lm st -> tables_hold (fun x => In x vars) st ->
  (ne = true -> forallb indexed_expr es = true) -> from st es v -> value_ok ne vars v.
Proof.
  intros Ho Ht Hn [C|(e & Ie & E)]; [split; destruct v; cbn in *; tauto|].
  assert (I : forall x, In x vars -> existsb (Nat.eqb (var_id x)) (map var_id vars) = true).
  { intros x Hx. apply existsb_exists. exists (var_id x). split; [now apply in_map|apply Nat.eqb_refl]. }
  pose proof (visit_hold lm _ st e v Ho Ht E) as V. pose proof (proj1 (visit_ordinary lm st Ho e) v E) as O. split.
  - destruct v as [| | |x|x idx]; cbn in *; auto. tauto.
  - intros En. specialize (Hn En). rewrite forallb_forall in Hn. specialize (Hn e Ie). destruct v as [| | |x|x idx]; cbn in *; auto.
    apply andb_true_iff. split; [apply I, V|]. destruct V as [_ V]. specialize (V Hn). destruct idx; [congruence|reflexivity].
Qed.

Definition statement_ok (ne : bool) (vars : list variable) (x : sem_statement) : Prop :=
  Forall (value_ok ne vars) (statement_values x) /\
  match x with SemGateInstr _ i _ ops _ | SemNonGate _ i _ ops _ _ => operands_typed i ops | _ => True end.
Lemma statement_ok_fine ne vars x : statement_ok ne vars x -> statement_fine vars x.
Proof. intros [F T]. split; [|exact T]. eapply Forall_impl; [|exact F]. intros v [H _]. exact H. Qed.
Lemma forallb_values ids (l : list value) : Forall (fun v => value_well_formed ids v = true) l -> forallb (value_well_formed ids) l = true.
Proof. intros H. apply forallb_forall. now apply Forall_forall. Qed.
Lemma annots_wf ids l : Forall (fun v => value_well_formed ids v = true) (annotation_values l) -> annots_well_formed ids l = true.
Proof.
  unfold annots_well_formed, annotation_values. induction l as [|a l IH]; cbn [flat_map forallb]; [reflexivity|]. rewrite Forall_app. intros [H1 H2].
  apply andb_true_iff. split; [now apply forallb_values|auto].
Qed.
Fixpoint sem_gate_ind_full (P : sem_gate -> Prop)
  (H1 : forall l n ps an, P (SemGate l n None ps an))
  (H2 : forall l n g ps an, P g -> P (SemGate l n (Some g) ps an)) (g : sem_gate) : P g :=
  match g with
  | SemGate l n None ps an => H1 l n ps an
  | SemGate l n (Some g') ps an => H2 l n g' ps an (sem_gate_ind_full P H1 H2 g')
  end.
Lemma gate_wf ids g : Forall (fun v => value_well_formed ids v = true) (gate_values g) -> gate_well_formed ids g = true.
Proof.
  induction g as [l n ps an|l n g ps an IH] using sem_gate_ind_full; cbn [gate_values gate_well_formed app]; rewrite ?Forall_app; intros H;
    rewrite ?andb_true_iff; decompose [and] H; auto using forallb_values, annots_wf.
Qed.
Lemma statement_ok_wf vars x : statement_ok true vars x -> statement_well_formed (map var_id vars) x = true.
Proof.
  intros [F _]. assert (F' : Forall (fun v => value_well_formed (map var_id vars) v = true) (statement_values x)).
  { eapply Forall_impl; [|exact F]. intros v [_ H]. auto. }
  destruct x; cbn [statement_values statement_well_formed] in *; rewrite ?Forall_app in F'; rewrite ?andb_true_iff; decompose [and] F';
    auto using forallb_values, annots_wf, gate_wf.
Qed.

Definition vars_of (st : analyzer) : list variable := map sv_var (variables_of st).
Record inv (ne : bool) (st : analyzer) : Prop := {
  inv_scope : exists g, scopes st = [g];
  inv_tables : tables_hold (fun x => In x (vars_of st)) st;
  inv_statements : Forall (statement_ok ne (vars_of st)) (statements_of st);
  inv_annots : Forall (fun v => Forall (value_ok ne (vars_of st)) (annotation_values (sv_annots v))) (variables_of st);
  inv_declared : Forall declared (vars_of st) }.

Lemma operands_typed_kinds n vs ks : Forall2 has_kind vs ks -> operands_typed (mkInstruction n (map make_type ks)) vs.
Proof.
  unfold operands_typed. cbn [operand_types]. induction 1 as [|v k vs ks (t & Ht & E) _ IH]; [constructor|]. cbn [map]. constructor; [|exact IH].
  exists t. split; [exact Ht|]. rewrite E. reflexivity.
Qed.

Lemma inv_statement_added lm ne st x es : ordinary lm st -> inv ne st -> (ne = true -> forallb indexed_expr es = true) ->
  Forall (from st es) (statement_values x) ->
  match x with SemGateInstr _ i _ ops _ | SemNonGate _ i _ ops _ _ => operands_typed i ops | _ => True end ->
  inv ne (map_current (with_statement x) st).
Proof.
  intros Ho [(g & Eg) T S A D] Hn F Ty.
  assert (Ev : variables_of (map_current (with_statement x) st) = variables_of st) by (rewrite variables_of_map; unfold variables_of; rewrite Eg; reflexivity).
  assert (Es : statements_of (map_current (with_statement x) st) = (statements_of st ++ [x])%list) by (rewrite statements_of_map; unfold statements_of; rewrite Eg; reflexivity).
  assert (Evs : vars_of (map_current (with_statement x) st) = vars_of st) by (unfold vars_of; now rewrite Ev).
  constructor; rewrite ?Ev, ?Evs, ?Es; auto.
  - rewrite map_current_scopes, Eg. eauto.
  - unfold tables_hold in *. rewrite map_current_scopes, Eg in *. inversion T; subst. constructor; auto.
  - apply Forall_app. split; [exact S|]. constructor; [|constructor]. split; [|exact Ty].
    eapply Forall_impl; [|exact F]. intros v. apply (from_value_ok lm); auto.
Qed.
Lemma inv_mono ne (vars vars' : list variable) : incl vars vars' ->
  (forall x, statement_ok ne vars x -> statement_ok ne vars' x).
Proof. intros H x [F T]. split; [|exact T]. eapply Forall_impl; [|exact F]. intros v. now apply value_ok_incl. Qed.

Lemma inv_effect lm ne st s st' es : ordinary lm st -> inv ne st -> (ne = true -> forallb indexed_expr (statement_exprs s) = true) ->
  effect st s st' es -> inv ne st'.
Proof.
  intros Ho Hi Hn H.
  assert (NV : forall n id ty ans (e : bool), declared (mkVariable id n ty) -> Forall (value_ok ne (vars_of st)) (annotation_values ans) ->
     inv ne (map_current (fun s => (if e then with_entry n (VVar (mkVariable id n ty)) else (fun s => s)) (with_variable (mkSemVariable (mkVariable id n ty) ans) s)) (fresh st))).
  { intros n id ty ans e Dv Fa. destruct Hi as [(g & Eg) T S A D].
    set (f := fun s => _). assert (Ev : variables_of (map_current f (fresh st)) = (variables_of st ++ [mkSemVariable (mkVariable id n ty) ans])%list).
    { rewrite variables_of_map. unfold variables_of. rewrite fresh_scopes, Eg. unfold f. destruct e; reflexivity. }
    assert (Es : statements_of (map_current f (fresh st)) = statements_of st) by (rewrite statements_of_map; unfold statements_of; rewrite fresh_scopes, Eg; unfold f; destruct e; reflexivity).
    assert (Evs : vars_of (map_current f (fresh st)) = (vars_of st ++ [mkVariable id n ty])%list) by (unfold vars_of; rewrite Ev, map_app; reflexivity).
    assert (Ic : incl (vars_of st) (vars_of st ++ [mkVariable id n ty])%list) by apply incl_appl, incl_refl.
    constructor; rewrite ?Evs, ?Ev, ?Es.
    - rewrite map_current_scopes, fresh_scopes, Eg. eauto.
    - unfold tables_hold in *. rewrite map_current_scopes, fresh_scopes, Eg in *. inversion T as [|? ? T1 T2]; subst. constructor; [|constructor].
      assert (T1' : Forall (fun e => match snd e with VVar x | VIndex x _ => In x (vars_of st ++ [mkVariable id n ty])%list | _ => True end) (sc_variables_table g)).
      { eapply Forall_impl; [|exact T1]. cbn. intros [m v]. cbn. destruct v; auto. }
      unfold f. destruct e; cbn; [|exact T1']. apply Forall_app. split; [exact T1'|]. constructor; [|constructor]. cbn. apply in_or_app. right. now left.
    - eapply Forall_impl; [|exact S]. now apply inv_mono.
    - apply Forall_app. split.
      + eapply Forall_impl; [|exact A]. cbn. intros v. apply Forall_impl. intros w. now apply value_ok_incl.
      + constructor; [|constructor]. cbn. eapply Forall_impl; [|exact Fa]. intros w. now apply value_ok_incl.
    - apply Forall_app. split; [exact D|]. constructor; [exact Dv|constructor]. }
  assert (FA : forall an ans log, visit_annotated st an = (Ok ans, log) -> (ne = true -> forallb indexed_expr (annotation_exprs an) = true) ->
     Forall (value_ok ne (vars_of st)) (annotation_values ans)).
  { intros an ans log E Hn'. apply annotated_from in E. eapply Forall_impl; [|exact E]. intros v. apply (from_value_ok lm); auto. apply Hi. }
  assert (VF : forall an, visit_annotated (fresh st) an = visit_annotated st an).
  { induction an as [|a an IH]; cbn [visit_annotated]; [reflexivity|]. rewrite IH. unfold visit_annotation_data.
    replace (visit_annotation_operands (fresh st) (an_loc a) (an_operands a)) with (visit_annotation_operands st (an_loc a) (an_operands a)); [reflexivity|].
    induction (an_operands a) as [|e es' IHe]; cbn [visit_annotation_operands]; [reflexivity|]. rewrite IHe, visit_fresh. reflexivity. }
  destruct H as [l n t an e N Le|l n t an ty ans es D A Ns Ni|l n t an ty ans es e D A Ns Ni Le|l g ops an sg es1 vs i ws ans es2 G V R C A Ns
    |l n ops ps an vs i ws pvs pws ans es V R P RP C A Ns|l n c an ans es A Ns|l s e es El Pl Nv].
  - destruct Hi as [H1 H2 H3 H4 H5]. constructor; assumption.
  - rewrite VF in A. apply (NV n (next_id st) ty ans true); [eapply declares_type_declared; eauto|eapply FA; eauto].
  - rewrite VF in A. apply (NV n (next_id st) ty ans false); [eapply declares_type_declared; eauto|eapply FA; eauto].
  - pose proof (visit_list_ordinary lm st Ho ops vs V) as Vo. apply (resolve_instruction_default lm st Ho) in R; [|now apply ordinary_typed_list].
    destruct R as (-> & ks & _ & K & ->). apply (inv_statement_added lm ne st _ (statement_exprs (SGateInstr l g ops an)) Ho Hi Hn).
    + cbn [statement_values statement_exprs]. apply gate_from in G. apply from_list in V. apply annotated_from in A.
      apply Forall_app. split; [eapply Forall_from_incl; [|exact G]; apply incl_appl, incl_refl|].
      apply Forall_app. split; (eapply Forall_from_incl; [|eassumption]); apply incl_appr; [apply incl_appl|apply incl_appr]; apply incl_refl.
    + now apply operands_typed_kinds.
  - pose proof (visit_list_ordinary lm st Ho ops vs V) as Vo. apply (resolve_instruction_default lm st Ho) in R; [|now apply ordinary_typed_list].
    destruct R as (-> & ks & _ & K & ->). apply (inv_statement_added lm ne st _ (statement_exprs (SNonGate l n ops ps an)) Ho Hi Hn).
    + cbn [statement_values statement_exprs]. apply from_list in V, P. apply annotated_from in A.
      assert (RP' : Forall (from st ps) pws) by (eapply parameters_from; [|exact RP|exact P]; intros v Hv; now left).
      apply Forall_app. split; [eapply Forall_from_incl; [|exact V]; apply incl_appl, incl_refl|].
      apply Forall_app. split; (eapply Forall_from_incl; [|eassumption]); apply incl_appr; [apply incl_appl|apply incl_appr]; apply incl_refl.
    + now apply operands_typed_kinds.
  - apply (inv_statement_added lm ne st _ (annotation_exprs an) Ho Hi); [exact Hn|cbn; eapply annotated_from; eauto|exact I].
  - exact Hi.
Qed.
Lemma inv_block lm ne st ss st' es : block_run st ss st' es -> ordinary lm st -> inv ne st ->
  (ne = true -> Forall (fun s => forallb indexed_expr (statement_exprs s) = true) ss) -> inv ne st'.
Proof.
  induction 1 as [|st s st1 es1 ss st2 es2 H _ IH]; intros Ho Hi Hn; [exact Hi|]. pose proof (statement_effect _ _ _ _ H) as E.
  apply IH.
  - eapply ordinary_extends; [exact Ho|]. eapply effect_extends, E.
  - eapply inv_effect; eauto. intros En. specialize (Hn En). now inversion Hn.
  - intros En. specialize (Hn En). now inversion Hn.
Qed.
Lemma inv_default lm v ne : inv ne (mkAnalyzer v [default_scope lm] 0).
Proof.
  constructor; cbn.
  - eauto.
  - repeat constructor.
  - constructor.
  - constructor.
  - constructor.
Qed.

(** ** Distinct names *)
Definition entries (vs : list sem_variable) : variable_table := map (fun v => (var_name (sv_var v), VVar (sv_var v))) vs.
Record names_inv (st : analyzer) : Prop := {
  ni_table : table_here st = (default_constants ++ entries (variables_of st))%list;
  ni_distinct : NoDup (names_here st) }.
Lemma NoDup_snoc {A} (l : list A) a : NoDup l -> ~ In a l -> NoDup (l ++ [a]).
Proof.
  intros H N. apply NoDup_rev in H. rewrite <- (rev_involutive (l ++ [a])). apply NoDup_rev. rewrite rev_app_distr. cbn. constructor; [|exact H].
  now rewrite <- in_rev.
Qed.
Lemma names_effect st s st' : names_inv st -> effect st s st' [] -> names_inv st'.
Proof.
  intros [T D] H. remember (@nil error) as log eqn:Elog.
  assert (K : forall x, scopes st <> [] -> names_inv (map_current (with_statement x) st)).
  { intros x Ns. constructor.
    - unfold table_here in *. rewrite variables_of_map, map_current_scopes. unfold variables_of in T. destruct (scopes st); [congruence|exact T].
    - rewrite names_here_map. unfold names_here in D. destruct (scopes st); [congruence|exact D]. }
  destruct H as [l n t an e N Le|l n t an ty ans es Dt A Ns Ni|l n t an ty ans es e Dt A Ns Ni Le|l g ops an sg es1 vs i ws ans es2 G V R C A Ns
    |l n ops ps an vs i ws pvs pws ans es V R P RP C A Ns|l n c an ans es A Ns|l s e es El Pl Nv]; try discriminate; auto.
  - constructor.
    + unfold table_here in *. rewrite variables_of_map, map_current_scopes. unfold variables_of in T. cbn [fresh scopes]. destruct (scopes st) as [|s r]; [congruence|].
      cbn [with_entry with_variable sc_variables_table sc_variables]. rewrite T. unfold entries. rewrite map_app, app_assoc. reflexivity.
    + rewrite names_here_map. unfold names_here in *. cbn [fresh scopes]. destruct (scopes st) as [|s r]; [congruence|].
      cbn [with_entry with_variable sc_variables_table sc_variables]. rewrite map_app. cbn [map fst]. now apply NoDup_snoc.
  - destruct es; discriminate.
  - destruct es; discriminate.
Qed.
Lemma names_block st ss st' es : block_run st ss st' es -> es = [] -> names_inv st -> names_inv st'.
Proof.
  induction 1 as [|st s st1 es1 ss st2 es2 H _ IH]; intros E Hi; [exact Hi|]. apply app_eq_nil in E. destruct E as [-> ->].
  apply IH; [reflexivity|]. eapply names_effect; eauto using statement_effect.
Qed.
Lemma names_default lm v : names_inv (mkAnalyzer v [default_scope lm] 0).
Proof. constructor; [reflexivity|]. cbn. repeat constructor; cbn; intuition discriminate. Qed.

Lemma accepted_fine lm api st p st' sp : default_analyzer lm api = Ok st -> analyze_ast st p = Ok (st', mkResult (Some sp) []) -> program_fine sp.
Proof.
  intros Hd H. pose proof (default_ordinary lm api st Hd) as Ho. apply default_analyzer_inv in Hd. destruct Hd as (v0 & _ & _ & ->).
  apply analyze_ast_inv in H. destruct H as (v & es1 & es2 & s & rest & _ & B & Sc & E & _). injection E as -> E.
  symmetry in E. apply app_eq_nil in E. destruct E as [-> ->].
  pose proof (inv_block lm false _ _ _ _ B Ho (inv_default lm v0 false) ltac:(discriminate)) as [_ _ I3 I4 I5].
  pose proof (names_block _ _ _ _ B eq_refl (names_default lm v0)) as [N1 N2].
  unfold program_fine, program_variables. cbn [sp_variables sp_block].
  rewrite names_table, N1 in N2.
  unfold vars_of, variables_of, statements_of in *. rewrite Sc in *. split; [|split; [|split]].
  - eapply Forall_impl; [|exact I3]. intros x. apply statement_ok_fine.
  - eapply Forall_impl; [|exact I4]. cbn. intros x. apply Forall_impl. intros w [W _]. exact W.
  - exact I5.
  - rewrite map_app in N2. unfold entries in N2. rewrite map_map in N2. rewrite map_map. exact N2.
Qed.

(** ** Nothing is thrown (C60) *)
Lemma resolve_no_throw {T} (t : table T) name args : Forall typed args -> no_throw (resolve t name args).
Proof.
  intros H w. unfold resolve. destruct (table_find name t) as [os|]; [|discriminate]. unfold resolve_overload.
  destruct (resolve_loop_spec args (rev os) H) as [(l1 & o & l2 & a & _ & _ & _ & ->)|[_ ->]]; cbn [bind]; [discriminate|].
  destruct (types_of_typed args H) as [ts ->]. discriminate.
Qed.
Lemma resolve_instruction_no_throw st name args : Forall typed args -> no_throw (resolve_instruction st name args).
Proof.
  intros H. unfold resolve_instruction. induction (scopes st) as [|s l IH]; cbn [resolve_instruction_in].
  - destruct (types_of_typed args H) as [ts ->]. discriminate.
  - pose proof (resolve_no_throw (sc_instructions s) name args H) as N. destruct (resolve (sc_instructions s) name args); try exact IH; try exact N; discriminate.
Qed.
Lemma check_gate_clean i : no_throw (check_gate i).
Proof. intros w. unfold check_gate. destruct i as [g|]; [destruct (is_two_qubit_gate _)|]; discriminate. Qed.

Section NoThrow.
  Variables (lm : libm) (st : analyzer).
  Hypothesis Hst : ordinary lm st.

  Lemma resolve_parameters_no_throw n vs : Forall ordinary_value vs -> no_throw (resolve_parameters n vs).
  Proof.
    intros Ho. destruct (in_dec string_dec n (map fst gates)) as [G|G].
    - apply In_names in G. destruct G as [[ks a] G]. apply clean_no_throw. apply (resolve_parameters_known n ks vs); eauto.
    - destruct (in_dec string_dec n (map fst modifiers)) as [M|M].
      + apply In_names in M. destruct M as [ks M]. apply clean_no_throw. apply (resolve_parameters_known n ks vs); eauto.
      + destruct (in_dec string_dec n (map fst non_gates)) as [N|N].
        * apply clean_no_throw. now apply resolve_parameters_non_gate.
        * destruct (resolve_parameters_unknown n vs G N M) as [e ->]. discriminate.
  Qed.
  Lemma pure_gate_no_throw g : grammar_gate g -> no_throw (pure_gate st g).
  Proof.
    induction 1 as [l n ps H1 H2|l m g ps Hm Hg IH]; cbn [pure_gate]; apply no_throw_context.
    - cbn [bind]. apply no_throw_bind; [apply (visit_list_no_throw lm st Hst)|]. intros vs Ev.
      apply no_throw_bind; [apply resolve_parameters_no_throw, (visit_list_ordinary lm st Hst _ _ Ev)|]. intros ws _.
      apply no_throw_bind; [apply check_gate_clean|]. intros u _ w. discriminate.
    - apply no_throw_bind; [apply no_throw_bind; [exact IH|]; intros r _ w; discriminate|]. intros i _.
      apply no_throw_bind; [apply (visit_list_no_throw lm st Hst)|]. intros vs Ev.
      apply no_throw_bind; [apply resolve_parameters_no_throw, (visit_list_ordinary lm st Hst _ _ Ev)|]. intros ws _.
      apply no_throw_bind; [apply check_gate_clean|]. intros u _ w. discriminate.
  Qed.
  Lemma catch_log_total {A} l (d : A) m : no_throw m -> (exists a es, catch_log l d (lift m) = (Ok a, es)) \/ (exists k es, catch_log l d (lift m) = (UB k, es)).
  Proof. intros H. destruct m as [a|e|w|k]; unfold lift; cbn [catch_log]; [left; eauto|left; eauto|destruct (H w eq_refl)|right; eauto]. Qed.
  Lemma statement_total s : grammar_statement s ->
    (exists st' es, visit_statement st s = (Ok st', es)) \/ (exists k es, visit_statement st s = (UB k, es)).
  Proof.
    intros (Hp & _ & Hg). destruct s as [l n t an|l g ops an|l n ops ps an|l n c an].
    - left. cbn in Hp. subst an. cbn [visit_statement]. unfold visit_variable.
      destruct (build_type_spec t) as [(ty & -> & _)|(e & -> & _)]; cbn [lift lbind catch_log visit_annotated]; [|eauto].
      destruct (ordinary_scopes lm st Hst) as (s & r & E).
      unfold add_variable, update_current. cbn [fresh scopes]. rewrite E. cbn [bind lift lbind]. unfold register_variable, update_current. cbn [scopes].
      unfold variable_add. cbn [sc_variables_table]. destruct (table_find n (sc_variables_table s)); cbn; eauto.
    - destruct Hp as [_ ->]. rewrite visit_gate_statement_pure by exact Hg. apply catch_log_total. unfold pure_gate_statement.
      apply no_throw_bind; [now apply pure_gate_no_throw|]. intros sg _. apply no_throw_bind; [apply (visit_list_no_throw lm st Hst)|]. intros vs Ev.
      apply no_throw_bind; [apply resolve_instruction_no_throw, ordinary_typed_list, (visit_list_ordinary lm st Hst _ _ Ev)|]. intros r _.
      apply no_throw_bind; [intros w; unfold check_gate_operands; destruct (adjacent_equal _); discriminate|]. intros u _.
      destruct (add_statement_ok lm st Hst (SemGateInstr l (fst r) sg (snd r) [])) as [st' ->]. discriminate.
    - cbn in Hp. subst an. rewrite visit_non_gate_statement_pure. apply catch_log_total. unfold pure_non_gate_statement.
      apply no_throw_bind; [apply (visit_list_no_throw lm st Hst)|]. intros vs Ev.
      apply no_throw_bind; [apply resolve_instruction_no_throw, ordinary_typed_list, (visit_list_ordinary lm st Hst _ _ Ev)|]. intros r _.
      apply no_throw_bind; [apply (visit_list_no_throw lm st Hst)|]. intros pvs Ep.
      apply no_throw_bind; [apply resolve_parameters_no_throw, (visit_list_ordinary lm st Hst _ _ Ep)|]. intros ws _.
      apply no_throw_bind; [intros w; unfold check_non_gate_operands; destruct (is_measure n); [destruct (_ =? _)%Z|]; discriminate|]. intros u _.
      destruct (add_statement_ok lm st Hst (SemNonGate l (fst r) n (snd r) ws [])) as [st' ->]. discriminate.
    - left. cbn in Hp. subst an. cbn [visit_statement]. unfold visit_asm_declaration. cbn [visit_annotated lift lbind].
      destruct (add_statement_ok lm st Hst (SemAsm l n c [])) as [st' ->]. cbn. eauto.
  Qed.
End NoThrow.
Lemma block_total lm l ss : Forall grammar_statement ss -> forall st, ordinary lm st ->
  (exists st' es, visit_block l st ss = (Ok st', es)) \/ (exists k es, visit_block l st ss = (UB k, es)).
Proof.
  induction 1 as [|s ss Hs _ IH]; intros st Ho; [left; cbn; unfold lift; eauto|]. rewrite visit_block_cons.
  destruct (statement_total lm st Ho s Hs) as [(st1 & e1 & E)|(k & e1 & E)]; rewrite E; cbn [lbind]; [|eauto].
  destruct (IH st1) as [(st2 & e2 & E2)|(k & e2 & E2)]; [|rewrite E2; eauto|rewrite E2; eauto].
  eapply ordinary_extends; [exact Ho|]. eapply effect_extends, statement_effect, E.
Qed.
Lemma inv_well_formed st s rest v pv l : inv true st -> scopes st = s :: rest ->
  program_well_formed (mkSemProgram v pv l (sc_block s) (sc_variables s)) = true.
Proof.
  intros [_ _ S A _] E. unfold vars_of, statements_of, variables_of in *. rewrite E in *. unfold program_well_formed. cbn [sp_variables sp_block].
  rewrite <- map_map with (f := sv_var) (g := var_id). apply andb_true_iff. split; apply forallb_forall; intros x Hx.
  - rewrite Forall_forall in S. apply statement_ok_wf. auto.
  - rewrite Forall_forall in A. apply annots_wf. eapply Forall_impl; [|exact (A x Hx)]. intros w [_ W]. auto.
Qed.
Lemma grammar_indexed p : grammar_program p -> Forall (fun s => forallb indexed_expr (statement_exprs s) = true) (prog_statements p).
Proof. intros H. eapply Forall_impl; [|exact H]. intros s (_ & I & _). exact I. Qed.
Lemma analyses_inv lm st : analyses lm st -> inv true st.
Proof.
  induction 1 as [st H|st p st' r H IH Hp E].
  - apply default_analyzer_inv in H. destruct H as (v & _ & _ & ->). apply inv_default.
  - apply analyze_ast_inv in E. destruct E as (v & es1 & es2 & s & rest & _ & B & _).
    eapply inv_block; eauto using analyses_ordinary. intros _. now apply grammar_indexed.
Qed.
Lemma analysis_total lm st p : analyses lm st -> grammar_program p ->
  (exists st' sp es, analyze_ast st p = Ok (st', mkResult (Some sp) es)) \/ (exists k, analyze_ast st p = UB k).
Proof.
  intros H Hp. destruct (visit_version (api_version st) (prog_version p) (prog_version_loc p)) as [r es1] eqn:Ev.
  destruct (visit_version_ok _ _ _ _ _ Ev) as [v ->].
  destruct (block_total lm (prog_block_loc p) (prog_statements p) Hp st (analyses_ordinary lm st H)) as [(st' & es2 & B)|(k & es2 & B)].
  - left. apply block_run_iff in B. pose proof (analyses_inv lm st H) as I.
    assert (I' : inv true st') by (eapply inv_block; eauto using analyses_ordinary; intros _; now apply grammar_indexed).
    destruct (inv_scope _ _ I') as [g Eg].
    rewrite (analyze_ast_intro st p v es1 st' es2 g [] Ev B Eg); [eauto|]. intros _. eapply inv_well_formed; eauto.
  - right. exists k. unfold analyze_ast, visit_program. rewrite Ev. cbn [lbind]. rewrite B. reflexivity.
Qed.
