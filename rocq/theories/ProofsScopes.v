(** Lemmas for C74: programs analysed in an inner scope. *)
From Verif Require Import Base ModelUtils ModelVersion ModelError ModelTypes ModelOverload ModelFunctions ModelInstructionSet ModelAst ModelAnalyzer ModelSemantic
  SpecTypes SpecFunctions SpecInstructions SpecAnalyzer ProofsFunctions ProofsFolding ProofsExpr ProofsInstructions ProofsGates ProofsIndex
  ProofsAnalyzer ProofsAnalyzer2 ProofsAnalyzer3.
Local Open Scope list_scope.

(** ** The names an expression mentions and the variable its value refers to *)
Definition refers_to (v : value) (x : variable) : Prop := v = VVar x \/ exists idx, v = VIndex x idx.
Definition names_const (st : analyzer) (ns : list string) : Prop := forall n, In n ns -> exists w, resolve_variable st n = Ok w /\ is_const w.
Definition names_about (st : analyzer) (ns : list string) (v : value) : Prop :=
  (forall n, In n ns -> exists w, resolve_variable st n = Ok w /\ (is_const w \/ exists x, w = VVar x /\ refers_to v x)) /\
  (forall x, refers_to v x -> exists n, In n ns /\ resolve_variable st n = Ok (VVar x)).
Lemma const_refers v x : is_const v -> ~ refers_to v x.
Proof. intros C [->|(idx & ->)]; exact C. Qed.
Lemma names_about_const st ns v : is_const v -> (names_about st ns v <-> names_const st ns).
Proof.
  intros C. split.
  - intros [H _] n I. destruct (H n I) as (w & E & [K|(x & _ & R)]); [eauto|]. destruct (const_refers v x C R).
  - intros H. split; [intros n I; destruct (H n I) as (w & E & K); eauto|]. intros x R. destruct (const_refers v x C R).
Qed.
Section Refers.
  Context (lm : libm) (st : analyzer) (Ho : ordinary lm st).
  Lemma visit_refers : forall e v, visit st e = Ok v -> names_about st (expr_names e) v.
  Proof.
    assert (CC : forall n args v, resolve_function st n args = Ok v -> Forall is_const args /\ is_const v).
    { intros n args v E. rewrite (resolve_function_call lm st n args (ord_functions lm st Ho)) in E. now apply call_ok_const in E. }
    intros e. apply (expr_ind_full (fun e => forall v, visit st e = Ok v -> names_about st (expr_names e) v)
      (fun i => forall zs, visit_entry st i = Ok zs -> names_const st (entry_names i))); clear e.
    1-3: intros l b v [= <-]; apply names_about_const; [exact I|]; intros n [].
    - intros l n v H. cbn [visit] in H. assert (N : nameable v) by (eapply resolve_variable_nameable; [apply Ho|exact H]).
      destruct v as [b|z|f|x|x idx]; try (apply names_about_const; [exact I|]; intros m [<-|[]]; cbn; eauto); [|destruct N].
      split; [intros m [<-|[]]; exists (VVar x); split; [exact H|]; right; exists x; split; [reflexivity|now left]|].
      intros y [[= <-]|(idx & E)]; [|discriminate]. exists n. split; [now left|exact H].
    - intros l b idx IH1 IH2 v H. cbn [visit] in H. apply with_context_ok_iff in H. apply bind_ok_inv in H. destruct H as (w & Ew & H).
      apply with_context_ok_iff in Ew. destruct w as [| | |x|]; try discriminate.
      assert (H' : exists is, mapM (visit_entry st) idx = Ok is /\ v = VIndex x (concat is)).
      { destruct (kind (var_type x)); try discriminate; apply bind_ok_inv in H; destruct H as (is & Em & H);
          apply bind_ok_inv in H; destruct H as (u & _ & [= <-]); eauto. }
      destruct H' as (is & Em & ->). apply IH1 in Ew. destruct Ew as [W1 W2].
      assert (K : names_const st (flat_map entry_names idx)).
      { intros n I. apply in_flat_map in I. destruct I as (i & Ii & In). apply mapM_ok in Em. clear -IH2 Em Ii In.
        induction Em as [|a zs idx is E _ IH]; [contradiction|]. inversion IH2; subst. destruct Ii as [->|Ii]; [match goal with H : forall zs, _ -> names_const st (entry_names i) |- _ => exact (H _ E _ In) end|auto]. }
      cbn [expr_names]. split.
      + intros n I. apply in_app_or in I. destruct I as [I|I]; [|destruct (K n I) as (w & E & C); exists w; split; [exact E|now left]].
        destruct (W1 n I) as (w & E & [C|(y & -> & R)]); [exists w; split; [exact E|now left]|]. exists (VVar y). split; [exact E|]. right. exists y. split; [reflexivity|].
        destruct R as [[= <-]|(z & R)]; [right; eauto|discriminate].
      + intros y [R|(z & [= <- _])]; [discriminate|]. destruct (W2 x) as (n & I & E); [now left|]. exists n. split; [apply in_or_app; now left|exact E].
    - intros l m v H. cbn [visit] in H. apply CC in H. apply names_about_const; [tauto|]. intros n [].
    - intros l m args IH v H. cbn [visit] in H. apply bind_ok_inv in H. destruct H as (vs & E & H). apply CC in H. destruct H as [Ca Cv].
      apply names_about_const; [exact Cv|]. cbn [expr_names]. intros n I. apply in_flat_map in I. destruct I as (i & Ii & In).
      apply mapM_ok in E. clear -IH E Ii In Ca. induction E as [|a b args vs E _ IHE]; [contradiction|]. inversion IH; inversion Ca; subst.
      apply with_context_ok_iff in E. destruct Ii as [->|Ii]; [|eauto]. eapply names_about_const; [|eauto|exact In]. assumption.
    - intros l op e IH v H. cbn [visit] in H. apply bind_ok_inv in H. destruct H as (v1 & E1 & H). apply with_context_ok_iff in E1.
      apply CC in H. destruct H as [Ca Cv]. inversion Ca; subst. apply names_about_const; [exact Cv|]. cbn [expr_names].
      apply (names_about_const st _ v1); auto.
    - intros l op e1 e2 IH1 IH2 v H. cbn [visit] in H. apply bind_ok_inv in H. destruct H as (v1 & E1 & H). apply with_context_ok_iff in E1.
      apply bind_ok_inv in H. destruct H as (v2 & E2 & H). apply with_context_ok_iff in E2. apply CC in H. destruct H as [Ca Cv].
      inversion Ca as [|? ? C1 Ca']; subst. inversion Ca' as [|? ? C2 _]; subst. apply names_about_const; [exact Cv|]. cbn [expr_names].
      apply IH1 in E1. apply IH2 in E2. apply names_about_const in E1, E2; auto. intros n I. apply in_app_or in I. destruct I; auto.
    - intros l c e1 e2 IH0 IH1 IH2 v H. cbn [visit] in H. apply bind_ok_inv in H. destruct H as (v0 & E0 & H). apply with_context_ok_iff in E0.
      apply bind_ok_inv in H. destruct H as (v1 & E1 & H). apply with_context_ok_iff in E1.
      apply bind_ok_inv in H. destruct H as (v2 & E2 & H). apply with_context_ok_iff in E2. apply CC in H. destruct H as [Ca Cv].
      inversion Ca as [|? ? C0 Ca']; subst. inversion Ca' as [|? ? C1 Ca'']; subst. inversion Ca'' as [|? ? C2 _]; subst.
      apply names_about_const; [exact Cv|]. cbn [expr_names].
      apply IH0 in E0. apply IH1 in E1. apply IH2 in E2. apply names_about_const in E0, E1, E2; auto. intros n I.
      apply in_app_or in I. destruct I as [I|I]; auto. apply in_app_or in I. destruct I; auto.
    - intros l e IH zs H. cbn [visit_entry] in H. apply bind_ok_inv in H. destruct H as (z & E & _).
      apply (const_int_of_denotes lm st Ho) in E. destruct E as (v & E & C & _). cbn [entry_names]. apply (names_about_const st _ v); auto.
    - intros l e1 e2 IH1 IH2 zs H. cbn [visit_entry] in H. apply bind_ok_inv in H. destruct H as (z1 & E1 & H). apply bind_ok_inv in H. destruct H as (z2 & E2 & _).
      apply (const_int_of_denotes lm st Ho) in E1, E2. destruct E1 as (v1 & E1 & C1 & _), E2 as (v2 & E2 & C2 & _).
      apply IH1 in E1. apply IH2 in E2. apply names_about_const in E1, E2; auto. intros n I. cbn [entry_names] in I. apply in_app_or in I. destruct I; auto.
  Qed.
  Lemma list_refers es vs : visit_expression_list st es = Ok vs ->
    (forall x, (exists v, In v vs /\ refers_to v x) <-> exists e n, In e es /\ In n (expr_names e) /\ resolve_variable st n = Ok (VVar x)).
  Proof.
    unfold visit_expression_list. rewrite mapM_ok. induction 1 as [|e v es vs E _ IH]; intros x.
    - split; [intros (v & [] & _)|intros (e & n & [] & _)].
    - unfold visit_expression in E. apply with_context_ok_iff in E. destruct (visit_refers e v E) as [A B]. split.
      + intros (w & [<-|I] & R).
        * destruct (B x R) as (n & I & En). exists e, n. split; [now left|auto].
        * destruct (proj1 (IH x)) as (e' & n & I' & J); eauto. exists e', n. split; [now right|exact J].
      + intros (e' & n & [<-|I] & In & En).
        * destruct (A n In) as (w & Ew & [C|(y & -> & R)]); [rewrite En in Ew; injection Ew as <-; destruct C|].
          rewrite En in Ew. injection Ew as <-. exists v. split; [now left|exact R].
        * destruct (proj2 (IH x)) as (w & I' & R); [eauto|]. exists w. split; [now right|exact R].
  Qed.
End Refers.

(** ** Statements *)
Lemma list_const lm st es vs : ordinary lm st -> visit_expression_list st es = Ok vs -> Forall is_const vs ->
  forall e n, In e es -> In n (expr_names e) -> forall x, resolve_variable st n <> Ok (VVar x).
Proof.
  intros Ho E C e n Ie In x R. destruct (proj2 (list_refers lm st Ho es vs E x)) as (v & Iv & Rv); [eauto|].
  rewrite Forall_forall in C. exact (const_refers v x (C v Iv) Rv).
Qed.
Lemma fits_const vs ks : Forall2 fits_param vs ks -> Forall is_const vs.
Proof. induction 1 as [|v k vs ks [C _] _ IH]; constructor; auto. Qed.
Lemma stored_const vs ks ws : stored_params vs ks ws -> Forall is_const ws.
Proof.
  intros (L1 & L2 & H). apply Forall_forall. intros w I. apply In_nth_error in I. destruct I as (i & Ei).
  assert (Li : (i < List.length ws)%nat) by (apply nth_error_Some; congruence).
  destruct (nth_error vs i) as [v|] eqn:Ev; [|apply nth_error_None in Ev; lia].
  destruct (nth_error ks i) as [k|] eqn:Ek; [|apply nth_error_None in Ek; lia].
  destruct (H i v k w Ev Ek Ei) as (C & _). exact C.
Qed.
Lemma gate_const lm st g a sg : ordinary lm st -> legal_gate st g a -> stored_gate st g sg ->
  Forall is_const (gate_values sg) /\ forall e n, In e (gate_exprs g) -> In n (expr_names e) -> forall x, resolve_variable st n <> Ok (VVar x).
Proof.
  intros Ho L H. revert a L. induction H as [l n ps ks a vs ws G V S|l m ks ps vs ws g sg M S IH V P]; intros a' L.
  - inversion L as [? ? ? ks' ? vs' G' V' F|?|?|?]; subst. assert (vs' = vs) by congruence. subst vs'. cbn [gate_values gate_exprs app annotation_values flat_map].
    unfold annotation_exprs. cbn [flat_map]. rewrite !app_nil_r. split; [eapply stored_const; eauto|]. eapply list_const; eauto. eapply fits_const; eauto.
  - assert (X : legal_gate st g 1 /\ Forall is_const vs).
    { inversion L as [|? ? Lg|? ? e v Lg E F|? ? Lg]; subst; (split; [exact Lg|]); destruct P as (L1 & L2 & _).
      - cbn in V. injection V as <-. constructor.
      - unfold visit_expression_list in V. cbn in V. rewrite E in V. injection V as <-. constructor; [apply F|constructor].
      - cbn in V. injection V as <-. constructor. }
    destruct X as [Lg C]. destruct (IH 1%nat Lg) as [I1 I2]. cbn [gate_values gate_exprs annotation_values flat_map].
    unfold annotation_exprs. cbn [flat_map]. rewrite !app_nil_r. split.
    + apply Forall_app. split; [exact I1|]. eapply stored_const; eauto.
    + intros e n Ie. apply in_app_or in Ie. destruct Ie as [Ie|Ie]; [now apply I2|]. eapply list_const; eauto.
Qed.
Definition shows (st : analyzer) (s : statement) (x : sem_statement) : Prop :=
  (forall y, (exists v, In v (statement_values x) /\ refers_to v y) <-> (exists n, mentions s n /\ resolve_variable st n = Ok (VVar y))) /\
  (forall y idx, In (VIndex y idx) (statement_values x) -> idx <> []).
Lemma list_indexed lm st es vs : ordinary lm st -> visit_expression_list st es = Ok vs -> forallb indexed_expr es = true ->
  forall y idx, In (VIndex y idx) vs -> idx <> [].
Proof.
  intros Ho V Hi y idx I. apply from_list in V. rewrite Forall_forall in V. destruct (V _ I) as [[]|(e & Ie & E)].
  assert (T : tables_hold (fun _ => True) st).
  { apply Forall_forall. intros s _. apply Forall_forall. intros [m v] _. now destruct v. }
  pose proof (visit_hold lm (fun _ => True) st e _ Ho T E) as [_ H]. apply H. rewrite forallb_forall in Hi. auto.
Qed.
Lemma const_index vs y idx : Forall is_const vs -> ~ In (VIndex y idx) vs.
Proof. intros F I. rewrite Forall_forall in F. exact (F _ I). Qed.
Lemma statement_shows lm st s st' : ordinary lm st -> grammar_statement s -> (forall l n t an, s <> SVariable l n t an) ->
  visit_statement st s = (Ok st', []) ->
  exists x, statements_of st' = statements_of st ++ [x] /\ shows st s x.
Proof.
  intros Ho (Hp & Hi & Hg) Nv E. destruct s as [l n t an|l g ops an|l n ops ps an|l n c an].
  - destruct (Nv l n t an eq_refl).
  - destruct Hp as [Hpg ->]. destruct (gate_accepted lm st Ho l g ops st' Hg E) as (a & sg & vs & k & i & L & S & V & _ & _ & _ & _ & R).
    eexists. split; [exact R|]. destruct (gate_const lm st g a sg Ho L S) as [C1 C2]. cbn [statement_exprs] in Hi.
    rewrite !forallb_app in Hi. apply andb_true_iff in Hi. destruct Hi as [_ Hi]. apply andb_true_iff in Hi. destruct Hi as [Hi _].
    unfold shows. cbn [statement_values annotation_values flat_map]. rewrite app_nil_r. split.
    + intros y. split.
      * intros (v & I & Rv). apply in_app_or in I. destruct I as [I|I]; [rewrite Forall_forall in C1; destruct (const_refers v y (C1 v I) Rv)|].
        destruct (proj1 (list_refers lm st Ho ops vs V y)) as (e & m & I1 & I2 & I3); [eauto|]. exists m. split; [|exact I3]. exists e. split; [|exact I2].
        cbn [statement_exprs]. apply in_or_app. right. apply in_or_app. now left.
      * intros (m & (e & I1 & I2) & I3). cbn [statement_exprs] in I1. unfold annotation_exprs in I1. cbn [flat_map] in I1. rewrite app_nil_r in I1.
        apply in_app_or in I1. destruct I1 as [I1|I1]; [destruct (C2 e m I1 I2 y I3)|].
        destruct (proj2 (list_refers lm st Ho ops vs V y)) as (v & Iv & Rv); [eauto|]. exists v. split; [apply in_or_app; now right|exact Rv].
    + intros y idx I. apply in_app_or in I. destruct I as [I|I]; [destruct (const_index _ _ _ C1 I)|]. eapply list_indexed; eauto.
  - cbn in Hp. subst an. destruct Hg as (Hn & Hg).
    destruct (non_gate_accepted lm st Ho l n ops ps st' Hn E) as (ks & cs & vs & pvs & ws & i & In0 & V & P & S & _ & _ & _ & _ & R).
    eexists. split; [exact R|]. cbn [statement_exprs] in Hi.
    rewrite !forallb_app in Hi. apply andb_true_iff in Hi. destruct Hi as [Hi _].
    assert (C : Forall is_const pvs /\ Forall is_const ws).
    { destruct S as [[F S]|[-> ->]]; [|split; constructor]. split; [eapply fits_const; eauto|eapply stored_const; eauto]. }
    destruct C as [C1 C2]. unfold shows. cbn [statement_values annotation_values flat_map]. rewrite app_nil_r. split.
    + intros y. split.
      * intros (v & I & Rv). apply in_app_or in I. destruct I as [I|I]; [|rewrite Forall_forall in C2; destruct (const_refers v y (C2 v I) Rv)].
        destruct (proj1 (list_refers lm st Ho ops vs V y)) as (e & m & I1 & I2 & I3); [eauto|]. exists m. split; [|exact I3]. exists e. split; [|exact I2].
        cbn [statement_exprs]. apply in_or_app. now left.
      * intros (m & (e & I1 & I2) & I3). cbn [statement_exprs] in I1. unfold annotation_exprs in I1. cbn [flat_map] in I1. rewrite app_nil_r in I1.
        apply in_app_or in I1. destruct I1 as [I1|I1]; [|destruct (list_const lm st ps pvs Ho P C1 e m I1 I2 y I3)].
        destruct (proj2 (list_refers lm st Ho ops vs V y)) as (v & Iv & Rv); [eauto|]. exists v. split; [apply in_or_app; now left|exact Rv].
    + intros y idx I. apply in_app_or in I. destruct I as [I|I]; [|destruct (const_index _ _ _ C2 I)]. exact (list_indexed lm st ops vs Ho V Hi y idx I).
  - cbn in Hp. subst an. apply statement_effect in E. remember (@nil error) as es eqn:Ees.
    inversion E as [| | | | |? ? ? ? ans es' A Ns|? ? e es' El Pl Nv']; subst; [|destruct es'; discriminate].
    cbn in A. injection A as <-. eexists. split; [rewrite statements_of_map; unfold statements_of; destruct (scopes st); [congruence|reflexivity]|].
    split; [|intros y idx []]. intros y. split; [intros (v & [] & _)|]. intros (m & (e & [] & _) & _).
Qed.

(** ** Well-formedness *)
Lemma annots_forallb ids l : annots_well_formed ids l = forallb (value_well_formed ids) (annotation_values l).
Proof. unfold annots_well_formed, annotation_values. induction l as [|a l IH]; cbn [flat_map forallb]; [reflexivity|]. now rewrite forallb_app, IH. Qed.
Lemma gate_forallb ids g : gate_well_formed ids g = forallb (value_well_formed ids) (gate_values g).
Proof.
  induction g as [l n ps an|l n g ps an IH] using sem_gate_ind_full; cbn [gate_values gate_well_formed app]; rewrite !forallb_app, ?IH, annots_forallb; [reflexivity|].
  now rewrite andb_assoc.
Qed.
Lemma statement_forallb ids x : statement_well_formed ids x = forallb (value_well_formed ids) (statement_values x).
Proof.
  destruct x; cbn [statement_values statement_well_formed]; rewrite ?forallb_app, ?gate_forallb, annots_forallb, ?andb_assoc; reflexivity.
Qed.
Lemma ids_In ids n : existsb (Nat.eqb n) ids = true <-> In n ids.
Proof. rewrite existsb_exists. split; [intros (m & I & E); apply Nat.eqb_eq in E; now subst|]. intros I. exists n. split; [exact I|apply Nat.eqb_refl]. Qed.
Lemma statement_wf_iff ids x : (forall y idx, In (VIndex y idx) (statement_values x) -> idx <> []) ->
  (statement_well_formed ids x = true <-> forall v y, In v (statement_values x) -> refers_to v y -> In (var_id y) ids).
Proof.
  intros Hx. rewrite statement_forallb, forallb_forall. split.
  - intros H v y I [->|(idx & ->)]; specialize (H _ I); cbn in H; [now apply ids_In|]. apply andb_true_iff in H. now apply ids_In.
  - intros H v I. destruct v as [| | |y|y idx]; try reflexivity; cbn.
    + apply ids_In. eapply H; [exact I|now left].
    + apply andb_true_iff. split; [apply ids_In; eapply H; [exact I|right; eauto]|]. specialize (Hx y idx I). destruct idx; [congruence|reflexivity].
Qed.

(** ** Programs in a pushed scope *)
Record inner (st0 : analyzer) (done : list statement) (st : analyzer) : Prop := {
  in_scopes : exists s, scopes st = s :: scopes st0 /\ sc_variables_table s = entries (sc_variables s);
  in_names : names_here st = declared_names done;
  in_ids : Forall (fun v => (next_id st0 <= var_id (sv_var v))%nat /\ sv_annots v = []) (variables_of st);
  in_next : (next_id st0 <= next_id st)%nat }.
Lemma inner_push st0 : inner st0 [] (push_scope st0).
Proof. constructor; cbn; [eauto|reflexivity|constructor|lia]. Qed.
Lemma declared_app a b : declared_names (a ++ b) = declared_names a ++ declared_names b.
Proof. apply flat_map_app. Qed.
Lemma inner_effect st0 done st s st' : inner st0 done st -> plain s -> effect st s st' [] -> inner st0 (done ++ [s]) st'.
Proof.
  intros [(c & Ec & Et) N Id Nx] Hp H. rewrite <- (app_nil_r (declared_names done)) in N. remember (@nil error) as log eqn:Elog.
  assert (K : forall x, declared_names [s] = [] -> inner st0 (done ++ [s]) (map_current (with_statement x) st)).
  { intros x D. constructor.
    - rewrite map_current_scopes, Ec. eauto.
    - rewrite names_here_map, declared_app, D, <- N. unfold names_here. rewrite Ec. reflexivity.
    - rewrite variables_of_map. unfold variables_of in Id. rewrite Ec in *. exact Id.
    - unfold map_current. rewrite Ec. exact Nx. }
  destruct H as [l n t an e Nd Le|l n t an ty ans es Dt A Ns Ni|l n t an ty ans es e Dt A Ns Ni Le|l g ops an sg es1 vs i ws ans es2 G V R C A Ns
    |l n ops ps an vs i ws pvs pws ans es V R P RP C A Ns|l n c' an ans es A Ns|l s e es El Pl Nv]; try discriminate; try (apply K; reflexivity).
  - cbn in Hp. subst an. cbn in A. injection A as <- _. constructor.
    + rewrite map_current_scopes, fresh_scopes, Ec. eexists. split; [reflexivity|]. cbn [with_entry with_variable sc_variables_table sc_variables].
      rewrite Et. unfold entries. now rewrite map_app.
    + rewrite names_here_map, fresh_scopes, declared_app, Ec. cbn [with_entry with_variable sc_variables_table]. rewrite map_app. cbn [map fst].
      unfold names_here in N. rewrite Ec, app_nil_r in N. rewrite N. reflexivity.
    + rewrite variables_of_map, fresh_scopes, Ec. cbn [with_entry with_variable sc_variables]. unfold variables_of in Id. rewrite Ec in Id.
      apply Forall_app. split; [exact Id|]. constructor; [|constructor]. cbn. split; [exact Nx|reflexivity].
    + unfold map_current. rewrite fresh_scopes, Ec. cbn. lia.
  - destruct es; discriminate.
  - destruct es; discriminate.
Qed.
Lemma inner_block st0 st ss st' : block_run st ss st' [] -> forall done, inner st0 done st -> Forall plain ss -> inner st0 (done ++ ss) st'.
Proof.
  intros H. remember (@nil error) as es eqn:E. revert E. induction H as [|st s st1 es1 ss st2 es2 H _ IH]; intros E done Hi Hp; [now rewrite app_nil_r|].
  apply app_eq_nil in E. destruct E as [-> ->]. inversion Hp; subst. apply statement_effect in H.
  change (s :: ss) with ([s] ++ ss). rewrite app_assoc. apply IH; auto. eapply inner_effect; eauto.
Qed.

(** Names in an inner state *)
Lemma entries_find n vs w : table_find n (entries vs) = Some w -> exists v, In v vs /\ w = VVar (sv_var v) /\ var_name (sv_var v) = n.
Proof.
  unfold entries. induction vs as [|v vs IH]; cbn [map table_find]; [discriminate|]. destruct (String.eqb_spec (var_name (sv_var v)) n) as [E|E].
  - intros [= <-]. exists v. split; [now left|auto].
  - intros H. destruct (IH H) as (v' & I & J). exists v'. split; [now right|exact J].
Qed.
Lemma inner_resolve st0 done st n x : inner st0 done st -> resolve_variable st n = Ok (VVar x) ->
  (In n (declared_names done) /\ In x (map sv_var (variables_of st))) \/ (~ In n (declared_names done) /\ resolve_variable st0 n = Ok (VVar x)).
Proof.
  intros [(c & Ec & Et) N _ _] H. unfold resolve_variable in H. rewrite Ec in H. cbn [resolve_variable_in] in H. unfold variable_resolve in H.
  destruct (table_find n (sc_variables_table c)) as [w|] eqn:E.
  - left. injection H as ->. split.
    + rewrite <- N. unfold names_here. rewrite Ec. destruct (in_dec string_dec n (map fst (sc_variables_table c))) as [I|I]; [exact I|].
      apply table_find_In in I. congruence.
    + rewrite Et in E. apply entries_find in E. destruct E as (v & I & [= ->] & _). unfold variables_of. rewrite Ec. now apply in_map.
  - right. split; [|exact H]. rewrite <- N. unfold names_here. rewrite Ec. now apply table_find_In.
Qed.
Lemma inner_outer st0 done st n x : inner st0 done st -> ~ In n (declared_names done) -> resolve_variable st0 n = Ok (VVar x) ->
  resolve_variable st n = Ok (VVar x).
Proof.
  intros [(c & Ec & Et) N _ _] Ni H. unfold resolve_variable. rewrite Ec. cbn [resolve_variable_in]. unfold variable_resolve.
  rewrite <- N in Ni. unfold names_here in Ni. rewrite Ec in Ni. apply table_find_In in Ni. rewrite Ni. exact H.
Qed.

(** The statement mentions variables of the outer scopes only where hidden. *)
Definition own (st0 : analyzer) (done : list statement) (s : statement) : Prop :=
  forall n, mentions s n -> In n (declared_names done) \/ forall x, resolve_variable st0 n <> Ok (VVar x).
Definition all_own (st0 : analyzer) (done ss : list statement) : Prop :=
  forall ss1 s ss2, ss = ss1 ++ s :: ss2 -> own st0 (done ++ ss1) s.
Definition wf_state (st : analyzer) : Prop :=
  Forall (fun x => statement_well_formed (map (fun v => var_id (sv_var v)) (variables_of st)) x = true) (statements_of st).

Lemma wf_mono ids ids' x : incl ids ids' -> statement_well_formed ids x = true -> statement_well_formed ids' x = true.
Proof.
  intros Hi. rewrite !statement_forallb, !forallb_forall. intros H v I. specialize (H v I). destruct v as [| | |y|y idx]; cbn in *; auto.
  - apply ids_In. apply Hi. now apply ids_In.
  - apply andb_true_iff in H. destruct H as [H ->]. rewrite andb_true_r. apply ids_In, Hi. now apply ids_In.
Qed.
Lemma effect_variable_statements st l n t an st' es : effect st (SVariable l n t an) st' es -> statements_of st' = statements_of st.
Proof.
  intros H. inversion H; subst; try reflexivity.
  - rewrite statements_of_map. unfold statements_of. rewrite fresh_scopes. destruct (scopes st); reflexivity.
  - rewrite statements_of_map. unfold statements_of. rewrite fresh_scopes. destruct (scopes st); reflexivity.
Qed.
Lemma effect_other_variables st s st' : (forall l n t an, s <> SVariable l n t an) -> effect st s st' [] -> variables_of st' = variables_of st.
Proof.
  intros Nv H. destruct H; try (exfalso; eapply Nv; reflexivity); try reflexivity;
    rewrite variables_of_map; unfold variables_of; destruct (scopes st); reflexivity.
Qed.
Lemma is_variable s : (exists l n t an, s = SVariable l n t an) \/ forall l n t an, s <> SVariable l n t an.
Proof. destruct s; [left; eauto|right; discriminate|right; discriminate|right; discriminate]. Qed.

Lemma own_block lm st0 st ss st' : block_run st ss st' [] -> forall done, ordinary lm st -> inner st0 done st -> Forall grammar_statement ss ->
  all_own st0 done ss -> wf_state st -> wf_state st'.
Proof.
  intros H. remember (@nil error) as es eqn:E. revert E. induction H as [|st s st1 es1 ss st2 es2 H _ IH]; intros E done Ho Hi Hg Hown Hw; [exact Hw|].
  apply app_eq_nil in E. destruct E as [-> ->]. inversion Hg as [|? ? Hs Hg']; subst. pose proof (statement_effect _ _ _ _ H) as Ef.
  pose proof (inner_effect st0 done st s st1 Hi (proj1 Hs) Ef) as Hi1.
  apply (IH eq_refl (done ++ [s])); auto.
  - eapply ordinary_extends; [exact Ho|]. eapply effect_extends, Ef.
  - intros ss1 s' ss2 E. rewrite <- app_assoc. apply (Hown (s :: ss1) s' ss2). rewrite E. reflexivity.
  - pose proof (extends_prefixes _ _ (effect_extends _ _ _ _ Ef)) as [(vs & Ev) _].
    destruct (is_variable s) as [(l & n & t & an & ->)|Nv].
    + unfold wf_state. rewrite (effect_variable_statements _ _ _ _ _ _ _ Ef). eapply Forall_impl; [|exact Hw]. cbn. intros x. apply wf_mono.
      rewrite Ev, map_app. apply incl_appl, incl_refl.
    + destruct (statement_shows lm st s st1 Ho Hs Nv H) as (x & Ex & Sh1 & Sh2). unfold wf_state. rewrite Ex, (effect_other_variables _ _ _ Nv Ef).
      apply Forall_app. split; [exact Hw|]. constructor; [|constructor]. apply statement_wf_iff; [exact Sh2|].
      intros v y Iv Rv. destruct (proj1 (Sh1 y)) as (n & Mn & Rn); [eauto|]. specialize (Hown [] s ss eq_refl n Mn). rewrite app_nil_r in Hown.
      destruct (inner_resolve st0 done st n y Hi Rn) as [[_ I]|[Ni R]].
      * rewrite <- map_map with (f := sv_var) (g := var_id). now apply in_map.
      * exfalso. destruct Hown as [D|D]; [now apply Ni|]. exact (D y R).
Qed.
Lemma analyze_own lm st p : ordinary lm st -> grammar_program p ->
  (forall ss1 s ss2 n, prog_statements p = ss1 ++ s :: ss2 -> mentions s n ->
     In n (declared_names ss1) \/ forall x, resolve_variable st n <> Ok (VVar x)) ->
  (exists st' sp es, analyze_ast (push_scope st) p = Ok (st', mkResult (Some sp) es)) \/ (exists k, analyze_ast (push_scope st) p = UB k).
Proof.
  intros Ho Hg Hown. pose proof (ordinary_push lm st Ho) as Ho1.
  destruct (visit_version (api_version (push_scope st)) (prog_version p) (prog_version_loc p)) as [r es1] eqn:Ev.
  destruct (visit_version_ok _ _ _ _ _ Ev) as [v ->].
  destruct (block_total lm (prog_block_loc p) (prog_statements p) Hg (push_scope st) Ho1) as [(st' & es2 & B)|(k & es2 & B)].
  - left. apply block_run_iff in B. pose proof (block_extends _ _ _ _ B) as [_ X]. cbn [push_scope scopes] in X.
    destruct (scopes st') as [|s rest] eqn:Es; [contradiction|].
    rewrite (analyze_ast_intro (push_scope st) p v es1 st' es2 s rest Ev B Es); [eauto|]. intros E. apply app_eq_nil in E. destruct E as [-> ->].
    pose proof (inner_block st _ _ _ B [] (inner_push st) (Forall_impl _ (fun s H => proj1 H) Hg)) as Hi. cbn [app] in Hi.
    assert (Hw : wf_state st').
    { eapply (own_block lm st); [exact B|exact Ho1|apply inner_push|exact Hg| |constructor]. intros ss1 s' ss2 E n M. cbn [app]. eauto. }
    unfold program_well_formed. cbn [sp_variables sp_block]. pose proof (in_ids _ _ _ Hi) as Id. unfold wf_state, statements_of, variables_of in *.
    rewrite Es in *. apply andb_true_iff. split; apply forallb_forall; intros x Hx.
    + rewrite Forall_forall in Hw. now apply Hw.
    + rewrite Forall_forall in Id. destruct (Id x Hx) as [_ ->]. reflexivity.
  - right. exists k. unfold analyze_ast, visit_program. rewrite Ev. cbn [lbind]. rewrite B. reflexivity.
Qed.

(** ** Uses of outer variables *)
Definition below_next (st : analyzer) : Prop :=
  Forall (fun s => Forall (fun e => match snd e with VVar x => (var_id x < next_id st)%nat | _ => True end) (sc_variables_table s)) (scopes st).
Lemma below_mono n m ss : (n <= m)%nat ->
  Forall (fun s => Forall (fun e : string * value => match snd e with VVar x => (var_id x < n)%nat | _ => True end) (sc_variables_table s)) ss ->
  Forall (fun s => Forall (fun e : string * value => match snd e with VVar x => (var_id x < m)%nat | _ => True end) (sc_variables_table s)) ss.
Proof. intros L. apply Forall_impl. intros s. apply Forall_impl. intros [k v]. cbn. destruct v; auto. lia. Qed.
Lemma below_effect st s st' es : below_next st -> effect st s st' es -> below_next st'.
Proof.
  unfold below_next. intros H E.
  destruct E as [l n t an e N Le|l n t an ty ans es D A Ns Ni|l n t an ty ans es e D A Ns Ni Le|l g ops an sg es1 vs i ws ans es2 G V R C A Ns
    |l n ops ps an vs i ws pvs pws ans es V R P RP C A Ns|l n c an ans es A Ns|l s e es El Pl Nv]; auto.
  - cbn [fresh scopes next_id]. eapply below_mono; [|exact H]. lia.
  - unfold map_current. cbn [fresh scopes]. destruct (scopes st) as [|s r]; [congruence|]. cbn [scopes next_id fresh].
    apply (below_mono (next_id st) (S (next_id st))) in H; [|lia]. inversion H as [|? ? H1 H2]; subst. constructor; [|exact H2].
    cbn. apply Forall_app. split; [exact H1|]. constructor; [|constructor]. cbn. lia.
  - unfold map_current. cbn [fresh scopes]. destruct (scopes st) as [|s r]; [congruence|]. cbn [scopes next_id fresh].
    apply (below_mono (next_id st) (S (next_id st))) in H; [|lia]. inversion H as [|? ? H1 H2]; subst. constructor; [exact H1|exact H2].
  - unfold map_current. destruct (scopes st) as [|s r]; [congruence|]. inversion H; subst. constructor; assumption.
  - unfold map_current. destruct (scopes st) as [|s r]; [congruence|]. inversion H; subst. constructor; assumption.
  - unfold map_current. destruct (scopes st) as [|s r]; [congruence|]. inversion H; subst. constructor; assumption.
Qed.
Lemma below_block st ss st' es : block_run st ss st' es -> below_next st -> below_next st'.
Proof. induction 1 as [|st s st1 es1 ss st2 es2 H _ IH]; auto. intros B. apply IH. eapply below_effect; [exact B|]. eapply statement_effect, H. Qed.
Lemma below_uses st us st' : uses st us st' -> below_next st -> below_next st'.
Proof.
  induction 1 as [st|st p st1 r us st2 E _ IH|st us st2 _ IH|st st1 us st2 _ E _ IH]; intros B; auto.
  - apply IH. apply analyze_ast_inv in E. destruct E as (v & es1 & es2 & s & rest & _ & Br & _). eapply below_block; eauto.
  - apply IH. unfold below_next in *. cbn. constructor; [constructor|exact B].
  - apply IH. unfold pop_scope in E. destruct (scopes st) as [|s r] eqn:Es; [discriminate|]. injection E as <-. unfold below_next in *. cbn.
    rewrite Es in B. now inversion B.
Qed.
Lemma below_resolve st n x : below_next st -> resolve_variable st n = Ok (VVar x) -> (var_id x < next_id st)%nat.
Proof.
  unfold below_next, resolve_variable. induction 1 as [|s l Hs _ IH]; cbn [resolve_variable_in]; [discriminate|].
  unfold variable_resolve. destruct (table_find n (sc_variables_table s)) as [w|] eqn:E; [|exact IH]. intros [= ->]. clear IH.
  induction (sc_variables_table s) as [|[m a] t IH]; [discriminate|]. cbn in E. inversion Hs; subst.
  destruct (m =? n)%string; [injection E as ->; assumption|apply IH; assumption].
Qed.
Lemma outer_rejected lm api st0 us st p ss1 s ss2 n x : default_analyzer lm api = Ok st0 -> uses st0 us st -> grammar_program p ->
  prog_statements p = ss1 ++ s :: ss2 -> mentions s n -> ~ In n (declared_names ss1) -> resolve_variable st n = Ok (VVar x) ->
  forall st' sp, analyze_ast (push_scope st) p <> Ok (st', mkResult (Some sp) []).
Proof.
  intros Hd U Hg Ep M Ni R st' sp H. assert (Ho : ordinary lm st) by (eapply uses_ordinary; [exact U|]; eapply default_ordinary, Hd).
  assert (B0 : below_next st).
  { eapply below_uses; [exact U|]. apply default_analyzer_inv in Hd. destruct Hd as (v & _ & _ & ->). unfold below_next. cbn. repeat constructor. }
  apply analyze_ast_inv in H. destruct H as (v & es1 & es2 & c & rest & _ & B & Es & [= -> Ees] & W). symmetry in Ees. apply app_eq_nil in Ees. destruct Ees as [-> ->].
  specialize (W eq_refl). rewrite Ep in B. apply block_run_app in B. destruct B as (st1 & e1 & e2 & B1 & B2 & E). symmetry in E. apply app_eq_nil in E. destruct E as [-> ->].
  remember (@nil error) as log eqn:Elog in B2. inversion B2 as [|? ? st2 e3 ? ? e4 H3 B3]; subst. match goal with X : _ ++ _ = [] |- _ => apply app_eq_nil in X; destruct X as [-> ->] end.
  assert (Hg1 : Forall grammar_statement ss1 /\ grammar_statement s /\ Forall grammar_statement ss2).
  { unfold grammar_program in Hg. rewrite Ep in Hg. apply Forall_app in Hg. destruct Hg as [G1 G2]. inversion G2; auto. }
  destruct Hg1 as (G1 & Gs & G2).
  assert (P : forall l, Forall grammar_statement l -> Forall plain l) by (intros l; apply Forall_impl; intros a Ha; apply Ha).
  pose proof (inner_block st _ _ _ B1 [] (inner_push st) (P _ G1)) as I1. cbn [app] in I1.
  pose proof (inner_effect st _ _ _ _ I1 (proj1 Gs) (statement_effect _ _ _ _ H3)) as I2.
  pose proof (inner_block st _ _ _ B3 _ I2 (P _ G2)) as I3.
  assert (Nv : forall l m t an, s <> SVariable l m t an).
  { intros l m t an ->. destruct Gs as (Pl & _). cbn in Pl. subst an. destruct M as (e & [] & _). }
  assert (Ho1 : ordinary lm st1) by (eapply ordinary_extends; [apply ordinary_push, Ho|]; eapply block_extends, B1).
  destruct (statement_shows lm st1 s st2 Ho1 Gs Nv H3) as (y & Ey & Sh1 & Sh2).
  pose proof (inner_outer st ss1 st1 n x I1 Ni R) as R1.
  destruct (proj2 (Sh1 x)) as (w & Iw & Rw); [eauto|].
  assert (Iy : In y (blk_statements (sc_block c))).
  { pose proof (extends_prefixes _ _ (block_extends _ _ _ _ B3)) as [_ (xs & Ex)]. unfold statements_of at 1 in Ex. rewrite Es in Ex. rewrite Ex, Ey.
    apply in_or_app. left. apply in_or_app. right. now left. }
  unfold program_well_formed in W. cbn [sp_variables sp_block] in W. apply andb_true_iff in W. destruct W as [W _]. rewrite forallb_forall in W.
  specialize (W y Iy). pose proof (proj1 (statement_wf_iff _ y Sh2) W w x Iw Rw) as W'. apply in_map_iff in W'. destruct W' as (sv & Ev & Isv).
  pose proof (in_ids _ _ _ I3) as Id. unfold variables_of in Id. rewrite Es, Forall_forall in Id. destruct (Id sv Isv) as [Ge _].
  pose proof (below_resolve st n x B0 R). lia.
Qed.
