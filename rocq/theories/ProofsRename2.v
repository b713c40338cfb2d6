(** Lemmas for C75-C78: whole programs. *)
From Verif Require Import Base ModelUtils ModelVersion ModelError ModelTypes ModelOverload ModelFunctions ModelInstructionSet ModelAst ModelAnalyzer ModelSemantic ModelObjects
  SpecTypes SpecFunctions SpecInstructions SpecAnalyzer SpecObjects SpecRename ProofsTypes ProofsFunctions ProofsFolding ProofsExpr ProofsInstructions ProofsGates
  ProofsAnalyzer ProofsAnalyzer2 ProofsAnalyzer3 ProofsAnalyzer4 ProofsScopes ProofsObjects ProofsRename.
Local Open Scope string_scope.

(** ** Keeping names and numbers *)
Lemma rename_same_expr e : rename_expr same_name e = e.
Proof.
  apply (expr_ind_full (fun e => rename_expr same_name e = e) (fun i => rename_entry same_name i = i)); clear e; try reflexivity.
  - intros l b idx IHb IHi. cbn [rename_expr]. rewrite IHb. f_equal. rewrite <- (map_id idx) at 2. apply map_ext_in. rewrite Forall_forall in IHi. exact IHi.
  - intros l n args IH. cbn [rename_expr option_map]. do 2 f_equal. rewrite <- (map_id args) at 2. apply map_ext_in. rewrite Forall_forall in IH. exact IH.
  - intros l op e E. cbn. now rewrite E.
  - intros l op a b E1 E2. cbn. now rewrite E1, E2.
  - intros l c a b E1 E2 E3. cbn. now rewrite E1, E2, E3.
  - intros l e E. change (IItem l (rename_expr same_name e) = IItem l e). now rewrite E.
  - intros l a b E1 E2. change (IRange l (rename_expr same_name a) (rename_expr same_name b) = IRange l a b). now rewrite E1, E2.
Qed.
Lemma map_same {A} (f : A -> A) l : (forall x, f x = x) -> map f l = l.
Proof. intros H. rewrite (map_ext _ _ H). apply map_id. Qed.
Lemma rename_same_annotation a : rename_annotation same_name a = a.
Proof. destruct a as [l i o es]. unfold rename_annotation. cbn. now rewrite (map_same _ es rename_same_expr). Qed.
Lemma rename_same_gate g : rename_gate same_name g = g.
Proof.
  induction g as [l n ps an|l n g ps an IH] using gate_ind_full; cbn [rename_gate option_map]; rewrite (map_same _ ps rename_same_expr), (map_same _ an rename_same_annotation); [reflexivity|now rewrite IH].
Qed.
Lemma rename_same_statement s : rename_statement same_name s = s.
Proof. destruct s; cbn [rename_statement]; rewrite ?rename_same_gate, ?(map_same _ _ rename_same_expr), ?(map_same _ _ rename_same_annotation); reflexivity. Qed.
Lemma renamed_same_error e e' : renamed_error same_name e e' -> e' = e.
Proof. intros [L M]. destruct e as [m l], e' as [m' l']. cbn in *. f_equal; [|exact L]. destruct M as [M|(a & n & b & -> & -> & _)]; [exact M|reflexivity]. Qed.
Lemma renamed_same_errors es es' : Forall2 (renamed_error same_name) es es' -> es' = es.
Proof. induction 1 as [|a b es es' H _ IH]; [reflexivity|]. now rewrite (renamed_same_error _ _ H), IH. Qed.

Section Kept.
  Variable number : nat -> nat.
  (** The numbers that are kept *)
  Definition kept (v : value) : Prop := match v with VVar x | VIndex x _ => number (var_id x) = var_id x | _ => True end.
  Lemma kept_value v : kept v -> rename_value same_name number v = v.
  Proof. destruct v as [| | |[k n t]|[k n t] idx]; cbn; try reflexivity; unfold rename_variable; cbn; intros ->; reflexivity. Qed.
  Lemma kept_values vs : Forall kept vs -> map (rename_value same_name number) vs = vs.
  Proof. induction 1 as [|v vs H _ IH]; cbn; [reflexivity|]. now rewrite kept_value, IH. Qed.
  Lemma kept_annotations l : Forall kept (annotation_values l) -> map (rename_sem_annotation same_name number) l = l.
  Proof.
    unfold annotation_values. induction l as [|[al i o vs] l IH]; cbn [flat_map map]; [reflexivity|]. rewrite Forall_app. intros [H1 H2]. rewrite (IH H2). f_equal.
    unfold rename_sem_annotation. cbn in *. now rewrite kept_values.
  Qed.
  Lemma kept_gate g : Forall kept (gate_values g) -> rename_sem_gate same_name number g = g.
  Proof.
    induction g as [l n ps an|l n g ps an IH] using sem_gate_ind_full; cbn [gate_values rename_sem_gate option_map]; rewrite ?Forall_app.
    - intros (_ & H1 & H2). now rewrite kept_values, kept_annotations.
    - intros (H0 & H1 & H2). now rewrite kept_values, kept_annotations, IH.
  Qed.
  Lemma kept_statement x : Forall kept (statement_values x) -> rename_sem_statement same_name number x = x.
  Proof.
    destruct x; cbn [statement_values rename_sem_statement]; rewrite ?Forall_app; intros H; decompose [and] H; now rewrite ?kept_gate, ?kept_values, ?kept_annotations.
  Qed.
  Lemma kept_statements xs : Forall (fun x => Forall kept (statement_values x)) xs -> map (rename_sem_statement same_name number) xs = xs.
  Proof. induction 1 as [|x xs H _ IH]; cbn; [reflexivity|]. now rewrite kept_statement, IH. Qed.
End Kept.
Definition stay : nat -> nat := fun i => i.
Lemma stay_kept v : kept stay v. Proof. destruct v; exact I || reflexivity. Qed.
Lemma stay_all vs : Forall (kept stay) vs. Proof. apply Forall_forall. intros v _. apply stay_kept. Qed.
Lemma stay_variable v : rename_sem_variable same_name stay v = v.
Proof. destruct v as [[k n t] an]. unfold rename_sem_variable. cbn. rewrite kept_annotations by apply stay_all. reflexivity. Qed.
Lemma stay_statement x : rename_sem_statement same_name stay x = x.
Proof. apply kept_statement, stay_all. Qed.

(** ** Well-formedness *)
Section WellFormed.
  Variables (ren : string -> string) (number : nat -> nat) (vars vars' : list nat).
  Hypothesis H : forall k, existsb (Nat.eqb (number k)) vars' = existsb (Nat.eqb k) vars.
  Lemma wf_value v : value_well_formed vars' (rename_value ren number v) = value_well_formed vars v.
  Proof. destruct v; cbn; now rewrite ?H. Qed.
  Lemma wf_values vs : forallb (value_well_formed vars') (map (rename_value ren number) vs) = forallb (value_well_formed vars) vs.
  Proof. induction vs as [|v vs IH]; cbn; [reflexivity|]. now rewrite wf_value, IH. Qed.
  Lemma wf_annots l : annots_well_formed vars' (map (rename_sem_annotation ren number) l) = annots_well_formed vars l.
  Proof. unfold annots_well_formed. induction l as [|a l IH]; cbn; [reflexivity|]. now rewrite wf_values, IH. Qed.
  Lemma wf_gate g : gate_well_formed vars' (rename_sem_gate ren number g) = gate_well_formed vars g.
  Proof. induction g as [l n ps an|l n g ps an IH] using sem_gate_ind_full; cbn; rewrite ?IH; now rewrite wf_values, wf_annots. Qed.
  Lemma wf_statement x : statement_well_formed vars' (rename_sem_statement ren number x) = statement_well_formed vars x.
  Proof. destruct x; cbn [rename_sem_statement statement_well_formed]; now rewrite ?wf_gate, ?wf_values, ?wf_annots. Qed.
End WellFormed.
Lemma wf_program ren number p : (forall a b, number a = number b -> a = b) -> program_well_formed (rename_sem_program ren number p) = program_well_formed p.
Proof.
  intros Hn. unfold program_well_formed. cbn [rename_sem_program sp_variables sp_block blk_statements]. rewrite map_map. cbn [rename_sem_variable sv_var rename_variable var_id].
  set (vars := map (fun v => var_id (sv_var v)) (sp_variables p)). set (vars' := map _ (sp_variables p)).
  assert (H : forall k, existsb (Nat.eqb (number k)) vars' = existsb (Nat.eqb k) vars).
  { intros k. unfold vars, vars'. induction (sp_variables p) as [|v l IH]; cbn; [reflexivity|]. rewrite IH. f_equal.
    apply eq_true_iff_eq. rewrite !Nat.eqb_eq. split; [apply Hn|congruence]. }
  clearbody vars vars'. f_equal.
  - induction (blk_statements (sp_block p)) as [|x l IH]; cbn; [reflexivity|]. now rewrite (wf_statement _ _ _ _ H), IH.
  - induction (sp_variables p) as [|x l IH]; cbn [map forallb]; [reflexivity|]. cbn [rename_sem_variable sv_annots]. now rewrite (wf_annots _ _ _ _ H), IH.
Qed.

(** ** Corresponding programs *)
Lemma Forall2_refl_renamed ren es : Forall2 (renamed_error ren) es es.
Proof. induction es; constructor; [apply renamed_same|assumption]. Qed.
Lemma analyze_program_not_err st p e : analyze_ast st p <> Err e.
Proof.
  unfold analyze_ast. destruct (visit_program st p) as [[[st1 sp]|e1|w|k] es] eqn:V; try discriminate.
  - destruct es; [|discriminate]. destruct (program_well_formed sp); discriminate.
  - unfold visit_program in V. apply lbind_err in V. destruct V as [V|(v & a & b & _ & V & _)]; [destruct (visit_version_ok _ _ _ _ _ V); discriminate|].
    apply lbind_err in V. destruct V as [V|(st2 & c & d & _ & V & _)].
    + exfalso. revert V. generalize (prog_block_loc p) (prog_statements p). clear. intros l ss. revert st b. induction ss as [|s ss IH]; intros st b V; [discriminate|].
      rewrite visit_block_cons in V. apply lbind_err in V. destruct V as [V|(st2 & c & d & _ & V & _)]; [now apply visit_statement_not_err in V|]. now apply IH in V.
    + exfalso. apply lbind_err in V. destruct V as [V|(s & x & y & _ & V & _)]; [|discriminate]. unfold current_scope, lift in V. destruct (scopes st2); discriminate.
Qed.
Lemma program_matches ren number lm (D : string -> Prop) st1 st2 p : (forall a b, D a -> D b -> ren a = ren b -> a = b) -> (forall a b, number a = number b -> a = b) ->
  matches ren number lm D True [] [] [] [] st1 st2 -> Forall (within D) (prog_statements p) ->
  outcomes (fun a b => matches ren number lm D True [] [] [] [] (fst a) (fst b) /\ renamed_result ren number (snd a) (snd b))
    (analyze_ast st1 p) (analyze_ast st2 (rename_program ren p)).
Proof.
  intros Hr Hn M W.
  assert (L : lrel ren (fun a b => matches ren number lm D True [] [] [] [] (fst a) (fst b) /\ snd b = rename_sem_program ren number (snd a))
    (visit_program st1 p) (visit_program st2 (rename_program ren p))).
  { unfold visit_program. cbn [rename_program prog_version prog_version_loc prog_statements prog_block_loc]. rewrite (m_version _ _ _ _ _ _ _ _ _ _ _ M).
    eapply (lrel_bind _ eq); [split; [|apply Forall2_refl_renamed]|].
    - destruct (visit_version (api_version st1) (prog_version p) (prog_version_loc p)) as [r es]. apply orel_same.
    - intros v v' <- _ _. eapply lrel_bind; [apply matches_block; [exact Hr|exact M|exact W]|]. intros a b M' _ _.
      destruct (matches_scopes _ _ _ _ _ _ _ _ _ _ _ M') as [S1 S2]. pose proof M' as [Hs Hv Hh Hx (vs & Ev1 & Ev2) (xs & Ex1 & Ex2) Hl].
      unfold current_scope. unfold variables_of, statements_of, block_loc_of in *. destruct (scopes a) as [|s1 r1]; [congruence|]. destruct (scopes b) as [|s2 r2]; [congruence|].
      apply lrel_lift. cbn [lift bind orel fst snd]. unfold lift. cbn [lbind]. split; [exact M'|]. unfold rename_sem_program. cbn [sp_api_version sp_version sp_version_loc sp_block sp_variables].
      cbn [app] in *. rewrite Ev1, Ex1, Ev2, <- Ex2, <- (Hl I). now destruct (sc_block s2). }
  unfold analyze_ast. destruct (visit_program st1 p) as [[[a sp]|e|w|k] es] eqn:V1, (visit_program st2 (rename_program ren p)) as [[[b sp']|e'|w'|k'] es'] eqn:V2;
    destruct L as [L1 L2]; cbn [fst snd orel] in L1, L2; try contradiction.
  - destruct L1 as [M' ->]. inversion L2; subst; cbn [outcomes].
    + rewrite wf_program by exact Hn. destruct (program_well_formed sp); cbn; [|reflexivity]. split; [exact M'|]. split; [reflexivity|constructor].
    + split; [exact M'|]. split; [reflexivity|]. constructor; assumption.
  - assert (N := analyze_program_not_err st1 p). unfold analyze_ast in N. rewrite V1 in N. destruct (N e eq_refl).
  - exact L1.
  - exact L1.
Qed.

(** ** Renaming (C75) *)
Lemma constant_find n : table_find n default_constants = None <-> ~ In n constant_names.
Proof. rewrite table_find_In. reflexivity. Qed.
Lemma resolve_default_scope lm v k n : resolve_variable (mkAnalyzer v [default_scope lm] k) n =
  match table_find n default_constants with Some c => Ok c | None => Err (mk_error ("failed to resolve variable '" ++ n ++ "'")) end.
Proof. unfold resolve_variable. cbn [scopes resolve_variable_in]. unfold variable_resolve. change (sc_variables_table (default_scope lm)) with default_constants. now destruct (table_find n default_constants). Qed.
Lemma constants_const : Forall (fun e => is_const (snd e)) default_constants.
Proof. repeat constructor. Qed.
Lemma table_find_In_snd {A} n (t : list (string * A)) a : table_find n t = Some a -> In (n, a) t.
Proof. induction t as [|[m b] t IH]; cbn; [discriminate|]. destruct (String.eqb_spec m n) as [->|N]; [intros [= ->]; now left|]. intros E. right. auto. Qed.
Lemma default_matches ren number lm (D : string -> Prop) v k1 k2 : (forall a b, D a -> D b -> ren a = ren b -> a = b) ->
  (forall n, In n constant_names -> D n /\ ren n = n) -> (forall k, number (k1 + k)%nat = (k2 + k)%nat) ->
  matches ren number lm D True [] [] [] [] (mkAnalyzer v [default_scope lm] k1) (mkAnalyzer v [default_scope lm] k2).
Proof.
  intros Hr Hc Hk.
  assert (C : forall n, D n -> (In n constant_names <-> In (ren n) constant_names)).
  { intros n Dn. split; intros H; [destruct (Hc n H) as [_ ->]; exact H|]. destruct (Hc _ H) as [D' E]. now rewrite <- (Hr _ _ D' Dn E). }
  split; try reflexivity.
  - split; [apply default_ordinary_any..|]. intros n Dn. rewrite !resolve_default_scope. destruct (table_find n default_constants) as [c|] eqn:E.
    + assert (I : In n constant_names). { destruct (in_dec string_dec n constant_names) as [I|I]; [exact I|]. apply constant_find in I. congruence. }
      destruct (Hc n I) as [_ ->]. rewrite E. cbn. symmetry. apply rv_const. apply table_find_In_snd in E. pose proof constants_const as F. rewrite Forall_forall in F. exact (F _ E).
    + apply constant_find in E. assert (E' : ~ In (ren n) constant_names) by (rewrite <- C; assumption). apply constant_find in E'. rewrite E'. cbn.
      split; [reflexivity|]. right. exists "failed to resolve variable '", n, "'". split; [reflexivity|]. split; [reflexivity|]. now left.
  - exact C.
  - exact Hk.
  - exists []. split; reflexivity.
  - exists []. split; reflexivity.
Qed.
Lemma outcomes_snd {A B} (R : A * B -> A * B -> Prop) (Q : B -> B -> Prop) m m' : (forall a b, R a b -> Q (snd a) (snd b)) -> outcomes R m m' ->
  outcomes Q (map_outcome snd m) (map_outcome snd m').
Proof. intros H. destruct m, m'; cbn; auto. Qed.
Lemma within_names p (D : string -> Prop) : (forall n, In n (program_names p) -> D n) -> Forall (within D) (prog_statements p).
Proof.
  intros H. apply Forall_forall. intros s Is. split.
  - intros e Ie. apply Forall_forall. intros n In'. apply H. apply in_or_app. right. apply in_flat_map. exists s. split; [exact Is|]. apply in_flat_map. eauto.
  - apply Forall_forall. intros n In'. apply H. apply in_or_app. left. apply in_flat_map. exists s. split; [exact Is|]. unfold declared_names in In'. cbn in In'. now rewrite app_nil_r in In'.
Qed.
Lemma renaming lm api st p ren : default_analyzer lm api = Ok st -> tells_apart ren (program_names p ++ constant_names) ->
  (forall n, In n constant_names -> ren n = n) ->
  outcomes (renamed_result ren (fun i => i)) (map_outcome snd (analyze_ast st p)) (map_outcome snd (analyze_ast st (rename_program ren p))).
Proof.
  intros H Ha Hc. apply default_analyzer_inv in H. destruct H as (v & _ & _ & ->).
  eapply outcomes_snd; [|apply (program_matches ren (fun i => i) lm (fun n => In n (program_names p ++ constant_names)))].
  - intros a b [_ R]. exact R.
  - exact Ha.
  - auto.
  - apply default_matches; [exact Ha| |reflexivity]. intros n I. split; [apply in_or_app; now right|auto].
  - apply within_names. intros n I. apply in_or_app. now left.
Qed.

(** ** Analysis with a new analyzer (C76) *)
Lemma afresh cs w es lm api st p : history cs w es -> default_analyzer lm api = Ok st ->
  analyze_afresh w lm api p = map_outcome (fun r => renumber_result (Nat.add (w_next w)) (snd r)) (analyze_ast st p).
Proof.
  intros H Hd. unfold analyze_afresh.
  assert (E0 : perform w (CDefault lm api) = Ok (add_analyzer w st, EDone)) by (cbn [perform]; rewrite Hd; reflexivity).
  rewrite E0. cbn [bind fst snd].
  assert (H' : history (cs ++ [CDefault lm api]) (add_analyzer w st) (es ++ [EDone])).
  { unfold history in *. apply perform_all_app. exists w, es, [EDone]. split; [exact H|]. split; [|reflexivity]. cbn [perform_all perform]. rewrite Hd. reflexivity. }
  apply default_analyzer_inv in Hd. destruct Hd as (v & _ & _ & ->). set (st := mkAnalyzer v [default_scope lm] 0) in *.
  set (o := mkObject v (allocate (List.length (w_blocks w)) [default_scope lm])).
  assert (Eo : nth_error (w_analyzers (add_analyzer w st)) (List.length (w_analyzers w)) = Some o).
  { cbn [add_analyzer w_analyzers]. rewrite nth_error_app2, Nat.sub_diag by reflexivity. reflexivity. }
  assert (Es : show_analyzer (add_analyzer w st) o = mkAnalyzer v [default_scope lm] (w_next w)).
  { unfold show_analyzer, o, st. cbn [ob_version ob_scopes allocate map add_analyzer w_next]. f_equal. f_equal. unfold show_scope, block_at. cbn [os_table os_functions os_instructions os_block os_variables w_blocks scopes map].
    cbn [add_analyzer w_blocks scopes map]. rewrite app_nth2, Nat.sub_diag by lia. cbn [nth]. now destruct (default_scope lm). }
  pose proof (analyze_returns _ _ _ _ _ p H' Eo) as R. rewrite Es in R.
  assert (M : outcomes (fun a b => renamed_result same_name (Nat.add (w_next w)) (snd a) (snd b)) (analyze_ast st p) (analyze_ast (mkAnalyzer v [default_scope lm] (w_next w)) p)).
  { replace p with (rename_program same_name p) at 2.
    - assert (P := program_matches same_name (Nat.add (w_next w)) lm (fun _ => True) st (mkAnalyzer v [default_scope lm] (w_next w)) p).
      match type of P with ?A -> ?B -> ?C -> ?D -> _ => assert (XA : A) by (intros a b _ _ E; exact E); assert (XB : B) by (intros a b; lia); assert (XC : C);
        [apply default_matches; [exact XA|intros; split; reflexivity|intros; cbn; lia]|]; assert (XD : D) end.
      { apply within_names. intros; exact I. }
      specialize (P XA XB XC XD). destruct (analyze_ast st p), (analyze_ast _ (rename_program same_name p)); cbn in P |- *; try contradiction; try exact P. apply P.
    - destruct p as [pv pl ss bl]. unfold rename_program. cbn. now rewrite (map_same _ ss rename_same_statement). }
  destruct (analyze_ast st p) as [[s1 r1]|e1|k1|k1] eqn:A1, (analyze_ast (mkAnalyzer v [default_scope lm] (w_next w)) p) as [[s2 r2]|e2|k2|k2]; cbn [outcomes] in M; try contradiction.
  - destruct R as (w' & r' & o' & E & Sr & _). rewrite E. cbn [bind fst snd ending_value map_outcome]. rewrite Sr. f_equal. destruct M as [M1 M2]. apply renamed_same_errors in M2.
    unfold renumber_result. cbn [snd] in *. destruct r2 as [q2 es2], r1 as [q1 es1]. cbn in *. now subst.
  - subst k2. destruct R as [(w' & ->)| ->]; reflexivity.
  - subst k2. rewrite R. reflexivity.
Qed.
