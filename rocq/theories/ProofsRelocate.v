(** Analysis depends on source locations only in the locations it attaches to
    nodes and errors (C47, C54, C57). *)
From Verif Require Import Base ModelUtils ModelVersion ModelError ModelTypes ModelOverload ModelFunctions ModelInstructionSet ModelAst ModelAnalyzer ModelSemantic
  SpecTypes SpecInstructions SpecAnalyzer SpecRelocate ProofsTypes ProofsExpr ProofsAnalyzer ProofsAnalyzer2 ProofsAnalyzer4.
Local Open Scope string_scope.

(** Changes of locations that commute with what the analyzer does with them. *)
Definition merge (b s : loc) : loc :=
  match s with
  | None => b
  | Some sl => match b with
               | None => Some sl
               | Some bl => Some (expand_to_include (expand_to_include bl (first (loc_range sl))) (last (loc_range sl)))
               end
  end.
Record compatible (f : loc -> loc) : Prop := {
  c_none : f None = None;
  c_context : forall l n, match f l with Some x => Some x | None => f n end = f (match l with Some x => Some x | None => n end);
  c_merge : forall b s, merge (f b) (f s) = f (merge b s) }.
Lemma erase_compatible : compatible erase.
Proof. split; reflexivity. Qed.
Lemma in_file_compatible file : compatible (in_file file).
Proof. split; [reflexivity| |]; [intros [l|] n; reflexivity|intros [b|] [s|]; reflexivity]. Qed.

Section Relocation.
  Variable f : loc -> loc.
  Hypothesis Hf : compatible f.

  Definition omap {A B} (g : A -> B) (m : outcome error A) : outcome error B :=
    match m with Ok a => Ok (g a) | Err e => Err (relocate_error f e) | Throw w => Throw w | UB k => UB k end.
  Definition same {A} : A -> A := fun a => a.
  Lemma omap_bind {A A' B B'} (g : A -> A') (h : B -> B') (m : outcome error A) m' (k : A -> outcome error B) k' :
    m' = omap g m -> (forall a, m = Ok a -> k' (g a) = omap h (k a)) -> bind m' k' = omap h (bind m k).
  Proof. intros -> H. destruct m; cbn; auto. Qed.
  Lemma omap_same {A} (m : outcome error A) : unlocated m -> m = omap same m.
  Proof.
    intros U. destruct m as [a|e|w|k]; cbn; auto. f_equal. specialize (U e eq_refl). destruct e as [ms l]. cbn in U. subst l. unfold relocate_error. cbn. now rewrite (c_none f Hf).
  Qed.
  Lemma relocate_context l e : relocate_error f (error_context l e) = error_context (f l) (relocate_error f e).
  Proof.
    destruct e as [m [x|]]; unfold error_context, relocate_error; cbn [location message].
    - pose proof (c_context f Hf (Some x) l) as H. cbn in H. destruct (f (Some x)); cbn; [reflexivity|]. now rewrite H.
    - rewrite (c_none f Hf). reflexivity.
  Qed.
  Lemma omap_context {A B} (g : A -> B) l m m' : m' = omap g m -> with_context (f l) m' = omap g (with_context l m).
  Proof. intros ->. destruct m as [a|e|w|k]; cbn; auto. now rewrite relocate_context. Qed.
  Lemma omap_mapM {A A' B B'} (r : A -> A') (g : B -> B') (k : A -> outcome error B) k' l :
    Forall (fun a => k' (r a) = omap g (k a)) l -> mapM k' (map r l) = omap (map g) (mapM k l).
  Proof.
    induction 1 as [|a l H _ IH]; cbn [mapM map]; [reflexivity|]. eapply omap_bind; [exact H|]. intros b _. eapply omap_bind; [exact IH|]. reflexivity.
  Qed.
  Lemma expr_loc_relocate e : expr_loc (relocate_expr f e) = f (expr_loc e).
  Proof. destruct e; reflexivity. Qed.
  Lemma same_map {A} (l : list A) : map same l = l. Proof. apply map_id. Qed.

  (** ** Lookups *)
  Notation rel := (relocate_analyzer f).
  Lemma rel_resolve_variable st n : resolve_variable (rel st) n = resolve_variable st n.
  Proof. unfold resolve_variable. cbn [scopes relocate_analyzer]. induction (scopes st) as [|s l IH]; cbn [map resolve_variable_in]; [reflexivity|]. cbn. now rewrite IH. Qed.
  Lemma rel_global st : global_scope (rel st) = map_outcome (relocate_scope f) (global_scope st).
  Proof.
    unfold global_scope. cbn [scopes relocate_analyzer]. induction (scopes st) as [|s l IH]; [reflexivity|]. cbn [map]. destruct l as [|s' l]; [reflexivity|]. exact IH.
  Qed.
  Lemma rel_resolve_function st n args : resolve_function (rel st) n args = resolve_function st n args.
  Proof. unfold resolve_function. rewrite rel_global. unfold map_outcome. destruct (global_scope st); reflexivity. Qed.
  Lemma rel_resolve_instruction st n args : resolve_instruction (rel st) n args = resolve_instruction st n args.
  Proof. unfold resolve_instruction. cbn [scopes relocate_analyzer]. induction (scopes st) as [|s l IH]; cbn [map resolve_instruction_in]; [reflexivity|]. cbn. now rewrite IH. Qed.

  (** ** Expressions *)
  Section State.
    Variables (lm : libm) (st : analyzer).
    Hypothesis Hst : ordinary lm st.

    Lemma rel_const_int l r r' : r' = omap same r -> const_int_of (f l) r' = omap same (const_int_of l r).
    Proof.
      intros ->. unfold const_int_of. eapply omap_bind; [reflexivity|]. intros v _. eapply omap_bind; [apply omap_same, unl_promote|]. intros o _. unfold same.
      destruct o as [[]|]; reflexivity.
    Qed.
    Lemma rel_expand l a b : expand_range (f l) a b = omap same (expand_range l a b).
    Proof. unfold expand_range. destruct (b <? a)%Z; [reflexivity|]. destruct (b =? int64_max)%Z; reflexivity. Qed.
    Lemma rel_visit e : visit (rel st) (relocate_expr f e) = omap same (visit st e).
    Proof.
      apply (expr_ind_full (fun e => visit (rel st) (relocate_expr f e) = omap same (visit st e))
                           (fun i => visit_entry (rel st) (relocate_entry f i) = omap same (visit_entry st i))); clear e; try reflexivity.
      - intros l n. cbn [visit relocate_expr]. rewrite rel_resolve_variable. apply omap_same, unl_resolve_variable.
      - intros l b idx IHb IHi. cbn [visit relocate_expr]. apply omap_context. eapply omap_bind; [rewrite expr_loc_relocate; apply omap_context; exact IHb|]. intros v _. unfold same at 1.
        destruct v as [| | |x|]; try reflexivity.
        assert (M : (let! is := mapM (visit_entry (rel st)) (map (relocate_entry f) idx) in
             let! _ := check_out_of_range (concat is) (tsize (var_type x)) in Ok (VIndex x (concat is)))
           = omap same (let! is := mapM (visit_entry st) idx in let! _ := check_out_of_range (concat is) (tsize (var_type x)) in Ok (VIndex x (concat is)))).
        { eapply omap_bind; [apply omap_mapM; exact IHi|]. intros is _. rewrite same_map. eapply omap_bind; [apply omap_same, unl_check_out|]. reflexivity. }
        destruct (kind (var_type x)); try exact M; (eapply omap_bind; [apply omap_same, unl_type_of|]; intros t _; cbn; unfold relocate_error; cbn; now rewrite (c_none f Hf)).
      - intros l n. cbn [visit relocate_expr option_map]. rewrite rel_resolve_function. apply omap_same, (unl_resolve_function lm); [exact Hst|constructor].
      - intros l n args IH. cbn [visit relocate_expr option_map]. eapply omap_bind.
        + apply omap_mapM. eapply Forall_impl; [|exact IH]. intros a H. cbv beta. rewrite expr_loc_relocate. apply omap_context. exact H.
        + intros vs E. rewrite same_map, rel_resolve_function. apply omap_same, (unl_resolve_function lm); [exact Hst|]. eapply typed_args; eauto.
      - intros l op e IH. cbn [visit relocate_expr]. eapply omap_bind; [rewrite expr_loc_relocate; apply omap_context; exact IH|]. intros v E. rewrite rel_resolve_function. unfold same at 1.
        apply omap_same, (unl_resolve_function lm); [exact Hst|]. constructor; [eapply typed_value; eauto|constructor].
      - intros l op e1 e2 IH1 IH2. cbn [visit relocate_expr]. eapply omap_bind; [rewrite expr_loc_relocate; apply omap_context; exact IH1|]. intros v1 E1.
        eapply omap_bind; [rewrite expr_loc_relocate; apply omap_context; exact IH2|]. intros v2 E2. rewrite rel_resolve_function. unfold same at 1 2.
        apply omap_same, (unl_resolve_function lm); [exact Hst|]. repeat constructor; eapply typed_value; eauto.
      - intros l c e1 e2 IHc IH1 IH2. cbn [visit relocate_expr]. eapply omap_bind; [rewrite expr_loc_relocate; apply omap_context; exact IHc|]. intros vc Ec.
        eapply omap_bind; [rewrite expr_loc_relocate; apply omap_context; exact IH1|]. intros v1 E1.
        eapply omap_bind; [rewrite expr_loc_relocate; apply omap_context; exact IH2|]. intros v2 E2. rewrite rel_resolve_function. unfold same at 1 2 3.
        apply omap_same, (unl_resolve_function lm); [exact Hst|]. repeat constructor; eapply typed_value; eauto.
      - intros l e IH. cbn [visit_entry relocate_entry]. eapply omap_bind; [rewrite expr_loc_relocate; apply rel_const_int; exact IH|]. reflexivity.
      - intros l e1 e2 IH1 IH2. cbn [visit_entry relocate_entry]. eapply omap_bind; [rewrite expr_loc_relocate; apply rel_const_int; exact IH1|]. intros a _.
        eapply omap_bind; [rewrite expr_loc_relocate; apply rel_const_int; exact IH2|]. intros b _. apply rel_expand.
    Qed.
    Lemma rel_visit_expression e : visit_expression (rel st) (relocate_expr f e) = omap same (visit_expression st e).
    Proof. unfold visit_expression. rewrite expr_loc_relocate. apply omap_context, rel_visit. Qed.
    Lemma rel_visit_list es : visit_expression_list (rel st) (map (relocate_expr f) es) = omap same (visit_expression_list st es).
    Proof.
      unfold visit_expression_list. transitivity (omap (map same) (mapM (visit_expression st) es)).
      - apply omap_mapM. apply Forall_forall. intros e _. apply rel_visit_expression.
      - destruct (mapM (visit_expression st) es); cbn; [now rewrite same_map|reflexivity..].
    Qed.
  End State.

  (** ** Logged computations *)
  Definition lmap {A B} (g : A -> B) (m : logged A) : logged B := (omap g (fst m), map (relocate_error f) (snd m)).
  Lemma lmap_lift {A B} (g : A -> B) m m' : m' = omap g m -> lift m' = lmap g (lift m).
  Proof. intros ->. reflexivity. Qed.
  Lemma lmap_bind {A A' B B'} (g : A -> A') (h : B -> B') (m : logged A) m' (k : A -> logged B) k' :
    m' = lmap g m -> (forall a, fst m = Ok a -> k' (g a) = lmap h (k a)) -> lbind m' k' = lmap h (lbind m k).
  Proof.
    intros -> H. destruct m as [[a|e|w|c] es]; cbn; try reflexivity. rewrite (H a eq_refl). destruct (k a) as [r es']. cbn. unfold lmap. cbn. now rewrite map_app.
  Qed.
  Lemma lmap_catch {A B} (g : A -> B) l d d' m m' : m' = lmap g m -> d' = g d -> catch_log (f l) d' m' = lmap g (catch_log l d m).
  Proof.
    intros -> ->. destruct m as [[a|e|w|c] es]; cbn; try reflexivity. unfold lmap. cbn. now rewrite map_app, <- relocate_context.
  Qed.
  Lemma lmap_context {A B} (g : A -> B) l m m' : m' = lmap g m -> log_context (f l) m' = lmap g (log_context l m).
  Proof. intros ->. destruct m as [r es]. unfold log_context, lmap. cbn. f_equal. now apply omap_context. Qed.

  Section State2.
    Variables (lm : libm) (st : analyzer).
    Hypothesis Hst : ordinary lm st.

    Lemma rel_annotation_operands l es : visit_annotation_operands (rel st) (f l) (map (relocate_expr f) es) = lmap same (visit_annotation_operands st l es).
    Proof.
      induction es as [|e es IH]; cbn [map visit_annotation_operands]; [reflexivity|]. eapply lmap_bind.
      - apply (lmap_catch same); [|reflexivity]. apply lmap_lift. rewrite (rel_visit lm st Hst). unfold map_outcome. destruct (visit st e); reflexivity.
      - intros v _. eapply lmap_bind; [exact IH|]. intros vs _. destruct v; reflexivity.
    Qed.
    Lemma rel_annotated l : visit_annotated (rel st) (map (relocate_annotation f) l) = lmap (map (relocate_sem_annotation f)) (visit_annotated st l).
    Proof.
      induction l as [|a l IH]; cbn [map visit_annotated]; [reflexivity|]. eapply (lmap_bind (relocate_sem_annotation f)).
      - unfold visit_annotation_data. cbn [relocate_annotation an_loc an_operands an_interface an_operation]. eapply lmap_bind; [apply rel_annotation_operands|]. reflexivity.
      - intros a' _. eapply lmap_bind; [exact IH|]. reflexivity.
    Qed.

    Lemma rel_terminal g : gate_terminal_name (relocate_sem_gate f g) = gate_terminal_name g.
    Proof. revert g. fix IH 1. intros [l n [g|] ps ans]; cbn; [apply IH|reflexivity]. Qed.
    Lemma rel_resolution g : gate_resolution_name (relocate_sem_gate f g) = gate_resolution_name g.
    Proof. destruct g as [l n [g|] ps ans]; unfold gate_resolution_name; cbn [relocate_sem_gate option_map sem_gate_inner sem_gate_name]; [now rewrite rel_terminal|reflexivity]. Qed.
    Lemma rel_visit_gate g : visit_gate (rel st) (relocate_gate f g) = lmap (relocate_sem_gate f) (visit_gate st g).
    Proof.
      revert g. fix IH 1. intros [l n i ps ans]. cbn [visit_gate relocate_gate]. apply lmap_context. eapply (lmap_bind (option_map (relocate_sem_gate f))).
      - destruct i as [g|]; cbn [option_map]; [|reflexivity]. eapply (lmap_bind (relocate_sem_gate f)); [apply IH|]. reflexivity.
      - intros i' _. eapply lmap_bind; [apply lmap_lift, (rel_visit_list lm st Hst)|]. intros vs _. unfold same at 1.
        eapply lmap_bind; [apply lmap_lift, omap_same, unl_resolve_parameters|]. intros vs' _. eapply (lmap_bind same).
        + apply lmap_lift. transitivity (check_gate i').
          * unfold check_gate. destruct i' as [g'|]; cbn [option_map]; [now rewrite rel_resolution|reflexivity].
          * apply omap_same, unl_check_gate.
        + intros u _. eapply lmap_bind; [apply rel_annotated|]. reflexivity.
    Qed.
  End State2.

  Lemma rel_update st g g' : (forall s, g' (relocate_scope f s) = omap (relocate_scope f) (g s)) -> update_current (rel st) g' = omap rel (update_current st g).
  Proof.
    intros H. unfold update_current. cbn [scopes relocate_analyzer]. destruct (scopes st) as [|s l] eqn:E; cbn [map]; [reflexivity|]. eapply omap_bind; [apply H|]. intros s' _. reflexivity.
  Qed.
  Lemma rel_add_statement st s : add_statement (rel st) (relocate_sem_statement f s) = omap rel (add_statement st s).
  Proof.
    apply rel_update. intros sc. cbn. f_equal. unfold relocate_scope. cbn. f_equal. unfold relocate_block, block_add. cbn. f_equal; [now rewrite map_app|].
    pose proof (c_merge f Hf (blk_loc (sc_block sc)) (sem_statement_loc s)) as H. unfold merge in H. rewrite <- H. destruct s; reflexivity.
  Qed.
  Lemma rel_add_variable st v : add_variable (rel st) (relocate_variable f v) = omap rel (add_variable st v).
  Proof. apply rel_update. intros sc. cbn. f_equal. unfold relocate_scope. cbn. now rewrite map_app. Qed.
  Lemma rel_register st n v : register_variable (rel st) n v = omap rel (register_variable st n v).
  Proof.
    apply rel_update. intros sc. cbn [relocate_scope sc_variables_table]. unfold variable_add. destruct (table_find n (sc_variables_table sc)); cbn; [|reflexivity]. unfold relocate_error. cbn. now rewrite (c_none f Hf).
  Qed.
  Lemma rel_build t : build_semantic_type (relocate_type f t) = omap same (build_semantic_type t).
  Proof.
    assert (E : build_semantic_type (relocate_type f t) = build_semantic_type t) by reflexivity. rewrite E. apply omap_same. unfold build_semantic_type, build_type.
    destruct (_ =? _); [|destruct (_ =? _)]; [destruct (ty_size t); [destruct (0 <? z)%Z|]..|]; try apply unl_ok; try apply unl_err.
  Qed.
  Lemma unl_gate_operands vs : unlocated (check_gate_operands vs).
  Proof. unfold check_gate_operands. destruct (adjacent_equal _); try apply unl_ok; try apply unl_err. Qed.
  Lemma unl_non_gate_operands n vs : unlocated (check_non_gate_operands n vs).
  Proof. unfold check_non_gate_operands. destruct (is_measure n); [destruct (_ =? _)%Z|]; try apply unl_ok; try apply unl_err. Qed.

  Lemma rel_statement lm st s : ordinary lm st -> visit_statement (rel st) (relocate_statement f s) = lmap rel (visit_statement st s).
  Proof.
    intros Hst. destruct s as [l n t ans|l g ops ans|l n ops ps ans|l n c ans]; cbn [relocate_statement visit_statement].
    - unfold visit_variable. cbn [relocate_analyzer next_id]. change (fresh (rel st)) with (rel (fresh st)).
      assert (Hst' : ordinary lm (fresh st)) by (eapply ordinary_extends; [exact Hst|apply fresh_extends]).
      apply (lmap_catch rel); [|reflexivity]. eapply lmap_bind; [apply lmap_lift, rel_build|]. intros ty _. unfold same.
      eapply lmap_bind; [apply (rel_annotated lm); exact Hst'|]. intros ans' _. eapply (lmap_bind rel); [apply lmap_lift; exact (rel_add_variable (fresh st) (mkSemVariable _ ans'))|]. intros st1 _.
      apply (lmap_catch rel); [|reflexivity]. apply lmap_lift, rel_register.
    - unfold visit_gate_instruction. apply (lmap_catch rel); [|reflexivity]. eapply lmap_bind; [apply (rel_visit_gate lm st Hst)|]. intros g' _.
      eapply lmap_bind; [apply lmap_lift, (rel_visit_list lm st Hst)|]. intros vs _. unfold same at 1. rewrite rel_resolution, rel_resolve_instruction.
      eapply lmap_bind; [apply lmap_lift, omap_same, unl_resolve_instruction|]. intros r _. unfold same. eapply lmap_bind; [apply lmap_lift, omap_same, unl_gate_operands|]. intros u _.
      eapply lmap_bind; [apply (rel_annotated lm); exact Hst|]. intros ans' _. apply lmap_lift. apply (rel_add_statement st (SemGateInstr l (fst r) g' (snd r) ans')).
    - unfold visit_non_gate_instruction. apply (lmap_catch rel); [|reflexivity]. eapply lmap_bind; [apply lmap_lift, (rel_visit_list lm st Hst)|]. intros vs _. unfold same at 1. rewrite rel_resolve_instruction.
      eapply lmap_bind; [apply lmap_lift, omap_same, unl_resolve_instruction|]. intros r _. unfold same. eapply lmap_bind; [apply lmap_lift, (rel_visit_list lm st Hst)|]. intros ws _. unfold same.
      eapply lmap_bind; [apply lmap_lift, omap_same, unl_resolve_parameters|]. intros ws' _. eapply lmap_bind; [apply lmap_lift, omap_same, unl_non_gate_operands|]. intros u _.
      eapply lmap_bind; [apply (rel_annotated lm); exact Hst|]. intros ans' _. apply lmap_lift. apply (rel_add_statement st (SemNonGate l (fst r) n (snd r) ws' ans')).
    - unfold visit_asm_declaration. apply (lmap_catch rel); [|reflexivity]. eapply lmap_bind; [apply (rel_annotated lm); exact Hst|]. intros ans' _. apply lmap_lift. apply (rel_add_statement st (SemAsm l n c ans')).
  Qed.

  (** ** Programs *)
  Lemma rel_block lm l ss : forall st, ordinary lm st ->
    visit_block (f l) (rel st) (map (relocate_statement f) ss) = lmap rel (visit_block l st ss).
  Proof.
    induction ss as [|s ss IH]; intros st Hst; [reflexivity|]. cbn [map]. rewrite !visit_block_cons. eapply lmap_bind; [apply (rel_statement lm); exact Hst|].
    intros st1 E. apply IH. destruct (visit_statement st s) as [r es] eqn:V. cbn in E. subst r. eapply ordinary_extends; [exact Hst|]. eapply effect_extends, statement_effect, V.
  Qed.
  Lemma rel_annots_well_formed vars l : annots_well_formed vars (map (relocate_sem_annotation f) l) = annots_well_formed vars l.
  Proof. unfold annots_well_formed. induction l as [|a l IH]; cbn; [reflexivity|]. now rewrite IH. Qed.
  Lemma rel_gate_well_formed vars g : gate_well_formed vars (relocate_sem_gate f g) = gate_well_formed vars g.
  Proof. revert g. fix IH 1. intros [l n [g|] ps ans]; cbn [gate_well_formed relocate_sem_gate option_map]; rewrite rel_annots_well_formed; [now rewrite IH|reflexivity]. Qed.
  Lemma rel_well_formed p : program_well_formed (relocate_sem_program f p) = program_well_formed p.
  Proof.
    unfold program_well_formed. cbn [relocate_sem_program sp_variables sp_block relocate_block blk_statements]. rewrite map_map.
    replace (map (fun x => var_id (sv_var (relocate_variable f x))) (sp_variables p)) with (map (fun x => var_id (sv_var x)) (sp_variables p)) by reflexivity.
    set (vars := map _ _). clearbody vars. f_equal.
    - induction (blk_statements (sp_block p)) as [|s l IH]; cbn [map forallb]; [reflexivity|]. rewrite IH. f_equal.
      destruct s; cbn [relocate_sem_statement statement_well_formed]; now rewrite ?rel_annots_well_formed, ?rel_gate_well_formed.
    - induction (sp_variables p) as [|s l IH]; cbn [map forallb]; [reflexivity|]. rewrite IH. f_equal. apply rel_annots_well_formed.
  Qed.
  Definition relocate_analysis (r : analyzer * result sem_program) : analyzer * result sem_program :=
    (rel (fst r), relocate_result f (relocate_sem_program f) (snd r)).
  Lemma rel_program lm st p : ordinary lm st ->
    visit_program (rel st) (relocate_program f p) = lmap (fun r => (rel (fst r), relocate_sem_program f (snd r))) (visit_program st p).
  Proof.
    intros Hst. unfold visit_program. cbn [relocate_program prog_version prog_version_loc prog_statements prog_block_loc relocate_analyzer api_version].
    eapply (lmap_bind same).
    - unfold visit_version. apply lmap_catch; [|reflexivity]. apply lmap_lift, omap_same. destruct (existsb _ _); [apply unl_err|]. destruct (negb _); [apply unl_err|apply unl_ok].
    - intros v _. eapply lmap_bind; [apply (rel_block lm); exact Hst|]. intros st1 _. eapply (lmap_bind (relocate_scope f)).
      + apply lmap_lift. unfold current_scope. cbn [relocate_analyzer scopes]. destruct (scopes st1); reflexivity.
      + reflexivity.
  Qed.
  Lemma rel_analyze_ast lm st p : ordinary lm st -> analyze_ast (rel st) (relocate_program f p) = omap relocate_analysis (analyze_ast st p).
  Proof.
    intros Hst. unfold analyze_ast. rewrite (rel_program lm st p Hst). destruct (visit_program st p) as [[[st1 sp]|e|w|k] es]; cbn [lmap fst snd omap]; try reflexivity.
    destruct es; cbn [map]; [|reflexivity]. rewrite rel_well_formed. destruct (program_well_formed sp); reflexivity.
  Qed.
  Lemma rel_analyze lm st r : ordinary lm st -> analyze (rel st) (relocate_result f (relocate_program f) r) = omap relocate_analysis (analyze st r).
  Proof.
    intros Hst. unfold analyze. destruct r as [[p|] [|e es]]; cbn [relocate_result res_errors res_root option_map map]; try reflexivity. apply (rel_analyze_ast lm). exact Hst.
  Qed.
End Relocation.
