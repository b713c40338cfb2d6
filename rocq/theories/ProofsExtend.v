(** Proofs for C98: analyzers that agree on the names that a program uses. *)
From Verif Require Import Base ModelUtils ModelVersion ModelError ModelTypes ModelOverload ModelInstructionSet ModelAst ModelAnalyzer ModelSemantic
  SpecAnalyzer SpecRename ProofsUtils ProofsTypes ProofsExpr ProofsAnalyzer ProofsObjects SpecExtend.
Local Open Scope string_scope.

Lemma unary_name op : unop_name op = unary_function op. Proof. destruct op; reflexivity. Qed.
Lemma binary_name op : binop_name op = binary_function op. Proof. destruct op; reflexivity. Qed.

Section Names.
  (** The names of variables, functions and instructions that matter *)
  Variables V F I : string -> Prop.

  Definition agree_scope (a b : scope) : Prop :=
    (forall n, V n -> table_find n (sc_variables_table a) = table_find n (sc_variables_table b)) /\
    (forall n, F n -> table_find n (sc_functions a) = table_find n (sc_functions b)) /\
    (forall n, I n -> table_find n (sc_instructions a) = table_find n (sc_instructions b)) /\
    sc_block a = sc_block b /\ sc_variables a = sc_variables b.
  Definition agree (a b : analyzer) : Prop :=
    api_version a = api_version b /\ next_id a = next_id b /\ Forall2 agree_scope (scopes a) (scopes b).

  Lemma agree_scope_refl s : agree_scope s s.
  Proof. unfold agree_scope. auto. Qed.
  Lemma agree_scopes_refl l : Forall2 agree_scope l l.
  Proof. induction l; constructor; auto using agree_scope_refl. Qed.
  Lemma agree_refl st : agree st st.
  Proof. split; [reflexivity|]. split; [reflexivity|]. induction (scopes st); constructor; auto using agree_scope_refl. Qed.
  Lemma agree_scope_trans a b c : agree_scope a b -> agree_scope b c -> agree_scope a c.
  Proof.
    intros (H1 & H2 & H3 & H4 & H5) (G1 & G2 & G3 & G4 & G5). split; [|split; [|split; [|split; congruence]]]; intros n Hn.
    - rewrite H1 by exact Hn. auto.
    - rewrite H2 by exact Hn. auto.
    - rewrite H3 by exact Hn. auto.
  Qed.
  Lemma agree_trans a b c : agree a b -> agree b c -> agree a c.
  Proof.
    intros (H1 & H2 & H3) (G1 & G2 & G3). split; [congruence|]. split; [congruence|]. revert G3. generalize (scopes c). induction H3 as [|x y l l' Hx H IH]; intros lc G; inversion G; subst; constructor; eauto using agree_scope_trans.
  Qed.

  (** ** Looking up *)
  Section Two.
    Variables a b : analyzer.
    Hypothesis H : agree a b.

    Lemma agree_variable n : V n -> resolve_variable a n = resolve_variable b n.
    Proof.
      intros Hn. destruct H as (_ & _ & Hs). unfold resolve_variable. induction Hs as [|x y l l' (Hx & _) Hl IH]; [reflexivity|]. cbn [resolve_variable_in]. unfold variable_resolve. rewrite (Hx n Hn).
      destruct (table_find n (sc_variables_table y)); [reflexivity|]. exact IH.
    Qed.
    Lemma agree_last l l' : Forall2 agree_scope l l' -> match last_scope l, last_scope l' with Ok x, Ok y => agree_scope x y | UB k, UB k' => k = k' | _, _ => False end.
    Proof.
      intros G. induction G as [|x y l l' Hx G IH]; [reflexivity|]. destruct G as [|x' y' l l' Hx' G]; [exact Hx|]. exact IH.
    Qed.
    Lemma agree_function n args : F n -> resolve_function a n args = resolve_function b n args.
    Proof.
      intros Hn. destruct H as (_ & _ & Hs). unfold resolve_function, global_scope. pose proof (agree_last _ _ Hs) as G. destruct (last_scope (scopes a)), (last_scope (scopes b)); try contradiction; cbn [bind]; [|now subst].
      destruct G as (_ & G & _). unfold function_resolve, resolve. now rewrite (G n Hn).
    Qed.
    Lemma agree_instruction n args : I n -> resolve_instruction a n args = resolve_instruction b n args.
    Proof.
      intros Hn. destruct H as (_ & _ & Hs). unfold resolve_instruction. induction Hs as [|x y l l' (_ & _ & Hx & _) Hl IH]; [reflexivity|]. cbn [resolve_instruction_in]. unfold resolve. rewrite (Hx n Hn).
      destruct (match table_find n (sc_instructions y) with None => _ | Some r => _ end); try reflexivity. exact IH.
    Qed.

    (** ** Expressions *)
    Definition uses_expr (e : expr) : Prop := Forall V (expr_names e) /\ Forall F (expr_functions e).
    Definition uses_entry (i : index_entry) : Prop := Forall V (entry_names i) /\ Forall F (entry_functions i).

    Lemma mapM_same {A B : Type} (f g : A -> outcome error B) l : Forall (fun x => f x = g x) l -> mapM f l = mapM g l.
    Proof. induction 1 as [|x l Hx _ IH]; [reflexivity|]. cbn [mapM]. now rewrite Hx, IH. Qed.
    Lemma flat_forall {A B : Type} (P : B -> Prop) (f : A -> list B) l : Forall P (flat_map f l) -> Forall (fun x => Forall P (f x)) l.
    Proof. induction l as [|x l IH]; [constructor|]. cbn [flat_map]. rewrite Forall_app. intros [? ?]. constructor; auto. Qed.

    Lemma agree_visit e : uses_expr e -> visit a e = visit b e.
    Proof.
      apply (expr_ind_full (fun e => uses_expr e -> visit a e = visit b e) (fun i => uses_entry i -> visit_entry a i = visit_entry b i)); clear e; unfold uses_expr, uses_entry.
      - reflexivity.
      - reflexivity.
      - reflexivity.
      - intros l n [Hv _]. cbn [visit]. apply agree_variable. now inversion Hv.
      - intros l e idx IHe IHi. cbn [expr_names expr_functions]. rewrite !Forall_app. intros [[V1 V2] [F1 F2]]. cbn [visit]. rewrite IHe by auto.
        assert (M : mapM (visit_entry a) idx = mapM (visit_entry b) idx).
        { apply mapM_same. apply flat_forall in V2, F2. rewrite Forall_forall in IHi, V2, F2 |- *. auto. }
        f_equal. destruct (with_context (expr_loc e) (visit b e)) as [v|?|?|?]; cbn [bind]; try reflexivity. destruct v as [| | |x|]; try reflexivity. 
        assert (M2 : (let! is := mapM (visit_entry a) idx in let! _ := check_out_of_range (concat is) (tsize (var_type x)) in (Ok (VIndex x (concat is)) : outcome error value)) =
                     (let! is := mapM (visit_entry b) idx in let! _ := check_out_of_range (concat is) (tsize (var_type x)) in (Ok (VIndex x (concat is)) : outcome error value))) by now rewrite M.
        destruct (kind (var_type x)); try exact M2; reflexivity.
      - intros l n [_ Hf]. cbn [visit]. apply agree_function. now inversion Hf.
      - intros l n args IH [Hv Hf]. cbn [expr_names expr_functions] in Hv, Hf. inversion Hf as [|? ? Hn Hf']; subst. cbn [visit].
        assert (M : mapM (fun e => with_context (expr_loc e) (visit a e)) args = mapM (fun e => with_context (expr_loc e) (visit b e)) args).
        { apply mapM_same. apply flat_forall in Hv, Hf'. rewrite Forall_forall in IH, Hv, Hf' |- *. intros e He. f_equal. auto. }
        rewrite M. clear M. match goal with |- context [mapM ?f args] => generalize (mapM f args) end. intros [vs|?|?|?]; cbn [bind]; try reflexivity. now apply agree_function.
      - intros l op e IH [Hv Hf]. cbn [expr_names expr_functions] in Hv, Hf. inversion Hf as [|? ? Hn Hf']; subst. cbn [visit]. rewrite IH by auto. destruct (with_context _ _); cbn [bind]; try reflexivity. rewrite unary_name. now apply agree_function.
      - intros l op e1 e2 IH1 IH2 [Hv Hf]. cbn [expr_names expr_functions] in Hv, Hf. inversion Hf as [|? ? Hn Hf']; subst. rewrite Forall_app in Hv, Hf'. cbn [visit]. rewrite IH1, IH2 by tauto.
        destruct (with_context (expr_loc e1) _); cbn [bind]; try reflexivity. destruct (with_context (expr_loc e2) _); cbn [bind]; try reflexivity. rewrite binary_name. now apply agree_function.
      - intros l c e1 e2 IHc IH1 IH2 [Hv Hf]. cbn [expr_names expr_functions] in Hv, Hf. inversion Hf as [|? ? Hn Hf']; subst. rewrite !Forall_app in Hv, Hf'. cbn [visit]. rewrite IHc, IH1, IH2 by tauto.
        destruct (with_context (expr_loc c) _); cbn [bind]; try reflexivity. destruct (with_context (expr_loc e1) _); cbn [bind]; try reflexivity. destruct (with_context (expr_loc e2) _); cbn [bind]; try reflexivity. now apply agree_function.
      - intros l e IH U. specialize (IH U).
        change ((let! z := const_int_of (expr_loc e) (visit a e) in Ok [z]) = (let! z := const_int_of (expr_loc e) (visit b e) in (Ok [z] : outcome error (list Z)))). now rewrite IH.
      - intros l e1 e2 IH1 IH2. cbn [entry_names entry_functions]. rewrite !Forall_app. intros U.
        change ((let! z1 := const_int_of (expr_loc e1) (visit a e1) in let! z2 := const_int_of (expr_loc e2) (visit a e2) in expand_range l z1 z2) =
                (let! z1 := const_int_of (expr_loc e1) (visit b e1) in let! z2 := const_int_of (expr_loc e2) (visit b e2) in expand_range l z1 z2)). now rewrite IH1, IH2 by tauto.
    Qed.
    Lemma agree_list es : Forall uses_expr es -> visit_expression_list a es = visit_expression_list b es.
    Proof. intros U. apply mapM_same. eapply Forall_impl; [|exact U]. intros e He. unfold visit_expression. f_equal. now apply agree_visit. Qed.

    Lemma agree_operands l es : Forall uses_expr es -> visit_annotation_operands a l es = visit_annotation_operands b l es.
    Proof. induction 1 as [|e es He _ IH]; [reflexivity|]. cbn [visit_annotation_operands]. now rewrite (agree_visit e He), IH. Qed.
    Lemma agree_annotated l : Forall uses_expr (annotation_exprs l) -> visit_annotated a l = visit_annotated b l.
    Proof.
      induction l as [|x l IH]; [reflexivity|]. unfold annotation_exprs in *. cbn [flat_map]. rewrite Forall_app. intros [Hx Hl]. cbn [visit_annotated]. unfold visit_annotation_data. rewrite (agree_operands _ _ Hx). now rewrite (IH Hl).
    Qed.
    Lemma agree_gate g : Forall uses_expr (gate_exprs g) -> visit_gate a g = visit_gate b g.
    Proof.
      induction g as [l n ps an|l n g ps an IH] using gate_ind_full; cbn [gate_exprs]; rewrite !Forall_app; intros U; rewrite !visit_gate_unfold.
      - destruct U as (_ & Up & Ua). rewrite (agree_list _ Up). now rewrite (agree_annotated _ Ua).
      - destruct U as (Ug & Up & Ua). rewrite (IH Ug), (agree_list _ Up). now rewrite (agree_annotated _ Ua).
    Qed.
  End Two.

  (** ** What a gate asks for *)
  Lemma log_context_inv {A : Type} l (m : logged A) x es : log_context l m = (Ok x, es) -> m = (Ok x, es).
  Proof. destruct m as [o es']. unfold log_context. cbn [fst snd]. destruct o; cbn [with_context]; congruence. Qed.
  Lemma visit_gate_parts st l n i ps an g es : visit_gate st (Gate l n i ps an) = (Ok g, es) ->
    exists i' ps' an', g = SemGate l n i' ps' an' /\ match i, i' with None, None => True | Some x, Some x' => exists es', visit_gate st x = (Ok x', es') | _, _ => False end.
  Proof.
    rewrite visit_gate_unfold. intros E. apply log_context_inv in E.
    assert (K : forall i' es0, lbind (lift (visit_expression_list st ps)) (fun ps0 => lbind (lift (resolve_parameters n ps0)) (fun ps' => lbind (lift (check_gate i')) (fun _ => lbind (visit_annotated st an) (fun ans => lift (Ok (SemGate l n i' ps' ans)))))) = (Ok g, es0) -> exists ps' an', g = SemGate l n i' ps' an').
    { intros i' es0 K. unfold lift at 1 in K. destruct (visit_expression_list st ps); cbn [lbind] in K; try discriminate. unfold lift at 1 in K. destruct (resolve_parameters n a) as [ps'|?|?|?]; cbn [lbind] in K; try discriminate.
      unfold lift at 1 in K. destruct (check_gate i'); cbn [lbind] in K; try discriminate. destruct (visit_annotated st an) as [[an'|?|?|?] es1]; cbn [lbind] in K; try discriminate. cbn [lift] in K. exists ps', an'. congruence. }
    destruct i as [x|].
    - destruct (visit_gate st x) as [[x'|?|?|?] es1]; cbn [lbind lift] in E; try discriminate. match type of E with (let (_, _) := ?z in _) = _ => destruct z as [o es2] eqn:Ez end. injection E as -> <-. destruct (K (Some x') es2 Ez) as (ps' & an' & ->). exists (Some x'), ps', an'. eauto.
    - cbn [lbind lift] in E. match type of E with (let (_, _) := ?z in _) = _ => destruct z as [o es2] eqn:Ez end. injection E as -> <-. destruct (K None es2 Ez) as (ps' & an' & ->). exists None, ps', an'. auto.
  Qed.
  Lemma gate_terminal st g : forall g' es, visit_gate st g = (Ok g', es) -> gate_terminal_name g' = innermost g.
  Proof.
    induction g as [l n ps an|l n g ps an IH] using gate_ind_full; intros g' es E; apply visit_gate_parts in E; destruct E as (i' & ps' & an' & -> & Hi); destruct i' as [x'|]; try contradiction; [reflexivity|].
    destruct Hi as [es' Hi]. cbn [gate_terminal_name innermost]. eauto.
  Qed.
  Lemma gate_asked st g g' es : visit_gate st g = (Ok g', es) -> gate_resolution_name g' = gate_asks g.
  Proof.
    destruct g as [l n [x|] ps an]; intros E; apply visit_gate_parts in E; destruct E as (i' & ps' & an' & -> & Hi); destruct i' as [x'|]; try contradiction; [|reflexivity].
    destruct Hi as [es' Hi]. unfold gate_resolution_name. cbn [sem_gate_inner sem_gate_name gate_asks]. rewrite (gate_terminal _ _ _ _ Hi).
    unfold is_single_qubit_gate_modifier, is_inv_gate_modifier, is_pow_gate_modifier. destruct ((n =? "inv") || (n =? "pow"))%bool; reflexivity.
  Qed.

  (** ** Statements *)
  Definition same_end {A : Type} (R : A -> A -> Prop) (x y : logged A) : Prop :=
    snd x = snd y /\ match fst x, fst y with Ok u, Ok v => R u v | Err e, Err e' => e = e' | Throw w, Throw w' => w = w' | UB k, UB k' => k = k' | _, _ => False end.
  Lemma same_catch {A : Type} (R : A -> A -> Prop) l d d' x y : R d d' -> same_end R x y -> same_end R (catch_log l d x) (catch_log l d' y).
  Proof.
    intros Hd. destruct x as [o es], y as [o' es']. intros [E Ho]. cbn [fst snd] in E, Ho. subst es'. destruct o, o'; try contradiction; cbn [catch_log]; split; cbn [fst snd]; try assumption; try reflexivity. now subst.
  Qed.
  Lemma same_bind {A B : Type} (R : A -> A -> Prop) (S : B -> B -> Prop) x y f g : same_end R x y -> (forall u v, R u v -> same_end S (f u) (g v)) -> same_end S (lbind x f) (lbind y g).
  Proof.
    destruct x as [o es], y as [o' es']. intros [E Ho] K. cbn [fst snd] in E, Ho. subst es'. destruct o as [u|?|?|?], o' as [v|?|?|?]; try contradiction; cbn [lbind]; try (split; [reflexivity|exact Ho]).
    specialize (K u v Ho). destruct (f u) as [o1 e1], (g v) as [o2 e2]. destruct K as [K1 K2]. cbn [fst snd] in K1, K2. subst e2. split; [reflexivity|exact K2].
  Qed.
  Lemma same_bind_eq {A B : Type} (S : B -> B -> Prop) (x : logged A) f g : (forall u es, x = (Ok u, es) -> same_end S (f u) (g u)) -> same_end S (lbind x f) (lbind x g).
  Proof.
    destruct x as [[u|?|?|?] es]; intros K; cbn [lbind]; try (split; reflexivity). specialize (K u es eq_refl). destruct (f u) as [o1 e1], (g u) as [o2 e2]. destruct K as [K1 K2]. cbn [fst snd] in K1, K2. subst e2. split; [reflexivity|exact K2].
  Qed.

  Lemma agree_current a b f g : agree a b -> (forall s t, agree_scope s t -> same_end agree_scope (lift (f s)) (lift (g t))) -> same_end agree (lift (update_current a f)) (lift (update_current b g)).
  Proof.
    intros (E1 & E2 & Es) K. unfold update_current. destruct Es as [|s t l l' Hs Hl]; [split; reflexivity|]. destruct (K s t Hs) as [_ K']. cbn [lift fst snd] in K'. split; [reflexivity|]. cbn [lift fst snd].
    destruct (f s), (g t); try contradiction; cbn [bind]; try exact K'. split; [exact E1|]. split; [exact E2|]. cbn [scopes]. constructor; assumption.
  Qed.
  Lemma agree_add_statement a b s : agree a b -> same_end agree (lift (add_statement a s)) (lift (add_statement b s)).
  Proof. intros G. apply agree_current; [exact G|]. intros x y (H1 & H2 & H3 & H4 & H5). split; [reflexivity|]. cbn. unfold agree_scope. cbn. rewrite H4. auto. Qed.
  Lemma agree_add_variable a b v : agree a b -> same_end agree (lift (add_variable a v)) (lift (add_variable b v)).
  Proof. intros G. apply agree_current; [exact G|]. intros x y (H1 & H2 & H3 & H4 & H5). split; [reflexivity|]. cbn. unfold agree_scope. cbn. rewrite H5. auto. Qed.
  Lemma agree_register_variable a b n v : V n -> agree a b -> same_end agree (lift (register_variable a n v)) (lift (register_variable b n v)).
  Proof.
    intros Hn G. apply agree_current; [exact G|]. intros x y (H1 & H2 & H3 & H4 & H5). split; [reflexivity|]. cbn [lift fst snd]. unfold variable_add. rewrite (H1 n Hn). destruct (table_find n (sc_variables_table y)); cbn [bind]; [reflexivity|].
    unfold agree_scope. cbn [sc_variables_table sc_functions sc_instructions sc_block sc_variables]. split; [|auto]. intros m Hm. rewrite !ProofsTypes.table_find_app. now rewrite (H1 m Hm).
  Qed.

  Definition uses_statement (s : statement) : Prop :=
    Forall uses_expr (statement_exprs s) /\ Forall V (declared_names [s]) /\ Forall I (statement_instructions s).
  Lemma agree_statement a b s : agree a b -> uses_statement s -> same_end agree (visit_statement a s) (visit_statement b s).
  Proof.
    intros G (Ue & Uv & Ui). destruct s as [l n t an|l g ops an|l n ops ps an|l n c an]; cbn [visit_statement statement_exprs] in *.
    - unfold visit_variable. assert (G' : agree (fresh a) (fresh b)). { destruct G as (E1 & E2 & Es). split; [exact E1|]. split; [|exact Es]. cbn. now rewrite E2. }
      apply same_catch; [exact G'|]. apply same_bind_eq. intros ty _ _. rewrite (agree_annotated _ _ G' an Ue). apply same_bind_eq. intros ans _ _. destruct G as (E1 & E2 & Es). rewrite E2.
      eapply same_bind; [apply agree_add_variable, G'|]. intros u v Huv. apply same_catch; [exact Huv|]. apply agree_register_variable; [|exact Huv]. now inversion Uv.
    - unfold visit_gate_instruction. rewrite !Forall_app in Ue. destruct Ue as (Ug & Uo & Ua). apply same_catch; [exact G|]. rewrite (agree_gate _ _ G g Ug). apply same_bind_eq. intros g' es Eg.
      rewrite (agree_list _ _ G ops Uo). apply same_bind_eq. intros vs _ _. rewrite (gate_asked _ _ _ _ Eg). rewrite (agree_instruction _ _ G) by now inversion Ui. apply same_bind_eq. intros r _ _. apply same_bind_eq. intros _ _ _.
      rewrite (agree_annotated _ _ G an Ua). apply same_bind_eq. intros ans _ _. apply agree_add_statement, G.
    - unfold visit_non_gate_instruction. rewrite !Forall_app in Ue. destruct Ue as (Uo & Up & Ua). apply same_catch; [exact G|]. rewrite (agree_list _ _ G ops Uo). apply same_bind_eq. intros vs _ _.
      rewrite (agree_instruction _ _ G) by now inversion Ui. apply same_bind_eq. intros r _ _. rewrite (agree_list _ _ G ps Up). apply same_bind_eq. intros ps' _ _. apply same_bind_eq. intros ps'' _ _. apply same_bind_eq. intros _ _ _.
      rewrite (agree_annotated _ _ G an Ua). apply same_bind_eq. intros ans _ _. apply agree_add_statement, G.
    - unfold visit_asm_declaration. apply same_catch; [exact G|]. rewrite (agree_annotated _ _ G an Ue). apply same_bind_eq. intros ans _ _. apply agree_add_statement, G.
  Qed.
  Lemma agree_block l ss : Forall uses_statement ss -> forall a b, agree a b -> same_end agree (visit_block l a ss) (visit_block l b ss).
  Proof.
    induction 1 as [|s ss Hs _ IH]; intros a b G; cbn [visit_block]; [split; [reflexivity|exact G]|]. eapply same_bind; [|exact IH]. apply same_catch; [exact G|]. now apply agree_statement.
  Qed.

  Definition uses_program (p : program) : Prop := Forall V (program_names p) /\ Forall F (program_functions p) /\ Forall I (program_instructions p).
  Lemma uses_statements ss : Forall V (declared_names ss ++ flat_map (fun s => flat_map expr_names (statement_exprs s)) ss) -> Forall F (flat_map (fun s => flat_map expr_functions (statement_exprs s)) ss) -> Forall I (flat_map statement_instructions ss) -> Forall uses_statement ss.
  Proof.
    induction ss as [|s ss IH]; [constructor|]. unfold declared_names. cbn [flat_map]. rewrite !Forall_app. intros [[V1 V2] [V3 V4]] [F1 F2] [I1 I2]. constructor.
    - split; [|split; [unfold declared_names; cbn [flat_map]; rewrite app_nil_r; exact V1|exact I1]]. apply flat_forall in V3, F1. rewrite Forall_forall in V3, F1 |- *. intros e He. split; auto.
    - apply IH; [rewrite Forall_app; auto|exact F2|exact I2].
  Qed.
  Lemma agree_program a b p : agree a b -> uses_program p -> same_end (fun x y => agree (fst x) (fst y) /\ snd x = snd y) (visit_program a p) (visit_program b p).
  Proof.
    intros G (Up & Uf & Ui). unfold visit_program. pose proof G as (E1 & _ & _). rewrite E1. apply same_bind_eq. intros v _ _. eapply same_bind; [apply agree_block; [apply uses_statements; assumption|exact G]|]. intros a' b' G'.
    pose proof G' as (_ & _ & Es). unfold current_scope. destruct Es as [|s t l l' (_ & _ & _ & H4 & H5) Hl]; [split; reflexivity|]. cbn [lift lbind]. split; [reflexivity|]. cbn [fst snd]. rewrite H4, H5. auto.
  Qed.
  (** Such analyzers return the same result. *)
  Lemma agree_analyze_ast a b p : agree a b -> uses_program p ->
    match analyze_ast a p, analyze_ast b p with Ok (a', r), Ok (b', r') => agree a' b' /\ r = r' | Err e, Err e' => e = e' | Throw w, Throw w' => w = w' | UB k, UB k' => k = k' | _, _ => False end.
  Proof.
    intros G U. destruct (agree_program a b p G U) as [E K]. unfold analyze_ast. destruct (visit_program a p) as [[[a' sp]|?|?|?] es], (visit_program b p) as [[[b' sp']|?|?|?] es']; cbn [fst snd] in E, K; try contradiction; try exact K.
    destruct K as [K ->]. subst es'. destruct es; [destruct (program_well_formed sp')|]; auto.
  Qed.
  Lemma agree_analyze a b t : agree a b -> (forall p, res_root t = Some p -> uses_program p) ->
    match analyze a t, analyze b t with Ok (a', r), Ok (b', r') => agree a' b' /\ r = r' | Err e, Err e' => e = e' | Throw w, Throw w' => w = w' | UB k, UB k' => k = k' | _, _ => False end.
  Proof.
    intros G U. unfold analyze. destruct (res_errors t); [|auto]. destruct (res_root t) as [p|]; [|reflexivity]. apply agree_analyze_ast; auto.
  Qed.

  (** ** Registering *)
  Definition irrelevant (r : registration) : Prop :=
    match r with
    | RVariable n _ => ~ V n
    | RFunction n _ _ | RFunctionSpec n _ _ => ~ F n
    | RInstruction i => ~ I (instr_name i)
    | RInstructionSpec n _ => ~ I n
    end.
  Lemma last_same l l' f : (forall s, agree_scope (f s) s) -> update_last l f = Ok l' -> Forall2 agree_scope l' l.
  Proof.
    intros K. revert l'. induction l as [|s l IH]; intros l'; [discriminate|]. cbn [update_last]. destruct l as [|s' l]; [intros [= <-]; repeat constructor; apply K|].
    destruct (update_last (s' :: l) f) as [l''|?|?|?] eqn:E; cbn [bind]; try discriminate. intros [= <-]. constructor; [apply agree_scope_refl|auto].
  Qed.
  Lemma register_function_agrees st n ps f st' : ~ F n -> register_function st n ps f = Ok st' -> agree st' st.
  Proof.
    intros Hn. unfold register_function. match goal with |- context [update_last _ ?g] => set (h := g) end. destruct (update_last (scopes st) h) as [l|?|?|?] eqn:E; cbn [bind]; try discriminate. intros [= <-]. split; [reflexivity|]. split; [reflexivity|]. cbn [scopes].
    eapply last_same; [|exact E]. intros s. unfold h, agree_scope. cbn [sc_variables_table sc_functions sc_instructions sc_block sc_variables]. split; [auto|]. split; [|auto]. intros m Hm. rewrite table_find_add. destruct (String.eqb_spec n m) as [->|_]; [contradiction|reflexivity].
  Qed.
  Lemma register_instruction_agrees st i st' : ~ I (instr_name i) -> register_instruction st i = Ok st' -> agree st' st.
  Proof.
    intros Hn. unfold register_instruction, update_current. destruct (scopes st) as [|s l] eqn:E; [discriminate|]. cbn [bind]. intros [= <-]. split; [reflexivity|]. split; [reflexivity|]. cbn [scopes]. rewrite E. constructor.
    - unfold agree_scope. cbn [sc_variables_table sc_functions sc_instructions sc_block sc_variables]. split; [auto|]. split; [auto|]. split; [|auto]. intros m Hm. unfold instruction_add. rewrite table_find_add. destruct (String.eqb_spec (instr_name i) m) as [<-|_]; [contradiction|reflexivity].
    - apply agree_scopes_refl.
  Qed.
  Lemma register_agrees st r st' : irrelevant r -> register st r = Ok st' -> agree st' st.
  Proof.
    destruct r as [n v|n ps f|n spec f|i|n spec]; cbn [irrelevant register]; intros Hn.
    - unfold register_variable, update_current. destruct (scopes st) as [|s l] eqn:E; [discriminate|]. destruct (variable_add n v (sc_variables_table s)) as [t|?|?|?] eqn:Ev; cbn [bind]; try discriminate. intros [= <-]. split; [reflexivity|]. split; [reflexivity|]. cbn [scopes]. rewrite E. constructor.
      + unfold agree_scope. cbn [sc_variables_table sc_functions sc_instructions sc_block sc_variables]. split; [|auto]. intros m Hm. unfold variable_add in Ev. destruct (table_find n (sc_variables_table s)); [discriminate|]. injection Ev as <-. rewrite ProofsTypes.table_find_app.
        destruct (table_find m (sc_variables_table s)); [reflexivity|]. destruct (String.eqb_spec n m) as [->|_]; [contradiction|reflexivity].
      + apply agree_scopes_refl.
    - now apply register_function_agrees.
    - unfold register_function_spec. destruct (types_of_spec spec); cbn [bind]; try discriminate. now apply register_function_agrees.
    - now apply register_instruction_agrees.
    - unfold register_instruction_spec, make_instruction. destruct (types_of_spec _); cbn [bind]; try discriminate. now apply register_instruction_agrees.
  Qed.
End Names.

Lemma types_of_spec_defined spec k : types_of_spec spec <> UB k.
Proof.
  unfold types_of_spec. induction (list_ascii_of_string spec) as [|c l IH]; cbn [mapM]; [discriminate|].
  assert (forall k', type_of_char c <> UB k') as C. { intros k'. unfold type_of_char. repeat match goal with |- context [if ?x then _ else _] => destruct x end; discriminate. }
  destruct (type_of_char c); cbn [bind]; try discriminate; [|exact (fun _ => C k0 eq_refl)]. destruct (mapM type_of_char l); cbn [bind]; try discriminate. congruence.
Qed.
Lemma update_last_defined l f k : l <> [] -> update_last l f <> UB k.
Proof.
  induction l as [|s l IH]; [congruence|]. intros _. cbn [update_last]. destruct l as [|s' l]; [discriminate|]. specialize (IH ltac:(discriminate)). destruct (update_last (s' :: l) f); cbn [bind]; congruence.
Qed.
Lemma register_defined st r k : scopes st <> [] -> register st r <> UB k.
Proof.
  intros N. assert (RF : forall n ps f, register_function st n ps f <> UB k).
  { intros n ps f. unfold register_function. match goal with |- context [update_last _ ?g] => pose proof (update_last_defined (scopes st) g k N) as U; destruct (update_last (scopes st) g) end; cbn [bind]; congruence. }
  assert (RI : forall i, register_instruction st i <> UB k). { intros i. unfold register_instruction, update_current. destruct (scopes st); [congruence|]. discriminate. }
  destruct r as [n v|n ps f|n spec f|i|n spec]; cbn [register]; auto.
  - unfold register_variable, update_current. destruct (scopes st) as [|s l]; [congruence|]. unfold variable_add. destruct (table_find n (sc_variables_table s)); discriminate.
  - unfold register_function_spec. pose proof (types_of_spec_defined spec k). destruct (types_of_spec spec); cbn [bind]; auto; congruence.
  - unfold register_instruction_spec, make_instruction. match goal with |- context [types_of_spec ?s] => pose proof (types_of_spec_defined s k); destruct (types_of_spec s) end; cbn [bind]; auto; congruence.
Qed.
Lemma analyze_scopes st t st' r : analyze st t = Ok (st', r) -> scopes st <> [] -> scopes st' <> [].
Proof.
  intros E N. assert (L : List.length (scopes st') = List.length (scopes st)); [|intros X; rewrite X in L; destruct (scopes st); [auto|discriminate]].
  unfold analyze in E. destruct (res_errors t); [|now injection E as <- _]. destruct (res_root t) as [p|]; [|discriminate]. unfold analyze_ast in E. destruct (visit_program st p) as [[[s sp]|?|?|?] es] eqn:Ep; try discriminate.
  assert (s = st') as <-. { destruct es; [destruct (program_well_formed sp)|]; congruence. } apply extends_length. exact (proj1 (visit_program_extends _ _ _ _ _ Ep)).
Qed.

Section Uses.
  Variables V F I : string -> Prop.
  Lemma analyses_agree us : (forall r, In (Register r) us -> irrelevant V F I r) -> (forall t p, In (Analyse t) us -> res_root t = Some p -> uses_program V F I p) ->
    forall a b, agree V F I a b -> scopes a <> [] -> analyses a us = analyses b (only_analyses us).
  Proof.
    induction us as [|[r|t] us IH]; intros Hr Ht a b G N; [reflexivity|cbn [analyses only_analyses filter]..]; specialize (IH ltac:(intros; apply Hr; now right) ltac:(intros; eapply Ht; [right; eassumption|assumption])); fold (only_analyses us) in *.
    - destruct (register a r) as [a'|?|?|k] eqn:E; [|apply IH; assumption..|exfalso; exact (register_defined a r k N E)]. assert (Ga : agree V F I a' a) by (apply (register_agrees V F I a r a'); [apply Hr; now left|exact E]).
      apply IH; [exact (agree_trans V F I a' a b Ga G)|]. destruct Ga as (_ & _ & Es). intros X. rewrite X in Es. inversion Es. congruence.
    - pose proof (agree_analyze V F I a b t G (fun p => Ht t p (or_introl eq_refl))) as K. destruct (analyze a t) as [[a' r]|?|?|?] eqn:E, (analyze b t) as [[b' r']|?|?|?]; try contradiction; try (now subst).
      destruct K as [K ->]. f_equal. apply IH; [exact K|]. exact (analyze_scopes _ _ _ _ E N).
  Qed.
End Uses.

Lemma registers_nothing st us : scopes st <> [] -> registers_unused us -> analyses st us = analyses st (only_analyses us).
Proof.
  intros N U.
  set (used := fun (names : program -> list string) n => exists t p, In (Analyse t) us /\ res_root t = Some p /\ In n (names p)).
  apply (analyses_agree (used program_names) (used program_functions) (used program_instructions)).
  - intros r Hr. destruct r; cbn [irrelevant]; intros (t & p & Ht & Ep & Hn); exact (U _ t p Hr Ht Ep Hn).
  - intros t p Ht Ep. unfold uses_program. rewrite !Forall_forall. split; [|split]; intros n Hn; exists t, p; auto.
  - apply agree_refl.
  - exact N.
Qed.
