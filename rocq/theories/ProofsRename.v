(** Analysis depends on the names of variables and on the identities of variable
    nodes only in what it copies to nodes and messages (C75-C78). *)
From Verif Require Import Base ModelUtils ModelVersion ModelError ModelTypes ModelOverload ModelFunctions ModelInstructionSet ModelAst ModelAnalyzer ModelSemantic
  SpecTypes SpecFunctions SpecInstructions SpecAnalyzer SpecRename ProofsTypes ProofsFunctions ProofsFolding ProofsExpr ProofsInstructions ProofsGates
  ProofsAnalyzer ProofsAnalyzer2 ProofsAnalyzer4.
Local Open Scope string_scope.

Lemma map_bind {A A' B B'} (g : A -> A') (h : B -> B') (m : outcome error A) m' (k : A -> outcome error B) k' :
  m' = map_outcome g m -> (forall a, k' (g a) = map_outcome h (k a)) -> bind m' k' = map_outcome h (bind m k).
Proof. intros -> H. destruct m; cbn; auto. Qed.
Lemma bind_same {A B} (m m' : outcome error A) (k k' : A -> outcome error B) : m' = m -> (forall a, k' a = k a) -> bind m' k' = bind m k.
Proof. intros -> H. destruct m; cbn; auto. Qed.
Lemma resolve_with_entry st n v m : scopes st <> [] -> ~ In n (names_here st) ->
  resolve_variable (map_current (with_entry n v) st) m = if n =? m then Ok v else resolve_variable st m.
Proof.
  unfold names_here, resolve_variable, map_current. destruct (scopes st) as [|s rest] eqn:Es; [congruence|]. intros _ Hn. cbn [scopes resolve_variable_in with_entry sc_variables_table].
  unfold variable_resolve. assert (Hf : table_find n (sc_variables_table s) = None) by now apply table_find_In.
  destruct (String.eqb_spec n m) as [->|N].
  - rewrite table_find_none by exact Hn. cbn. now rewrite String.eqb_refl.
  - replace (table_find m (sc_variables_table s ++ [(n, v)])) with (table_find m (sc_variables_table s)); [reflexivity|].
    clear -N. induction (sc_variables_table s) as [|[k a] t IH]; cbn; [destruct (String.eqb_spec n m); [contradiction|reflexivity]|]. destruct (k =? m); auto.
Qed.

Section Renaming.
  Variables (ren : string -> string) (number : nat -> nat).
  Notation rvar := (rename_variable ren number).
  Notation rv := (rename_value ren number).

  (** ** Values *)
  Lemma rv_type_of v : type_of (rv v) = type_of v.
  Proof. destruct v; reflexivity. Qed.
  Lemma rv_types_of vs : types_of (map rv vs) = types_of vs.
  Proof. unfold types_of. induction vs as [|v vs IH]; cbn [map mapM]; [reflexivity|]. rewrite rv_type_of. apply bind_same; [reflexivity|]. intros t. now rewrite IH. Qed.
  Lemma rv_promote v t : promote (rv v) t = map_outcome (option_map rv) (promote v t).
  Proof.
    unfold promote. rewrite rv_type_of. destruct (type_of v) as [tv|e|w|k]; cbn [bind map_outcome]; try reflexivity. destruct (type_check t tv); [reflexivity|]. cbn [bind].
    destruct v; cbn [rename_value]; destruct (kind t); try reflexivity. all: destruct (type_check tv (make_type TBool)); reflexivity.
  Qed.
  Lemma rv_const v : is_const v -> rv v = v.
  Proof. destruct v; cbn; tauto. Qed.
  Lemma rv_promote_args args : forall ps, promote_args (map rv args) ps = map_outcome (option_map (map rv)) (promote_args args ps).
  Proof.
    induction args as [|a args IH]; intros [|p ps]; cbn [promote_args map]; try reflexivity. eapply map_bind; [apply rv_promote|]. intros [r|]; cbn [option_map]; [|reflexivity].
    eapply map_bind; [apply IH|]. intros [l|]; reflexivity.
  Qed.
  Definition rv_tagged {T} (r : T * list value) : T * list value := (fst r, map rv (snd r)).
  Lemma rv_resolve {T} (t : table T) n args : resolve t n (map rv args) = map_outcome rv_tagged (resolve t n args).
  Proof.
    unfold resolve. destruct (table_find n t) as [r|]; [|reflexivity]. apply (map_bind (option_map rv_tagged)).
    - unfold resolve_overload. induction (rev r) as [|o os IH]; cbn [resolve_loop]; [reflexivity|]. rewrite map_length. destruct (negb _); [exact IH|].
      rewrite rv_promote_args. destruct (promote_args args (ov_params o)) as [[l|]|e|w|k]; cbn [bind map_outcome option_map]; try reflexivity. exact IH.
    - intros [x|]; cbn [option_map]; [reflexivity|]. rewrite rv_types_of. destruct (types_of args); reflexivity.
  Qed.
  Lemma rv_check_const vs : check_const (map rv vs) = check_const vs.
  Proof.
    unfold check_const. apply bind_same; [|reflexivity]. induction vs as [|v vs IH]; cbn [map mapM]; [reflexivity|].
    apply bind_same; [destruct v; reflexivity|]. intros u. now rewrite IH.
  Qed.
  Lemma rv_default lm : Forall (fun r => forall vs, snd (fst r) (map rv vs) = snd (fst r) vs) (function_history lm).
  Proof.
    assert (U1 : forall F vs, unary_i F (map rv vs) = unary_i F vs).
    { intros F vs. unfold unary_i. rewrite rv_check_const. apply bind_same; [reflexivity|]. intros _. destruct vs as [|[] ?]; reflexivity. }
    assert (U2 : forall F vs, unary_f F (map rv vs) = unary_f F vs).
    { intros F vs. unfold unary_f. rewrite rv_check_const. apply bind_same; [reflexivity|]. intros _. destruct vs as [|[] ?]; reflexivity. }
    assert (U3 : forall F vs, unary_b F (map rv vs) = unary_b F vs).
    { intros F vs. unfold unary_b. rewrite rv_check_const. apply bind_same; [reflexivity|]. intros _. destruct vs as [|[] ?]; reflexivity. }
    assert (B1 : forall F vs, binary_i F (map rv vs) = binary_i F vs).
    { intros F vs. unfold binary_i. rewrite rv_check_const. apply bind_same; [reflexivity|]. intros _. destruct vs as [|[] [|[] ?]]; reflexivity. }
    assert (B2 : forall F vs, binary_f F (map rv vs) = binary_f F vs).
    { intros F vs. unfold binary_f. rewrite rv_check_const. apply bind_same; [reflexivity|]. intros _. destruct vs as [|[] [|[] ?]]; reflexivity. }
    assert (B3 : forall F vs, binary_b F (map rv vs) = binary_b F vs).
    { intros F vs. unfold binary_b. rewrite rv_check_const. apply bind_same; [reflexivity|]. intros _. destruct vs as [|[] [|[] ?]]; reflexivity. }
    assert (T1 : forall vs, cond_i (map rv vs) = cond_i vs).
    { intros vs. unfold cond_i. rewrite rv_check_const. apply bind_same; [reflexivity|]. intros _. destruct vs as [|[] [|[] [|[] ?]]]; reflexivity. }
    assert (T2 : forall vs, cond_f (map rv vs) = cond_f vs).
    { intros vs. unfold cond_f. rewrite rv_check_const. apply bind_same; [reflexivity|]. intros _. destruct vs as [|[] [|[] [|[] ?]]]; reflexivity. }
    assert (T3 : forall vs, cond_b (map rv vs) = cond_b vs).
    { intros vs. unfold cond_b. rewrite rv_check_const. apply bind_same; [reflexivity|]. intros _. destruct vs as [|[] [|[] [|[] ?]]]; reflexivity. }
    unfold function_history, default_functions. cbn [map fst snd].
    repeat (constructor; [cbn [fst snd]; first [exact T1|exact T2|exact T3|apply U1|apply U2|apply U3|apply B1|apply B2|apply B3]|]). constructor.
  Qed.
  Lemma rv_call lm n args : Forall typed args -> call lm n (map rv args) = map_outcome rv (call lm n args).
  Proof.
    intros Ht. rewrite !call_resolve, rv_resolve. destruct (resolve (register_all (function_history lm)) n args) as [[f args']|e|w|k] eqn:R; cbn [bind map_outcome rv_tagged fst snd]; try reflexivity.
    assert (F : f (map rv args') = f args').
    { pose proof R as R'. apply resolve_ok_iff in R'; [|exact Ht]. destruct R' as (h1 & ps & h2 & E & _). pose proof (rv_default lm) as G. rewrite E in G. apply Forall_app in G.
      destruct G as [_ G]. inversion G as [|? ? G0 _]; subst. apply G0. }
    rewrite F. destruct (f args') as [v|e|w|k] eqn:Ef; cbn; try reflexivity. f_equal. symmetry. apply rv_const. apply (call_ok_const lm n args v).
    rewrite call_resolve, R. exact Ef.
  Qed.
  Lemma rv_params_loop n : forall spec vs, resolve_params_loop n spec (map rv vs) = map_outcome (map rv) (resolve_params_loop n spec vs).
  Proof.
    induction spec as [|c spec IH]; intros [|v vs]; cbn [resolve_params_loop map]; try reflexivity. rewrite rv_type_of.
    destruct (type_of v) as [tp|e|w|k]; cbn [bind map_outcome]; try reflexivity. destruct (type_of_char c) as [t|e|w|k]; cbn [bind map_outcome]; try reflexivity.
    destruct (negb (check_promote tp t)); [reflexivity|].
    eapply map_bind; [apply rv_promote|]. intros o. eapply map_bind; [apply IH|]. intros l. destruct o; reflexivity.
  Qed.
  Lemma rv_parameters n vs : resolve_parameters n (map rv vs) = map_outcome (map rv) (resolve_parameters n vs).
  Proof.
    unfold resolve_parameters. rewrite map_length. destruct (is_non_gate n).
    - destruct (get_non_gate_param_types_with_param_count n (List.length vs)); [apply rv_params_loop|]. destruct (Nat.eqb _ _); reflexivity.
    - destruct (get_instruction_param_types n) as [[s|]|e|w|k]; cbn [bind]; try reflexivity; [|destruct (Nat.eqb _ _); reflexivity].
      destruct (negb _); [reflexivity|]. apply rv_params_loop.
  Qed.
  Lemma rv_qubits v : qubit_indices_size (rv v) = qubit_indices_size v. Proof. destruct v; reflexivity. Qed.
  Lemma rv_bits v : bit_indices_size (rv v) = bit_indices_size v. Proof. destruct v; reflexivity. Qed.
  Lemma rv_gate_operands vs : check_gate_operands (map rv vs) = check_gate_operands vs.
  Proof. unfold check_gate_operands. rewrite map_map. now rewrite (map_ext _ _ rv_qubits). Qed.
  Lemma rv_non_gate_operands n vs : check_non_gate_operands n (map rv vs) = check_non_gate_operands n vs.
  Proof. unfold check_non_gate_operands. rewrite !map_map. now rewrite (map_ext _ _ rv_qubits), (map_ext _ _ rv_bits). Qed.

  (** ** Corresponding computations *)
  Definition orel {A B} (R : A -> B -> Prop) (m : outcome error A) (m' : outcome error B) : Prop :=
    match m, m' with
    | Ok a, Ok b => R a b
    | Err e, Err e' => renamed_error ren e e'
    | Throw w, Throw w' => w = w'
    | UB k, UB k' => k = k'
    | _, _ => False
    end.
  Definition image {A B} (g : A -> B) : A -> B -> Prop := fun a b => b = g a.
  Lemma renamed_same e : renamed_error ren e e.
  Proof. split; [reflexivity|now left]. Qed.
  Lemma orel_map {A B} (g : A -> B) m m' : m' = map_outcome g m -> orel (image g) m m'.
  Proof. intros ->. destruct m; cbn; try reflexivity. apply renamed_same. Qed.
  Lemma orel_same {A} (m : outcome error A) : orel eq m m.
  Proof. destruct m; cbn; try reflexivity. apply renamed_same. Qed.
  Lemma orel_weaken {A B} (R Q : A -> B -> Prop) m m' : (forall a b, R a b -> Q a b) -> orel R m m' -> orel Q m m'.
  Proof. intros H. destruct m, m'; cbn; auto. Qed.
  Lemma orel_bind {A A' B B'} (R : A -> A' -> Prop) (Q : B -> B' -> Prop) (m : outcome error A) m' (k : A -> outcome error B) k' :
    orel R m m' -> (forall a a', m = Ok a -> m' = Ok a' -> R a a' -> orel Q (k a) (k' a')) -> orel Q (bind m k) (bind m' k').
  Proof. intros H K. destruct m, m'; cbn in *; try contradiction; auto. Qed.
  Lemma renamed_context l e e' : renamed_error ren e e' -> renamed_error ren (error_context l e) (error_context l e').
  Proof.
    intros [L M]. unfold error_context. destruct e as [m [x|]], e' as [m' [x'|]]; cbn [location message] in *; try congruence; (split; [cbn; congruence|exact M]).
  Qed.
  Lemma orel_context {A B} (R : A -> B -> Prop) l m m' : orel R m m' -> orel R (with_context l m) (with_context l m').
  Proof. destruct m, m'; cbn; auto using renamed_context. Qed.
  Lemma orel_mapM {A A' B B'} (r : A -> A') (g : B -> B') (k : A -> outcome error B) k' l :
    Forall (fun a => orel (image g) (k a) (k' (r a))) l -> orel (image (map g)) (mapM k l) (mapM k' (map r l)).
  Proof.
    induction 1 as [|a l H _ IH]; cbn [mapM map]; [reflexivity|]. eapply orel_bind; [exact H|]. intros b b' _ _ Eb. eapply orel_bind; [exact IH|].
    intros bs bs' _ _ Ebs. cbn. unfold image in *. now subst.
  Qed.

  Definition lrel {A B} (R : A -> B -> Prop) (m : logged A) (m' : logged B) : Prop := orel R (fst m) (fst m') /\ Forall2 (renamed_error ren) (snd m) (snd m').
  Lemma lrel_lift {A B} (R : A -> B -> Prop) m m' : orel R m m' -> lrel R (lift m) (lift m').
  Proof. split; [assumption|constructor]. Qed.
  Lemma lrel_bind {A A' B B'} (R : A -> A' -> Prop) (Q : B -> B' -> Prop) (m : logged A) m' (k : A -> logged B) k' :
    lrel R m m' -> (forall a a', R a a' -> fst m = Ok a -> fst m' = Ok a' -> lrel Q (k a) (k' a')) -> lrel Q (lbind m k) (lbind m' k').
  Proof.
    destruct m as [[a|e|w|c] es], m' as [[a'|e'|w'|c'] es']; intros [H L] K; cbn [fst snd orel] in *; try contradiction; try (split; assumption).
    specialize (K a a' H eq_refl eq_refl). cbn [lbind]. destruct (k a) as [r1 l1], (k' a') as [r2 l2]. destruct K as [K1 K2]. split; [exact K1|]. now apply Forall2_app.
  Qed.
  Lemma lrel_catch {A B} (R : A -> B -> Prop) l d d' m m' : lrel R m m' -> R d d' -> lrel R (catch_log l d m) (catch_log l d' m').
  Proof.
    intros [H L] D. destruct m as [[a|e|w|c] es], m' as [[a'|e'|w'|c'] es']; cbn [fst snd orel] in *; try contradiction; try (split; assumption).
    cbn [catch_log]. split; [exact D|]. cbn. apply Forall2_app; [exact L|]. constructor; [now apply renamed_context|constructor].
  Qed.
  Lemma lrel_context {A B} (R : A -> B -> Prop) l m m' : lrel R m m' -> lrel R (log_context l m) (log_context l m').
  Proof. intros [H L]. split; [now apply orel_context|exact L]. Qed.
  Lemma lrel_weaken {A B} (R Q : A -> B -> Prop) m m' : (forall a b, R a b -> Q a b) -> lrel R m m' -> lrel Q m m'.
  Proof. intros H [K L]. split; [eapply orel_weaken; eauto|exact L]. Qed.

  (** ** Expressions *)
  Variables (lm : libm) (D : string -> Prop).
  Notation re := (rename_expr ren).

  (** The two analyzers give corresponding meanings to the names of D. *)
  Record sees (st1 st2 : analyzer) : Prop := {
    sees_1 : ordinary lm st1;
    sees_2 : ordinary lm st2;
    sees_names : forall n, D n -> orel (image rv) (resolve_variable st1 n) (resolve_variable st2 (ren n)) }.
  Section See.
    Variables st1 st2 : analyzer.
    Hypothesis Hs : sees st1 st2.

    Lemma expr_loc_rename e : expr_loc (re e) = expr_loc e. Proof. destruct e; reflexivity. Qed.
    Lemma see_function n args : Forall typed args -> orel (image rv) (resolve_function st1 n args) (resolve_function st2 n (map rv args)).
    Proof.
      intros Ht. destruct Hs as [H1 H2 _]. rewrite (resolve_function_call lm st1 n args (ord_functions lm st1 H1)), (resolve_function_call lm st2 n _ (ord_functions lm st2 H2)).
      apply orel_map, rv_call, Ht.
    Qed.
    Lemma see_const_int l r r' : orel (image rv) r r' -> orel eq (const_int_of l r) (const_int_of l r').
    Proof.
      intros H. unfold const_int_of. eapply orel_bind; [exact H|]. intros v v' _ _ ->. eapply orel_bind; [apply orel_map, rv_promote|]. intros o o' _ _ ->.
      destruct o as [[]|]; cbn; try reflexivity; apply renamed_same.
    Qed.
    Lemma see_visit e : Forall D (expr_names e) -> orel (image rv) (visit st1 e) (visit st2 (re e)).
    Proof.
      assert (CF : forall (A B : Type) (P : B -> Prop) (g : A -> list B) l, Forall P (flat_map g l) -> Forall (fun a => Forall P (g a)) l).
      { intros A B P g l H. apply Forall_forall. intros a Ha. apply Forall_forall. intros b Hb. rewrite Forall_forall in H. apply H. apply in_flat_map. eauto. }
      apply (expr_ind_full (fun e => Forall D (expr_names e) -> orel (image rv) (visit st1 e) (visit st2 (re e)))
                           (fun i => Forall D (entry_names i) -> orel eq (visit_entry st1 i) (visit_entry st2 (rename_entry ren i)))); clear e; try (intros; reflexivity).
      - intros l n H. cbn [visit rename_expr]. apply (sees_names _ _ Hs). now inversion H.
      - intros l b idx IHb IHi H. cbn [visit rename_expr]. cbn [expr_names] in H. apply Forall_app in H. destruct H as [Hb Hi]. apply CF in Hi.
        apply orel_context. eapply orel_bind; [rewrite expr_loc_rename; apply orel_context, IHb, Hb|]. intros v v' _ _ ->.
        destruct v as [| | |x|]; try reflexivity. cbn [rename_value rename_variable var_type].
        assert (M : orel (image rv) (let! is := mapM (visit_entry st1) idx in let! _ := check_out_of_range (concat is) (tsize (var_type x)) in Ok (VIndex x (concat is)))
             (let! is := mapM (visit_entry st2) (map (rename_entry ren) idx) in let! _ := check_out_of_range (concat is) (tsize (var_type x)) in Ok (VIndex (rvar x) (concat is)))).
        { apply (orel_bind (image (map (fun l : list Z => l)))).
          - apply orel_mapM. rewrite Forall_forall in IHi, Hi. apply Forall_forall. intros i Ii. eapply orel_weaken; [|apply (IHi i Ii (Hi i Ii))]. intros a b0 ->. reflexivity.
          - intros is is' _ _ E. unfold image in E. rewrite map_id in E. subst is'. eapply orel_bind; [apply orel_same|]. intros _ _ _ _ _. reflexivity. }
        destruct (kind (var_type x)); try exact M; (cbn; apply renamed_same).
      - intros l n _. cbn [visit rename_expr option_map]. apply (see_function n []). constructor.
      - intros l n args IH H. cbn [visit rename_expr option_map]. cbn [expr_names] in H. apply CF in H. eapply orel_bind.
        + apply (orel_mapM re rv _ (fun a => with_context (expr_loc a) (visit st2 a))). rewrite Forall_forall in IH, H. apply Forall_forall. intros a Ia. cbv beta.
          rewrite expr_loc_rename. apply orel_context. apply (IH a Ia (H a Ia)).
        + intros vs vs' E _ ->. apply see_function. exact (typed_args lm st1 (sees_1 _ _ Hs) args vs E).
      - intros l op e IH H. cbn [visit rename_expr]. eapply orel_bind; [rewrite expr_loc_rename; apply orel_context, IH, H|]. intros v v' E _ ->.
        apply (see_function _ [v]). constructor; [exact (typed_value lm st1 (sees_1 _ _ Hs) e v E)|constructor].
      - intros l op e1 e2 IH1 IH2 H. cbn [visit rename_expr]. cbn [expr_names] in H. apply Forall_app in H. destruct H as [H1 H2].
        eapply orel_bind; [rewrite expr_loc_rename; apply orel_context, IH1, H1|]. intros v1 v1' E1 _ ->.
        eapply orel_bind; [rewrite expr_loc_rename; apply orel_context, IH2, H2|]. intros v2 v2' E2 _ ->. apply (see_function _ [v1; v2]).
        constructor; [exact (typed_value lm st1 (sees_1 _ _ Hs) e1 v1 E1)|]. constructor; [exact (typed_value lm st1 (sees_1 _ _ Hs) e2 v2 E2)|constructor].
      - intros l c e1 e2 IHc IH1 IH2 H. cbn [visit rename_expr]. cbn [expr_names] in H. apply Forall_app in H. destruct H as [Hc H]. apply Forall_app in H. destruct H as [H1 H2].
        eapply orel_bind; [rewrite expr_loc_rename; apply orel_context, IHc, Hc|]. intros vc vc' Ec _ ->.
        eapply orel_bind; [rewrite expr_loc_rename; apply orel_context, IH1, H1|]. intros v1 v1' E1 _ ->.
        eapply orel_bind; [rewrite expr_loc_rename; apply orel_context, IH2, H2|]. intros v2 v2' E2 _ ->. apply (see_function _ [vc; v1; v2]).
        constructor; [exact (typed_value lm st1 (sees_1 _ _ Hs) c vc Ec)|]. constructor; [exact (typed_value lm st1 (sees_1 _ _ Hs) e1 v1 E1)|].
        constructor; [exact (typed_value lm st1 (sees_1 _ _ Hs) e2 v2 E2)|constructor].
      - intros l e IH H. cbn [visit_entry rename_entry]. eapply orel_bind; [rewrite expr_loc_rename; apply see_const_int, IH, H|]. intros z z' _ _ ->. reflexivity.
      - intros l e1 e2 IH1 IH2 H. cbn [visit_entry rename_entry]. cbn [entry_names] in H. apply Forall_app in H. destruct H as [H1 H2].
        eapply orel_bind; [rewrite expr_loc_rename; apply see_const_int, IH1, H1|]. intros a a' _ _ <-.
        eapply orel_bind; [rewrite expr_loc_rename; apply see_const_int, IH2, H2|]. intros b b' _ _ <-. apply orel_same.
    Qed.
    Lemma see_list es : (forall e, In e es -> Forall D (expr_names e)) -> orel (image (map rv)) (visit_expression_list st1 es) (visit_expression_list st2 (map re es)).
    Proof.
      intros H. unfold visit_expression_list. apply orel_mapM. apply Forall_forall. intros e Ie. unfold visit_expression. rewrite expr_loc_rename. apply orel_context, see_visit. auto.
    Qed.

    Notation ra := (rename_annotation ren).
    Notation rsa := (rename_sem_annotation ren number).
    Lemma see_annotation_operands l es : (forall e, In e es -> Forall D (expr_names e)) ->
      lrel (image (map rv)) (visit_annotation_operands st1 l es) (visit_annotation_operands st2 l (map re es)).
    Proof.
      induction es as [|e es IH]; intros H; cbn [map visit_annotation_operands]; [apply lrel_lift; reflexivity|]. apply (lrel_bind (image (option_map rv))).
      - apply lrel_catch; [|reflexivity]. apply lrel_lift. assert (V := see_visit e (H e (or_introl eq_refl))).
        destruct (visit st1 e), (visit st2 (re e)); cbn in V |- *; try contradiction; auto. now rewrite V.
      - intros v v' -> _ _. eapply lrel_bind; [apply IH; intros; apply H; now right|]. intros vs vs' -> _ _. apply lrel_lift. destruct v; reflexivity.
    Qed.
    Lemma see_annotated l : (forall e, In e (annotation_exprs l) -> Forall D (expr_names e)) -> lrel (image (map rsa)) (visit_annotated st1 l) (visit_annotated st2 (map ra l)).
    Proof.
      induction l as [|a l IH]; intros H; cbn [map visit_annotated]; [apply lrel_lift; reflexivity|]. apply (lrel_bind (image rsa)).
      - unfold visit_annotation_data. cbn [rename_annotation an_loc an_operands an_interface an_operation].
        eapply lrel_bind; [apply see_annotation_operands; intros e Ie; apply H; apply in_flat_map; exists a; split; [now left|exact Ie]|].
        intros vs vs' -> _ _. apply lrel_lift. reflexivity.
      - intros a' a'' -> _ _. eapply lrel_bind; [apply IH; intros e Ie; apply H; cbn; apply in_or_app; now right|]. intros l' l'' -> _ _. apply lrel_lift. reflexivity.
    Qed.
    Notation rsg := (rename_sem_gate ren number).
    Lemma ren_terminal g : gate_terminal_name (rsg g) = gate_terminal_name g.
    Proof. revert g. fix IH 1. intros [l n [g|] ps ans]; cbn; [apply IH|reflexivity]. Qed.
    Lemma ren_resolution g : gate_resolution_name (rsg g) = gate_resolution_name g.
    Proof. destruct g as [l n [g|] ps ans]; unfold gate_resolution_name; cbn [rename_sem_gate option_map sem_gate_inner sem_gate_name]; [now rewrite ren_terminal|reflexivity]. Qed.
    Lemma see_gate g : (forall e, In e (gate_exprs g) -> Forall D (expr_names e)) -> lrel (image rsg) (visit_gate st1 g) (visit_gate st2 (rename_gate ren g)).
    Proof.
      assert (G : forall l n i ps ans, (forall e, In e (ps ++ annotation_exprs ans) -> Forall D (expr_names e)) ->
        lrel (image (option_map rsg)) (match i with None => lift (Ok None) | Some g' => let* r := visit_gate st1 g' in lift (Ok (Some r)) end)
          (match option_map (rename_gate ren) i with None => lift (Ok None) | Some g' => let* r := visit_gate st2 g' in lift (Ok (Some r)) end) ->
        lrel (image rsg) (visit_gate st1 (Gate l n i ps ans)) (visit_gate st2 (rename_gate ren (Gate l n i ps ans)))).
      { intros l n i ps ans H Hi. cbn [rename_gate]. rewrite !visit_gate_unfold. apply lrel_context. eapply lrel_bind; [exact Hi|]. intros i1 i2 -> _ _.
        eapply lrel_bind; [apply lrel_lift, see_list; intros e Ie; apply H, in_or_app; now left|]. intros vs vs' -> _ _.
        eapply lrel_bind; [apply lrel_lift, orel_map, rv_parameters|]. intros ws ws' -> _ _.
        eapply (lrel_bind eq); [apply lrel_lift|].
        - replace (check_gate (option_map rsg i1)) with (check_gate i1); [apply orel_same|]. unfold check_gate. destruct i1 as [g'|]; cbn [option_map]; [now rewrite ren_resolution|reflexivity].
        - intros _ _ _ _ _. eapply lrel_bind; [apply see_annotated; intros e Ie; apply H, in_or_app; now right|]. intros a a' -> _ _. apply lrel_lift. reflexivity. }
      induction g as [l n ps an|l n g ps an IH] using gate_ind_full; intros H; apply G; cbn [option_map].
      - exact H.
      - apply lrel_lift. reflexivity.
      - intros e Ie. apply H. cbn [gate_exprs]. apply in_or_app. now right.
      - eapply lrel_bind; [apply IH; intros e Ie; apply H; cbn [gate_exprs]; apply in_or_app; now left|]. intros r r' -> _ _. apply lrel_lift. reflexivity.
    Qed.
    Lemma see_instruction n args : orel (image rv_tagged) (resolve_instruction st1 n args) (resolve_instruction st2 n (map rv args)).
    Proof.
      destruct Hs as [(_ & (st0 & g0 & inner & g & E0 & Eg & Es & Hi & Hg) & _) (_ & (st0' & g0' & inner' & g' & E0' & Eg' & Es' & Hi' & Hg') & _) _].
      rewrite E0 in E0'. injection E0' as <-. rewrite Eg in Eg'. injection Eg' as <-. unfold resolve_instruction. rewrite Es, Es'. clear -Hi Hg Hi' Hg'.
      assert (K : forall inner g vs, Forall (fun s => sc_instructions s = []) inner -> sc_instructions g = sc_instructions g0 ->
        resolve_instruction_in (inner ++ [g]) n vs = resolve_instruction_in [g0] n vs).
      { clear. intros inner g vs Hi Hg. induction Hi as [|s l Hi _ IH]; cbn [app resolve_instruction_in]; [now rewrite Hg|]. rewrite Hi. exact IH. }
      rewrite (K inner g args Hi Hg), (K inner' g' _ Hi' Hg'). cbn [resolve_instruction_in]. rewrite rv_resolve, rv_types_of.
      destruct (resolve (sc_instructions g0) n args); cbn; try reflexivity. destruct (types_of args); cbn; try reflexivity; apply renamed_same.
    Qed.
  End See.

  (** ** Statements *)
  Hypothesis ren_injective : forall a b, D a -> D b -> ren a = ren b -> a = b.
  (** Whether the blocks have the same location; what was there before. *)
  Variables (located : Prop) (V1 V2 : list sem_variable) (X1 X2 : list sem_statement).
  Definition block_loc_of (st : analyzer) : loc := match scopes st with [] => None | s :: _ => blk_loc (sc_block s) end.
  Notation rsv := (rename_sem_variable ren number).
  Notation rss := (rename_sem_statement ren number).
  Record matches (st1 st2 : analyzer) : Prop := {
    m_sees : sees st1 st2;
    m_version : api_version st2 = api_version st1;
    m_here : forall n, D n -> (In n (names_here st1) <-> In (ren n) (names_here st2));
    m_next : forall k, number (next_id st1 + k)%nat = (next_id st2 + k)%nat;
    m_variables : exists vs, variables_of st1 = (V1 ++ vs)%list /\ variables_of st2 = (V2 ++ map rsv vs)%list;
    m_statements : exists xs, statements_of st1 = (X1 ++ xs)%list /\ statements_of st2 = (X2 ++ map rss xs)%list;
    m_loc : located -> block_loc_of st2 = block_loc_of st1 }.
  Definition within (s : statement) : Prop := (forall e, In e (statement_exprs s) -> Forall D (expr_names e)) /\ Forall D (declared_names [s]).

  Lemma matches_scopes st1 st2 : matches st1 st2 -> scopes st1 <> [] /\ scopes st2 <> [].
  Proof.
    intros [[H1 H2 _] _ _ _ _ _ _]. destruct (ordinary_scopes lm st1 H1) as (s1 & r1 & ->), (ordinary_scopes lm st2 H2) as (s2 & r2 & ->). split; discriminate.
  Qed.
  Lemma sees_extends st1 st2 st1' st2' : sees st1 st2 -> state_extends st1 st1' -> state_extends st2 st2' ->
    (forall n, D n -> orel (image rv) (resolve_variable st1' n) (resolve_variable st2' (ren n))) -> sees st1' st2'.
  Proof. intros [H1 H2 _] E1 E2 K. split; [exact (ordinary_extends lm _ _ H1 E1)|exact (ordinary_extends lm _ _ H2 E2)|exact K]. Qed.
  Lemma matches_statement st1 st2 x : matches st1 st2 -> orel matches (add_statement st1 x) (add_statement st2 (rss x)).
  Proof.
    intros M. pose proof (matches_scopes st1 st2 M) as [S1 S2]. destruct M as [Hs Hv Hh Hn (vs & Ev1 & Ev2) (xs & Ex1 & Ex2) Hl].
    unfold add_statement, update_current. destruct (scopes st1) as [|s1 r1] eqn:Es1; [congruence|]. destruct (scopes st2) as [|s2 r2] eqn:Es2; [congruence|]. cbn [bind orel].
    unfold variables_of, statements_of, names_here, block_loc_of in *. rewrite Es1 in *. rewrite Es2 in *.
    split.
    - eapply sees_extends; [exact Hs|..].
      + split; [reflexivity|]. rewrite Es1. cbn [scopes]. split; [exact (with_statement_extends x s1)|reflexivity].
      + split; [reflexivity|]. rewrite Es2. cbn [scopes]. split; [exact (with_statement_extends (rss x) s2)|reflexivity].
      + intros n Dn. pose proof (sees_names _ _ Hs n Dn) as R. unfold resolve_variable in *. rewrite Es1, Es2 in R. exact R.
    - exact Hv.
    - exact Hh.
    - exact Hn.
    - exists vs. unfold variables_of. cbn [scopes sc_variables]. auto.
    - exists (xs ++ [x])%list. unfold statements_of. cbn [scopes sc_block block_add blk_statements]. rewrite Ex1, Ex2, map_app, !app_assoc. auto.
    - intros L. unfold block_loc_of. cbn [scopes sc_block block_add blk_loc]. rewrite (Hl L). destruct x; reflexivity.
  Qed.
  Lemma matches_variable st1 st2 v : matches st1 st2 -> orel matches (add_variable st1 v) (add_variable st2 (rsv v)).
  Proof.
    intros M. pose proof (matches_scopes st1 st2 M) as [S1 S2]. destruct M as [Hs Hv Hh Hn (vs & Ev1 & Ev2) (xs & Ex1 & Ex2) Hl].
    unfold add_variable, update_current. destruct (scopes st1) as [|s1 r1] eqn:Es1; [congruence|]. destruct (scopes st2) as [|s2 r2] eqn:Es2; [congruence|]. cbn [bind orel].
    unfold variables_of, statements_of, names_here, block_loc_of in *. rewrite Es1 in *. rewrite Es2 in *.
    split.
    - eapply sees_extends; [exact Hs|..].
      + split; [reflexivity|]. rewrite Es1. cbn [scopes]. split; [exact (with_variable_extends v s1)|reflexivity].
      + split; [reflexivity|]. rewrite Es2. cbn [scopes]. split; [exact (with_variable_extends (rsv v) s2)|reflexivity].
      + intros n Dn. pose proof (sees_names _ _ Hs n Dn) as R. unfold resolve_variable in *. rewrite Es1, Es2 in R. exact R.
    - exact Hv.
    - exact Hh.
    - exact Hn.
    - exists (vs ++ [v])%list. unfold variables_of. cbn [scopes sc_variables]. rewrite Ev1, Ev2, map_app, !app_assoc. auto.
    - exists xs. auto.
    - exact Hl.
  Qed.
  Lemma matches_register st1 st2 n x : matches st1 st2 -> D n -> declared x -> orel matches (register_variable st1 n (VVar x)) (register_variable st2 (ren n) (VVar (rvar x))).
  Proof.
    intros M Dn Dx. pose proof (matches_scopes st1 st2 M) as [S1 S2].
    assert (Ext : forall st m w, declared w -> scopes st <> [] -> state_extends st (map_current (with_entry m (VVar w)) st)).
    { intros st m w Dw _. apply map_current_extends. intros s. now apply with_entry_extends. }
    destruct (register_variable_inv st1 n (VVar x)) as [(st1' & E1 & _ & N1 & F1)|[(e1 & E1 & N1 & L1)|(Z1 & _)]]; [| |contradiction].
    - destruct (register_variable_inv st2 (ren n) (VVar (rvar x))) as [(st2' & E2 & _ & N2 & F2)|[(e2 & E2 & N2 & L2)|(Z2 & _)]]; [| |contradiction].
      + rewrite E1, E2. cbn [orel]. subst st1' st2'. destruct M as [Hs Hv Hh Hn (vs & Ev1 & Ev2) (xs & Ex1 & Ex2) Hl]. split.
        * eapply sees_extends; [exact Hs|apply Ext; assumption|apply Ext; [exact Dx|assumption]|]. intros m Dm. rewrite !resolve_with_entry by assumption.
          destruct (String.eqb_spec n m) as [<-|Nm]; [rewrite String.eqb_refl; reflexivity|]. destruct (String.eqb_spec (ren n) (ren m)) as [E|_]; [destruct Nm; now apply ren_injective|].
          now apply sees_names.
        * unfold map_current. destruct (scopes st1), (scopes st2); try congruence; exact Hv.
        * intros m Dm. rewrite !names_here_map. specialize (Hh m Dm). unfold names_here in Hh. destruct (scopes st1) as [|s1 r1]; [congruence|]. destruct (scopes st2) as [|s2 r2]; [congruence|].
          cbn [with_entry sc_variables_table]. rewrite !map_app, !in_app_iff. cbn. rewrite Hh. split; (intros [H|[H|[]]]; [now left|right; left]); [now subst|now apply ren_injective].
        * unfold map_current. destruct (scopes st1), (scopes st2); try congruence; exact Hn.
        * exists vs. rewrite !variables_of_map. unfold variables_of in Ev1, Ev2. destruct (scopes st1), (scopes st2); try congruence; auto.
        * exists xs. rewrite !statements_of_map. unfold statements_of in Ex1, Ex2. destruct (scopes st1), (scopes st2); try congruence; auto.
        * unfold block_loc_of in *. rewrite !map_current_scopes. destruct (scopes st1), (scopes st2); try congruence; exact Hl.
      + destruct N1. now apply (m_here _ _ M).
    - assert (N2 : In (ren n) (names_here st2)) by now apply (m_here _ _ M).
      revert N1 N2. clear -S1 S2. unfold names_here, register_variable, update_current. destruct (scopes st1) as [|s1 r1]; [congruence|]. destruct (scopes st2) as [|s2 r2]; [congruence|].
      intros N1 N2. unfold variable_add.
      destruct (table_find n (sc_variables_table s1)) eqn:T1; [|apply table_find_In in T1; contradiction].
      destruct (table_find (ren n) (sc_variables_table s2)) eqn:T2; [|apply table_find_In in T2; contradiction]. cbn [bind orel].
      split; [reflexivity|]. right. exists "trying to redeclare variable '", n, "'". split; [reflexivity|]. split; [reflexivity|]. now right; left.
  Qed.
  Lemma matches_fresh st1 st2 : matches st1 st2 -> matches (fresh st1) (fresh st2).
  Proof.
    intros [Hs Hv Hh Hn Hvs Hxs Hl]. split; auto.
    - eapply sees_extends; [exact Hs|apply fresh_extends..|]. exact (sees_names _ _ Hs).
    - intros k. cbn [fresh next_id]. rewrite !Nat.add_succ_l, <- !Nat.add_succ_r. apply Hn.
  Qed.
  Lemma matches_visit st1 st2 s : matches st1 st2 -> within s -> lrel matches (visit_statement st1 s) (visit_statement st2 (rename_statement ren s)).
  Proof.
    intros M [W1 W2]. pose proof (m_sees _ _ M) as Hs. destruct s as [l n t ans|l g ops ans|l n ops ps ans|l n c ans]; cbn [rename_statement visit_statement statement_exprs] in *.
    - unfold visit_variable. pose proof (matches_fresh _ _ M) as Mf. apply lrel_catch; [|exact Mf]. destruct (build_type_spec t) as [(ty & E & Dt)|(e & E & _)]; rewrite E; [|apply lrel_lift; apply renamed_same].
      eapply (lrel_bind eq); [apply lrel_lift; reflexivity|]. intros ty1 ty2 <- Ety _. cbn in Ety. injection Ety as <-.
      eapply lrel_bind; [apply see_annotated; [exact (m_sees _ _ Mf)|exact W1]|]. intros a a' -> _ _.
      assert (Eid : mkVariable (next_id st2) (ren n) ty = rvar (mkVariable (next_id st1) n ty)).
      { unfold rename_variable. cbn. f_equal. pose proof (m_next _ _ M 0%nat) as X. rewrite !Nat.add_0_r in X. now symmetry. }
      rewrite Eid. eapply lrel_bind; [apply lrel_lift; exact (matches_variable _ _ (mkSemVariable (mkVariable (next_id st1) n ty) a) Mf)|]. intros st1' st2' M' _ _.
      apply lrel_catch; [|exact M']. apply lrel_lift. apply matches_register; [exact M'|now inversion W2|]. eapply declares_type_declared. exact Dt.
    - unfold visit_gate_instruction. apply lrel_catch; [|exact M].
      eapply lrel_bind; [apply see_gate; [exact Hs|]; intros e Ie; apply W1, in_or_app; now left|]. intros sg sg' -> _ _.
      eapply lrel_bind; [apply lrel_lift, see_list; [exact Hs|]; intros e Ie; apply W1, in_or_app; right; apply in_or_app; now left|]. intros vs vs' -> _ _. rewrite ren_resolution.
      eapply lrel_bind; [apply lrel_lift, see_instruction; exact Hs|]. intros r r' -> _ _. cbn [rv_tagged fst snd]. rewrite rv_gate_operands.
      eapply lrel_bind; [apply lrel_lift, orel_same|]. intros _ _ _ _ _.
      eapply lrel_bind; [apply see_annotated; [exact Hs|]; intros e Ie; apply W1, in_or_app; right; apply in_or_app; now right|]. intros a a' -> _ _.
      apply lrel_lift. exact (matches_statement _ _ (SemGateInstr l (fst r) sg (snd r) a) M).
    - unfold visit_non_gate_instruction. apply lrel_catch; [|exact M].
      eapply lrel_bind; [apply lrel_lift, see_list; [exact Hs|]; intros e Ie; apply W1, in_or_app; now left|]. intros vs vs' -> _ _.
      eapply lrel_bind; [apply lrel_lift, see_instruction; exact Hs|]. intros r r' -> _ _. cbn [rv_tagged fst snd]. rewrite rv_non_gate_operands.
      eapply lrel_bind; [apply lrel_lift, see_list; [exact Hs|]; intros e Ie; apply W1, in_or_app; right; apply in_or_app; now left|]. intros pvs pvs' -> _ _.
      eapply lrel_bind; [apply lrel_lift, orel_map, rv_parameters|]. intros pws pws' -> _ _.
      eapply lrel_bind; [apply lrel_lift, orel_same|]. intros _ _ _ _ _.
      eapply lrel_bind; [apply see_annotated; [exact Hs|]; intros e Ie; apply W1, in_or_app; right; apply in_or_app; now right|]. intros a a' -> _ _.
      apply lrel_lift. exact (matches_statement _ _ (SemNonGate l (fst r) n (snd r) pws a) M).
    - unfold visit_asm_declaration. apply lrel_catch; [|exact M]. eapply lrel_bind; [apply see_annotated; [exact Hs|exact W1]|]. intros a a' -> _ _.
      apply lrel_lift. exact (matches_statement _ _ (SemAsm l n c a) M).
  Qed.
  Lemma matches_block l ss : forall st1 st2, matches st1 st2 -> Forall within ss ->
    lrel matches (visit_block l st1 ss) (visit_block l st2 (map (rename_statement ren) ss)).
  Proof.
    induction ss as [|s ss IH]; intros st1 st2 M W; [apply lrel_lift; exact M|]. cbn [map]. rewrite !visit_block_cons. inversion W; subst.
    eapply lrel_bind; [apply matches_visit; [exact M|assumption]|]. intros st1' st2' M' _ _. now apply IH.
  Qed.
End Renaming.
