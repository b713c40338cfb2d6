(** Lemmas for C44 (locations of semantic errors) and C21 (undefined behaviour). *)
From Coq Require Import SpecFloat ZifyBool.
From Verif Require Import Base ModelUtils ModelVersion ModelError ModelTypes ModelOverload ModelFunctions
  ModelInstructionSet ModelAst ModelAnalyzer ModelSemantic SpecUtils SpecTypes SpecFunctions SpecInstructions SpecAnalyzer
  ProofsVersion ProofsTypes ProofsFunctions ProofsFolding ProofsExpr ProofsInstructions ProofsGates ProofsAnalyzer ProofsAnalyzer2 ProofsAnalyzer3.
Local Open Scope string_scope.

(** ** Locations of errors *)
Section Locations.
  Variable P : source_location -> Prop.

  (** The error, if any, has no location or one satisfying P. *)
  Definition where_ok {A} (m : outcome error A) : Prop := forall e, m = Err e -> loc_holds P (location e).
  Lemma where_bind {A B} (m : outcome error A) (f : A -> outcome error B) :
    where_ok m -> (forall a, m = Ok a -> where_ok (f a)) -> where_ok (bind m f).
  Proof. intros H1 H2 e. destruct m as [a|e'|w|k]; cbn; try discriminate; [apply (H2 a eq_refl)|]. intros [= <-]. now apply H1. Qed.
  Lemma where_error s : where_ok (Err (mk_error s) : outcome error value). Proof. intros e [= <-]. exact I. Qed.
  Lemma where_unlocated {A} (m : outcome error A) : (forall e, m = Err e -> location e = None) -> where_ok m.
  Proof. intros H e E. rewrite (H e E). exact I. Qed.
  Lemma context_holds l e : loc_holds P l -> loc_holds P (location e) -> loc_holds P (location (error_context l e)).
  Proof. unfold error_context. destruct (location e) eqn:E; [rewrite E|]; cbn; auto. Qed.
  Lemma where_context {A} l (m : outcome error A) : loc_holds P l -> where_ok m -> where_ok (with_context l m).
  Proof. intros Hl H e. destruct m as [a|e'|w|k]; cbn; try discriminate. intros [= <-]. apply context_holds; auto. Qed.
  Lemma where_mapM {A B} (f : A -> outcome error B) l : Forall (fun a => where_ok (f a)) l -> where_ok (mapM f l).
  Proof.
    induction 1 as [|a l H _ IH]; cbn [mapM]; [discriminate|]. apply where_bind; [exact H|]. intros b _.
    apply where_bind; [exact IH|]. intros bs _ w. discriminate.
  Qed.
End Locations.

Definition unlocated {A} (m : outcome error A) : Prop := forall e, m = Err e -> location e = None.
Lemma unl_bind {A B} (m : outcome error A) (f : A -> outcome error B) : unlocated m -> (forall a, unlocated (f a)) -> unlocated (bind m f).
Proof. intros H1 H2 e. destruct m as [a|e'|w|k]; cbn; try discriminate; [apply H2|]. intros [= <-]. now apply H1. Qed.
Lemma unl_ok {A} (a : A) : unlocated (Ok a). Proof. discriminate. Qed.
Lemma unl_ub {A} k : unlocated (@UB error A k). Proof. discriminate. Qed.
Lemma unl_throw {A} k : unlocated (@Throw error A k). Proof. discriminate. Qed.
Lemma unl_err {A} s : unlocated (@Err error A (mk_error s)). Proof. intros e [= <-]. reflexivity. Qed.
Local Hint Resolve unl_ok unl_ub unl_throw unl_err : unl.

Lemma unl_type_of v : unlocated (type_of v).
Proof.
  destruct v; cbn [type_of]; auto with unl. destruct (_ =? _)%Z; auto with unl. unfold element_type_of.
  destruct (type_check _ _); auto with unl. destruct (type_check _ _); auto with unl.
Qed.
Lemma unl_types_of vs : unlocated (types_of vs).
Proof.
  unfold types_of. induction vs as [|v vs IH]; cbn [mapM]; auto with unl. apply unl_bind; [apply unl_type_of|]. intros t.
  apply unl_bind; auto with unl.
Qed.
Lemma unl_promote v t : unlocated (promote v t).
Proof.
  unfold promote. apply unl_bind; [apply unl_type_of|]. intros tv. destruct (type_check _ _); auto with unl.
Qed.
Lemma unl_promote_args args : forall ps, unlocated (promote_args args ps).
Proof.
  induction args as [|a args IH]; intros [|p ps]; cbn [promote_args]; auto with unl. apply unl_bind; [apply unl_promote|].
  intros [r|]; auto with unl. apply unl_bind; auto with unl.
Qed.
Lemma unl_resolve_loop {T} (os : list (overload T)) args : unlocated (resolve_loop os args).
Proof.
  induction os as [|o os IH]; cbn [resolve_loop]; auto with unl. destruct (negb _); [exact IH|]. apply unl_bind; [apply unl_promote_args|].
  intros [r|]; auto with unl.
Qed.
Lemma unl_resolve {T} (t : table T) n args : unlocated (resolve t n args).
Proof.
  unfold resolve. destruct (table_find n t); auto with unl. apply unl_bind; [apply unl_resolve_loop|]. intros [x|]; auto with unl.
  apply unl_bind; [apply unl_types_of|]. auto with unl.
Qed.
Lemma unl_check_const vs : unlocated (check_const vs).
Proof.
  unfold check_const. apply unl_bind; auto with unl. induction vs as [|v vs IH]; cbn [mapM]; auto with unl. apply unl_bind.
  - destruct v; cbn [check_const_value]; auto with unl; intros e [= <-]; reflexivity.
  - intros u. apply unl_bind; auto with unl.
Qed.
Lemma unl_int_result z : unlocated (int_result z).
Proof. unfold int_result, ret_int64. destruct (in_int64 z); cbn; auto with unl. Qed.
Local Hint Resolve unl_int_result : unl.

Lemma default_unlocated lm : Forall (fun r => forall vs, unlocated (snd (fst r) vs)) (function_history lm).
Proof.
  assert (U1 : forall F, (forall a, unlocated (F a)) -> forall vs, unlocated (unary_i F vs)).
  { intros F H vs. apply unl_bind; [apply unl_check_const|]. intros _. destruct vs as [|[] ?]; cbn; unfold bad_args; auto with unl. }
  assert (U2 : forall F, (forall a, unlocated (F a)) -> forall vs, unlocated (unary_f F vs)).
  { intros F H vs. apply unl_bind; [apply unl_check_const|]. intros _. destruct vs as [|[] ?]; cbn; unfold bad_args; auto with unl. }
  assert (U3 : forall F, (forall a, unlocated (F a)) -> forall vs, unlocated (unary_b F vs)).
  { intros F H vs. apply unl_bind; [apply unl_check_const|]. intros _. destruct vs as [|[] ?]; cbn; unfold bad_args; auto with unl. }
  assert (B1 : forall F, (forall a b, unlocated (F a b)) -> forall vs, unlocated (binary_i F vs)).
  { intros F H vs. apply unl_bind; [apply unl_check_const|]. intros _. destruct vs as [|[] [|[] ?]]; cbn; unfold bad_args; auto with unl. }
  assert (B2 : forall F, (forall a b, unlocated (F a b)) -> forall vs, unlocated (binary_f F vs)).
  { intros F H vs. apply unl_bind; [apply unl_check_const|]. intros _. destruct vs as [|[] [|[] ?]]; cbn; unfold bad_args; auto with unl. }
  assert (B3 : forall F, (forall a b, unlocated (F a b)) -> forall vs, unlocated (binary_b F vs)).
  { intros F H vs. apply unl_bind; [apply unl_check_const|]. intros _. destruct vs as [|[] [|[] ?]]; cbn; unfold bad_args; auto with unl. }
  assert (T1 : forall vs, unlocated (cond_i vs)).
  { intros vs. apply unl_bind; [apply unl_check_const|]. intros _. destruct vs as [|[] [|[] [|[] ?]]]; cbn; unfold bad_args; auto with unl. }
  assert (T2 : forall vs, unlocated (cond_f vs)).
  { intros vs. apply unl_bind; [apply unl_check_const|]. intros _. destruct vs as [|[] [|[] [|[] ?]]]; cbn; unfold bad_args; auto with unl. }
  assert (T3 : forall vs, unlocated (cond_b vs)).
  { intros vs. apply unl_bind; [apply unl_check_const|]. intros _. destruct vs as [|[] [|[] [|[] ?]]]; cbn; unfold bad_args; auto with unl. }
  unfold function_history, default_functions. cbn [map fst snd].
  repeat (constructor; [cbn [fst snd]; first [exact T1|exact T2|exact T3|apply U1|apply U2|apply U3|apply B1|apply B2|apply B3]; try (intros; discriminate)|]); [..|constructor].
  all: intros a; intros; unfold op_neg_i, op_add_ii, op_sub_ii, op_mul_ii, op_div_ii, op_mod_ii, op_binv_i, op_band_ii, op_bxor_ii, op_bor_ii, op_shl_ii, op_shr_ii, fn_abs_i;
    repeat match goal with |- context [if ?c then _ else _] => destruct c end; auto with unl.
Qed.
Lemma unl_call lm n args : Forall typed args -> unlocated (call lm n args).
Proof.
  intros Ht. rewrite call_resolve. pose proof (unl_resolve (register_all (function_history lm)) n args) as U.
  destruct (resolve (register_all (function_history lm)) n args) as [[f args']|e|w|k] eqn:R; cbn [bind fst snd]; auto with unl.
  - apply resolve_ok_iff in R; [|exact Ht]. destruct R as (h1 & ps & h2 & E & _).
    pose proof (default_unlocated lm) as G. rewrite E in G. apply Forall_app in G. destruct G as [_ G]. inversion G as [|? ? G0 _]; subst. apply G0.
  - intros e' [= <-]. now apply U.
Qed.
Lemma unl_resolve_function lm st n args : ordinary lm st -> Forall typed args -> unlocated (resolve_function st n args).
Proof. intros Ho Ht. rewrite (resolve_function_call lm st n args (ord_functions lm st Ho)). now apply unl_call. Qed.
Lemma unl_resolve_variable st n : unlocated (resolve_variable st n).
Proof.
  unfold resolve_variable. induction (scopes st) as [|s l IH]; cbn [resolve_variable_in]; auto with unl. unfold variable_resolve.
  destruct (table_find n (sc_variables_table s)); auto with unl.
Qed.
Lemma unl_resolve_instruction st n args : unlocated (resolve_instruction st n args).
Proof.
  unfold resolve_instruction. induction (scopes st) as [|s l IH]; cbn [resolve_instruction_in].
  - apply unl_bind; [apply unl_types_of|]. auto with unl.
  - destruct (resolve (sc_instructions s) n args); auto with unl.
Qed.
Lemma unl_type_of_char c : unlocated (type_of_char c).
Proof. unfold type_of_char. repeat match goal with |- context [if ?c then _ else _] => destruct c end; auto with unl. Qed.
Lemma unl_params_loop n : forall spec vs, unlocated (resolve_params_loop n spec vs).
Proof.
  induction spec as [|c spec IH]; intros vs; cbn [resolve_params_loop]; auto with unl. destruct vs as [|v vs]; auto with unl.
  apply unl_bind; [apply unl_type_of|]. intros tp. apply unl_bind; [apply unl_type_of_char|]. intros t. destruct (negb _); auto with unl.
  apply unl_bind; [apply unl_promote|]. intros o. apply unl_bind; auto with unl.
Qed.
Lemma unl_param_types n : unlocated (get_instruction_param_types n).
Proof. unfold get_instruction_param_types, get_named_gate_param_types, get_non_gate_param_types, get_gate_modifier_param_types. repeat match goal with |- context [match ?c with _ => _ end] => destruct c end; auto with unl. Qed.
Lemma unl_resolve_parameters n vs : unlocated (resolve_parameters n vs).
Proof.
  unfold resolve_parameters. destruct (is_non_gate n).
  - destruct (get_non_gate_param_types_with_param_count _ _); [apply unl_params_loop|]. destruct (Nat.eqb _ _); auto with unl.
  - apply unl_bind; [apply unl_param_types|]. intros [s|]; [destruct (negb _); auto with unl; apply unl_params_loop|]. destruct (Nat.eqb _ _); auto with unl.
Qed.
Lemma unl_check_gate i : unlocated (check_gate i).
Proof. unfold check_gate. destruct i as [g|]; [destruct (is_two_qubit_gate _)|]; auto with unl. Qed.

Lemma unl_check_out zs n : unlocated (check_out_of_range zs n).
Proof. induction zs as [|z zs IHz]; cbn [check_out_of_range]; auto with unl. destruct ((z <? 0) || (n <=? z))%Z; auto with unl. Qed.

Section Where.
  Variables (lm : libm) (st : analyzer) (P : source_location -> Prop).
  Hypothesis Hst : ordinary lm st.

  Lemma expr_loc_in e : In (expr_loc e) (expr_locs e).
  Proof. destruct e; now left. Qed.
  Lemma Forall_concat_in {A B} (Q : B -> Prop) (f : A -> list B) l a : Forall Q (flat_map f l) -> In a l -> Forall Q (f a).
  Proof. rewrite !Forall_forall. intros H I x Hx. apply H, in_flat_map. eauto. Qed.

  Lemma const_int_where l r : loc_holds P l -> where_ok P r -> where_ok P (const_int_of l r).
  Proof.
    intros Hl Hr. unfold const_int_of. apply where_bind; [exact Hr|]. intros v _. apply where_bind; [apply where_unlocated, unl_promote|].
    intros [p|] _ e; [destruct p; try discriminate|]; intros [= <-]; exact Hl.
  Qed.
  Lemma typed_args args vs : mapM (fun a => with_context (expr_loc a) (visit st a)) args = Ok vs -> Forall typed vs.
  Proof. intros E. apply ordinary_typed_list. exact (visit_list_ordinary lm st Hst args vs E). Qed.
  Lemma typed_value e v : with_context (expr_loc e) (visit st e) = Ok v -> typed v.
  Proof. intros E. apply ordinary_typed. exact (visit_expression_ordinary lm st Hst e v E). Qed.

  Lemma visit_where e : Forall (loc_holds P) (expr_locs e) -> where_ok P (visit st e).
  Proof.
    apply (expr_ind_full (fun e => Forall (loc_holds P) (expr_locs e) -> where_ok P (visit st e))
                         (fun i => Forall (loc_holds P) (entry_locs i) -> where_ok P (visit_entry st i))); clear e.
    - discriminate.
    - discriminate.
    - discriminate.
    - intros l n _. apply where_unlocated, unl_resolve_variable.
    - intros l b idx IHb IHi. cbn [expr_locs expr_loc]. intros H. inversion H as [|? ? Hl H']; subst. apply Forall_app in H'. destruct H' as [Hb Hi].
      cbn [visit]. apply where_context; [exact Hl|]. apply where_bind.
      + apply where_context; [|auto]. rewrite Forall_forall in Hb. apply Hb, expr_loc_in.
      + intros v _. destruct v as [| | |x|]; try discriminate.
        assert (M : where_ok P (let! is := mapM (visit_entry st) idx in
             let! _ := check_out_of_range (concat is) (tsize (var_type x)) in (Ok (VIndex x (concat is)) : outcome error value))).
        { apply where_bind.
          - apply where_mapM. rewrite Forall_forall in IHi |- *. intros i Ii. apply IHi; [exact Ii|]. exact (Forall_concat_in _ entry_locs idx i Hi Ii).
          - intros is _. apply where_bind; [|discriminate]. apply where_unlocated, unl_check_out. }
        destruct (kind (var_type x)); try exact M; (apply where_bind; [apply where_unlocated, unl_type_of|]; intros t _ e [= <-]; exact I).
    - intros l n _. cbn [visit]. apply where_unlocated, (unl_resolve_function lm); [exact Hst|constructor].
    - intros l n args IH. cbn [expr_locs expr_loc]. intros H. inversion H as [|? ? Hl H']; subst. cbn [visit]. apply where_bind.
      + apply where_mapM. rewrite Forall_forall in IH |- *. intros a Ia. pose proof (Forall_concat_in _ expr_locs args a H' Ia) as Ha.
        apply where_context; [|now apply IH]. rewrite Forall_forall in Ha. apply Ha, expr_loc_in.
      + intros vs E. apply where_unlocated, (unl_resolve_function lm); [exact Hst|]. eapply typed_args; eauto.
    - intros l op e IH. cbn [expr_locs expr_loc]. intros H. inversion H as [|? ? Hl H']; subst. cbn [visit]. apply where_bind.
      + apply where_context; [|auto]. rewrite Forall_forall in H'. apply H', expr_loc_in.
      + intros v E. apply where_unlocated, (unl_resolve_function lm); [exact Hst|]. constructor; [eapply typed_value; eauto|constructor].
    - intros l op e1 e2 IH1 IH2. cbn [expr_locs expr_loc]. intros H. inversion H as [|? ? Hl H']; subst. apply Forall_app in H'. destruct H' as [H1 H2].
      cbn [visit]. apply where_bind; [apply where_context; [|auto]; rewrite Forall_forall in H1; apply H1, expr_loc_in|]. intros v1 E1.
      apply where_bind; [apply where_context; [|auto]; rewrite Forall_forall in H2; apply H2, expr_loc_in|]. intros v2 E2.
      apply where_unlocated, (unl_resolve_function lm); [exact Hst|]. repeat constructor; eapply typed_value; eauto.
    - intros l c e1 e2 IHc IH1 IH2. cbn [expr_locs expr_loc]. intros H. inversion H as [|? ? Hl H']; subst. apply Forall_app in H'. destruct H' as [Hc H'].
      apply Forall_app in H'. destruct H' as [H1 H2].
      cbn [visit]. apply where_bind; [apply where_context; [|auto]; rewrite Forall_forall in Hc; apply Hc, expr_loc_in|]. intros vc Ec.
      apply where_bind; [apply where_context; [|auto]; rewrite Forall_forall in H1; apply H1, expr_loc_in|]. intros v1 E1.
      apply where_bind; [apply where_context; [|auto]; rewrite Forall_forall in H2; apply H2, expr_loc_in|]. intros v2 E2.
      apply where_unlocated, (unl_resolve_function lm); [exact Hst|]. repeat constructor; eapply typed_value; eauto.
    - intros l e IH. cbn [entry_locs]. intros H. inversion H as [|? ? Hl H']; subst. cbn [visit_entry]. apply where_bind; [|discriminate].
      apply const_int_where; auto. rewrite Forall_forall in H'. apply H', expr_loc_in.
    - intros l e1 e2 IH1 IH2. cbn [entry_locs]. intros H. inversion H as [|? ? Hl H']; subst. apply Forall_app in H'. destruct H' as [H1 H2]. cbn [visit_entry].
      apply where_bind; [apply const_int_where; auto; rewrite Forall_forall in H1; apply H1, expr_loc_in|]. intros z1 _.
      apply where_bind; [apply const_int_where; auto; rewrite Forall_forall in H2; apply H2, expr_loc_in|]. intros z2 _ e.
      unfold expand_range. destruct (_ <? _)%Z; [intros [= <-]; exact Hl|]. destruct (_ =? _)%Z; discriminate.
  Qed.
  Lemma visit_list_where es : Forall (loc_holds P) (flat_map expr_locs es) -> where_ok P (visit_expression_list st es).
  Proof.
    intros H. apply where_mapM. rewrite Forall_forall. intros e Ie. pose proof (Forall_concat_in _ expr_locs es e H Ie) as He.
    apply where_context; [|now apply visit_where]. rewrite Forall_forall in He. apply He, expr_loc_in.
  Qed.
  Lemma pure_gate_where g : Forall (loc_holds P) (gate_locs g) -> where_ok P (pure_gate st g).
  Proof.
    induction g as [l n ps an|l n g ps an IH] using gate_ind_full; cbn [gate_locs pure_gate app]; intros H; inversion H as [|? ? Hl H']; subst;
      (apply where_context; [exact Hl|]).
    - apply Forall_app in H'. destruct H' as [Hp _]. cbn [bind]. apply where_bind; [now apply visit_list_where|]. intros vs _.
      apply where_bind; [apply where_unlocated, unl_resolve_parameters|]. intros ws _. apply where_bind; [apply where_unlocated, unl_check_gate|]. discriminate.
    - apply Forall_app in H'. destruct H' as [Hg H']. apply Forall_app in H'. destruct H' as [Hp _].
      apply where_bind; [apply where_bind; [auto|]; discriminate|]. intros i _. apply where_bind; [now apply visit_list_where|]. intros vs _.
      apply where_bind; [apply where_unlocated, unl_resolve_parameters|]. intros ws _. apply where_bind; [apply where_unlocated, unl_check_gate|]. discriminate.
  Qed.
  Lemma catch_located {A} l (d : A) m r es : loc_holds P l -> l <> None -> where_ok P m -> catch_log l d (lift m) = (r, es) -> Forall (located P) es.
  Proof.
    intros Hl N H E. destruct m as [a|e|w|k]; cbn in E; injection E as _ <-; try constructor; [|constructor].
    specialize (H e eq_refl). unfold located, error_context. destruct (location e) as [x|] eqn:Ee; [eauto|]. destruct l as [x|]; [|congruence].
    exists x. split; [reflexivity|exact Hl].
  Qed.
  Lemma statement_where s r es : grammar_statement s -> Forall (loc_holds P) (statement_locs s) ->
    (match s with SAsm _ _ _ _ => True | _ => statement_loc s <> None end) -> visit_statement st s = (r, es) -> Forall (located P) es.
  Proof.
    intros (Hp & _ & Hg) Hl N E. destruct s as [l n t an|l g ops an|l n ops ps an|l n c an]; cbn [statement_locs statement_loc] in *; inversion Hl as [|? ? Hl0 Hl']; subst.
    - cbn in Hp. subst an. cbn [visit_statement] in E. unfold visit_variable in E.
      destruct (build_type_spec t) as [(ty & Et & _)|(e & Et & _)]; rewrite Et in E.
      + cbn [visit_annotated lift lbind] in E. destruct (add_variable _ _) as [st1|e| |] eqn:Ea.
        * cbn [lift lbind] in E.
          destruct (catch_log l st1 (lift (register_variable st1 n (VVar (mkVariable (next_id st) n ty))))) as [r' es'] eqn:Ec.
          assert (F : Forall (located P) es').
          { eapply catch_located; [exact Hl0|exact N| |exact Ec]. apply where_unlocated. intros e Er.
            unfold register_variable, update_current in Er. destruct (scopes st1); [discriminate|]. unfold variable_add in Er.
            destruct (table_find n _); cbn in Er; [|discriminate]. injection Er as <-. reflexivity. }
          destruct r'; cbn in E; injection E as _ <-; try exact F; cbn. 
          all: rewrite ?app_nil_r. all: try exact F. apply Forall_app. split; [exact F|]. exfalso.
          destruct (register_variable st1 n _); discriminate.
        * exfalso. unfold add_variable, update_current in Ea. destruct (scopes (fresh st)); discriminate.
        * cbn in E. injection E as _ <-. constructor.
        * cbn in E. injection E as _ <-. constructor.
      + eapply (catch_located l (fresh st) (Err e)); [exact Hl0|exact N| |exact E].
        unfold build_semantic_type, build_type in Et. apply where_unlocated. intros e' [= <-].
        repeat match type of Et with context [if ?c then _ else _] => destruct c | context [match ?c with Some _ => _ | None => _ end] => destruct c end;
          try discriminate; injection Et as <-; reflexivity.
    - destruct Hp as [_ ->]. apply Forall_app in Hl'. destruct Hl' as [H1 H2]. apply Forall_app in H2. destruct H2 as [H2 _].
      rewrite visit_gate_statement_pure in E by exact Hg. eapply catch_located; [exact Hl0|exact N| |exact E]. unfold pure_gate_statement.
      apply where_bind; [now apply pure_gate_where|]. intros sg _. apply where_bind; [now apply visit_list_where|]. intros vs _.
      apply where_bind; [apply where_unlocated, unl_resolve_instruction|]. intros r' _.
      apply where_bind; [apply where_unlocated; unfold check_gate_operands; destruct (adjacent_equal _); [apply unl_ok|apply unl_err]|]. intros u _.
      destruct (add_statement_ok lm st Hst (SemGateInstr l (fst r') sg (snd r') [])) as [st' ->]. discriminate.
    - cbn in Hp. subst an. apply Forall_app in Hl'. destruct Hl' as [H1 H2]. apply Forall_app in H2. destruct H2 as [H2 _].
      rewrite visit_non_gate_statement_pure in E. eapply catch_located; [exact Hl0|exact N| |exact E]. unfold pure_non_gate_statement.
      apply where_bind; [now apply visit_list_where|]. intros vs _.
      apply where_bind; [apply where_unlocated, unl_resolve_instruction|]. intros r' _.
      apply where_bind; [now apply visit_list_where|]. intros pvs _.
      apply where_bind; [apply where_unlocated, unl_resolve_parameters|]. intros ws _.
      apply where_bind; [apply where_unlocated; unfold check_non_gate_operands; destruct (is_measure n); [destruct (_ =? _)%Z|]; first [apply unl_ok|apply unl_err]|]. intros u _.
      destruct (add_statement_ok lm st Hst (SemNonGate l (fst r') n (snd r') ws [])) as [st' ->]. discriminate.
    - cbn in Hp. subst an. cbn [visit_statement] in E. unfold visit_asm_declaration in E. cbn [visit_annotated lift lbind] in E.
      destruct (add_statement_ok lm st Hst (SemAsm l n c [])) as [st' E']. rewrite E' in E. cbn in E. injection E as _ <-. constructor.
  Qed.
End Where.

Lemma block_located lm P st ss st' es : block_run st ss st' es -> ordinary lm st -> Forall grammar_statement ss -> Forall (statement_located P) ss ->
  Forall (located P) es.
Proof.
  induction 1 as [|st s st1 es1 ss st2 es2 H _ IH]; intros Ho Hg Hl; [constructor|]. inversion Hg; inversion Hl as [|? ? [L1 L2] ?]; subst.
  apply Forall_app. split; [eapply statement_where; eauto|]. apply IH; auto.
  eapply ordinary_extends; [exact Ho|]. eapply effect_extends, statement_effect, H.
Qed.
Lemma program_located lm P st p st' r : ordinary lm st -> version_same (api_version st) [3; 0]%Z -> grammar_program p -> Forall (statement_located P) (prog_statements p) ->
  (exists l, prog_version_loc p = Some l /\ P l) -> analyze_ast st p = Ok (st', r) -> Forall (located P) (res_errors r).
Proof.
  intros Ho Hv Hg Hl (lv & Elv & Pl) E. apply analyze_ast_inv in E. destruct E as (v & es1 & es2 & s & rest & Ev & B & _ & -> & _). cbn [res_errors].
  apply Forall_app. split; [|eapply block_located; eauto].
  destruct (visit_version_spec (api_version st) (prog_version p) (prog_version_loc p) Hv) as [V1 V2].
  destruct (version_eqb (prog_version p) (api_version st)) eqn:Eq.
  - apply version_eqb_iff in Eq. rewrite (V1 Eq) in Ev. injection Ev as _ <-. constructor.
  - assert (Nq : ~ version_same (prog_version p) (api_version st)) by (rewrite <- version_eqb_iff, Eq; discriminate).
    destruct (V2 Nq) as (e & Ev' & Le). rewrite Ev' in Ev. injection Ev as _ <-. constructor; [|constructor].
    exists lv. split; [|exact Pl]. unfold error_context. rewrite Le, Elv. reflexivity.
Qed.
