(** Lemmas for C41 (reuse), C42 (scopes) and C43 (registered instructions). *)
From Coq Require Import SpecFloat ZifyBool.
From Verif Require Import Base ModelUtils ModelVersion ModelError ModelTypes ModelOverload ModelFunctions
  ModelInstructionSet ModelAst ModelAnalyzer ModelSemantic SpecUtils SpecTypes SpecFunctions SpecInstructions SpecAnalyzer
  ProofsVersion ProofsTypes ProofsFunctions ProofsFolding ProofsExpr ProofsInstructions ProofsGates ProofsIndex
  ProofsAnalyzer ProofsAnalyzer2 ProofsAnalyzer3.
Local Open Scope string_scope.

(** ** Reuse (C41) *)
Lemma analyze_twice st p1 st1 r1 p2 st2 r2 :
  analyze_ast st p1 = Ok (st1, r1) -> analyze_ast st1 p2 = Ok (st2, r2) ->
  prog_version p2 = prog_version p1 -> version_same (prog_version p1) (api_version st) -> version_same (api_version st) [3; 0]%Z ->
  exists sp1 sp2 r sp,
    res_root r1 = Some sp1 /\ res_root r2 = Some sp2 /\
    analyze_ast st (append_programs p1 p2) = Ok (st2, r) /\ res_root r = Some sp /\
    sp_block sp = sp_block sp2 /\ sp_variables sp = sp_variables sp2 /\ res_errors r = (res_errors r1 ++ res_errors r2)%list /\
    prefix_of (sp_variables sp1) (sp_variables sp2) /\ prefix_of (blk_statements (sp_block sp1)) (blk_statements (sp_block sp2)).
Proof.
  intros E1 E2 V Vs Hv. apply analyze_ast_inv in E1. destruct E1 as (v1 & ea & eb & s1 & rest1 & Ev1 & B1 & S1 & -> & _).
  apply analyze_ast_inv in E2. destruct E2 as (v2 & ec & ed & s2 & rest2 & Ev2 & B2 & S2 & -> & W2).
  assert (Ev : api_version st1 = api_version st) by (eapply block_run_version; eauto). rewrite Ev in *.
  destruct (visit_version_spec (api_version st) (prog_version p1) (prog_version_loc p1) Hv) as [X1 _]. rewrite (X1 Vs) in Ev1. injection Ev1 as <- <-.
  destruct (visit_version_spec (api_version st) (prog_version p2) (prog_version_loc p2) Hv) as [X2 _]. rewrite V in Ev2. rewrite V in X2. rewrite (X2 Vs) in Ev2. injection Ev2 as <- <-.
  cbn [app] in *. eexists _, _, _, _. split; [reflexivity|]. split; [reflexivity|]. split.
  { apply analyze_ast_intro with (v := prog_version p1) (es1 := []) (es2 := (eb ++ ed)%list) (s := s2) (rest := rest2).
    - exact (X1 Vs).
    - apply block_run_app. exists st1, eb, ed. auto.
    - exact S2.
    - cbn [app]. intros E. apply app_eq_nil in E. destruct E as [_ ->]. apply W2. reflexivity. }
  split; [reflexivity|]. split; [reflexivity|]. split; [reflexivity|]. split; [reflexivity|].
  pose proof (extends_prefixes _ _ (block_extends _ _ _ _ B2)) as P. unfold variables_of, statements_of in P. rewrite S1, S2 in P. exact P.
Qed.

(** ** Scopes (C42) *)
Lemma update_current_inv st f st' : update_current st f = Ok st' ->
  exists s s' rest, scopes st = s :: rest /\ f s = Ok s' /\ st' = mkAnalyzer (api_version st) (s' :: rest) (next_id st).
Proof.
  unfold update_current. destruct (scopes st) as [|s rest]; [discriminate|]. intros H. apply bind_ok_inv in H. destruct H as (s' & E & [= <-]). eauto 6.
Qed.
Lemma session_scopes st st' : session st st' -> forall s rest, scopes st = s :: rest ->
  (exists s', scopes st' = s' :: rest) /\ api_version st' = api_version st.
Proof.
  induction 1 as [st|st n v st1 st2 E _ IH|st i st1 st2 E _ IH|st p st1 r st2 E _ IH|st st1 st2 st3 _ IH1 E _ IH2]; intros s rest Es.
  - eauto.
  - apply update_current_inv in E. destruct E as (s0 & s' & rest' & E0 & _ & ->). rewrite E0 in Es. injection Es as -> ->. exact (IH s' rest eq_refl).
  - apply update_current_inv in E. destruct E as (s0 & s' & rest' & E0 & _ & ->). rewrite E0 in Es. injection Es as -> ->. exact (IH s' rest eq_refl).
  - apply analyze_ast_inv in E. destruct E as (v & e1 & e2 & s1 & rest1 & _ & B & S1 & _). apply block_extends in B. destruct B as [A X].
    rewrite Es, S1 in X. destruct X as [_ ->]. destruct (IH s1 rest S1) as [H1 H2]. split; [exact H1|congruence].
  - destruct (IH1 empty_scope (scopes st) eq_refl) as [[s' E1] A1]. unfold pop_scope in E. rewrite E1 in E. injection E as <-.
    destruct (IH2 s rest) as [H1 H2]; [exact Es|]. split; [exact H1|]. rewrite H2. cbn. exact A1.
Qed.
Lemma pop_restores st st1 : session (push_scope st) st1 ->
  exists st', pop_scope st1 = Ok st' /\ scopes st' = scopes st /\ api_version st' = api_version st.
Proof.
  intros H. destruct (session_scopes _ _ H empty_scope (scopes st) eq_refl) as [[s' E] A]. eexists. unfold pop_scope. rewrite E.
  split; [reflexivity|]. split; [reflexivity|]. exact A.
Qed.
Lemma same_scopes_resolve st st' : scopes st' = scopes st ->
  (forall n, resolve_variable st' n = resolve_variable st n) /\
  (forall n args, resolve_function st' n args = resolve_function st n args) /\
  (forall n args, resolve_instruction st' n args = resolve_instruction st n args).
Proof. intros E. unfold resolve_variable, resolve_function, global_scope, resolve_instruction. rewrite E. auto. Qed.
Lemma push_resolves st : scopes st <> [] ->
  (forall n, resolve_variable (push_scope st) n = resolve_variable st n) /\
  (forall n args, resolve_function (push_scope st) n args = resolve_function st n args) /\
  (forall n args, resolve_instruction (push_scope st) n args = resolve_instruction st n args).
Proof.
  intros N. split; [reflexivity|]. split; [|reflexivity]. intros n args. unfold resolve_function, global_scope. cbn [push_scope scopes last_scope].
  destruct (scopes st); [congruence|reflexivity].
Qed.
Lemma last_scope_functions s s' rest : sc_functions s' = sc_functions s -> 
  match last_scope (s' :: rest), last_scope (s :: rest) with Ok a, Ok b => sc_functions a = sc_functions b | _, _ => False end.
Proof.
  intros E. destruct rest as [|r rest]; cbn [last_scope]; [exact E|]. revert r. induction rest as [|x rest IH]; intros r; cbn; [reflexivity|]. apply IH.
Qed.
Lemma functions_same st s s' rest st' n args : scopes st = s :: rest -> scopes st' = s' :: rest -> sc_functions s' = sc_functions s ->
  resolve_function st' n args = resolve_function st n args.
Proof.
  intros E E' F. unfold resolve_function, global_scope. rewrite E, E'. pose proof (last_scope_functions s s' rest F) as H.
  destruct (last_scope (s' :: rest)), (last_scope (s :: rest)); try contradiction. cbn [bind]. now rewrite H.
Qed.
Lemma variable_registered st n v st1 : register_variable st n v = Ok st1 ->
  resolve_variable st1 n = Ok v /\
  (forall m, m <> n -> resolve_variable st1 m = resolve_variable st m) /\
  (forall m args, resolve_function st1 m args = resolve_function st m args) /\
  (forall m args, resolve_instruction st1 m args = resolve_instruction st m args).
Proof.
  intros H. apply update_current_inv in H. destruct H as (s & s' & rest & Es & H & ->). apply bind_ok_inv in H. destruct H as (t & Et & [= <-]).
  unfold variable_add in Et. destruct (table_find n (sc_variables_table s)) eqn:F; [discriminate|]. injection Et as <-.
  unfold resolve_variable, resolve_instruction. cbn [scopes resolve_variable_in resolve_instruction_in sc_variables_table sc_instructions]. rewrite Es.
  cbn [resolve_variable_in resolve_instruction_in]. unfold variable_resolve.
  split; [|split; [|split]].
  - rewrite table_find_app, F, String.eqb_refl. reflexivity.
  - intros m N. rewrite table_find_app. destruct (table_find m (sc_variables_table s)); [reflexivity|].
    destruct (String.eqb_spec n m) as [->|]; [congruence|reflexivity].
  - intros m args. eapply functions_same; [exact Es|reflexivity|reflexivity].
  - reflexivity.
Qed.
Lemma fresh_name st n v : exists st1, register_variable (push_scope st) n v = Ok st1.
Proof. eexists. reflexivity. Qed.

Lemma resolve_add_same {T} (t : table T) n tag ps args : Forall typed args ->
  (forall args', promotes_all args ps args' -> resolve (add_overload n tag ps t) n args = Ok (tag, args')) /\
  ((~ exists args', promotes_all args ps args') ->
   match resolve t n args with
   | Ok x => resolve (add_overload n tag ps t) n args = Ok x
   | Err _ => exists e, resolve (add_overload n tag ps t) n args = Err e
   | _ => False
   end).
Proof.
  intros Ht. assert (E : exists os, table_find n (add_overload n tag ps t) = Some (os ++ [mkOverload tag ps])%list /\
       match table_find n t with Some r => os = r | None => os = [] end).
  { rewrite table_find_add, String.eqb_refl. destruct (table_find n t) as [r|]; [exists r; auto|exists []; auto]. }
  destruct E as (os & E & Eo). unfold resolve at 1 3 4. rewrite E. unfold resolve_overload. rewrite rev_app_distr. cbn [rev app].
  destruct (resolve_loop_spec args (mkOverload tag ps :: rev os) Ht) as [(l1 & o & l2 & args' & Eq & N & P & R)|[N R]].
  - destruct l1 as [|o1 l1].
    + injection Eq as <- <-. cbn [ov_params ov_tag] in *. rewrite R. cbn [bind]. split; [|intros X; destruct X; eauto].
      intros a Ha. rewrite (promotes_all_unique _ _ _ _ Ha P). reflexivity.
    + injection Eq as <- Eq. inversion N as [|? ? N1 N2]; subst. split.
      * intros a Ha. destruct N1. now exists a.
      * intros _. rewrite R. cbn [bind]. unfold resolve. destruct (table_find n t) as [r|]; subst os; [|destruct l1; discriminate].
        unfold resolve_overload. destruct (resolve_loop_spec args (rev r) Ht) as [(m1 & o' & m2 & a' & Eq' & N' & P' & R')|[N' R']].
        -- rewrite R'. cbn [bind]. 
           assert (Rs : resolve_loop (mkOverload tag ps :: rev r) args = resolve_loop (rev r) args).
           { rewrite R. rewrite R'. rewrite Eq in Eq'.
             destruct (resolve_loop_spec args (mkOverload tag ps :: rev r) Ht) as [(k1 & o2 & k2 & a2 & Eq2 & N3 & P3 & R3)|[N3 R3]]; [|congruence].
             rewrite R in R3. injection R3 as Et Ea.
             clear - Eq' N2 N' P P' . revert m1 Eq' N'. induction l1 as [|x l1 IH]; intros [|y m1] Eq' N'; cbn in Eq'.
             - injection Eq' as -> ->. rewrite (promotes_all_unique _ _ _ _ P P'). reflexivity.
             - injection Eq' as -> _. inversion N' as [|? ? H _]; subst. destruct H. now exists args'.
             - injection Eq' as -> _. inversion N2 as [|? ? H _]; subst. destruct H. now exists a'.
             - injection Eq' as -> Eq'. inversion N2; inversion N'; subst. eapply IH; eauto. }
           rewrite R, R' in Rs. injection Rs as E1 E2. congruence.
        -- exfalso. rewrite Eq in N'. apply Forall_app in N'. destruct N' as [_ N']. inversion N' as [|? ? X _]; subst. apply X. now exists args'.
  - inversion N as [|? ? N1 N2]; subst. rewrite R. cbn [bind]. destruct (types_of_typed args Ht) as [ts Ets]. rewrite Ets. cbn [bind]. split.
    + intros a Ha. destruct N1. now exists a.
    + intros _. unfold resolve. destruct (table_find n t) as [r|]; [|eauto]. subst os. unfold resolve_overload.
      destruct (resolve_loop_spec args (rev r) Ht) as [(m1 & o' & m2 & a' & Eq' & N' & P' & R')|[N' R']].
      * exfalso. rewrite Eq' in N2. apply Forall_app in N2. destruct N2 as [_ N2]. inversion N2 as [|? ? X _]; subst. apply X. now exists a'.
      * rewrite R'. cbn [bind]. rewrite Ets. cbn [bind]. eauto.
Qed.
Lemma instruction_registered st i st1 : register_instruction st i = Ok st1 ->
  (forall args args', Forall typed args -> promotes_all args (operand_types i) args' -> resolve_instruction st1 (instr_name i) args = Ok (i, args')) /\
  (forall args, Forall typed args -> (~ exists args', promotes_all args (operand_types i) args') ->
     resolve_instruction st1 (instr_name i) args = resolve_instruction st (instr_name i) args) /\
  (forall n args, n <> instr_name i -> resolve_instruction st1 n args = resolve_instruction st n args) /\
  (forall n, resolve_variable st1 n = resolve_variable st n) /\
  (forall n args, resolve_function st1 n args = resolve_function st n args).
Proof.
  intros H. apply update_current_inv in H. destruct H as (s & s' & rest & Es & H & ->). injection H as <-.
  unfold resolve_instruction, resolve_variable. cbn [scopes resolve_variable_in resolve_instruction_in sc_variables_table sc_instructions]. rewrite Es.
  cbn [resolve_variable_in resolve_instruction_in]. unfold instruction_add. split; [|split; [|split; [|split]]].
  - intros args args' Ht P. destruct (resolve_add_same (sc_instructions s) (instr_name i) i (operand_types i) args Ht) as [R _]. now rewrite (R args' P).
  - intros args Ht P. destruct (resolve_add_same (sc_instructions s) (instr_name i) i (operand_types i) args Ht) as [_ R]. specialize (R P).
    destruct (resolve (sc_instructions s) (instr_name i) args); try contradiction; [now rewrite R|]. destruct R as [e2 ->]. reflexivity.
  - intros n args N. rewrite resolve_add_other by congruence. reflexivity.
  - reflexivity.
  - intros n args. eapply functions_same; [exact Es|reflexivity|reflexivity].
Qed.
(** Functions are registered in the outermost scope, wherever the call is made. *)
Lemma function_global st n ps f st1 : scopes st <> [] -> register_function st n ps f = Ok st1 ->
  register_function (push_scope st) n ps f = Ok (push_scope st1).
Proof.
  intros N H. unfold register_function in *. cbn [push_scope scopes update_last]. destruct (scopes st) as [|s r] eqn:E; [congruence|].
  apply bind_ok_inv in H. destruct H as (l & El & [= <-]). rewrite El. reflexivity.
Qed.

(** ** Registered instructions (C43) *)
Lemma unknown_gate st l lg n ps gan ops an st' es : ~ In n (map fst gates) -> ~ In n (map fst non_gates) -> ~ In n (map fst modifiers) ->
  visit_statement st (SGateInstr l (Gate lg n None ps gan) ops an) = (Ok st', es) -> es <> [] /\ st' = st.
Proof.
  intros H1 H2 H3 E. apply statement_effect in E. 
  remember (SGateInstr l (Gate lg n None ps gan) ops an) as s eqn:Es. destruct E; try discriminate.
  - exfalso. injection Es as -> -> -> ->. rewrite visit_gate_unfold in H. apply log_context_ok in H.
    apply lbind_ok in H. destruct H as (i' & e1 & e2 & E1 & H & _).
    apply lbind_ok in H. destruct H as (pvs & e3 & e4 & E2 & H & _). apply lbind_ok in H. destruct H as (ws' & e5 & e6 & E3 & H & _).
    apply lift_ok in E3. destruct E3 as [E3 _]. destruct (resolve_parameters_unknown n pvs H1 H2 H3) as [e X]. congruence.
  - split; [|reflexivity]. destruct es; discriminate.
Qed.
Lemma fits_stored vs ks : Forall2 fits_param vs ks -> (forall k, In k ks -> numeric k = true) -> exists ws, stored_all vs ks ws.
Proof.
  induction 1 as [|v k vs ks H _ IH]; intros Hn; [exists []; constructor|]. destruct IH as [ws IH]; [intros k' Ik; apply Hn; now right|].
  destruct (fits_promote v k H (Hn k (or_introl eq_refl))) as (w & P & C & K). exists (w :: ws). constructor; [exact H|now split|exact IH].
Qed.
Lemma known_gate st n ks a ts st1 l lg ps pvs ops vs vs' z :
  In (n, (ks, a)) gates -> register_instruction st (mkInstruction n ts) = Ok st1 ->
  visit_expression_list st1 ps = Ok pvs -> Forall2 fits_param pvs ks ->
  visit_expression_list st1 ops = Ok vs -> Forall typed vs -> promotes_all vs ts vs' -> Forall (fun v => addresses Qubits v z) vs' ->
  exists st2 ws, visit_statement st1 (SGateInstr l (Gate lg n None ps []) ops []) = (Ok st2, []) /\ stored_params pvs ks ws /\
    statements_of st2 = (statements_of st1 ++ [SemGateInstr l (mkInstruction n ts) (SemGate lg n None ws []) vs' []])%list.
Proof.
  intros G R P F O Ht Pr A. destruct (instruction_registered st _ st1 R) as [RI _]. cbn [instr_name operand_types] in RI.
  assert (Kn : exists a, In (n, (ks, a)) gates) by eauto.
  pose proof (gates_param_kinds n ks (or_introl Kn)) as Pk.
  destruct (fits_stored pvs ks F) as [ws S]. { unfold param_kinds in Pk. now apply Forall_forall. }
  assert (Oo : Forall ordinary_value pvs).
  { clear -F. induction F as [|v k vs ks [C _] _ IH]; constructor; auto using const_ordinary. }
  destruct (resolve_parameters_known n ks pvs (or_introl Kn) Oo) as [_ Rp]. apply Rp in S as S'.
  destruct (disjoint_names n) as [D _]. destruct (D (in_map fst _ _ G)) as [D1 D2].
  rewrite visit_gate_statement_pure by (constructor; assumption). unfold pure_gate_statement. cbn [pure_gate bind]. rewrite P. cbn [bind]. rewrite S'. cbn [bind check_gate with_context].
  rewrite O. cbn [bind gate_resolution_name sem_gate_inner sem_gate_name]. rewrite (RI vs vs' Ht Pr). cbn [bind fst snd].
  assert (Ck : check_gate_operands vs' = Ok tt).
  { unfold check_gate_operands. assert (E : adjacent_equal (map qubit_indices_size vs') = true); [|now rewrite E].
    apply adjacent_equal_all. exists z. apply Forall_map. eapply Forall_impl; [|exact A]. cbn. intros v H. apply (addresses_size _ _ _ H). }
  rewrite Ck. cbn [bind]. apply update_current_inv in R. destruct R as (s & s' & rest & Es & _ & ->). unfold add_statement, update_current. cbn [scopes bind].
  eexists _, ws. split; [reflexivity|]. split; [now apply stored_all_iff|]. unfold statements_of. cbn [scopes sc_block].
  destruct s' as [vt ft it b v]. cbn [sc_block block_add blk_statements]. reflexivity.
Qed.
