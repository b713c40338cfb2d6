(** Properties C21, C35-C44, C58, C60, C62: the analysis of whole programs. *)
From Coq Require Import SpecFloat.
From Verif Require Import Base ModelUtils ModelVersion ModelError ModelTypes ModelOverload ModelFunctions
  ModelInstructionSet ModelAst ModelAnalyzer ModelSemantic SpecUtils SpecTypes SpecFunctions SpecInstructions SpecAnalyzer
  ProofsVersion ProofsTypes ProofsFunctions ProofsFolding ProofsExpr ProofsInstructions ProofsGates ProofsIndex ProofsSample
  ProofsAnalyzer ProofsAnalyzer2 ProofsAnalyzer3 ProofsAnalyzer4 ProofsAnalyzer5 ProofsAnalyzer6 ProofsAnalyzer7.
Local Open Scope string_scope.

(** Programs of the examples: version 3.0; declarations of qubits; gates. *)
Definition prog (ss : list statement) : program := mkProgram [3; 0]%Z None ss None.
Definition qubit_decl (n : string) : statement := SVariable None n (mkAstType None "qubit" None) [].
Definition gate_on (g : string) (ps ops : list expr) : statement := SGateInstr None (Gate None g None ps []) ops [].
Definition name (n : string) : expr := EIdent None n.
Definition fresh_analyzer (lm : libm) : analyzer := mkAnalyzer [3; 0]%Z [default_scope lm] 0.
Example fresh_is_default : forall lm, default_analyzer lm "3.0" = Ok (fresh_analyzer lm).
Proof. exact default_analyzer_value. Qed.
Lemma ok_case {A B} (m : outcome error (A * B)) (Q : A -> B -> Prop) :
  match m with Ok (a, b) => Q a b | _ => False end -> exists a b, m = Ok (a, b) /\ Q a b.
Proof. destruct m as [[a b]| | |]; try contradiction. eauto. Qed.

(** C21: refuted: qubit q; Rx(1 / 0) q executes a division by zero. *)
Theorem C21_refuted : forall lm, exists p, grammar_program p /\
  analyze_ast (fresh_analyzer lm) p = UB DivisionByZero.
Proof.
  intros lm. exists (prog [qubit_decl "q"; gate_on "Rx" [EBinary None BDiv (EInt None 1) (EInt None 0)] [name "q"]]).
  split; [|vm_compute; reflexivity]. repeat constructor; cbn; intuition discriminate.
Qed.
(** What holds: analysis is undefined only through a hazard in an expression of
    a statement, in the state in which that statement is reached; *)
Theorem C21_undefined_only_by_hazards : forall lm st p k, ordinary lm st -> grammar_program p -> analyze_ast st p = UB k ->
  exists ss1 s ss2 st1 es1 e e', prog_statements p = (ss1 ++ s :: ss2)%list /\
    visit_block (prog_block_loc p) st ss1 = (Ok st1, es1) /\
    In e (statement_exprs s) /\ within e' e /\ hazard st1 e'.
Proof. exact analysis_ub. Qed.
(** and operations without result, and indices of things that are not variables,
    are always undefined. *)
Theorem C21_hazards_are_undefined : forall lm st e, ordinary lm st -> hazard st e ->
  (forall l b idx, e <> EIndex l b idx) \/
  (exists l b idx v, e = EIndex l b idx /\ visit st b = Ok v /\ forall x, v <> VVar x) ->
  exists k, visit st e = UB k.
Proof. intros lm st e H. exact (hazard_visit lm st H e). Qed.
Example C21_case : forall lm, ordinary lm (sample lm) /\ hazard (sample lm) (EIndex None (name "pi") [IItem None (EInt None 0)]) /\
  visit (sample lm) (EIndex None (name "pi") [IItem None (EInt None 0)]) = UB NullDereference.
Proof.
  intros lm. split; [apply sample_ordinary|]. split; [|reflexivity]. eapply hz_index; [reflexivity|]. discriminate.
Qed.
Print Assumptions C21_refuted.
Print Assumptions C21_undefined_only_by_hazards.
Print Assumptions C21_hazards_are_undefined.

(** C35 *)
Theorem C35_accepted_is_well_formed : forall lm api st p st' sp, default_analyzer lm api = Ok st ->
  analyze_ast st p = Ok (st', mkResult (Some sp) []) -> program_fine sp.
Proof. exact accepted_fine. Qed.
Example C35_case : forall lm, exists st' r,
  analyze_ast (fresh_analyzer lm) (prog (sample_declarations ++ [gate_on "CNOT" [] [name "p"; EIndex None (name "q") [IItem None (EInt None 2)]];
    SNonGate None "measure" [name "b"; name "q"] [] []])) = Ok (st', r) /\ res_errors r = [] /\
  option_map (fun sp => (map var_name (program_variables sp), List.length (blk_statements (sp_block sp)))) (res_root r) = Some (["q"; "b"; "p"], 2%nat).
Proof. intros lm. apply ok_case. vm_compute. split; reflexivity. Qed.
Print Assumptions C35_accepted_is_well_formed.

(** C36: refuted for redeclarations, which leave a variable in the tree and an
    error: qubit q; qubit q. *)
Theorem C36_refuted : forall lm, exists st' r,
  analyze_ast (fresh_analyzer lm) (prog [qubit_decl "q"; qubit_decl "q"]) = Ok (st', r) /\
  option_map (fun sp => map var_name (program_variables sp)) (res_root r) = Some ["q"; "q"] /\ List.length (res_errors r) = 1%nat.
Proof. intros lm. apply ok_case. vm_compute. split; reflexivity. Qed.
(** What holds: every statement contributes one output or one error, in order;
    declarations of names declared before may contribute both. A wrong version
    adds one error in front. *)
Theorem C36_accounting_partial : forall lm st p st' r, ordinary lm st -> version_same (api_version st) [3; 0]%Z ->
  Forall plain (prog_statements p) -> analyze_ast st p = Ok (st', r) ->
  exists sp ve cs, res_root r = Some sp /\ Forall2 contributes (prog_statements p) cs /\
    sp_variables sp = (variables_of st ++ flat_map new_variables cs)%list /\
    blk_statements (sp_block sp) = (statements_of st ++ flat_map new_statements cs)%list /\
    res_errors r = (ve ++ flat_map new_errors cs)%list /\
    (if version_eqb (prog_version p) (api_version st) then ve = [] else List.length ve = 1%nat) /\
    (NoDup (declared_names (prog_statements p)) -> (forall n, In n (declared_names (prog_statements p)) -> ~ In n (names_here st)) ->
     Forall (fun c => ~ redeclaration c) cs).
Proof. exact accounting. Qed.
Example C36_case : forall lm, exists st' r,
  analyze_ast (fresh_analyzer lm) (prog [gate_on "H" [] [name "x"]; qubit_decl "q"; gate_on "H" [] [name "q"]; gate_on "foo" [] [name "q"]])
  = Ok (st', r) /\ List.length (res_errors r) = 2%nat /\
  option_map (fun sp => (map var_name (program_variables sp), List.length (blk_statements (sp_block sp)))) (res_root r) = Some (["q"], 1%nat).
Proof. intros lm. apply ok_case. vm_compute. split; reflexivity. Qed.
Print Assumptions C36_refuted.
Print Assumptions C36_accounting_partial.

(** C37 *)
Theorem C37_declared_once : forall lm api st p st' r ss1 l n t an ss2 st1 es1, default_analyzer lm api = Ok st ->
  analyze_ast st p = Ok (st', r) -> prog_statements p = (ss1 ++ SVariable l n t an :: ss2)%list ->
  visit_block (prog_block_loc p) st ss1 = (Ok st1, es1) ->
  In n constant_names \/ (exists d, In d ss1 /\ legal_declaration n d) ->
  res_errors r <> [] /\ resolve_variable st' n = resolve_variable st1 n.
Proof. exact declared_once. Qed.
Theorem C37_constants_stay : forall lm api st p st' r n, default_analyzer lm api = Ok st -> analyze_ast st p = Ok (st', r) ->
  In n constant_names -> resolve_variable st' n = resolve_variable st n.
Proof. exact constants_stay. Qed.
(** In any state: declaring a name of the current scope again is an error and
    changes the meaning of no name. *)
Theorem C37_redeclaration_harmless : forall st l n t an st' es, visit_statement st (SVariable l n t an) = (Ok st', es) ->
  In n (names_here st) -> es <> [] /\ forall m, resolve_variable st' m = resolve_variable st m.
Proof. exact redeclaration_harmless. Qed.
Example C37_case : forall lm, exists st' r,
  analyze_ast (fresh_analyzer lm) (prog [SVariable None "pi" (mkAstType None "bit" None) []]) = Ok (st', r) /\
  List.length (res_errors r) = 1%nat /\ exists f, resolve_variable st' "pi" = Ok (VFloat f).
Proof.
  intros lm. apply (ok_case _ (fun st' r => List.length (res_errors r) = 1%nat /\ exists f, resolve_variable st' "pi" = Ok (VFloat f))).
  vm_compute. split; [reflexivity|]. eexists. reflexivity.
Qed.
Print Assumptions C37_declared_once.
Print Assumptions C37_constants_stay.
Print Assumptions C37_redeclaration_harmless.

(** C38 *)
Theorem C38_visible_only_after_declaration : forall lm api st l ss1 s st1 es1 st2 n, default_analyzer lm api = Ok st ->
  visit_block l st ss1 = (Ok st1, es1) -> visit_statement st1 s = (Ok st2, []) -> mentions s n ->
  In n constant_names \/ exists d, In d ss1 /\ legal_declaration n d.
Proof. exact mentioned_declared. Qed.
Theorem C38_accepted_programs : forall lm api st p st' r ss1 s ss2 n, default_analyzer lm api = Ok st ->
  analyze_ast st p = Ok (st', r) -> res_errors r = [] -> prog_statements p = (ss1 ++ s :: ss2)%list -> mentions s n ->
  In n constant_names \/ exists d, In d ss1 /\ legal_declaration n d.
Proof. exact accepted_declared. Qed.
Theorem C38_visible_after_declaration : forall lm api st l ss1 ld n t an ss2 ty st1 es1, default_analyzer lm api = Ok st ->
  visit_block l st (ss1 ++ SVariable ld n t an :: ss2) = (Ok st1, es1) -> declares_type t ty -> ~ In n constant_names ->
  (forall d, In d ss1 -> ~ legal_declaration n d) ->
  exists id, resolve_variable st1 n = Ok (VVar (mkVariable id n ty)).
Proof. exact declared_resolves. Qed.
Example C38_case : forall lm,
  (exists st' r, analyze_ast (fresh_analyzer lm) (prog [qubit_decl "q"; gate_on "H" [] [name "q"]]) = Ok (st', r) /\ res_errors r = []) /\
  (exists st' r, analyze_ast (fresh_analyzer lm) (prog [gate_on "H" [] [name "q"]; qubit_decl "q"]) = Ok (st', r) /\ List.length (res_errors r) = 1%nat).
Proof. intros lm. split; apply ok_case; vm_compute; reflexivity. Qed.
Print Assumptions C38_visible_only_after_declaration.
Print Assumptions C38_accepted_programs.
Print Assumptions C38_visible_after_declaration.

(** C39 *)
Theorem C39_constructed_iff : forall v, (exists st, new_analyzer v = Ok st) <-> version_same v [3; 0]%Z.
Proof. exact new_analyzer_version. Qed.
Theorem C39_default_iff : forall lm api, (exists st, default_analyzer lm api = Ok st) <->
  exists v, @version_of_string error api = Ok v /\ version_same v [3; 0]%Z.
Proof. exact default_version. Qed.
Theorem C39_program_version : forall st p st' r, version_same (api_version st) [3; 0]%Z ->
  analyze_ast st (with_version (api_version st) p) = Ok (st', r) ->
  exists r' sp sp', analyze_ast st p = Ok (st', r') /\ res_root r = Some sp /\ res_root r' = Some sp' /\ same_tree sp sp' /\
    (version_same (prog_version p) (api_version st) -> res_errors r' = res_errors r /\ sp_version sp' = prog_version p) /\
    (~ version_same (prog_version p) (api_version st) ->
     exists e, res_errors r' = e :: res_errors r /\ (prog_version_loc p <> None -> location e = prog_version_loc p)).
Proof. exact version_error. Qed.
Example C39_case : forall lm,
  (exists st, default_analyzer lm "3" = Ok st) /\ (exists st, default_analyzer lm "3.0.0" = Ok st) /\
  (~ exists st, default_analyzer lm "3.1" = Ok st) /\
  exists st' r, analyze_ast (fresh_analyzer lm) (mkProgram [3; 1]%Z None [qubit_decl "q"] None) = Ok (st', r) /\ List.length (res_errors r) = 1%nat.
Proof.
  intros lm. split; [apply C39_default_iff; exists [3]%Z; split; [reflexivity|apply version_eqb_iff; reflexivity]|].
  split; [apply C39_default_iff; exists [3; 0; 0]%Z; split; [reflexivity|apply version_eqb_iff; reflexivity]|].
  split; [|apply ok_case; vm_compute; reflexivity].
  rewrite C39_default_iff. intros (v & E & S). vm_compute in E. injection E as <-. apply version_eqb_iff in S. discriminate.
Qed.
Print Assumptions C39_constructed_iff.
Print Assumptions C39_default_iff.
Print Assumptions C39_program_version.

(** C40 *)
Theorem C40_parse_errors_pass_through : forall st (r : result program), res_errors r <> [] ->
  analyze st r = Ok (st, mkResult None (res_errors r)).
Proof. intros st [root [|e es]] H; [now destruct H|reflexivity]. Qed.
Example C40_case : forall lm, analyze (fresh_analyzer lm) (mkResult None [mk_error "a"; mk_error "b"])
  = Ok (fresh_analyzer lm, mkResult None [mk_error "a"; mk_error "b"]).
Proof. intros lm. apply C40_parse_errors_pass_through. discriminate. Qed.
Print Assumptions C40_parse_errors_pass_through.

(** C41: refuted: analysing qubit q a second time is an error. *)
Theorem C41_refuted : forall lm, exists st1 r1 st2 r2,
  analyze_ast (fresh_analyzer lm) (prog [qubit_decl "q"]) = Ok (st1, r1) /\ res_errors r1 = [] /\
  analyze_ast st1 (prog [qubit_decl "q"]) = Ok (st2, r2) /\ res_errors r2 <> [].
Proof.
  intros lm. destruct (ok_case (analyze_ast (fresh_analyzer lm) (prog [qubit_decl "q"])) (fun st1 r1 => res_errors r1 = [] /\
    match analyze_ast st1 (prog [qubit_decl "q"]) with Ok (_, r2) => List.length (res_errors r2) = 1%nat | _ => False end)) as (st1 & r1 & E1 & H1 & H2).
  - vm_compute. split; reflexivity.
  - apply (ok_case _ (fun _ r2 => List.length (res_errors r2) = 1%nat)) in H2. destruct H2 as (st2 & r2 & E2 & H2).
    exists st1, r1, st2, r2. split; [exact E1|]. split; [exact H1|]. split; [exact E2|]. intros X. now rewrite X in H2.
Qed.
(** What holds: the second program is analysed as if appended to the first. *)
Theorem C41_reuse_appends : forall st p1 st1 r1 p2 st2 r2,
  analyze_ast st p1 = Ok (st1, r1) -> analyze_ast st1 p2 = Ok (st2, r2) ->
  prog_version p2 = prog_version p1 -> version_same (prog_version p1) (api_version st) -> version_same (api_version st) [3; 0]%Z ->
  exists sp1 sp2 r sp,
    res_root r1 = Some sp1 /\ res_root r2 = Some sp2 /\
    analyze_ast st (append_programs p1 p2) = Ok (st2, r) /\ res_root r = Some sp /\
    sp_block sp = sp_block sp2 /\ sp_variables sp = sp_variables sp2 /\ res_errors r = (res_errors r1 ++ res_errors r2)%list /\
    prefix_of (sp_variables sp1) (sp_variables sp2) /\ prefix_of (blk_statements (sp_block sp1)) (blk_statements (sp_block sp2)).
Proof. exact analyze_twice. Qed.
Example C41_case : forall lm, exists st1 r1,
  analyze_ast (fresh_analyzer lm) (prog [qubit_decl "q"; gate_on "H" [] [name "q"]]) = Ok (st1, r1) /\
  exists st2 r2, analyze_ast st1 (prog [gate_on "X" [] [name "q"]]) = Ok (st2, r2) /\ res_errors r2 = [] /\
  option_map (fun sp => (List.length (sp_variables sp), List.length (blk_statements (sp_block sp)))) (res_root r2) = Some (1%nat, 2%nat).
Proof.
  intros lm. destruct (ok_case (analyze_ast (fresh_analyzer lm) (prog [qubit_decl "q"; gate_on "H" [] [name "q"]])) (fun st1 _ =>
    match analyze_ast st1 (prog [gate_on "X" [] [name "q"]]) with Ok (_, r2) => res_errors r2 = [] /\
      option_map (fun sp => (List.length (sp_variables sp), List.length (blk_statements (sp_block sp)))) (res_root r2) = Some (1%nat, 2%nat)
    | _ => False end)) as (st1 & r1 & E1 & H1).
  - vm_compute. split; reflexivity.
  - exists st1, r1. split; [exact E1|]. apply ok_case. exact H1.
Qed.
Print Assumptions C41_refuted.
Print Assumptions C41_reuse_appends.

(** C42 *)
Theorem C42_push_hides_nothing : forall st, scopes st <> [] ->
  (forall n, resolve_variable (push_scope st) n = resolve_variable st n) /\
  (forall n args, resolve_function (push_scope st) n args = resolve_function st n args) /\
  (forall n args, resolve_instruction (push_scope st) n args = resolve_instruction st n args).
Proof. exact push_resolves. Qed.
Theorem C42_variable_shadows : forall st n v st1, register_variable st n v = Ok st1 ->
  resolve_variable st1 n = Ok v /\
  (forall m, m <> n -> resolve_variable st1 m = resolve_variable st m) /\
  (forall m args, resolve_function st1 m args = resolve_function st m args) /\
  (forall m args, resolve_instruction st1 m args = resolve_instruction st m args).
Proof. exact variable_registered. Qed.
Theorem C42_new_scope_is_free : forall st n v, exists st1, register_variable (push_scope st) n v = Ok st1.
Proof. exact fresh_name. Qed.
Theorem C42_instruction_shadows : forall st i st1, register_instruction st i = Ok st1 ->
  (forall args args', Forall typed args -> promotes_all args (operand_types i) args' -> resolve_instruction st1 (instr_name i) args = Ok (i, args')) /\
  (forall args, Forall typed args -> (~ exists args', promotes_all args (operand_types i) args') ->
     resolve_instruction st1 (instr_name i) args = resolve_instruction st (instr_name i) args) /\
  (forall n args, n <> instr_name i -> resolve_instruction st1 n args = resolve_instruction st n args) /\
  (forall n, resolve_variable st1 n = resolve_variable st n) /\
  (forall n args, resolve_function st1 n args = resolve_function st n args).
Proof. exact instruction_registered. Qed.
Theorem C42_functions_are_global : forall st n ps f st1, scopes st <> [] -> register_function st n ps f = Ok st1 ->
  register_function (push_scope st) n ps f = Ok (push_scope st1).
Proof. exact function_global. Qed.
Theorem C42_pop_restores : forall st st1, session (push_scope st) st1 ->
  exists st', pop_scope st1 = Ok st' /\
    (forall n, resolve_variable st' n = resolve_variable st n) /\
    (forall n args, resolve_function st' n args = resolve_function st n args) /\
    (forall n args, resolve_instruction st' n args = resolve_instruction st n args) /\
    variables_of st' = variables_of st /\ statements_of st' = statements_of st.
Proof.
  intros st st1 H. destruct (pop_restores st st1 H) as (st' & E & S & _). exists st'. split; [exact E|].
  destruct (same_scopes_resolve st st' S) as (R1 & R2 & R3). split; [exact R1|]. split; [exact R2|]. split; [exact R3|].
  unfold variables_of, statements_of. now rewrite S.
Qed.
Example C42_case : forall lm, exists st1 st2,
  register_variable (push_scope (sample lm)) "pi" (VInt 3) = Ok st1 /\ resolve_variable st1 "pi" = Ok (VInt 3) /\
  register_instruction st1 (mkInstruction "H" [make_type TBit]) = Ok st2 /\
  exists st3 r, analyze_ast st2 (prog [qubit_decl "q"; gate_on "H" [] [name "q"]]) = Ok (st3, r) /\ res_errors r = [] /\
  session (push_scope (sample lm)) st3 /\ resolve_variable st3 "q" <> resolve_variable (sample lm) "q".
Proof.
  intros lm. eexists _, _. split; [reflexivity|]. split; [reflexivity|]. split; [reflexivity|].
  match goal with |- context [analyze_ast ?st ?p] =>
    destruct (ok_case (analyze_ast st p) (fun st3 r => res_errors r = [] /\
      match resolve_variable st3 "q" with Ok (VVar x) => var_id x = 3%nat | _ => False end)) as (st3 & r & E & H1 & H2) end.
  { vm_compute. split; reflexivity. }
  exists st3, r. split; [exact E|]. split; [exact H1|]. split.
  - eapply se_variable; [reflexivity|]. eapply se_instruction; [reflexivity|]. eapply se_analyze; [exact E|]. apply se_none.
  - intros X. rewrite X in H2. discriminate.
Qed.
Print Assumptions C42_push_hides_nothing.
Print Assumptions C42_variable_shadows.
Print Assumptions C42_new_scope_is_free.
Print Assumptions C42_instruction_shadows.
Print Assumptions C42_functions_are_global.
Print Assumptions C42_pop_restores.

(** C43: refuted: a gate with a new name, registered on a qubit, is rejected;
    whatever is registered, gates with names that are not in the instruction set
    are rejected. *)
Theorem C43_refuted : forall lm, exists st1 st2 r,
  register_instruction (fresh_analyzer lm) (mkInstruction "foo" [make_type TQubit]) = Ok st1 /\
  analyze_ast st1 (prog [qubit_decl "q"; gate_on "foo" [] [name "q"]]) = Ok (st2, r) /\ res_errors r <> [].
Proof.
  intros lm. destruct (register_instruction (fresh_analyzer lm) (mkInstruction "foo" [make_type TQubit])) as [st1| | |] eqn:E; try discriminate.
  exists st1. assert (H : match analyze_ast st1 (prog [qubit_decl "q"; gate_on "foo" [] [name "q"]]) with Ok (_, r) => List.length (res_errors r) = 1%nat | _ => False end).
  { injection E as <-. vm_compute. reflexivity. }
  apply (ok_case _ (fun _ r => List.length (res_errors r) = 1%nat)) in H. destruct H as (st2 & r & E2 & H).
  exists st2, r. split; [reflexivity|]. split; [exact E2|]. intros X. now rewrite X in H.
Qed.
Theorem C43_unknown_names_rejected : forall st l lg n ps gan ops an st' es,
  ~ In n (map fst gates) -> ~ In n (map fst non_gates) -> ~ In n (map fst modifiers) ->
  visit_statement st (SGateInstr l (Gate lg n None ps gan) ops an) = (Ok st', es) -> es <> [] /\ st' = st.
Proof. exact unknown_gate. Qed.
(** What holds: an overload of a gate of the instruction set can be used, with
    that gate's parameters and with operands that promote to its types and
    address the same number of qubits. *)
Theorem C43_registered_overload_partial : forall st n ks a ts st1 l lg ps pvs ops vs vs' z,
  In (n, (ks, a)) gates -> register_instruction st (mkInstruction n ts) = Ok st1 ->
  visit_expression_list st1 ps = Ok pvs -> Forall2 fits_param pvs ks ->
  visit_expression_list st1 ops = Ok vs -> Forall typed vs -> promotes_all vs ts vs' -> Forall (fun v => addresses Qubits v z) vs' ->
  exists st2 ws, visit_statement st1 (SGateInstr l (Gate lg n None ps []) ops []) = (Ok st2, []) /\ stored_params pvs ks ws /\
    statements_of st2 = (statements_of st1 ++ [SemGateInstr l (mkInstruction n ts) (SemGate lg n None ws []) vs' []])%list.
Proof. exact known_gate. Qed.
Example C43_case : forall lm, exists st1,
  register_instruction (sample lm) (mkInstruction "H" [make_type TQubit; make_type TQubit]) = Ok st1 /\
  exists st2, visit_statement st1 (gate_on "H" [] [name "p"; EIndex None (name "q") [IItem None (EInt None 2)]]) = (Ok st2, []).
Proof.
  intros lm. destruct (register_instruction (sample lm) (mkInstruction "H" [make_type TQubit; make_type TQubit])) as [st1| | |] eqn:E; try discriminate.
  exists st1. split; [reflexivity|].
  destruct (C43_registered_overload_partial (sample lm) "H" [] 1%nat [make_type TQubit; make_type TQubit] st1 None None [] []
    [name "p"; EIndex None (name "q") [IItem None (EInt None 2)]] [VVar sample_p; VIndex sample_q [2%Z]] [VVar sample_p; VIndex sample_q [2%Z]] 1%Z)
    as (st2 & ws & H & _); eauto.
  all: try (injection E as <-; reflexivity).
  - cbn. tauto.
  - repeat constructor; eexists; reflexivity.
  - split; [reflexivity|]. split; [reflexivity|]. intros [|[|i]] x p x' Ex Ep Ex'; cbn in Ex, Ep, Ex'; try (destruct i; discriminate);
      injection Ex as <-; injection Ep as <-; injection Ex' as <-; reflexivity.
  - constructor; [now apply addr_qubit|]. constructor; [apply (addr_qubit_index sample_q [2%Z]); reflexivity|constructor].
Qed.
Print Assumptions C43_refuted.
Print Assumptions C43_unknown_names_rejected.
Print Assumptions C43_registered_overload_partial.

(** C44, on trees (for texts see PropertiesSyntax.v): if all locations of the tree satisfy [P] then every error has
    a location, satisfying [P]. *)
Theorem C44_tree_errors_located : forall lm P st p st' r, ordinary lm st -> version_same (api_version st) [3; 0]%Z ->
  grammar_program p -> Forall (statement_located P) (prog_statements p) -> (exists l, prog_version_loc p = Some l /\ P l) ->
  analyze_ast st p = Ok (st', r) -> Forall (located P) (res_errors r).
Proof. exact program_located. Qed.
Example C44_case : forall lm, let l := mk_location (Some "f") (mk_range (mkIndex 2 1) (mkIndex 2 4)) in
  exists st' r, analyze_ast (fresh_analyzer lm)
    (mkProgram [3; 0]%Z (Some l) [SGateInstr (Some l) (Gate None "H" None [] []) [name "q"] []] None) = Ok (st', r) /\
  map location (res_errors r) = [Some l].
Proof. intros lm l. apply ok_case. vm_compute. reflexivity. Qed.
Print Assumptions C44_tree_errors_located.

(** C58 *)
Theorem C58_appending_extends : forall st p1 st1 r1 p2 st2 r2,
  analyze_ast st p1 = Ok (st1, r1) -> analyze_ast st (append_programs p1 p2) = Ok (st2, r2) ->
  exists sp1 sp2, res_root r1 = Some sp1 /\ res_root r2 = Some sp2 /\ prefix_of (sp_variables sp1) (sp_variables sp2) /\
    prefix_of (blk_statements (sp_block sp1)) (blk_statements (sp_block sp2)) /\ prefix_of (res_errors r1) (res_errors r2).
Proof. exact appended. Qed.
Example C58_case : forall lm, let p1 := prog [gate_on "H" [] [name "q"]; qubit_decl "q"] in
  let p2 := prog [qubit_decl "q"; gate_on "H" [] [name "q"]] in
  (exists st r, analyze_ast (fresh_analyzer lm) p1 = Ok (st, r) /\ List.length (res_errors r) = 1%nat) /\
  (exists st r, analyze_ast (fresh_analyzer lm) (append_programs p1 p2) = Ok (st, r) /\ List.length (res_errors r) = 2%nat).
Proof. intros lm. split; apply ok_case; vm_compute; reflexivity. Qed.
Print Assumptions C58_appending_extends.

(** C60 *)
Theorem C60_throws_nothing : forall lm st p, analyses lm st -> grammar_program p ->
  (exists st' sp es, analyze_ast st p = Ok (st', mkResult (Some sp) es)) \/ (exists k, analyze_ast st p = UB k).
Proof. exact analysis_total. Qed.
Example C60_case : forall lm, exists st1 r, analyze_ast (fresh_analyzer lm) (prog [qubit_decl "q"; qubit_decl "q"]) = Ok (st1, r) /\ analyses lm st1.
Proof.
  intros lm. destruct (ok_case (analyze_ast (fresh_analyzer lm) (prog [qubit_decl "q"; qubit_decl "q"])) (fun _ _ => True)) as (st1 & r & E & _).
  - vm_compute. exact I.
  - exists st1, r. split; [exact E|]. eapply an_analyze; [apply an_default, fresh_is_default| |exact E]. repeat constructor.
Qed.
(** In a pushed scope, using a variable of the outer scope throws. *)
Example C60_pushed_scope : forall lm, exists w,
  analyze_ast (push_scope (sample lm)) (prog [gate_on "H" [] [name "p"]]) = Throw w.
Proof. intros lm. eexists. vm_compute. reflexivity. Qed.
Print Assumptions C60_throws_nothing.

(** C62 *)
Theorem C62_stays_ordinary : forall lm api st us st', default_analyzer lm api = Ok st -> uses st us st' -> ordinary lm st'.
Proof. intros lm api st us st' H U. eapply uses_ordinary; [exact U|]. eapply default_ordinary, H. Qed.
Example C62_case : forall lm, exists st', uses (fresh_analyzer lm) [UPush; UAnalyze (prog [qubit_decl "pi"]); UPop] st'.
Proof.
  intros lm. destruct (ok_case (analyze_ast (push_scope (fresh_analyzer lm)) (prog [qubit_decl "pi"])) (fun st1 r => res_errors r = [] /\
    List.length (scopes st1) = 2%nat)) as (st1 & r & E & _ & L).
  - vm_compute. split; reflexivity.
  - destruct (pop_scope st1) as [st2| | |] eqn:P; try (unfold pop_scope in P; destruct (scopes st1); discriminate).
    exists st2. apply uses_push. eapply uses_analyze; [exact E|]. eapply uses_pop; [lia|exact P|]. apply uses_none.
Qed.
Print Assumptions C62_stays_ordinary.
