(** Properties C27-C34, C61: the instruction set, instructions and indices. *)
From Coq Require Import Reals SpecFloat.
From Verif Require Import Base ModelUtils ModelVersion ModelError ModelTypes ModelOverload ModelFunctions
  ModelInstructionSet ModelAst ModelAnalyzer ModelSemantic SpecTypes SpecFunctions SpecInstructions
  ProofsTypes ProofsFunctions ProofsFolding ProofsExpr ProofsInstructions ProofsGates ProofsIndex ProofsSample.
Local Open Scope string_scope.

(** C27: the tables of the code are those of the language. *)
Theorem C27_named_gates : forall n p s, In (n, (p, s)) named_gate_map <->
  exists ks a, In (n, (ks, a)) gates /\ param_spec p ks /\ Forall2 class_char (repeat Qubits a) (list_ascii_of_string s).
Proof. exact named_gate_map_spec. Qed.
Theorem C27_non_gates : forall n p s, In (n, (p, s)) non_gate_map <->
  exists ks cs, In (n, (ks, cs)) non_gates /\ param_spec p ks /\ Forall2 class_char cs (list_ascii_of_string s).
Proof. exact non_gate_map_spec. Qed.
Theorem C27_modifiers : forall n p, In (n, p) gate_modifier_map <-> exists ks, In (n, ks) modifiers /\ param_spec p ks.
Proof. exact modifier_map_spec. Qed.
Theorem C27_lists : forall n,
  (is_single_qubit_named_gate n = true <-> exists ks, In (n, (ks, 1%nat)) gates) /\
  (is_two_qubit_named_gate n = true <-> exists ks, In (n, (ks, 2%nat)) gates) /\
  (is_named_gate n = true <-> In n (map fst named_gate_map)) /\
  (is_non_gate n = true <-> In n (map fst non_gate_map)) /\
  (is_gate_modifier n = true <-> In n (map fst gate_modifier_map)) /\
  (is_named_gate n = true -> is_single_qubit_named_gate n = negb (is_two_qubit_named_gate n)).
Proof. exact lists_spec. Qed.
Theorem C27_disjoint : forall n,
  (is_named_gate n = true -> is_non_gate n = false /\ is_gate_modifier n = false) /\
  (is_non_gate n = true -> is_gate_modifier n = false).
Proof. exact lists_disjoint. Qed.
Theorem C27_same_parameters : forall n p s p' s', In (n, (p, s)) named_gate_map -> In (n, (p', s')) named_gate_map ->
  p = p' /\ String.length s = String.length s' /\ get_instruction_param_types n = Ok p.
Proof. exact same_parameters. Qed.
Example C27_case : In ("Rx", (Some "f", "V")) named_gate_map /\ is_two_qubit_named_gate "CRk" = true /\
  is_named_gate "rx" = false /\ In ("measure", (Some "fff", "BV")) non_gate_map.
Proof. cbn. intuition. Qed.
Print Assumptions C27_named_gates.
Print Assumptions C27_non_gates.
Print Assumptions C27_modifiers.
Print Assumptions C27_lists.
Print Assumptions C27_disjoint.
Print Assumptions C27_same_parameters.

(** C28 *)
Theorem C28_gate_accepted_iff : forall lm st l g ops, ordinary lm st -> grammar_gate g ->
  ((exists st', visit_statement st (SGateInstr l g ops []) = (Ok st', [])) <->
   exists a vs k, legal_gate st g a /\ visit_expression_list st ops = Ok vs /\
     List.length vs = a /\ Forall (fun v => addresses Qubits v k) vs).
Proof. intros lm st l g ops H. exact (gate_accepted_iff lm st H l g ops). Qed.
(** What an accepted application adds. *)
Theorem C28_gate_result : forall lm st l g ops st', ordinary lm st -> grammar_gate g ->
  visit_statement st (SGateInstr l g ops []) = (Ok st', []) ->
  exists sg vs i, visit_expression_list st ops = Ok vs /\ operands_typed i vs /\
    statements_of st' = (statements_of st ++ [SemGateInstr l i sg vs []])%list.
Proof.
  intros lm st l g ops st' H Hg E. destruct (gate_accepted lm st H l g ops st' Hg E) as (a & sg & vs & k & i & P). exists sg, vs, i. tauto.
Qed.
Example C28_case : forall lm, exists g ops,
  grammar_gate g /\ gate_modifiers g = ["ctrl"; "pow"] /\
  exists st', visit_statement (sample lm) (SGateInstr None g ops []) = (Ok st', []).
Proof.
  intros lm. exists (Gate None "ctrl" (Some (Gate None "pow" (Some (Gate None "Rx" None [EIdent None "pi"] [])) [EInt None 2] [])) [] []).
  exists [EIdent None "p"; EIndex None (EIdent None "q") [IItem None (EInt None 1)]].
  assert (G : grammar_gate (Gate None "ctrl" (Some (Gate None "pow" (Some (Gate None "Rx" None [EIdent None "pi"] [])) [EInt None 2] [])) [] [])).
  { constructor; [cbn; tauto|]. constructor; [cbn; tauto|]. constructor; cbn; intuition discriminate. }
  split; [exact G|]. split; [reflexivity|].
  apply (C28_gate_accepted_iff lm (sample lm)); [apply sample_ordinary|exact G|].
  exists 2%nat, [VVar sample_p; VIndex sample_q [1%Z]], 1%Z. split; [|split; [reflexivity|split; [reflexivity|]]].
  - apply legal_ctrl. eapply legal_pow; [|reflexivity|split; [exact I|right; exact I]].
    eapply legal_named; [cbn; tauto|reflexivity|]. constructor; [|constructor]. split; [exact I|left; reflexivity].
  - constructor; [now apply addr_qubit|]. constructor; [|constructor]. apply (addr_qubit_index sample_q [1%Z]). reflexivity.
Qed.
Print Assumptions C28_gate_accepted_iff.
Print Assumptions C28_gate_result.

(** C29 *)
Theorem C29_modifiers_nest : forall lm st l g ops st', ordinary lm st -> grammar_gate g ->
  visit_statement st (SGateInstr l g ops []) = (Ok st', []) ->
  exists ks a, In (gate_base g, (ks, a)) gates /\
    Forall (fun m => m = "inv" \/ m = "pow" \/ m = "ctrl") (gate_modifiers g) /\
    (gate_modifiers g <> [] -> a = 1%nat) /\
    ~ In "ctrl" (tl (gate_modifiers g)) /\
    List.length ops = (if in_dec string_dec "ctrl" (gate_modifiers g) then S a else a).
Proof. exact modifiers_nest. Qed.
Example C29_case : forall lm st l st', ordinary lm st ->
  visit_statement st (SGateInstr l (Gate l "inv" (Some (Gate l "ctrl" (Some (Gate l "X" None [] [])) [] [])) [] []) [EIdent l "p"] []) <> (Ok st', []).
Proof.
  intros lm st l st' H E. eapply C29_modifiers_nest in E; [|exact H|].
  - destruct E as (ks & a & _ & _ & _ & N & _). apply N. cbn. auto.
  - constructor; [cbn; tauto|]. constructor; [cbn; tauto|]. constructor; cbn; intuition discriminate.
Qed.
Print Assumptions C29_modifiers_nest.

(** C30 *)
Theorem C30_gate_parameters : forall lm st l g ops st', ordinary lm st -> grammar_gate g ->
  visit_statement st (SGateInstr l g ops []) = (Ok st', []) ->
  exists i sg vs, statements_of st' = (statements_of st ++ [SemGateInstr l i sg vs []])%list /\
    gate_stored denotes_as st g sg.
Proof.
  intros lm st l g ops st' H Hg E. destruct (gate_accepted lm st H l g ops st' Hg E) as (a & sg & vs & k & i & L & S & _ & _ & _ & _ & _ & R).
  exists i, sg, vs. split; [exact R|]. eapply stored_gate_denotes; eauto.
Qed.
Theorem C30_non_gate_parameters : forall lm st l n ops ps st', ordinary lm st -> grammar_non_gate n ps ->
  visit_statement st (SNonGate l n ops ps []) = (Ok st', []) ->
  exists i vs pvs ws ks cs, statements_of st' = (statements_of st ++ [SemNonGate l i n vs ws []])%list /\
    visit_expression_list st ps = Ok pvs /\ In (n, (ks, cs)) non_gates /\ params_stored denotes_as pvs ks ws.
Proof.
  intros lm st l n ops ps st' H Hn E.
  destruct (non_gate_accepted lm st H l n ops ps st' (proj1 Hn) E) as (ks & cs & vs & pvs & ws & i & I & V & P & S & _ & _ & _ & _ & R).
  destruct (non_gate_params st n ps pvs ks cs ws Hn P I S) as (ks' & I' & F & S'). exists i, vs, pvs, ws, ks', cs.
  split; [exact R|]. split; [exact P|]. split; [exact I'|]. now apply stored_params_denote.
Qed.
Example C30_case : forall lm,
  match visit_statement (sample lm) (SNonGate None "wait" [EIdent None "p"] [EBool None true] []) with
  | (Ok st', []) => statements_of st' =
      [SemNonGate None (mkInstruction "wait" [make_type TQubit]) "wait" [VVar sample_p] [VInt 1] []]
  | _ => False
  end.
Proof. intros lm. vm_compute. reflexivity. Qed.
Print Assumptions C30_gate_parameters.
Print Assumptions C30_non_gate_parameters.

(** C31: a tree with a wait without parameters is accepted; the parser never
    builds one. *)
Theorem C31_refuted : forall lm, exists st' i vs, ordinary lm (sample lm) /\
  visit_statement (sample lm) (SNonGate None "wait" [EIdent None "p"] [] []) = (Ok st', []) /\
  statements_of st' = [SemNonGate None i "wait" vs [] []].
Proof. exact wait_without_duration. Qed.
Theorem C31_wait_from_grammar : forall lm st l ops ps st', ordinary lm st -> grammar_non_gate "wait" ps ->
  visit_statement st (SNonGate l "wait" ops ps []) = (Ok st', []) ->
  exists i vs z, statements_of st' = (statements_of st ++ [SemNonGate l i "wait" vs [VInt z] []])%list.
Proof. exact wait_duration. Qed.
Example C31_case : forall e, grammar_non_gate "wait" [e].
Proof. intros e. split; [cbn; tauto|]. split; [reflexivity|congruence]. Qed.
Print Assumptions C31_refuted.
Print Assumptions C31_wait_from_grammar.

(** C32 *)
Theorem C32_measure_pairs : forall lm st l ops ps st', ordinary lm st ->
  visit_statement st (SNonGate l "measure" ops ps []) = (Ok st', []) ->
  exists i b q ws n, statements_of st' = (statements_of st ++ [SemNonGate l i "measure" [b; q] ws []])%list /\
    addresses Bits b n /\ addresses Qubits q n.
Proof. exact measure_pairs. Qed.
Example C32_case : forall lm,
  match visit_statement (sample lm) (SNonGate None "measure" [EIdent None "b"; EIdent None "q"] [] []) with
  | (Ok st', []) => List.length (statements_of st') = 1%nat
  | _ => False
  end /\
  match visit_statement (sample lm) (SNonGate None "measure" [EIdent None "b"; EIdent None "p"] [] []) with
  | (Ok _, [e]) => message e = "qubit and bit indices have different sizes"
  | _ => False
  end.
Proof. intros lm. split; vm_compute; reflexivity. Qed.
Print Assumptions C32_measure_pairs.

(** C33. (The size of a register is an Int; ranges up to the largest Int are
    undefined rather than rejected, see C21.) *)
Theorem C33_index_accepted_iff : forall lm st l l' n idx v, ordinary lm st ->
  (forall x, resolve_variable st n = Ok (VVar x) -> (tsize (var_type x) <= 2 ^ 63 - 1)%Z) ->
  (visit_expression st (EIndex l (EIdent l' n) idx) = Ok v <->
   exists x zs, resolve_variable st n = Ok (VVar x) /\
     (kind (var_type x) = TQubitArray \/ kind (var_type x) = TBitArray) /\
     selects st idx zs /\ Forall (fun z => 0 <= z < tsize (var_type x))%Z zs /\ v = VIndex x zs).
Proof. intros lm st l l' n idx v H. exact (index_accepted lm st H l l' n idx v). Qed.
Example C33_case : forall lm,
  visit_expression (sample lm) (EIndex None (EIdent None "q") [IItem None (EInt None 2); IRange None (EInt None 0) (EInt None 1)])
  = Ok (VIndex sample_q [2; 0; 1]%Z).
Proof. reflexivity. Qed.
Print Assumptions C33_index_accepted_iff.

(** C34 is false: q[0, 0] is accepted. *)
Theorem C34_refuted : forall lm, ordinary lm (sample lm) /\
  visit_expression (sample lm) (EIndex None (EIdent None "q") [IItem None (EInt None 0); IItem None (EInt None 0)])
  = Ok (VIndex sample_q [0; 0]%Z).
Proof. intros lm. split; [apply sample_ordinary|reflexivity]. Qed.
(** The repetitions are exactly those of the source; one item or range has none. *)
Theorem C34_repetitions_as_written : forall lm st l l' n idx x zs, ordinary lm st ->
  visit_expression st (EIndex l (EIdent l' n) idx) = Ok (VIndex x zs) -> selects st idx zs.
Proof. exact repetitions_as_written. Qed.
Theorem C34_single_entry : forall lm st l b i x idx, ordinary lm st ->
  visit_expression st (EIndex l b [i]) = Ok (VIndex x idx) -> NoDup idx.
Proof. intros lm st l b i x idx H. exact (single_entry_distinct lm st H l b i x idx). Qed.
Example C34_case : forall lm, ordinary lm (sample lm) /\
  visit_expression (sample lm) (EIndex None (EIdent None "q") [IRange None (EInt None 0) (EInt None 2)]) = Ok (VIndex sample_q [0; 1; 2]%Z).
Proof. intros lm. split; [apply sample_ordinary|reflexivity]. Qed.
Print Assumptions C34_refuted.
Print Assumptions C34_repetitions_as_written.
Print Assumptions C34_single_entry.

(** C61: instructions that are not gates. *)
Theorem C61_non_gate_accepted_iff : forall lm st l n ops ps, ordinary lm st -> grammar_non_gate n ps ->
  ((exists st', visit_statement st (SNonGate l n ops ps []) = (Ok st', [])) <->
   exists ks cs vs pvs, In (n, (ks, cs)) non_gates /\ visit_expression_list st ops = Ok vs /\ visit_expression_list st ps = Ok pvs /\
     Forall2 fits_param pvs ks /\ Forall2 (fun c v => exists k, addresses c v k) cs vs /\
     (n = "measure" -> exists k, Forall2 (fun c v => addresses c v k) cs vs)).
Proof. intros lm st l n ops ps H. exact (non_gate_accepted_iff lm st H l n ops ps). Qed.
Example C61_case : forall lm, exists st',
  visit_statement (sample lm) (SNonGate None "reset" [EIndex None (EIdent None "q") [IRange None (EInt None 1) (EInt None 2)]] [] []) = (Ok st', []).
Proof.
  intros lm. apply (C61_non_gate_accepted_iff lm); [apply sample_ordinary| |].
  - split; [cbn; tauto|]. split; congruence.
  - exists [], [Qubits], [VIndex sample_q [1; 2]%Z], []. split; [cbn; tauto|]. split; [reflexivity|]. split; [reflexivity|].
    split; [constructor|]. split; [|discriminate]. constructor; [|constructor]. exists 2%Z. exact (addr_qubit_index sample_q [1; 2]%Z eq_refl).
Qed.
Print Assumptions C61_non_gate_accepted_iff.
