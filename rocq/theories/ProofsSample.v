(** An analyzer used in examples and refutations, and the last lemmas for
    C27-C34. *)
From Coq Require Import Reals SpecFloat ZifyBool.
From Verif Require Import Base ModelUtils ModelVersion ModelError ModelTypes ModelOverload ModelFunctions
  ModelInstructionSet ModelAst ModelAnalyzer ModelSemantic SpecTypes SpecFunctions SpecInstructions
  ProofsTypes ProofsFunctions ProofsFolding ProofsExpr ProofsInstructions ProofsGates ProofsIndex.
Local Open Scope string_scope.

(** An analyzer used in the examples: the default analyzer after
    qubit[3] q; bit[3] b; qubit p. *)
Definition sample_q := mkVariable 0 "q" (mkType TQubitArray 3).
Definition sample_b := mkVariable 1 "b" (mkType TBitArray 3).
Definition sample_p := mkVariable 2 "p" (mkType TQubit 1).
Definition sample (lm : libm) : analyzer :=
  mkAnalyzer [3; 0]%Z
    [mkScope (default_constants ++ [("q", VVar sample_q); ("b", VVar sample_b); ("p", VVar sample_p)])%list
       (sc_functions (default_scope lm)) (sc_instructions (default_scope lm)) (mkBlock [] None)
       [mkSemVariable sample_q []; mkSemVariable sample_b []; mkSemVariable sample_p []]] 3.
Definition sample_declarations : list statement :=
  [ SVariable None "q" (mkAstType None "qubit" (Some 3%Z)) [];
    SVariable None "b" (mkAstType None "bit" (Some 3%Z)) [];
    SVariable None "p" (mkAstType None "qubit" None) [] ].
Example sample_reached : forall lm, exists st0, default_analyzer lm "3.0" = Ok st0 /\
  visit_block None st0 sample_declarations = (Ok (sample lm), []).
Proof. intros lm. eexists. split; [apply default_analyzer_value|]. reflexivity. Qed.
Example sample_ordinary : forall lm, ordinary lm (sample lm).
Proof.
  intros lm. split; [|split].
  - eexists _, _, _. split; [apply default_analyzer_value|]. split; [reflexivity|]. split; reflexivity.
  - eexists _, _, [], _. split; [apply default_analyzer_value|]. split; [reflexivity|]. split; [reflexivity|]. split; [constructor|reflexivity].
  - repeat constructor.
Qed.


(** ** Tables *)
Lemma In_fst_iff {A} n (l : list (string * A)) : In n (map fst l) <-> exists a, In (n, a) l.
Proof. split; [apply In_names|]. intros [a H]. exact (in_map fst _ _ H). Qed.
Lemma class_string a : exists s, Forall2 class_char (repeat Qubits a) (list_ascii_of_string s).
Proof. induction a as [|a [s IH]]; [exists ""; constructor|]. exists (String "Q" s). constructor; [left; reflexivity|exact IH]. Qed.
Lemma class_string_any cs : exists s, Forall2 class_char cs (list_ascii_of_string s).
Proof.
  induction cs as [|c cs [s IH]]; [exists ""; constructor|].
  destruct c; [exists (String "Q" s)|exists (String "B" s)]; (constructor; [left; reflexivity|exact IH]).
Qed.
Lemma lists_spec n :
  (is_single_qubit_named_gate n = true <-> exists ks, In (n, (ks, 1%nat)) gates) /\
  (is_two_qubit_named_gate n = true <-> exists ks, In (n, (ks, 2%nat)) gates) /\
  (is_named_gate n = true <-> In n (map fst named_gate_map)) /\
  (is_non_gate n = true <-> In n (map fst non_gate_map)) /\
  (is_gate_modifier n = true <-> In n (map fst gate_modifier_map)) /\
  (is_named_gate n = true -> is_single_qubit_named_gate n = negb (is_two_qubit_named_gate n)).
Proof.
  split; [apply single_spec|]. split; [apply two_spec|]. split; [|split; [|split]].
  - rewrite named_spec, In_fst_iff. split.
    + intros (ks & a & H). destruct (class_string a) as [s Hs]. exists (spec_of ks, s). apply named_gate_map_spec.
      exists ks, a. split; [exact H|]. split; [now apply spec_of_spec|exact Hs].
    + intros ([p s] & H). apply named_gate_map_spec in H. destruct H as (ks & a & H & _). eauto.
  - rewrite non_gate_spec, In_fst_iff. split.
    + intros ([ks cs] & H). destruct (class_string_any cs) as [s Hs]. exists (spec_of ks, s). apply non_gate_map_spec.
      exists ks, cs. split; [exact H|]. split; [now apply spec_of_spec|exact Hs].
    + intros ([p s] & H). apply non_gate_map_spec in H. destruct H as (ks & a & H & _). eauto.
  - rewrite modifier_spec, In_fst_iff. split.
    + intros (ks & H). exists (spec_of ks). apply modifier_map_spec. exists ks. split; [exact H|now apply spec_of_spec].
    + intros (p & H). apply modifier_map_spec in H. destruct H as (ks & H & _). eauto.
  - intros H. apply named_spec in H. destruct H as (ks & a & H). destruct (gates_arity _ _ _ H) as [-> | ->].
    + assert (S : is_single_qubit_named_gate n = true) by (apply single_spec; eauto). rewrite S. symmetry. apply negb_true_iff.
      destruct (is_two_qubit_named_gate n) eqn:T; [|reflexivity]. apply two_spec in T. destruct T as [ks' T].
      destruct (gates_functional _ _ _ _ _ H T). discriminate.
    + assert (S : is_two_qubit_named_gate n = true) by (apply two_spec; eauto). rewrite S. cbn [negb].
      destruct (is_single_qubit_named_gate n) eqn:T; [|reflexivity]. apply single_spec in T. destruct T as [ks' T].
      destruct (gates_functional _ _ _ _ _ H T). discriminate.
Qed.
Lemma lists_disjoint n :
  (is_named_gate n = true -> is_non_gate n = false /\ is_gate_modifier n = false) /\
  (is_non_gate n = true -> is_gate_modifier n = false).
Proof.
  destruct (disjoint_names n) as [D1 D2]. split.
  - intros H. apply named_spec in H. destruct H as (ks & a & H). destruct (D1 (in_map fst _ _ H)) as [N1 N2]. split.
    + destruct (is_non_gate n) eqn:E; [|reflexivity]. apply non_gate_spec in E. destruct E as [x E]. destruct N1. exact (in_map fst _ _ E).
    + destruct (is_gate_modifier n) eqn:E; [|reflexivity]. apply modifier_spec in E. destruct E as [x E]. destruct N2. exact (in_map fst _ _ E).
  - intros H. apply non_gate_spec in H. destruct H as (x & H). pose proof (D2 (in_map fst _ _ H)) as N.
    destruct (is_gate_modifier n) eqn:E; [|reflexivity]. apply modifier_spec in E. destruct E as [y E]. destruct N. exact (in_map fst _ _ E).
Qed.
Lemma string_length_list s : String.length s = List.length (list_ascii_of_string s).
Proof. induction s; cbn; auto. Qed.
Lemma same_parameters n p s p' s' : In (n, (p, s)) named_gate_map -> In (n, (p', s')) named_gate_map ->
  p = p' /\ String.length s = String.length s' /\ get_instruction_param_types n = Ok p.
Proof.
  intros H H'. apply named_gate_map_spec in H. apply named_gate_map_spec in H'.
  destruct H as (ks & a & G & P & S). destruct H' as (ks' & a' & G' & P' & S').
  destruct (gates_functional _ _ _ _ _ G G') as [<- <-]. apply spec_of_spec in P, P'. subst.
  split; [reflexivity|]. rewrite !string_length_list, <- (Forall2_length S), <- (Forall2_length S').
  split; [reflexivity|]. eapply gate_param_types; eauto.
Qed.

(** ** Instructions *)
Lemma modifiers_nest lm st l g ops st' : ordinary lm st -> grammar_gate g ->
  visit_statement st (SGateInstr l g ops []) = (Ok st', []) ->
  exists ks a, In (gate_base g, (ks, a)) gates /\
    Forall (fun m => m = "inv" \/ m = "pow" \/ m = "ctrl") (gate_modifiers g) /\
    (gate_modifiers g <> [] -> a = 1%nat) /\
    ~ In "ctrl" (tl (gate_modifiers g)) /\
    List.length ops = (if in_dec string_dec "ctrl" (gate_modifiers g) then S a else a).
Proof.
  intros H Hg E. destruct (gate_accepted lm st H l g ops st' Hg E) as (n & sg & vs & k & i & L & S & V & Lv & _).
  destruct (legal_chain st g n L) as ((ks & a & G & N & A) & F & T). exists ks, a. split; [exact G|]. split; [exact F|].
  split; [exact N|]. split; [exact T|]. assert (Lo : List.length ops = n).
  { rewrite <- Lv. unfold visit_expression_list in V. apply mapM_ok in V. exact (Forall2_length V). }
  rewrite Lo, A. destruct (in_dec string_dec "ctrl" (gate_modifiers g)) as [I|I].
  - destruct (gate_modifiers g) as [|m ms]; [contradiction|]. cbn [tl] in T. destruct I as [->|I]; [|contradiction].
    rewrite count_occ_cons_eq by reflexivity. apply (count_occ_not_In string_dec) in T. lia.
  - apply (count_occ_not_In string_dec) in I. lia.
Qed.
Lemma wait_without_duration lm : exists st' i vs, ordinary lm (sample lm) /\
  visit_statement (sample lm) (SNonGate None "wait" [EIdent None "p"] [] []) = (Ok st', []) /\
  statements_of st' = [SemNonGate None i "wait" vs [] []].
Proof.
  assert (E : exists st', visit_statement (sample lm) (SNonGate None "wait" [EIdent None "p"] [] []) = (Ok st', [])).
  { destruct (add_statement_ok lm (sample lm) (sample_ordinary lm) (SemNonGate None (mkInstruction "wait" [make_type TQubit]) "wait" [VVar sample_p] [] [])) as [st' A].
    exists st'. rewrite visit_non_gate_statement_pure. apply catch_log_ok.
    apply (non_gate_statement_spec lm (sample lm) (sample_ordinary lm)); [cbn; tauto|].
    exists [TInt], [Qubits], [VVar sample_p], [], [], (mkInstruction "wait" [make_type TQubit]).
    split; [cbn; tauto|]. split; [reflexivity|]. split; [reflexivity|]. split; [auto|].
    split; [constructor; [exists 1%Z; now apply addr_qubit|constructor]|]. split; [discriminate|]. split; [reflexivity|].
    split; [|split; [repeat constructor|exact A]]. constructor; [exists (mkType TQubit 1); split; reflexivity|constructor]. }
  destruct E as [st' E].
  destruct (non_gate_accepted lm (sample lm) (sample_ordinary lm) None "wait" _ _ st' ltac:(cbn; tauto) E)
    as (ks & cs & vs & pvs & ws & i & I & V & P & S & _ & _ & N & T & R).
  exists st', i, vs. split; [apply sample_ordinary|]. split; [exact E|]. rewrite R. cbn in P. injection P as <-.
  destruct S as [[F _]|[_ ->]]; [|reflexivity]. inversion F; subst. cbn in I. decompose [or] I; try contradiction; discriminate.
Qed.
Lemma wait_duration lm st l ops ps st' : ordinary lm st -> grammar_non_gate "wait" ps ->
  visit_statement st (SNonGate l "wait" ops ps []) = (Ok st', []) ->
  exists i vs z, statements_of st' = (statements_of st ++ [SemNonGate l i "wait" vs [VInt z] []])%list.
Proof.
  intros H Hn E. destruct (non_gate_accepted lm st H l _ ops ps st' (proj1 Hn) E) as (ks & cs & vs & pvs & ws & i & I & V & P & S & _ & _ & _ & _ & R).
  destruct (non_gate_params st _ ps pvs ks cs ws Hn P I S) as (ks' & I' & F & (_ & L & D)).
  assert (ks' = [TInt]) by (cbn in I'; decompose [or] I'; try contradiction; congruence). subst ks'.
  inversion F as [|v ? ? ? F1 F2]; subst. inversion F2; subst. destruct ws as [|w [|? ?]]; try discriminate.
  destruct (D 0%nat _ _ _ eq_refl eq_refl eq_refl) as (C & K & _). destruct w as [|z| | |]; try discriminate; try contradiction. eauto.
Qed.
Lemma measure_pairs lm st l ops ps st' : ordinary lm st ->
  visit_statement st (SNonGate l "measure" ops ps []) = (Ok st', []) ->
  exists i b q ws n, statements_of st' = (statements_of st ++ [SemNonGate l i "measure" [b; q] ws []])%list /\
    addresses Bits b n /\ addresses Qubits q n.
Proof.
  intros H E. destruct (non_gate_accepted lm st H l "measure" ops ps st' ltac:(cbn; tauto) E) as (ks & cs & vs & pvs & ws & i & I & V & P & S & _ & M & _ & _ & R).
  assert (cs = [Bits; Qubits]) by (cbn in I; decompose [or] I; try contradiction; congruence). subst cs.
  destruct (M eq_refl) as [n F]. inversion F as [|? b ? ? F1 F2]; subst. inversion F2 as [|? q ? ? F3 F4]; subst. inversion F4; subst.
  exists i, b, q, ws, n. auto.
Qed.
Lemma repetitions_as_written lm st l l' n idx x zs : ordinary lm st ->
  visit_expression st (EIndex l (EIdent l' n) idx) = Ok (VIndex x zs) -> selects st idx zs.
Proof.
  intros H. unfold visit_expression. rewrite with_context_ok_iff. cbn [visit]. rewrite with_context_ok_iff. intros E.
  apply bind_ok_inv in E. destruct E as (b & Eb & E). destruct b as [| | |y|]; try discriminate.
  assert (E' : (let! is := mapM (visit_entry st) idx in let! _ := check_out_of_range (concat is) (tsize (var_type y)) in Ok (VIndex y (concat is))) = Ok (VIndex x zs)).
  { destruct (kind (var_type y)); try discriminate; exact E. }
  apply bind_ok_inv in E'. destruct E' as (is & Ei & E'). apply bind_ok_inv in E'. destruct E' as ([] & _ & [= _ <-]).
  eapply selects_sound; eauto.
Qed.
