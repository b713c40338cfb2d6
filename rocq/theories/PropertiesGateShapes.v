(** Property C103: which instructions are accepted in trees of any shape, not only in those
    that a text can give. *)
From Verif Require Import Base ModelUtils ModelVersion ModelError ModelTypes ModelOverload ModelFunctions ModelInstructionSet ModelAst ModelAnalyzer ModelSemantic
  SpecUtils SpecTypes SpecFunctions SpecInstructions SpecAnalyzer SpecGateShapes ProofsExpr ProofsGates ProofsAnalyzer ProofsAnalyzer2 ProofsGateShapes PropertiesAnalyzer.
Local Open Scope string_scope.

(** A gate application is accepted exactly if the parameters of the gate and of the gates in
    it are right, nothing is around a gate on two qubits, and the operands are those of the
    gate and address equally many qubits; *)
Theorem C103_gates : forall lm st l g ops, ordinary lm st -> plain_gate g ->
  ((exists st', visit_statement st (SGateInstr l g ops []) = (Ok st', [])) <->
   exists cs vs k, gate_fits st g /\ gate_operands g cs /\ visit_expression_list st ops = Ok vs /\ Forall2 (k_qubits k) cs vs).
Proof. intros lm st l g ops H. exact (gate_shapes lm st H l g ops). Qed.
(** another instruction, whatever its name, exactly if its parameters are right and its
    operands are those of the name; only for measure are they counted. *)
Theorem C103_others : forall lm st l n ops ps, ordinary lm st ->
  ((exists st', visit_statement st (SNonGate l n ops ps []) = (Ok st', [])) <->
   exists cs vs pvs, name_operands n cs /\ visit_expression_list st ops = Ok vs /\ visit_expression_list st ps = Ok pvs /\ takes n pvs /\
     Forall2 (fun c v => exists k, addresses c v k) cs vs /\ (n = "measure" -> exists k, Forall2 (fun c v => addresses c v k) cs vs)).
Proof. intros lm st l n ops ps H. exact (other_shapes lm st H l n ops ps). Qed.
(** A measurement in the place of a gate is never accepted, except without indices. *)
Theorem C103_measure : forall lm st l l' ps ops vs st', ordinary lm st -> visit_expression_list st ops = Ok vs ->
  visit_statement st (SGateInstr l (Gate l' "measure" None ps []) ops []) = (Ok st', []) -> exists x, In (VIndex x []) vs.
Proof.
  intros lm st l l' ps ops vs st' H V E.
  assert (P : plain_gate (Gate l' "measure" None ps [])) by (constructor; discriminate).
  destruct (proj1 (gate_shapes lm st H l _ ops P) (ex_intro _ st' E)) as (cs & vs' & k & _ & G & V' & K). rewrite V in V'. injection V' as <-.
  pose proof (visit_list_ordinary lm st H _ _ V) as Ho.
  assert (cs = [Bits; Qubits]) by (inversion G as [? ? ? ? ? N| |]; subst; inversion N as [ks a I|ks cs' I]; subst; cbn in I; decompose [or] I; try contradiction; congruence).
  subst cs. inversion K as [|? b ? ? B K1]; subst. cbn [k_qubits] in B. destruct B as [-> _]. inversion K1 as [|? q ? ? A K2]; subst. inversion K2; subst. cbn [k_qubits] in A.
  inversion Ho as [|? ? _ Ho1]; subst. inversion Ho1 as [|? ? Oq _]; subst.
  inversion A; subst.
  - exfalso. cbn in Oq. unfold declared in Oq. match goal with E : kind _ = TQubitArray |- _ => rewrite E in Oq end. lia.
  - match goal with |- context [VIndex ?x ?idx] => exists x; destruct idx; [cbn; auto|discriminate] end.
Qed.
(** What is not accepted leaves one error and nothing else, or is undefined. *)
Theorem C103_rejected : forall lm st l g ops, ordinary lm st -> plain_gate g ->
  (exists st', visit_statement st (SGateInstr l g ops []) = (Ok st', [])) \/
  (exists e, visit_statement st (SGateInstr l g ops []) = (Ok st, [e])) \/
  (exists k, visit_statement st (SGateInstr l g ops []) = (UB k, [])).
Proof.
  intros lm st l g ops H P. exact (gate_otherwise lm st H l g ops P).
Qed.

(** H in the place of a modifier of X, on two registers of three qubits; a modifier of
    nothing; a swap, written as another instruction, of one and of three qubits *)
Definition three : statement := SVariable None "r" (mkAstType None "qubit" (Some 3%Z)) [].
Definition odd_gate : gate := Gate None "H" (Some (Gate None "X" None [] [])) [] [].
Definition three_state (lm : libm) : analyzer :=
  match fst (visit_statement (fresh_analyzer lm) three) with Ok st => match fst (visit_statement st (qubit_decl "q")) with Ok st' => st' | _ => st end | _ => fresh_analyzer lm end.
Definition accepts (r : logged analyzer) : bool := match r with (Ok _, []) => true | _ => false end.
Example C103_case : forall lm, ordinary lm (three_state lm) /\ plain_gate odd_gate /\
  accepts (visit_statement (three_state lm) (SGateInstr None odd_gate [EIdent None "r"; EIdent None "r"] [])) = true /\
  accepts (visit_statement (three_state lm) (SGateInstr None odd_gate [EIdent None "r"; EIdent None "q"] [])) = false /\
  accepts (visit_statement (three_state lm) (SGateInstr None (Gate None "inv" None [] []) [EIdent None "q"] [])) = false /\
  accepts (visit_statement (three_state lm) (SNonGate None "SWAP" [EIdent None "r"; EIdent None "q"] [] [])) = true.
Proof.
  intros lm. split; [|split; [constructor; intros ? [= <-]; constructor; discriminate|vm_compute; repeat split; reflexivity]].
  assert (K : forall st s, ordinary lm st -> ordinary lm (match fst (visit_statement st s) with Ok st' => st' | _ => st end)).
  { intros st s H. destruct (visit_statement st s) as [[st'|e|w|k] es] eqn:E; cbn [fst]; try exact H.
    apply (ordinary_extends lm st st' H), (effect_extends st s st' es), statement_effect, E. }
  unfold three_state. pose proof (K (fresh_analyzer lm) three (default_ordinary_any lm _ _)) as H.
  destruct (fst (visit_statement (fresh_analyzer lm) three)) as [st| | |]; try exact H. apply (K st (qubit_decl "q") H).
Qed.
Print Assumptions C103_gates. Print Assumptions C103_others. Print Assumptions C103_measure. Print Assumptions C103_rejected.
