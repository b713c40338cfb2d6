(** Property C104: what names mean in an analyzer, whatever has been registered with it. *)
From Verif Require Import Base ModelUtils ModelVersion ModelError ModelTypes ModelOverload ModelFunctions ModelInstructionSet ModelAst ModelAnalyzer ModelSemantic
  SpecTypes SpecFunctions SpecInstructions SpecAnalyzer SpecRegister ProofsTypes ProofsFunctions ProofsFolding ProofsExpr ProofsAnalyzer ProofsAnalyzer2 ProofsRegister PropertiesAnalyzer.
Local Open Scope string_scope.

(** The default analyzer is built with calls of the API. *)
Theorem C104_default : forall lm api st, default_analyzer lm api = Ok st ->
  built st (map (fun e => (fst (fst e), snd e, spec_types (snd (fst e)))) (default_functions lm))
    [map (fun e => (fst e, mkInstruction (fst e) (spec_types (snd e)), spec_types (snd e))) default_instructions].
Proof. exact built_default. Qed.
(** At most one entry can be chosen. *)
Theorem C104_one_choice : forall (T : Type) n vs (hs : list (list (registration T))) t ws t' ws',
  Forall typed vs -> chosen n vs hs t ws -> chosen n vs hs t' ws' -> t = t' /\ ws = ws'.
Proof. exact @chosen_unique. Qed.
(** A call (an operator is one) has the result of the function that is chosen for the
    values of its arguments, applied to these after promotion; *)
Theorem C104_called : forall st hf his e n args vs f ws, built st hf his -> calls e n args -> visit_expression_list st args = Ok vs -> Forall typed vs ->
  chosen n vs [hf] f ws -> visit_expression st e = with_context (expr_loc e) (f ws).
Proof.
  intros st hf his e n args vs f ws B C V Ht Ch. rewrite (call_spec st e n args vs C V). f_equal. apply (function_spec st hf his B n vs Ht), Ch.
Qed.
(** without such a function it is an error. *)
Theorem C104_not_called : forall st hf his e n args vs, built st hf his -> calls e n args -> visit_expression_list st args = Ok vs -> Forall typed vs ->
  Forall (fun r => ~ applicable n vs r) hf -> exists er, visit_expression st e = Err er.
Proof.
  intros st hf his e n args vs B C V Ht N. rewrite (call_spec st e n args vs C V). destruct (proj2 (function_spec st hf his B n vs Ht) N) as [er ->]. cbn. eauto.
Qed.
(** A gate of the instruction set, with its parameters, is resolved to the instruction that
    is chosen for its operands, if these then address equally many qubits; *)
Theorem C104_gates : forall st hf his l lg n ks a ps pvs ops vs i vs' z, built st hf his ->
  In (n, (ks, a)) gates -> visit_expression_list st ps = Ok pvs -> Forall2 fits_param pvs ks ->
  visit_expression_list st ops = Ok vs -> Forall typed vs -> chosen n vs his i vs' -> Forall (fun v => addresses Qubits v z) vs' ->
  exists st' ws, visit_statement st (SGateInstr l (Gate lg n None ps []) ops []) = (Ok st', []) /\ stored_params pvs ks ws /\
    statements_of st' = (statements_of st ++ [SemGateInstr l i (SemGate lg n None ws []) vs' []])%list.
Proof.
  intros st hf his l lg n ks a ps pvs ops vs i vs' z B G P F O Ht C A.
  exact (proj1 (gate_spec st hf his B l lg n ks a ps pvs ops vs G P F O Ht) i vs' z C A).
Qed.
(** without such an instruction there is one error. *)
Theorem C104_no_gates : forall st hf his l lg n ks a ps pvs ops vs, built st hf his ->
  In (n, (ks, a)) gates -> visit_expression_list st ps = Ok pvs -> Forall2 fits_param pvs ks ->
  visit_expression_list st ops = Ok vs -> Forall typed vs -> Forall (Forall (fun r => ~ applicable n vs r)) his ->
  exists e, visit_statement st (SGateInstr l (Gate lg n None ps []) ops []) = (Ok st, [e]).
Proof.
  intros st hf his l lg n ks a ps pvs ops vs B G P F O Ht N.
  exact (proj2 (gate_spec st hf his B l lg n ks a ps pvs ops vs G P F O Ht) N).
Qed.
(** A registered constant keeps its value, whatever is registered or analysed in its scope;
    it cannot be registered again. *)
Theorem C104_constants : forall st n v st1 st2, register_variable st n v = Ok st1 -> goes_on st1 st2 ->
  (forall l, visit_expression st2 (EIdent l n) = Ok v) /\ (forall w, exists e, register_variable st2 n w = Err e).
Proof. exact constant_stays. Qed.

(** An analyzer with a function that doubles, a sum of a bit register and a number, an H on
    two qubits, and an inner scope with an H on registers *)
Definition twice : core_function := fun vs => match vs with [VInt z] => Ok (VInt (2 * z)) | _ => UB EmptyContainer end.
Definition first_of : core_function := fun vs => match vs with v :: _ => Ok v | [] => UB EmptyContainer end.
Definition extended (lm : libm) : outcome error analyzer :=
  let! a := register_function (fresh_analyzer lm) "twice" [make_type TInt] twice in
  let! b := register_function a "operator+" [make_type TBitArray; make_type TInt] first_of in
  let! c := register_instruction b (mkInstruction "H" [make_type TQubit; make_type TQubit]) in
  let! d := register_variable c "seven" (VInt 7) in
  register_instruction (push_scope d) (mkInstruction "H" [make_type TQubitArray; make_type TQubitArray]).
Example C104_case : forall lm, exists st hf hi his, extended lm = Ok st /\ built st hf (hi :: his) /\ List.length his = 1%nat /\ List.length hi = 1%nat /\
  visit_expression st (EBinary None BAdd (ECall None "twice" (Some [EIdent None "seven"])) (EBool None true)) = Ok (VInt 15) /\
  chosen "twice" [VInt 7] [hf] twice [VInt 7] /\
  (exists e, visit_expression st (ECall None "twice" (Some [EFloat None (float_of_Z 1)])) = Err e).
Proof.
  intros lm.
  assert (V : match extended lm with
    | Ok st => visit_expression st (EBinary None BAdd (ECall None "twice" (Some [EIdent None "seven"])) (EBool None true)) = Ok (VInt 15) /\
        match visit_expression st (ECall None "twice" (Some [EFloat None (float_of_Z 1)])) with Err _ => True | _ => False end
    | _ => False end) by (vm_compute; split; [reflexivity|exact I]).
  destruct (extended lm) as [st| | |] eqn:E; try contradiction. destruct V as [V1 V2].
  unfold extended in E. apply bind_ok_inv in E. destruct E as (a & E1 & E). apply bind_ok_inv in E. destruct E as (b & E2 & E).
  apply bind_ok_inv in E. destruct E as (c & E3 & E). apply bind_ok_inv in E. destruct E as (d & E4 & E5).
  assert (B0 : built (fresh_analyzer lm) (function_history lm) [instruction_history]) by (apply (built_default lm "3.0"); apply fresh_is_default).
  pose proof (built_function _ _ _ _ _ _ _ B0 E1) as B1. pose proof (built_function _ _ _ _ _ _ _ B1 E2) as B2.
  pose proof (built_instruction _ _ _ _ _ _ B2 E3) as B3. pose proof (built_variable _ _ _ _ _ _ B3 E4) as B4.
  pose proof (built_instruction _ _ _ _ _ _ (built_push _ _ _ B4) E5) as B5. clear B0 B1 B2 B3 B4 E1 E2 E3 E4 E5.
  match type of B5 with built _ ?hf (?hi :: ?his) => exists st, hf, hi, his end. split; [reflexivity|]. split; [exact B5|]. split; [reflexivity|]. split; [reflexivity|]. split; [exact V1|]. split.
  - rewrite <- app_assoc. cbn [app]. apply chosen_here.
    + split; [reflexivity|]. split; [reflexivity|]. intros [|[|k]] x p y; cbn; [intros [= <-] [= <-] [= <-]; reflexivity|discriminate|discriminate].
    + constructor; [|constructor]. intros [H _]. discriminate.
  - match goal with |- exists e, ?X = Err e => destruct X as [|e| |]; try contradiction end. exists e. reflexivity.
Qed.
Print Assumptions C104_default. Print Assumptions C104_one_choice. Print Assumptions C104_called. Print Assumptions C104_not_called. Print Assumptions C104_gates. Print Assumptions C104_no_gates. Print Assumptions C104_constants.
