(** Programs with one register of qubits and one of bits stay as they are (C115). *)
From Coq Require Import ZArith Lia ZifyBool ZifyNat.
From Verif Require Import Base ModelTypes ModelOverload ModelFunctions ModelAst ModelAnalyzer ModelSemantic
  SpecTypes SpecFunctions SpecAnalyzer SpecEvaluate SpecMeaning SpecResize SpecElementary ProofsElementary SpecFlat.
Local Open Scope string_scope.

Section Settled.
  Variables (qn bn : string) (vars : list variable).
  Notation fv := (flat_variables qn bn vars).

  Lemma settled_counts : qubits_of fv = qubits_of vars /\ bits_of fv = bits_of vars.
  Proof.
    unfold flat_variables, qubit_register, bit_register. generalize (qubits_of vars) (bits_of vars). intros n m. unfold qubits_of, bits_of, total.
    destruct (Z.eqb_spec n 0) as [En|Nn], (Z.eqb_spec m 0) as [Em|Nm]; cbn; lia.
  Qed.
  Lemma settled_registers : qubit_register qn fv = qubit_register qn vars /\ bit_register bn fv = bit_register bn vars.
  Proof. unfold qubit_register, bit_register. destruct settled_counts as [-> ->]. now split. Qed.
  Lemma settled_variables : flat_variables qn bn fv = fv.
  Proof. unfold flat_variables at 1. destruct settled_counts as [-> ->], settled_registers as [-> ->]. reflexivity. Qed.
  Lemma settled_numbers : first_number fv (qubit_register qn vars) = 0%Z /\ first_number fv (bit_register bn vars) = 0%Z.
  Proof.
    unfold first_number, flat_variables. destruct (qubits_of vars =? 0)%Z eqn:Eq, (bits_of vars =? 0)%Z; unfold bit_register; rewrite ?Eq; split; reflexivity.
  Qed.
  Definition settled (w : value) : Prop := match w with VVar _ => False | VIndex x _ => x = qubit_register qn vars \/ x = bit_register bn vars | _ => True end.
  Lemma settled_value w : settled w -> flat_value qn bn fv w = w.
  Proof.
    destruct w as [b|z|f|x|x zs]; cbn [settled flat_value]; try reflexivity; [contradiction|]. assert (I : map (Z.add 0) zs = zs) by (rewrite (map_ext _ (fun z => z)); [apply map_id|intros z; lia]).
    destruct settled_registers as [R1 R2], settled_numbers as [N1 N2]. intros [-> | ->]; cbn [numbers_of].
    - rewrite N1, I. change (of_qubits (qubit_register qn vars)) with true. cbv iota. now rewrite R1.
    - rewrite N2, I. change (of_qubits (bit_register bn vars)) with false. cbv iota. now rewrite R2.
  Qed.
  Lemma flat_settled v : settled (flat_value qn bn vars v).
  Proof. destruct v as [b|z|f|x|x zs]; cbn [flat_value settled]; auto; destruct (of_qubits x); auto. Qed.
  (** The instruction is the one for the operands. *)
  Definition settled_statement (y : sem_statement) : Prop :=
    Forall settled (result_operands y) /\
    match y with SemGateInstr _ j _ vs _ | SemNonGate _ j _ vs _ _ => j = instruction_for (instr_name j) vs | SemAsm _ _ _ _ => True end.
  Lemma settled_statement_kept y : settled_statement y -> flat_instruction qn bn fv y = y.
  Proof.
    intros [S J]. assert (E : map (flat_value qn bn fv) (result_operands y) = result_operands y).
    { clear J. induction S as [|w ws H _ IH]; [reflexivity|]. cbn [map]. now rewrite IH, settled_value. }
    destruct y; cbn [result_operands flat_instruction] in *; rewrite ?E, <- ?J; reflexivity.
  Qed.
  Lemma flat_statement_settled x : settled_statement (flat_instruction qn bn vars x).
  Proof.
    destruct x as [l j g vs an|l j n vs ws an|l n c an]; split; cbn [flat_instruction result_operands]; try (apply Forall_map, Forall_forall; intros; apply flat_settled); try reflexivity; constructor.
  Qed.
  Lemma element_settled v i : settled v -> settled (nth i (elements v) v).
  Proof.
    intros S. destruct (nth_in_or_default i (elements v) v) as [H| ->]; [|exact S]. destruct v as [b|z|f|x|x zs]; cbn [settled elements] in *; try contradiction.
    apply in_map_iff in H. destruct H as (z & <- & _). exact S.
  Qed.
  Lemma elementary_settled y : settled_statement y -> Forall settled_statement (elementary_instructions y).
  Proof.
    intros [S J]. assert (N : forall i, Forall settled (nth_elements i (result_operands y))) by (intros i; unfold nth_elements; apply Forall_map; eapply Forall_impl; [|exact S]; intros v; apply element_settled).
    destruct y as [l j g vs an|l j n vs ws an|l n c an]; cbn [elementary_instructions result_operands] in *; try (apply Forall_map, Forall_forall; intros i _; split; [apply N|reflexivity]). constructor; [split; constructor|constructor].
  Qed.
End Settled.

Lemma settled_result qn bn vars r : sp_variables r = map (fun x => mkSemVariable x []) (flat_variables qn bn vars) -> Forall (settled_statement qn bn vars) (blk_statements (sp_block r)) -> flat_result qn bn r = r.
Proof.
  intros V S. assert (R : result_variables r = flat_variables qn bn vars) by (unfold result_variables; rewrite V, map_map; cbn [sv_var]; apply map_id).
  unfold flat_result. rewrite R, settled_variables, <- V. destruct r as [a v l [ys bl] vs]. cbn [sp_api_version sp_version sp_version_loc sp_block sp_variables blk_statements blk_loc] in *. do 2 f_equal.
  induction S as [|y ys H _ IH]; [reflexivity|]. cbn [map]. now rewrite IH, settled_statement_kept.
Qed.
Lemma flat_once qn bn q : flat_result qn bn (flat_result qn bn q) = flat_result qn bn q.
Proof. apply settled_result with (vars := result_variables q); [reflexivity|]. cbn [flat_result sp_block blk_statements]. apply Forall_map, Forall_forall. intros x _. apply flat_statement_settled. Qed.
Lemma flat_elementary_once qn bn q : flat_result qn bn (elementary_result (flat_result qn bn q)) = elementary_result (flat_result qn bn q).
Proof.
  apply settled_result with (vars := result_variables q); [reflexivity|]. cbn [elementary_result flat_result sp_block blk_statements]. apply Forall_flat_map. apply Forall_map, Forall_forall. intros x _. apply elementary_settled, flat_statement_settled.
Qed.
