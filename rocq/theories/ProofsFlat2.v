(** Programs with one register of qubits and one of bits, as texts (C115). *)
From Coq Require Import ZArith Lia ZifyBool ZifyNat SpecFloat.
From Verif Require Import Base ModelVersion ModelError ModelTypes ModelOverload ModelFunctions ModelAst
  ModelAnalyzer ModelSemantic
  SpecUtils SpecError SpecTypes SpecFunctions SpecInstructions SpecAnalyzer SpecHull SpecSyntax SpecPrint SpecMachine SpecFolded SpecEvaluate SpecMeaning SpecResize
  ProofsFolded2 SpecElementary ProofsElementary SpecFlat ProofsFlat SpecAnalyzer.
Local Open Scope string_scope.

Section Written.
  Variables (qn bn : string) (q : sem_program).
  Notation vars := (result_variables q).
  Notation flat := (flat_result qn bn q).
  Hypotheses (Uq : usable qn) (Ub : usable bn).
  Hypothesis W : writable_program (write_result q).
  Hypothesis good : Forall SpecInstructions.declared vars.
  Hypotheses (Fq : fits (qubits_of vars)) (Fb : fits (bits_of vars)).
  Hypothesis M : Forall machine_value (result_values flat).
  Hypothesis F : program_fine flat.
  Hypothesis S : Forall (fun y => Forall indexed_value (result_operands y)) (blk_statements (sp_block flat)).

  Lemma flat_names x : In x (program_variables flat) -> var_name x = qn \/ var_name x = bn.
  Proof.
    unfold program_variables. cbn [flat_result sp_variables]. rewrite map_map. cbn [sv_var]. rewrite map_id. unfold flat_variables. intros H. apply in_app_or in H.
    destruct H as [H|H]; match type of H with In _ (if ?b then _ else _) => destruct b end; cbn [In] in H; intuition (subst; auto).
  Qed.
  Lemma flat_values y w : In y (blk_statements (sp_block flat)) -> In w (result_operands y) -> writable (write_value w) /\ SpecFlat.flat_operand qn bn (write_value w).
  Proof.
    intros Hy Hw. pose proof S as S'. rewrite Forall_forall in S'. specialize (S' y Hy). rewrite Forall_forall in S'. destruct (S' w Hw) as (x & zs & -> & Ne).
    assert (Hv : In (VIndex x zs) (statement_values y)) by (destruct y; cbn [result_operands statement_values] in *; repeat (apply in_or_app; first [now left|right]); try contradiction; auto using in_or_app).
    destruct F as (Fs & _). rewrite Forall_forall in Fs. destruct (Fs y Hy) as [Fy _]. rewrite Forall_forall in Fy. specialize (Fy _ Hv). cbn [reference_fine] in Fy. pose proof (flat_names x (proj1 Fy)) as Nx. split.
    - apply value_writable.
      + pose proof M as M'. rewrite Forall_forall in M'. apply M'. apply in_or_app. left. apply in_flat_map. eauto.
      + cbn [expressible]. split; [destruct Nx as [->| ->]; assumption|exact Ne].
    - cbn [write_value]. eexists _, _, _, _. split; [reflexivity|]. split; [exact Nx|]. apply Forall_map, Forall_forall. intros z _. eauto.
  Qed.
  Lemma flat_instructions_writable y : In y (blk_statements (sp_block flat)) -> writable_statement (write_statement y).
  Proof.
    intros Hy. assert (V : Forall (fun w => writable (write_value w)) (result_operands y)) by (apply Forall_forall; intros w Hw; exact (proj1 (flat_values y w Hy Hw))).
    cbn [flat_result sp_block blk_statements] in Hy. apply in_map_iff in Hy. destruct Hy as (x & <- & Hx).
    assert (X : writable_statement (write_statement x)).
    { assert (A : Forall writable_statement (map write_variable (sp_variables q) ++ map write_statement (blk_statements (sp_block q)))%list) by (unfold write_result in W; inversion W; assumption).
      apply Forall_app in A. destruct A as [_ A]. rewrite Forall_map, Forall_forall in A. exact (A x Hx). }
    destruct x as [l j g vs an|l j n vs ws an|l n c an]; cbn [flat_instruction write_statement result_operands] in *.
    - inversion X as [|? ? ? Wg No Wo| | | |]; subst. apply wst_gate; [exact Wg| |exact (values_writable _ V)]. destruct vs; [contradiction|discriminate].
    - inversion X; subst.
      + destruct vs as [|b1 [|q1 [|]]]; try discriminate. cbn [map] in *. inversion V as [|? ? V1 V2]; subst. inversion V2; subst. apply wst_measure; assumption.
      + destruct vs as [|q1 [|]]; try discriminate. cbn [map] in *. inversion V; subst. apply wst_wait; assumption.
      + destruct vs as [|q1 [|]]; try discriminate. cbn [map] in *. inversion V; subst. apply wst_other; assumption.
    - exact X.
  Qed.
  Lemma flat_writable : writable_program (write_result flat).
  Proof.
    assert (A : Forall writable_statement (map write_variable (sp_variables flat) ++ map write_statement (blk_statements (sp_block flat)))%list).
    { apply Forall_app. split; [|apply Forall_map, Forall_forall; exact flat_instructions_writable].
      pose proof (all_positive _ good) as P. pose proof (total_positive _ (filter_positive of_qubits vars P)) as Pq. pose proof (total_positive _ (filter_positive (fun x => negb (of_qubits x)) vars P)) as Pb. fold (qubits_of vars) in Pq. fold (bits_of vars) in Pb.
      cbn [flat_result sp_variables]. unfold flat_variables. rewrite !map_app. unfold fits in *. assert (R : forall n t k, usable n -> (t = TQubitArray \/ t = TBitArray) -> (0 <= k < 2 ^ 63)%Z -> writable_statement (write_variable (mkSemVariable (mkVariable 0 n (mkType t k)) []))).
      { intros n t k Un Ht Hk. unfold write_variable, write_type. destruct Ht as [-> | ->]; cbn [sv_var var_name var_type kind tsize]; (apply wst_variable; [exact Un|auto|]); intros z [= <-]; unfold integer, max_int; lia. }
      apply Forall_app. split.
      + destruct (qubits_of vars =? 0)%Z; [constructor|]. constructor; [|constructor]. apply (R qn TQubitArray _ Uq); [auto|lia].
      + destruct (bits_of vars =? 0)%Z; [constructor|]. constructor; [|constructor]. apply (R bn TBitArray _ Ub); [auto|lia]. }
    unfold write_result in *. cbn [flat_result sp_version sp_version_loc] in *. inversion W; subst; now constructor.
  Qed.
  Lemma flat_written : SpecFlat.flat_program qn bn (qubits_of vars) (bits_of vars) (write_result flat).
  Proof.
    exists (map write_statement (blk_statements (sp_block flat))). split.
    - cbn [write_result prog_statements flat_result sp_variables]. unfold flat_variables, register. rewrite !map_app, <- app_assoc. destruct (qubits_of vars =? 0)%Z, (bits_of vars =? 0)%Z; reflexivity.
    - intros s Hs. apply in_map_iff in Hs. destruct Hs as (y & <- & Hy). split; [intros l n t an; destruct y; discriminate|]. intros e He.
      assert (X : exists w, e = write_value w /\ In w (result_operands y)) by (destruct y; cbn [write_statement operands_of result_operands] in *; try contradiction; apply in_map_iff in He; destruct He as (w & <- & Hw); eauto).
      destruct X as (w & -> & Hw). exact (proj2 (flat_values y w Hy Hw)).
  Qed.
End Written.

(** Taken apart into single elements, there are still only these two registers. *)
Lemma elements_written qn bn q : program_fine (elementary_result (flat_result qn bn q)) ->
  Forall (fun y => Forall single_value (result_operands y)) (blk_statements (sp_block (elementary_result (flat_result qn bn q)))) ->
  SpecFlat.flat_program qn bn (qubits_of (result_variables q)) (bits_of (result_variables q)) (write_result (elementary_result (flat_result qn bn q))).
Proof.
  intros F S. assert (Nm : forall x, In x (program_variables (elementary_result (flat_result qn bn q))) -> (var_name x = qn \/ var_name x = bn) /\ (kind (var_type x) = TQubitArray \/ kind (var_type x) = TBitArray)).
  { intros x. unfold program_variables. cbn [elementary_result flat_result sp_variables]. rewrite map_map. cbn [sv_var]. rewrite map_id. unfold flat_variables. intros H. apply in_app_or in H.
    destruct H as [H|H]; match type of H with In _ (if ?b then _ else _) => destruct b end; cbn [In] in H; intuition (subst; auto). }
  exists (map write_statement (blk_statements (sp_block (elementary_result (flat_result qn bn q))))). split.
  - cbn [write_result prog_statements elementary_result flat_result sp_variables]. unfold flat_variables, register. rewrite !map_app, <- app_assoc. destruct (qubits_of (result_variables q) =? 0)%Z, (bits_of (result_variables q) =? 0)%Z; reflexivity.
  - intros s Hs. apply in_map_iff in Hs. destruct Hs as (y & <- & Hy). split; [intros l n t an; destruct y; discriminate|]. intros e He.
    assert (X : exists w, e = write_value w /\ In w (result_operands y) /\ In w (statement_values y)).
    { destruct y as [l j g vs an|l j n vs ws an|l n c an]; cbn [write_statement operands_of result_operands statement_values] in *; try contradiction; apply in_map_iff in He; destruct He as (w & <- & Hw); exists w; split; auto; split; auto using in_or_app. }
    destruct X as (w & -> & Hw & Hv). destruct F as (Fs & _). rewrite Forall_forall in Fs. destruct (Fs y Hy) as [Fy _]. rewrite Forall_forall in Fy. specialize (Fy w Hv).
    rewrite Forall_forall in S. specialize (S y Hy). rewrite Forall_forall in S. destruct (S w Hw) as [(x & -> & K1 & K2)|(x & z & ->)]; cbn [reference_fine write_value] in *.
    + destruct (Nm x Fy) as [_ K]. exfalso. tauto.
    + eexists _, _, _, _. split; [reflexivity|]. split; [exact (proj1 (Nm x (proj1 Fy)))|]. apply Forall_map, Forall_forall. intros w _. eauto.
Qed.
