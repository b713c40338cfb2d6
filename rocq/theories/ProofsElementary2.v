(** Programs whose instructions act on single elements, as texts (C113). *)
From Coq Require Import ZArith Lia ZifyBool ZifyNat SpecFloat.
From Verif Require Import Base ModelVersion ModelError ModelTypes ModelOverload ModelFunctions ModelAst
  ModelAnalyzer ModelSemantic
  SpecUtils SpecError SpecTypes SpecFunctions SpecInstructions SpecAnalyzer SpecHull SpecPrint SpecMachine SpecFolded SpecEvaluate SpecMeaning SpecResize
  ProofsFolded2 SpecElementary ProofsElementary SpecAnalyzer.
Local Open Scope string_scope.

Section Written.
  Variable q : sem_program.
  Hypothesis W : writable_program (write_result q).
  Hypothesis M : Forall machine_value (result_values (elementary_result q)).
  Hypothesis F : program_fine (elementary_result q).
  Hypothesis S : Forall (fun y => Forall single_value (result_operands y)) (blk_statements (sp_block (elementary_result q))).

  Lemma written_statements : Forall writable_statement (map write_variable (sp_variables q)) /\ Forall writable_statement (map write_statement (blk_statements (sp_block q))).
  Proof. apply Forall_app. unfold write_result in W. inversion W; assumption. Qed.
  Lemma written_names x : In x (map sv_var (sp_variables q)) -> usable (var_name x).
  Proof.
    intros H. apply in_map_iff in H. destruct H as (v & <- & H). destruct written_statements as [V _]. rewrite Forall_map, Forall_forall in V. specialize (V v H). unfold write_variable in V. inversion V; assumption.
  Qed.
  Lemma written_value y w : In y (blk_statements (sp_block (elementary_result q))) -> In w (result_operands y) -> writable (write_value w).
  Proof.
    intros Hy Hw. pose proof S as S'. rewrite Forall_forall in S'. specialize (S' y Hy). rewrite Forall_forall in S'. specialize (S' w Hw).
    assert (Hv : In w (statement_values y)) by (destruct y; cbn [result_operands statement_values] in *; repeat (apply in_or_app; first [now left|right]); try contradiction; auto using in_or_app).
    apply value_writable.
    - pose proof M as M'. rewrite Forall_forall in M'. apply M'. apply in_or_app. left. apply in_flat_map. eauto.
    - destruct F as (Fs & _). rewrite Forall_forall in Fs. destruct (Fs y Hy) as [Fy _]. rewrite Forall_forall in Fy. specialize (Fy w Hv).
      destruct S' as [(x & -> & _)|(x & z & ->)]; cbn [reference_fine expressible] in *; [exact (written_names x Fy)|]. split; [exact (written_names x (proj1 Fy))|discriminate].
  Qed.
  Lemma written_instruction y : In y (blk_statements (sp_block (elementary_result q))) -> writable_statement (write_statement y).
  Proof.
    intros Hy. assert (V : Forall (fun w => writable (write_value w)) (result_operands y)) by (apply Forall_forall; intros w; exact (written_value y w Hy)).
    cbn [elementary_result sp_block blk_statements] in Hy. apply in_flat_map in Hy. destruct Hy as (x & Hx & Hy). destruct written_statements as [_ X]. rewrite Forall_map, Forall_forall in X. specialize (X x Hx).
    destruct x as [l j g vs an|l j n vs ws an|l n c an]; cbn [elementary_instructions] in Hy.
    - apply in_map_iff in Hy. destruct Hy as (i & <- & _). cbn [write_statement result_operands] in *. inversion X as [|? ? ? Wg No Wo| | | |]; subst. apply wst_gate; [exact Wg| |exact (values_writable _ V)].
      unfold nth_elements. intros E. apply No. destruct vs; [reflexivity|discriminate].
    - apply in_map_iff in Hy. destruct Hy as (i & <- & _). cbn [write_statement result_operands] in *. unfold nth_elements in *. inversion X; subst.
      + destruct vs as [|b1 [|q1 [|]]]; try discriminate. cbn [map] in *. inversion V as [|? ? V1 V2]; subst. inversion V2; subst. apply wst_measure; assumption.
      + destruct vs as [|q1 [|]]; try discriminate. cbn [map] in *. inversion V; subst. apply wst_wait; assumption.
      + destruct vs as [|q1 [|]]; try discriminate. cbn [map] in *. inversion V; subst. apply wst_other; assumption.
    - destruct Hy as [<-|[]]. exact X.
  Qed.
  Lemma elementary_writable : writable_program (write_result (elementary_result q)).
  Proof.
    assert (A : Forall writable_statement (map write_variable (sp_variables q) ++ map write_statement (blk_statements (sp_block (elementary_result q))))%list).
    { apply Forall_app. split; [apply written_statements|]. apply Forall_map, Forall_forall. exact written_instruction. }
    unfold write_result in *. cbn [elementary_result sp_version sp_version_loc sp_variables] in *. inversion W; subst; now constructor.
  Qed.
  Lemma elementary_written : elementary_program (write_result (elementary_result q)).
  Proof.
    intros s e Hs He. cbn [write_result prog_statements] in Hs. apply in_app_or in Hs. destruct Hs as [Hs|Hs]; [apply in_map_iff in Hs; destruct Hs as (v & <- & _); destruct He|].
    apply in_map_iff in Hs. destruct Hs as (y & <- & Hy). assert (X : exists w, e = write_value w /\ In w (result_operands y) /\ In w (statement_values y)).
    { destruct y as [l j g vs an|l j n vs ws an|l n c an]; cbn [write_statement operands_of result_operands statement_values] in *; try contradiction; apply in_map_iff in He; destruct He as (w & <- & Hw); exists w; split; auto; split; auto using in_or_app. }
    destruct X as (w & -> & Hw & Hv). destruct F as (Fs & _ & Fd & _). rewrite Forall_forall in Fs, Fd. destruct (Fs y Hy) as [Fy _]. rewrite Forall_forall in Fy. specialize (Fy w Hv).
    pose proof S as S'. rewrite Forall_forall in S'. specialize (S' y Hy). rewrite Forall_forall in S'. destruct (S' w Hw) as [(x & -> & K1 & K2)|(x & z & ->)]; cbn [reference_fine write_value] in *.
    - left. specialize (Fd x Fy). unfold program_variables in Fy. apply in_map_iff in Fy. destruct Fy as (v & E & Iv). subst x. exists None, (var_name (sv_var v)), None, (write_type (var_type (sv_var v))). split; [reflexivity|]. split.
      + apply in_or_app. left. apply in_map_iff. exists v. split; [reflexivity|exact Iv].
      + unfold declared in Fd. unfold write_type. destruct (kind (var_type (sv_var v))); try reflexivity; tauto || (exfalso; intuition congruence).
    - right. destruct Fy as (_ & _ & Fz). inversion Fz; subst. repeat eexists.
  Qed.
End Written.
