(** The operations of instructions written as sequences (C117). *)
From Coq Require Import ZArith Lia ZifyBool ZifyNat.
From Verif Require Import Base ModelTypes ModelOverload ModelFunctions ModelAst ModelAnalyzer ModelSemantic
  SpecUtils SpecTypes SpecFunctions SpecInstructions SpecAnalyzer SpecEvaluate SpecMeaning SpecResize SpecElementary SpecFlat SpecOperations ProofsOperations SpecUnroll ProofsUnroll SpecInstructions SpecMeaning.
Local Open Scope string_scope.

Lemma alone_nth (zs : list Z) i d x : (i < List.length zs)%nat -> VIndex x (alone i zs) = nth i (map (fun z => VIndex x [z]) zs) d.
Proof.
  revert i. induction zs as [|z zs IH]; intros i H; [cbn in H; lia|]. destruct i as [|i]; [reflexivity|]. cbn [map nth]. rewrite alone_cons. apply IH. cbn in H. lia.
Qed.
Lemma picked_elements k vs i : Forall (wide k) vs -> (i < k)%nat -> map (pick_value i) vs = nth_elements i vs.
Proof.
  intros F H. unfold nth_elements. apply map_ext_in. intros v Hv. rewrite Forall_forall in F. destruct (F v Hv) as (x & zs & -> & E). cbn [pick_value elements]. apply alone_nth. lia.
Qed.
Lemma wide_width k vs : vs <> [] -> Forall (wide k) vs -> width vs = k /\ match vs with VIndex _ zs :: _ => List.length zs | _ => 0 end = k.
Proof. intros Ne F. destruct F as [|v vs (x & zs & -> & E) _]; [contradiction|]. cbn [width elements]. now rewrite map_length. Qed.
Lemma unrolled_elementary k x : result_operands x <> [] -> Forall (wide k) (result_operands x) -> unroll_instruction x = elementary_instructions x.
Proof.
  intros Ne F. destruct (wide_width k _ Ne F) as [W W']. unfold unroll_instruction, instruction_width. rewrite W'.
  destruct x as [l j g vs an|l j n vs ws an|l n c an]; cbn [result_operands elementary_instructions pick_instruction] in *; [| |contradiction]; rewrite W; apply map_ext_in; intros i Hi; apply in_seq in Hi; now rewrite (picked_elements k vs i F) by lia.
Qed.
Section Unrolled.
  Variables (lm : libm) (chosen : nat -> bool).
  Lemma alike_elementary vars s x : listed_alike s -> instruction_means lm vars s x -> unroll_instruction x = elementary_instructions x.
  Proof.
    intros (k & Hk & Ne & F) M. destruct M as [l g ops sg base name vs a G O A|l n ops ps ks cs vs ws I O P A Me|]; cbn [operands_of] in *; [| |contradiction];
      apply (unrolled_elementary k); cbn [result_operands]; try exact (values_wide lm vars k ops vs F O); intros ->; inversion O; subst; contradiction.
  Qed.
  Lemma unrolled_block_operations all vars ss vars' xs : block_means lm vars ss vars' xs -> forall n, Forall (fun x => even (result_operands x)) xs -> unrollable_from chosen n ss ->
    flat_map (operations_of all) (unroll_instructions chosen n xs) = flat_map (operations_of all) xs.
  Proof.
    induction 1 as [vars|vars l m t ty ss vars' xs D N1 N2 B IH|vars s x ss vars' xs M B IH]; intros n E U; [reflexivity|exact (IH n E U)|]. inversion E as [|? ? Ex E']; subst.
    assert (C : counted s = true) by (destruct M; reflexivity). destruct (from_counted chosen n s ss C U) as [A U']. cbn [unroll_instructions flat_map]. rewrite flat_map_app, (IH (S n) E' U'). f_equal.
    destruct (chosen n); [|cbn [flat_map]; apply app_nil_r]. rewrite (alike_elementary vars s x (A eq_refl) M). now apply elementary_operations_of.
  Qed.
  Lemma unrolled_operations api p q : program_means lm api p q -> unrollable chosen p -> operations (unroll_result chosen q) = operations q.
  Proof.
    intros P U. pose proof (program_even lm api p q P) as E. destruct P as [vars b V B S]. unfold operations. cbn [unroll_result sp_block blk_statements] in *. eapply unrolled_block_operations; [exact B|exact E|exact U].
  Qed.
End Unrolled.
