(** The operations of results with single elements, and with two registers (C117). *)
From Coq Require Import ZArith Lia ZifyBool ZifyNat.
From Verif Require Import Base ModelTypes ModelOverload ModelFunctions ModelAst ModelAnalyzer ModelSemantic
  SpecUtils SpecTypes SpecFunctions SpecInstructions SpecAnalyzer SpecEvaluate SpecMeaning SpecResize SpecElementary ProofsElementary SpecFlat ProofsFlat ProofsFlat3 SpecSingle SpecSpelled SpecOperations SpecInstructions SpecMeaning.
Local Open Scope string_scope.

(** ** Two registers *)
Lemma flat_places qn bn vars v : places (flat_variables qn bn vars) (flat_value qn bn vars v) = places vars v.
Proof.
  assert (I : forall zs, map (Z.add 0) zs = zs) by (intros zs; rewrite (map_ext _ (fun z => z)); [apply map_id|intros z; lia]).
  destruct (settled_numbers qn bn vars) as [N1 N2].
  assert (A : forall x v, places (flat_variables qn bn vars) (VIndex (if of_qubits x then qubit_register qn vars else bit_register bn vars) (numbers_of vars v)) = map (pair (of_qubits x)) (numbers_of vars v)).
  { intros x w. cbn [places]. destruct (of_qubits x).
    - change (numbers_of (flat_variables qn bn vars) (VIndex (qubit_register qn vars) (numbers_of vars w))) with (map (Z.add (first_number (flat_variables qn bn vars) (qubit_register qn vars))) (numbers_of vars w)). rewrite N1, I. reflexivity.
    - change (numbers_of (flat_variables qn bn vars) (VIndex (bit_register bn vars) (numbers_of vars w))) with (map (Z.add (first_number (flat_variables qn bn vars) (bit_register bn vars))) (numbers_of vars w)). rewrite N2, I. reflexivity. }
  destruct v as [b|z|f|x|x zs]; cbn [flat_value]; try reflexivity; rewrite A; reflexivity.
Qed.
Lemma flat_applications qn bn vars vs : applications (flat_variables qn bn vars) (map (flat_value qn bn vars) vs) = applications vars vs.
Proof. unfold applications. rewrite map_map. rewrite (map_ext _ (places vars)); [reflexivity|]. intros v. apply flat_places. Qed.
Lemma flat_operations qn bn q : operations (flat_result qn bn q) = operations q.
Proof.
  unfold operations. assert (E : result_variables (flat_result qn bn q) = flat_variables qn bn (result_variables q)) by (unfold result_variables at 1; cbn [flat_result sp_variables]; rewrite map_map; cbn [sv_var]; apply map_id).
  rewrite E. cbn [flat_result sp_block blk_statements]. induction (blk_statements (sp_block q)) as [|x xs IH]; [reflexivity|]. cbn [map flat_map]. rewrite IH. f_equal. destruct x; cbn [flat_instruction operations_of]; rewrite ?flat_applications; reflexivity.
Qed.

(** ** Single elements *)
Definition sound (v : value) : Prop := match v with VVar x => SpecInstructions.declared x | VIndex _ _ => True | _ => False end.
Lemma places_elements vars v : sound v -> List.length (places vars v) = List.length (elements v) /\
  forall i, (i < List.length (elements v))%nat -> places vars (nth i (elements v) v) = [nth i (places vars v) (false, 0%Z)].
Proof.
  assert (Many : forall x zs, List.length (map (pair (of_qubits x)) (map (Z.add (first_number vars x)) zs)) = List.length (map (fun z => VIndex x [z]) zs) /\
    forall i d, (i < List.length (map (fun z => VIndex x [z]) zs))%nat -> places vars (nth i (map (fun z => VIndex x [z]) zs) d) = [nth i (map (pair (of_qubits x)) (map (Z.add (first_number vars x)) zs)) (false, 0%Z)]).
  { intros x zs. rewrite !map_length. split; [reflexivity|]. induction zs as [|z zs IH]; intros i d L; [cbn in L; lia|]. destruct i as [|i]; [reflexivity|]. cbn [map nth List.length] in *. apply IH. lia. }
  destruct v as [b|z|f|x|x zs]; cbn [sound]; try contradiction; intros D.
  - unfold SpecInstructions.declared in D. destruct (kind (var_type x)) eqn:K; try contradiction; cbn [elements places numbers_of]; rewrite K.
    all: try (destruct (Many x (from_to 0 (tsize (var_type x) - 1))) as [M1 M2]; split; [exact M1|intros i; apply M2]).
    all: rewrite D; unfold from_to; cbn [List.length map seq Z.to_nat]; split; [reflexivity|]; intros [|i] L; [|cbn in L; lia]; cbn [nth places numbers_of]; rewrite D; reflexivity.
  - cbn [elements places numbers_of]. destruct (Many x zs) as [M1 M2]. split; [exact M1|]. intros i. apply M2.
Qed.
Definition even (vs : list value) : Prop := forall v, In v vs -> sound v /\ List.length (elements v) = width vs.
Lemma elementary_applications vars vs i : even vs -> (i < width vs)%nat -> applications vars (nth_elements i vs) = [map (fun p => nth i p (false, 0%Z)) (map (places vars) vs)].
Proof.
  intros E L. assert (P : map (places vars) (nth_elements i vs) = map (fun p => [nth i p (false, 0%Z)]) (map (places vars) vs)).
  { unfold nth_elements. rewrite !map_map. apply map_ext_in. intros v Hv. destruct (E v Hv) as [S W]. apply places_elements; [exact S|lia]. }
  unfold applications. rewrite P. destruct vs as [|v vs]; [reflexivity|]. cbn [map List.length seq]. f_equal. f_equal. rewrite !map_map. reflexivity.
Qed.
Lemma applications_even vars vs : even vs -> applications vars vs = map (fun i => map (fun p => nth i p (false, 0%Z)) (map (places vars) vs)) (seq 0 (width vs)).
Proof.
  intros E. unfold applications. destruct vs as [|v vs]; [reflexivity|]. cbn [map]. do 2 f_equal. destruct (E v (or_introl eq_refl)) as [S W]. rewrite <- W. apply places_elements. exact S.
Qed.
Lemma elementary_operations_of vars x : even (result_operands x) -> flat_map (operations_of vars) (elementary_instructions x) = operations_of vars x.
Proof.
  intros E. assert (A : forall (f : nat -> sem_statement) (h : list place -> operation) vs, even vs -> (forall i, operations_of vars (f i) = map h (applications vars (nth_elements i vs))) -> flat_map (operations_of vars) (map f (seq 0 (width vs))) = map h (applications vars vs)).
  { intros f h vs Ev H. rewrite (applications_even vars vs Ev), map_map. assert (X : forall i, In i (seq 0 (width vs)) -> (i < width vs)%nat) by (intros i Hi; apply in_seq in Hi; lia). revert X. generalize (seq 0 (width vs)) as is. induction is as [|i is IH]; intros X; [reflexivity|].
    cbn [map flat_map]. rewrite H, (elementary_applications vars vs i Ev); [|apply X; now left]. cbn [map app]. f_equal. apply IH. intros j Hj. apply X. now right. }
  destruct x as [l j g vs an|l j n vs ws an|l n c an]; cbn [elementary_instructions operations_of result_operands] in *; [| |reflexivity].
  - apply (A _ (OGate g) vs E). reflexivity.
  - apply (A _ (fun ps => OOther n ps ws) vs E). reflexivity.
Qed.
Lemma elementary_operations q : Forall (fun x => even (result_operands x)) (blk_statements (sp_block q)) -> operations (elementary_result q) = operations q.
Proof.
  intros F. unfold operations. change (result_variables (elementary_result q)) with (result_variables q). cbn [elementary_result sp_block blk_statements]. induction F as [|x xs H _ IH]; [reflexivity|]. cbn [flat_map]. rewrite flat_map_app, IH. f_equal. now apply elementary_operations_of.
Qed.

(** ** In accepted programs the operands of an instruction have equally many elements. *)
Section Accepted.
  Variable lm : libm.
  Lemma counted c v k : sound v -> addresses c v k -> k = Z.of_nat (List.length (elements v)).
  Proof.
    intros S A. destruct A as [x E|x E|x E|x E|x zs E|x zs E]; cbn [elements sound] in *; rewrite ?E, ?map_length; try reflexivity; unfold SpecInstructions.declared in S; rewrite E in S; unfold from_to; rewrite map_length, seq_length; lia.
  Qed.
  Lemma operand_sound vars e v : Forall SpecInstructions.declared vars -> operand_means lm vars e v -> sound v.
  Proof. intros D M. rewrite Forall_forall in D. destruct M; cbn [sound]; auto. Qed.
  Lemma operands_sound vars es vs : Forall SpecInstructions.declared vars -> Forall2 (operand_means lm vars) es vs -> Forall sound vs.
  Proof. intros D. induction 1; constructor; eauto using operand_sound. Qed.
  Lemma counted_even k vs : Forall (fun v => sound v /\ k = Z.of_nat (List.length (elements v))) vs -> even vs.
  Proof.
    intros F v Hv. rewrite Forall_forall in F. destruct (F v Hv) as [S E]. split; [exact S|]. destruct vs as [|w vs]; [destruct Hv|]. destruct (F w (or_introl eq_refl)) as [_ E']. cbn [width]. lia.
  Qed.
  Lemma instruction_even vars s x : Forall SpecInstructions.declared vars -> instruction_means lm vars s x -> even (result_operands x).
  Proof.
    intros D M. destruct M as [l g ops sg base name vs k Ga O A|l n ops ps ks cs vs ws In0 O P A Me|l n code]; cbn [result_operands]; [| |intros v []].
    - pose proof (operands_sound vars ops vs D O) as S. apply (counted_even k). rewrite Forall_forall in *. intros v Hv. split; [auto|]. eapply counted; eauto.
    - pose proof (operands_sound vars ops vs D O) as S. assert (Same : exists z, Forall2 (fun c v => addresses c v z) cs vs).
      { destruct (String.eqb_spec n "measure") as [En|En]; [exact (Me En)|]. assert (Cs : cs = [Qubits]).
        { clear -In0 En. cbn in In0. repeat (destruct In0 as [E|In0]; [injection E as <- <- <-; try contradiction; reflexivity|]). destruct In0. }
        subst cs. inversion A as [|? v ? ? (z & Hz) A']; subst. inversion A'; subst. exists z. repeat constructor. exact Hz. }
      destruct Same as (z & Hz). apply (counted_even z). clear -Hz S. induction Hz as [|c v cs vs Hv _ IH]; [constructor|]. inversion S; subst. constructor; [|auto]. split; [assumption|]. eapply counted; eauto.
  Qed.
  Lemma block_even vars ss vars' xs : block_means lm vars ss vars' xs -> Forall SpecInstructions.declared vars -> Forall (fun x => even (result_operands x)) xs.
  Proof.
    induction 1 as [vars|vars l n t ty ss vars' xs D N1 N2 B IH|vars s x ss vars' xs M B IH]; intros F; [constructor| |constructor; [eapply instruction_even; eassumption|auto]].
    apply IH. apply Forall_app. split; [exact F|]. constructor; [|constructor]. unfold SpecInstructions.declared. cbn [var_type]. inversion D; subst; cbn [kind tsize]; try reflexivity; assumption.
  Qed.
  Lemma program_even api p q : program_means lm api p q -> Forall (fun x => even (result_operands x)) (blk_statements (sp_block q)).
  Proof. intros [vars b V B S]. cbn [sp_block]. exact (block_even _ _ _ _ B (Forall_nil _)). Qed.
End Accepted.

(** ** Where the operations are *)
Definition within (vars : list variable) (p : place) : Prop := (0 <= snd p < if fst p then qubits_of vars else bits_of vars)%Z.
Lemma places_within vars v : Forall positive vars -> reference_fine vars v -> Forall (within vars) (places vars v).
Proof.
  intros P R. assert (A : forall x zs, In x vars -> Forall (fun z => 0 <= z < tsize (var_type x))%Z zs -> Forall (within vars) (map (pair (of_qubits x)) (map (Z.add (first_number vars x)) zs))).
  { intros x zs Ix F. apply Forall_map, Forall_map. eapply Forall_impl; [|exact F]. intros z Hz. exact (numbers_below vars x z P Ix Hz). }
  destruct v as [b|z|f|x|x zs]; cbn [places numbers_of reference_fine] in *; try constructor.
  - apply A; [exact R|]. eapply Forall_impl; [|apply ProofsSplit.from_to_within]. cbn beta. intros; lia.
  - apply A; apply R.
Qed.
Lemma applications_within vars vs ps : even vs -> Forall (fun v => Forall (within vars) (places vars v)) vs -> In ps (applications vars vs) -> List.length ps = List.length vs /\ Forall (within vars) ps.
Proof.
  intros E F H. rewrite (applications_even vars vs E) in H. apply in_map_iff in H. destruct H as (i & <- & Hi). apply in_seq in Hi. split; [now rewrite !map_length|]. apply Forall_map, Forall_map. rewrite Forall_forall in *. intros v Hv. specialize (F v Hv). rewrite Forall_forall in F. apply F, nth_In.
  destruct (E v Hv) as [S W]. pose proof (proj1 (places_elements vars v S)) as Le. unfold place in *. lia.
Qed.

(** ** Registers of one, and whole registers as lists *)
Lemma applications_alike vars vars' (f : value -> value) vs : Forall (fun v => places vars' (f v) = places vars v) vs -> applications vars' (map f vs) = applications vars vs.
Proof.
  intros F. unfold applications. rewrite map_map. rewrite (map_ext_in (fun v => places vars' (f v)) (places vars)); [reflexivity|]. rewrite Forall_forall in F. exact F.
Qed.
Definition statement_sound (x : sem_statement) : Prop := Forall sound (result_operands x).
Section Widened.
  Variable single : string -> bool.
  Lemma widened_variable x : SpecInstructions.declared x -> of_qubits (widen_variable single x) = of_qubits x /\ var_id (widen_variable single x) = var_id x /\ tsize (var_type (widen_variable single x)) = tsize (var_type x).
  Proof.
    unfold SpecInstructions.declared, widen_variable, of_qubits. destruct (kind (var_type x)) eqn:K; try contradiction; destruct (single (var_name x)); cbn [var_type kind var_id tsize]; rewrite ?K; auto.
  Qed.
  Lemma widened_kind x : of_qubits (widen_variable single x) = of_qubits x /\ var_id (widen_variable single x) = var_id x.
  Proof. unfold widen_variable, of_qubits. destruct (kind (var_type x)) eqn:K; destruct (single (var_name x)); cbn [var_type kind var_id]; rewrite ?K; auto. Qed.
  Lemma widened_number vars x : Forall SpecInstructions.declared vars -> first_number (map (widen_variable single) vars) (widen_variable single x) = first_number vars x.
  Proof.
    intros D. unfold first_number. destruct (widened_kind x) as [-> ->]. induction D as [|y vars Dy _ IH]; [reflexivity|]. cbn [map filter]. destruct (widened_variable y Dy) as (-> & -> & T).
    destruct (Bool.eqb (of_qubits y) (of_qubits x) && (var_id y <? var_id x)%nat); [|exact IH]. rewrite !total_cons, T. lia.
  Qed.
  Lemma widened_places vars v : Forall SpecInstructions.declared vars -> sound v -> places (map (widen_variable single) vars) (widen_value single v) = places vars v.
  Proof.
    intros D S. destruct v as [b|z|f|x|x zs]; cbn [sound] in S; try contradiction; cbn [widen_value places numbers_of]; rewrite (widened_number vars x D), (proj1 (widened_kind x)); [|reflexivity]. now destruct (widened_variable x S) as (_ & _ & ->).
  Qed.
  Lemma widened_operations q : Forall SpecInstructions.declared (result_variables q) -> Forall statement_sound (blk_statements (sp_block q)) -> operations (widen_result single q) = operations q.
  Proof.
    intros D S. unfold operations. assert (E : result_variables (widen_result single q) = map (widen_variable single) (result_variables q)) by (unfold result_variables; cbn [widen_result sp_variables]; rewrite !map_map; reflexivity).
    rewrite E. cbn [widen_result sp_block blk_statements]. induction S as [|x xs Sx _ IH]; [reflexivity|]. cbn [map flat_map]. rewrite IH. f_equal. unfold statement_sound in Sx.
    destruct x as [l j g vs an|l j n vs ws an|l n c an]; cbn [widen_instruction operations_of result_operands] in *; [| |reflexivity]; f_equal; apply applications_alike; (eapply Forall_impl; [|exact Sx]); intros v; now apply widened_places.
  Qed.
End Widened.
Section Listed.
  Variable size : string -> option Z.
  Lemma listed_operations q : (forall x k, In x (result_variables q) -> size (var_name x) = Some k -> k = tsize (var_type x)) ->
    Forall (fun y => Forall (reference_fine (result_variables q)) (result_operands y)) (blk_statements (sp_block q)) -> operations (list_result size q) = operations q.
  Proof.
    intros D S. unfold operations. change (result_variables (list_result size q)) with (result_variables q). cbn [list_result sp_block blk_statements]. induction S as [|x xs Sx _ IH]; [reflexivity|]. cbn [map flat_map]. rewrite IH. f_equal.
    assert (A : Forall (fun v => places (result_variables q) (list_value size v) = places (result_variables q) v) (result_operands x)).
    { eapply Forall_impl; [|exact Sx]. intros v R. destruct v as [b|z|f|y|y zs]; cbn [list_value reference_fine] in *; try reflexivity. destruct (size (var_name y)) as [k|] eqn:E; [|reflexivity]. rewrite (D y k R E). reflexivity. }
    destruct x as [l j g vs an|l j n vs ws an|l n c an]; cbn [list_instruction operations_of result_operands] in *; [| |reflexivity]; f_equal; now apply applications_alike.
  Qed.
End Listed.
Lemma even_sound x : even (result_operands x) -> statement_sound x.
Proof. intros E. apply Forall_forall. intros v Hv. apply (E v Hv). Qed.
