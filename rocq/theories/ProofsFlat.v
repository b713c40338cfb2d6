(** Programs with one register of qubits and one of bits (C115). *)
From Coq Require Import ZArith Lia ZifyBool ZifyNat.
From Verif Require Import Base ModelVersion ModelError ModelTypes ModelOverload ModelFunctions ModelAst
  ModelAnalyzer ModelSemantic
  SpecPlace SpecUtils SpecTypes SpecFunctions SpecInstructions SpecAnalyzer SpecHull SpecDiagnosis SpecMachine SpecEvaluate SpecMeaning SpecResize SpecRename SpecElementary
  ProofsSpelled ProofsUnroll ProofsMerge ProofsSplit ProofsJoin ProofsElementary SpecMeaning SpecFlat SpecInstructions.
Local Open Scope string_scope.

(** ** Counting *)
Definition positive (x : variable) : Prop := (0 < tsize (var_type x))%Z.
Lemma total_app xs ys : total (xs ++ ys) = (total xs + total ys)%Z.
Proof. unfold total. rewrite map_app. induction (map (fun x => tsize (var_type x)) xs) as [|z zs IH]; cbn [app fold_right]; lia. Qed.
Lemma total_cons x xs : total (x :: xs) = (tsize (var_type x) + total xs)%Z.
Proof. reflexivity. Qed.
Lemma total_positive xs : Forall positive xs -> (0 <= total xs)%Z.
Proof. unfold positive. induction 1 as [|x xs H _ IH]; [reflexivity|]. rewrite total_cons. lia. Qed.
Lemma filter_positive (f : variable -> bool) xs : Forall positive xs -> Forall positive (filter f xs).
Proof. intros F. rewrite Forall_forall in *. intros x Hx. apply filter_In in Hx. now apply F. Qed.
(** Filters: if f is contained in g and x is in g but not in f *)
Lemma total_filter (f g : variable -> bool) xs x : Forall positive xs -> (forall y, f y = true -> g y = true) -> In x xs -> f x = false -> g x = true ->
  (total (filter f xs) + tsize (var_type x) <= total (filter g xs))%Z.
Proof.
  intros P S I Ex Gx. assert (Le : forall ys, Forall positive ys -> (total (filter f ys) <= total (filter g ys))%Z).
  { intros ys Py. induction Py as [|y ys Hy Py IH]; [reflexivity|]. cbn [filter]. unfold positive in Hy. destruct (f y) eqn:E; [rewrite (S y E), !total_cons; lia|]. destruct (g y); rewrite ?total_cons; lia. }
  induction P as [|y xs Hy P IH]; [destruct I|]. unfold positive in Hy. destruct I as [->|I].
  - cbn [filter]. rewrite Ex, Gx, total_cons. specialize (Le xs P). lia.
  - specialize (IH I). cbn [filter]. destruct (f y) eqn:E; [rewrite (S y E), !total_cons; lia|]. destruct (g y); rewrite ?total_cons; lia.
Qed.
Definition all_of (vars : list variable) (x : variable) : Z := if of_qubits x then qubits_of vars else bits_of vars.
Lemma numbers_below vars x z : Forall positive vars -> In x vars -> (0 <= z < tsize (var_type x))%Z -> (0 <= first_number vars x + z < all_of vars x)%Z.
Proof.
  intros P I B. pose proof (total_positive _ (filter_positive (fun y => Bool.eqb (of_qubits y) (of_qubits x) && (var_id y <? var_id x)%nat) vars P)) as N. fold (first_number vars x) in N.
  assert (L : (first_number vars x + tsize (var_type x) <= all_of vars x)%Z); [|lia].
  unfold all_of, qubits_of, bits_of, first_number. destruct (of_qubits x) eqn:E; apply total_filter; try assumption; try (now rewrite E); try (rewrite E; apply andb_false_iff; right; apply Nat.ltb_irrefl);
    intros y H; apply andb_true_iff in H; destruct H as [H _]; apply eqb_prop in H; now rewrite H.
Qed.
(** Different elements have different numbers. *)
Lemma numbers_apart vars x y : Forall positive vars -> In x vars -> of_qubits x = of_qubits y -> (var_id x < var_id y)%nat -> (first_number vars x + tsize (var_type x) <= first_number vars y)%Z.
Proof.
  intros P I E L. unfold first_number. apply total_filter; [exact P| |exact I|apply andb_false_iff; right; apply Nat.ltb_irrefl|].
  - intros w H. apply andb_true_iff in H. destruct H as [H1 H2]. apply andb_true_iff. rewrite <- E. split; [exact H1|]. apply Nat.ltb_lt in H2. apply Nat.ltb_lt. lia.
  - apply andb_true_iff. rewrite E. split; [apply Bool.eqb_reflx|]. now apply Nat.ltb_lt.
Qed.

Section Flat.
  Variables (lm : libm) (qn bn : string).
  Hypotheses (Nqb : qn <> bn) (Cq : ~ In qn constant_names) (Cb : ~ In bn constant_names).
  Variable final : list variable.
  Hypothesis good : Forall SpecInstructions.declared final.
  Hypotheses (Fq : fits (qubits_of final)) (Fb : fits (bits_of final)).
  Notation fv := (flat_variables qn bn final).
  Notation flat := (flat_value qn bn final).

  Lemma declared_positive x : SpecInstructions.declared x -> positive x.
  Proof. unfold SpecInstructions.declared, positive. destruct (kind (var_type x)); try contradiction; lia. Qed.
  Lemma all_positive : Forall positive final.
  Proof. eapply Forall_impl; [|exact good]. exact declared_positive. Qed.
  Definition flat_expr (v : value) : expr :=
    match v with
    | VVar x | VIndex x _ => EIndex None (EIdent None (if of_qubits x then qn else bn)) (map (fun z => IItem None (EInt None z)) (numbers_of final v))
    | _ => EInt None 0
    end.
  Lemma listed_numbers zs : indices_mean lm (map (fun z => IItem None (EInt None z)) zs) zs.
  Proof. induction zs as [|z zs IH]; cbn [map]; constructor; [now apply number_index|exact IH]. Qed.
  Lemma register_there x : In x final -> In (if of_qubits x then qubit_register qn final else bit_register bn final) fv.
  Proof.
    intros I. pose proof all_positive as P. rewrite Forall_forall in P. assert (B : (0 <= 0 < tsize (var_type x))%Z) by (specialize (P x I); unfold positive in P; lia).
    pose proof (numbers_below final x 0 all_positive I B) as N. unfold all_of in N. unfold flat_variables. destruct (of_qubits x).
    - destruct (Z.eqb_spec (qubits_of final) 0); [lia|]. now left.
    - apply in_or_app. right. destruct (Z.eqb_spec (bits_of final) 0); [lia|]. now left.
  Qed.
  Lemma flat_operand_means v x : (v = VVar x \/ exists zs, v = VIndex x zs /\ Forall (fun z => 0 <= z < tsize (var_type x))%Z zs) -> In x final ->
    operand_means lm fv (flat_expr v) (flat v) /\ machine_literals (flat_expr v) /\ SpecFlat.flat_operand qn bn (flat_expr v).
  Proof.
    intros Hv I. assert (R : Forall (fun z => 0 <= z < all_of final x)%Z (numbers_of final v)).
    { destruct Hv as [->|(zs & -> & F)]; cbn [numbers_of]; apply Forall_map.
      - eapply Forall_impl; [|apply from_to_within]. cbn beta. intros z Hz. apply numbers_below; [exact all_positive|exact I|lia].
      - eapply Forall_impl; [|exact F]. cbn beta. intros z Hz. apply numbers_below; [exact all_positive|exact I|exact Hz]. }
    assert (E1 : flat_expr v = EIndex None (EIdent None (if of_qubits x then qn else bn)) (map (fun z => IItem None (EInt None z)) (numbers_of final v))) by (destruct Hv as [->|(zs & -> & _)]; reflexivity).
    assert (E2 : flat v = VIndex (if of_qubits x then qubit_register qn final else bit_register bn final) (numbers_of final v)) by (destruct Hv as [->|(zs & -> & _)]; reflexivity).
    rewrite E1, E2. clear E1 E2. split; [|split].
    - replace (if of_qubits x then qn else bn) with (var_name (if of_qubits x then qubit_register qn final else bit_register bn final)) by (destruct (of_qubits x); reflexivity).
      apply some_elements; [now apply register_there|destruct (of_qubits x); auto|apply listed_numbers|]. unfold all_of in R. destruct (of_qubits x); exact R.
    - apply index_literals. split; [split; intros ? ? W; inversion W|]. apply Forall_map. eapply Forall_impl; [|exact R]. cbn beta. intros z Hz. cbn [entry_literals]. apply number_literals. unfold all_of in Hz. unfold fits in *. destruct (of_qubits x); lia.
    - eexists _, _, _, _. split; [reflexivity|]. split; [destruct (of_qubits x); auto|]. apply Forall_map, Forall_forall. intros z _. eauto.
  Qed.
  Lemma flat_addresses c v k x : (v = VVar x \/ exists zs, v = VIndex x zs) -> In x final -> addresses c v k -> addresses c (flat v) k /\ k = Z.of_nat (List.length (numbers_of final v)).
  Proof.
    intros Hv I A. rewrite Forall_forall in good. pose proof (good x I) as D. unfold SpecInstructions.declared in D.
    destruct A as [y E|y E|y E|y E|y zs E|y zs E]; (assert (x = y) by (destruct Hv as [[= ->]|(zs0 & [= -> ->])]; reflexivity)); subst y; rewrite E in D; cbn [flat_value numbers_of]; unfold of_qubits; rewrite E.
    - assert (L : Z.of_nat (List.length (map (Z.add (first_number final x)) (from_to 0 (tsize (var_type x) - 1)))) = 1%Z) by (unfold from_to; rewrite !map_length, seq_length; lia). rewrite L. split; [rewrite <- L at 2; now apply addr_qubit_index|reflexivity].
    - assert (L : Z.of_nat (List.length (map (Z.add (first_number final x)) (from_to 0 (tsize (var_type x) - 1)))) = tsize (var_type x)) by (unfold from_to; rewrite !map_length, seq_length; lia). split; [rewrite <- L at 2; now apply addr_qubit_index|now symmetry].
    - assert (L : Z.of_nat (List.length (map (Z.add (first_number final x)) (from_to 0 (tsize (var_type x) - 1)))) = 1%Z) by (unfold from_to; rewrite !map_length, seq_length; lia). rewrite L. split; [rewrite <- L at 2; now apply addr_bit_index|reflexivity].
    - assert (L : Z.of_nat (List.length (map (Z.add (first_number final x)) (from_to 0 (tsize (var_type x) - 1)))) = tsize (var_type x)) by (unfold from_to; rewrite !map_length, seq_length; lia). split; [rewrite <- L at 2; now apply addr_bit_index|now symmetry].
    - rewrite map_length. split; [|reflexivity]. rewrite <- (map_length (Z.add (first_number final x)) zs). now apply addr_qubit_index.
    - rewrite map_length. split; [|reflexivity]. rewrite <- (map_length (Z.add (first_number final x)) zs). now apply addr_bit_index.
  Qed.
  (** Everything about an operand *)
  Lemma operand_flat vars e v c k : incl vars final -> indexed_expr e = true -> operand_means lm vars e v -> addresses c v k ->
    operand_means lm fv (flat_expr v) (flat v) /\ addresses c (flat v) k /\ machine_literals (flat_expr v) /\ SpecFlat.flat_operand qn bn (flat_expr v) /\ indexed_expr (flat_expr v) = true.
  Proof.
    intros In0 X M A. assert (V : exists x, (v = VVar x \/ exists zs, v = VIndex x zs /\ Forall (fun z => 0 <= z < tsize (var_type x))%Z zs) /\ In x final /\ numbers_of final v <> []).
    { destruct M as [l x Hx|l l' x es zs Hx Kx I F]; exists x; (split; [eauto|]); (split; [now apply In0|]).
      - cbn [numbers_of]. pose proof all_positive as P. rewrite Forall_forall in P. specialize (P x (In0 x Hx)). unfold positive in P. unfold from_to. replace (tsize (var_type x) - 1 - 0 + 1)%Z with (tsize (var_type x)) by lia. destruct (Z.to_nat (tsize (var_type x))) eqn:E; [lia|discriminate].
      - cbn [numbers_of]. cbn [indexed_expr] in X. rewrite !andb_true_iff in X. destruct X as [[X _] _]. destruct zs; [|discriminate]. exfalso. eapply (indices_some lm); [|exact I|reflexivity]. intros ->. discriminate X. }
    destruct V as (x & Hv & Ix & Ne). destruct (flat_operand_means v x Hv Ix) as (H1 & H2 & H3). split; [exact H1|]. split; [eapply flat_addresses; [|exact Ix|exact A]; destruct Hv as [->|(zs & -> & _)]; eauto|]. split; [exact H2|]. split; [exact H3|].
    replace (flat_expr v) with (EIndex None (EIdent None (if of_qubits x then qn else bn)) (map (fun z => IItem None (EInt None z)) (numbers_of final v))) by (destruct Hv as [->|(zs & -> & _)]; reflexivity).
    cbn [indexed_expr]. rewrite map_length. destruct (numbers_of final v) as [|z zs]; [contradiction|]. cbn [List.length Nat.eqb negb andb]. apply forallb_forall. intros i Hi. apply in_map_iff in Hi. destruct Hi as (w & <- & _). reflexivity.
  Qed.
  Lemma operands_flat vars es vs (cs : list operand_class) : incl vars final -> forallb indexed_expr es = true -> Forall2 (operand_means lm vars) es vs -> Forall2 (fun c v => exists k, addresses c v k) cs vs ->
    Forall2 (operand_means lm fv) (map flat_expr vs) (map flat vs) /\ Forall2 (fun c v => forall k, addresses c v k -> addresses c (flat v) k) cs vs /\
      Forall (fun e => machine_literals e /\ SpecFlat.flat_operand qn bn e /\ indexed_expr e = true) (map flat_expr vs).
  Proof.
    intros I X M. revert cs X. induction M as [|e v es vs Mv _ IH]; intros cs X C; inversion C as [|c ? cs' ? [k A] C']; subst; cbn [map]; [repeat constructor|]. cbn [forallb] in X. apply andb_true_iff in X. destruct X as [X1 X2].
    destruct (IH cs' X2 C') as (H1 & H2 & H3). destruct (operand_flat vars e v c k I X1 Mv A) as (E1 & _ & E3 & E4 & E5). split; [constructor; assumption|]. split; [|constructor; auto]. constructor; [|exact H2]. intros k' A'. exact (proj1 (proj2 (operand_flat vars e v c k' I X1 Mv A'))).
  Qed.

  Definition flat_statement (s : statement) (x : sem_statement) : statement :=
    match s, x with
    | SGateInstr l g _ an, SemGateInstr _ _ _ vs _ => SGateInstr l g (map flat_expr vs) an
    | SNonGate l n _ ps an, SemNonGate _ _ _ vs _ _ => SNonGate l n (map flat_expr vs) ps an
    | _, _ => s
    end.
  Lemma statement_flat vars s x : incl vars final -> grammar_statement s -> machine_statement s -> instruction_means lm vars s x ->
    instruction_means lm fv (flat_statement s x) (flat_instruction qn bn final x) /\ grammar_statement (flat_statement s x) /\ machine_statement (flat_statement s x) /\
    place_of_statement (flat_statement s x) = place_of_statement s /\ (forall l n t an, flat_statement s x <> SVariable l n t an) /\ Forall (SpecFlat.flat_operand qn bn) (operands_of (flat_statement s x)).
  Proof.
    intros In0 Gs Ms M. destruct M as [l g ops sg base name vs k Ga O A|l n ops ps ks cs vs ws I0 O P A Me|l n code]; cbn [flat_statement flat_instruction].
    - unfold grammar_statement, machine_statement in *. cbn [statement_exprs SpecAnalyzer.plain] in *. rewrite !forallb_app, !andb_true_iff in Gs. rewrite !Forall_app in Ms. destruct Gs as (P1 & (P2 & P3 & P4) & P5), Ms as [(Q1 & Q2 & Q3) _].
      assert (C : Forall2 (fun c v => exists k, addresses c v k) (map (fun _ => Qubits) vs) vs) by (clear -A; induction A; cbn [map]; constructor; eauto).
      destruct (operands_flat vars ops vs _ In0 P3 O C) as (H1 & H2 & H3).
      assert (H4 : Forall machine_literals (map flat_expr vs) /\ forallb indexed_expr (map flat_expr vs) = true /\ Forall (SpecFlat.flat_operand qn bn) (map flat_expr vs)).
      { rewrite forallb_forall, !Forall_forall in *. split; [|split]; intros e He; apply H3, He. }
      destruct H4 as (H4 & H5 & H6). split.
      + cbn [instr_name instruction_for]. apply gate_applied with (base := base) (k := k).
        * rewrite map_length. replace (List.length vs) with (List.length ops); [exact Ga|]. clear -O. induction O; cbn [List.length]; congruence.
        * exact H1.
        * clear -A H2. induction A as [|v vs Av _ IH]; [constructor|]. cbn [map] in *. inversion H2; subst. constructor; auto.
      + cbn [place_of_statement operands_of statement_exprs SpecAnalyzer.plain]. rewrite !forallb_app, !andb_true_iff, !Forall_app. repeat split; try tauto; discriminate.
    - unfold grammar_statement, machine_statement in *. cbn [statement_exprs SpecAnalyzer.plain] in *. rewrite !forallb_app, !andb_true_iff in Gs. rewrite !Forall_app in Ms. destruct Gs as (P1 & (P2 & P3 & P4) & P5), Ms as [(Q1 & Q2 & Q3) _].
      destruct (operands_flat vars ops vs cs In0 P2 O A) as (H1 & H2 & H3).
      assert (H4 : Forall machine_literals (map flat_expr vs) /\ forallb indexed_expr (map flat_expr vs) = true /\ Forall (SpecFlat.flat_operand qn bn) (map flat_expr vs)).
      { rewrite forallb_forall, !Forall_forall in *. split; [|split]; intros e He; apply H3, He. }
      destruct H4 as (H4 & H5 & H6). split.
      + cbn [instr_name instruction_for]. apply non_gate_applied with (ks := ks) (cs := cs); [exact I0|exact H1|exact P| |].
        * clear -A H2. induction A as [|c v cs vs (k & Av) _ IH]; [constructor|]. cbn [map]. inversion H2; subst. constructor; eauto.
        * intros E. destruct (Me E) as (k & Hk). exists k. clear -Hk H2. induction Hk as [|c v cs vs Av _ IH]; [constructor|]. cbn [map]. inversion H2; subst. constructor; auto.
      + cbn [place_of_statement operands_of statement_exprs SpecAnalyzer.plain]. rewrite !forallb_app, !andb_true_iff, !Forall_app. repeat split; try tauto; try discriminate; try apply P5; try assumption; unfold grammar_non_gate in P5; tauto.
    - split; [constructor|]. split; [exact Gs|]. split; [exact Ms|]. split; [reflexivity|]. split; [discriminate|constructor].
  Qed.

  (** ** Programs *)
  Lemma block_grows vars ss vars' xs : block_means lm vars ss vars' xs -> incl vars vars'.
  Proof. induction 1 as [vars|vars l n t ty ss vars' xs D N1 N2 B IH|vars s x ss vars' xs M B IH]; [apply incl_refl| |exact IH]. intros x Hx. apply IH, in_or_app. now left. Qed.
  Lemma block_flat vars ss vars' xs : block_means lm vars ss vars' xs -> incl vars' final -> Forall grammar_statement ss -> Forall machine_statement ss ->
    exists ss', Forall2 (instruction_means lm fv) ss' (map (flat_instruction qn bn final) xs) /\
      Forall (fun s' => (grammar_statement s' /\ machine_statement s' /\ exists s, In s ss /\ place_of_statement s' = place_of_statement s) /\ (forall l n t an, s' <> SVariable l n t an) /\ Forall (SpecFlat.flat_operand qn bn) (operands_of s')) ss'.
  Proof.
    intros B I. induction B as [vars|vars l n t ty ss vars' xs D N1 N2 B IH|vars s x ss vars' xs M B IH]; intros G Ms.
    - exists []. split; constructor.
    - apply Forall_cons_iff in G. apply Forall_cons_iff in Ms. destruct G as [G1 G2], Ms as [M1 M2]. destruct IH as (ss' & H1 & H2); try assumption. exists ss'. split; [exact H1|]. eapply Forall_impl; [|exact H2]. intros s' ((X1 & X2 & s & X3 & X4) & X5). split; [|exact X5]. split; [exact X1|]. split; [exact X2|]. exists s. split; [now right|exact X4].
    - apply Forall_cons_iff in G. apply Forall_cons_iff in Ms. destruct G as [G1 G2], Ms as [M1 M2]. destruct IH as (ss' & H1 & H2); try assumption. destruct (statement_flat vars s x) as (E1 & E2 & E3 & E4 & E5 & E6); try assumption; [intros y Hy; apply I; eapply block_grows; eassumption|].
      exists (flat_statement s x :: ss'). cbn [map]. split; [constructor; assumption|]. constructor.
      + split; [|split; assumption]. split; [exact E2|]. split; [exact E3|]. exists s. split; [now left|exact E4].
      + eapply Forall_impl; [|exact H2]. intros s' ((X1 & X2 & s0 & X3 & X4) & X5). split; [|exact X5]. split; [exact X1|]. split; [exact X2|]. exists s0. split; [now right|exact X4].
  Qed.
  Lemma instructions_only vars ss xs : Forall2 (instruction_means lm vars) ss xs -> block_means lm vars ss vars xs.
  Proof. induction 1; [constructor|]. now apply instruction_of. Qed.
  Lemma registers_declared ss xs : Forall2 (instruction_means lm fv) ss xs -> block_means lm [] (register qn "qubit" (qubits_of final) ++ register bn "bit" (bits_of final) ++ ss) fv xs.
  Proof.
    intros F. pose proof (total_positive _ (filter_positive of_qubits final all_positive)) as Pq. pose proof (total_positive _ (filter_positive (fun x => negb (of_qubits x)) final all_positive)) as Pb. fold (qubits_of final) in Pq. fold (bits_of final) in Pb.
    assert (E : fv = flat_variables qn bn final) by reflexivity. unfold flat_variables, bit_register in *. unfold register.
    destruct (Z.eqb_spec (qubits_of final) 0) as [Eq|Nq]; destruct (Z.eqb_spec (bits_of final) 0) as [Eb|Nb]; cbn [app] in *.
    - now apply instructions_only.
    - eapply declaration; [constructor; lia|exact Cb|intros []|]. now apply instructions_only.
    - eapply declaration; [constructor; lia|exact Cq|intros []|]. now apply instructions_only.
    - eapply declaration; [constructor; lia|exact Cq|intros []|]. eapply declaration; [constructor; lia|exact Cb|intros [H|[]]; cbn in H; congruence|]. now apply instructions_only.
  Qed.
  Lemma locations_flat xs : statement_locations (map (flat_instruction qn bn final) xs) = statement_locations xs.
  Proof. unfold statement_locations. induction xs as [|x xs IH]; [reflexivity|]. cbn [map flat_map]. rewrite IH. destruct x; reflexivity. Qed.
End Flat.

Lemma block_declared lm vars ss vars' xs : block_means lm vars ss vars' xs -> Forall SpecInstructions.declared vars -> Forall SpecInstructions.declared vars'.
Proof.
  induction 1 as [vars|vars l n t ty ss vars' xs D N1 N2 B IH|vars s x ss vars' xs M B IH]; intros F; auto. apply IH. apply Forall_app. split; [exact F|]. constructor; [|constructor]. unfold SpecInstructions.declared. cbn [var_type]. inversion D; subst; cbn [kind tsize]; try reflexivity; assumption.
Qed.
Lemma block_ids lm vars ss vars' xs : block_means lm vars ss vars' xs -> map var_id vars = seq 0 (List.length vars) -> map var_id vars' = seq 0 (List.length vars').
Proof.
  induction 1 as [vars|vars l n t ty ss vars' xs D N1 N2 B IH|vars s x ss vars' xs M B IH]; intros E; auto. apply IH. rewrite map_app, app_length, E. cbn [map var_id List.length]. now rewrite Nat.add_1_r, seq_S.
Qed.
Lemma program_declared lm api p q : program_means lm api p q -> Forall SpecInstructions.declared (result_variables q) /\ NoDup (map var_id (result_variables q)).
Proof.
  intros [vars b V B S]. unfold result_variables. cbn [sp_variables]. rewrite map_map. cbn [sv_var]. rewrite map_id. split; [exact (block_declared _ _ _ _ _ B (Forall_nil _))|]. rewrite (block_ids _ _ _ _ _ B eq_refl). apply seq_NoDup.
Qed.
(** Operands in the result are lists of indices. *)
Definition indexed_value (v : value) : Prop := exists x zs, v = VIndex x zs /\ zs <> [].
Lemma operand_indexed lm qn bn vars e v : indexed_expr e = true -> SpecFlat.flat_operand qn bn e -> operand_means lm vars e v -> indexed_value v.
Proof.
  intros X (l & l' & n & is & -> & _ & _) M. inversion M as [|? ? x ? zs Hx Kx I F]; subst. exists x, zs. split; [reflexivity|]. cbn [indexed_expr] in X. rewrite !andb_true_iff in X. destruct X as [[X _] _].
  intros E. eapply (indices_some lm); [|exact I|exact E]. intros ->. discriminate X.
Qed.
Lemma statement_indexed lm qn bn vars s y : grammar_statement s -> Forall (SpecFlat.flat_operand qn bn) (operands_of s) -> instruction_means lm vars s y -> Forall indexed_value (result_operands y).
Proof.
  assert (A : forall es vs, Forall2 (operand_means lm vars) es vs -> forallb indexed_expr es = true -> Forall (SpecFlat.flat_operand qn bn) es -> Forall indexed_value vs).
  { induction 1 as [|e v es vs M _ IH]; intros X F; [constructor|]. cbn [forallb] in X. apply andb_true_iff in X. inversion F; subst. constructor; [eapply operand_indexed; [apply X|eassumption|exact M]|]. apply IH; [apply X|assumption]. }
  intros (_ & X & _) F M. destruct M as [l g ops sg base name vs k Ga O W|l n ops ps ks cs vs ws I0 O P W Me|l n code]; cbn [result_operands operands_of statement_exprs] in *; [| |constructor]; rewrite !forallb_app, !andb_true_iff in X; eapply A; try eassumption; apply X.
Qed.
Lemma flat_means lm qn bn api p q : qn <> bn -> ~ In qn constant_names -> ~ In bn constant_names -> grammar_program p -> machine_program p -> ordered_locations p -> program_means lm api p q ->
  fits (qubits_of (result_variables q)) -> fits (bits_of (result_variables q)) ->
  exists p', (grammar_program p' /\ machine_program p' /\ ordered_locations p') /\ SpecFlat.flat_program qn bn (qubits_of (result_variables q)) (bits_of (result_variables q)) p' /\ program_means lm api p' (flat_result qn bn q) /\
    Forall (fun y => Forall indexed_value (result_operands y)) (blk_statements (sp_block (flat_result qn bn q))).
Proof.
  intros N Cq Cb G M O P Fq Fb. pose proof (proj1 (program_declared lm api p q P)) as D. destruct P as [vars [xs bl] V B S]. cbn [blk_statements] in B.
  assert (E : result_variables (mkSemProgram api (prog_version p) (prog_version_loc p) (mkBlock xs bl) (map (fun x => mkSemVariable x []) vars)) = vars) by (unfold result_variables; cbn [sp_variables]; rewrite map_map; cbn [sv_var]; apply map_id).
  rewrite E in *. unfold flat_result. rewrite E. cbn [sp_api_version sp_version sp_version_loc sp_block sp_variables blk_statements blk_loc].
  destruct (block_flat lm qn bn vars D Fq Fb [] (prog_statements p) vars xs B (incl_refl _) G M) as (ss' & H1 & H2).
  exists (mkProgram (prog_version p) (prog_version_loc p) (register qn "qubit" (qubits_of vars) ++ register bn "bit" (bits_of vars) ++ ss') (prog_block_loc p)).
  assert (R : forall n t k, (t = "qubit" \/ t = "bit") -> fits k -> Forall (fun s => grammar_statement s /\ machine_statement s /\ place_of_statement s = None) (register n t k)).
  { intros n t k Ht F. unfold register. destruct (k =? 0)%Z; [constructor|]. constructor; [|constructor]. split; [repeat split|]. split; [|reflexivity]. split; [constructor|]. intros z [= <-]. exact F. }
  assert (R1 := R qn "qubit" _ (or_introl eq_refl) Fq). assert (R2 := R bn "bit" _ (or_intror eq_refl) Fb). split; [split; [|split]|split; [|split]].
  - repeat (apply Forall_app; split); (eapply Forall_impl; [|eassumption]); cbn beta; tauto.
  - repeat (apply Forall_app; split); (eapply Forall_impl; [|eassumption]); cbn beta; tauto.
  - intros s l Hs El. cbn [prog_statements] in Hs. apply in_app_or in Hs. rewrite Forall_forall in *. destruct Hs as [Hs|Hs]; [destruct (R1 s Hs) as (_ & _ & X); congruence|]. apply in_app_or in Hs. destruct Hs as [Hs|Hs]; [destruct (R2 s Hs) as (_ & _ & X); congruence|].
    destruct (H2 s Hs) as ((_ & _ & s0 & X & Y) & _). rewrite Y in El. exact (O s0 l X El).
  - exists ss'. split; [reflexivity|]. intros s Hs. rewrite Forall_forall in H2. destruct (H2 s Hs) as (_ & X1 & X2). split; [exact X1|]. now apply Forall_forall.
  - refine (program_of lm api (mkProgram (prog_version p) (prog_version_loc p) _ (prog_block_loc p)) (flat_variables qn bn vars) (mkBlock (map (flat_instruction qn bn vars) xs) bl) V _ _).
    + now apply registers_declared.
    + unfold spans_statements in *. cbn [blk_loc blk_statements] in *. now rewrite locations_flat.
  - cbn [sp_block blk_statements]. clear -H1 H2. revert H1. generalize (map (flat_instruction qn bn vars) xs). intros ys H1. induction H1 as [|s y ss ys M _ IH]; [constructor|]. apply Forall_cons_iff in H2. destruct H2 as [((G & _) & _ & O) H2]. constructor; [eapply statement_indexed; eassumption|auto].
Qed.

(** ** The numbers are used once each. *)
Lemma same_id (vars : list variable) x y : NoDup (map var_id vars) -> In x vars -> In y vars -> var_id x = var_id y -> x = y.
Proof.
  induction vars as [|v vars IH]; intros N Hx Hy E; [destruct Hx|]. cbn [map] in N. inversion N as [|? ? N1 N2]; subst. destruct Hx as [<-|Hx], Hy as [<-|Hy]; auto.
  - destruct N1. rewrite E. now apply in_map.
  - destruct N1. rewrite <- E. now apply in_map.
Qed.
Lemma numbers_once vars x y i j : Forall positive vars -> NoDup (map var_id vars) -> In x vars -> In y vars -> of_qubits x = of_qubits y ->
  (0 <= i < tsize (var_type x))%Z -> (0 <= j < tsize (var_type y))%Z -> (first_number vars x + i = first_number vars y + j)%Z -> x = y /\ i = j.
Proof.
  intros P N Ix Iy E Hi Hj Eq. destruct (Nat.lt_trichotomy (var_id x) (var_id y)) as [L|[L|L]].
  - pose proof (numbers_apart vars x y P Ix E L). lia.
  - assert (x = y) by (eapply same_id; eassumption). subst y. split; [reflexivity|lia].
  - pose proof (numbers_apart vars y x P Iy (eq_sym E) L). lia.
Qed.
Lemma total_split (f g h : variable -> bool) xs : (forall y, h y = f y || g y) -> (forall y, f y = true -> g y = false) -> total (filter h xs) = (total (filter f xs) + total (filter g xs))%Z.
Proof.
  intros H D. induction xs as [|x xs IH]; [reflexivity|]. cbn [filter]. rewrite H. destruct (f x) eqn:Ef; [rewrite (D x Ef)|destruct (g x)]; cbn [orb]; rewrite ?total_cons; lia.
Qed.
Lemma one_id (c : variable -> bool) k vars : NoDup (map var_id vars) -> filter (fun y => c y && (var_id y =? k)%nat) vars = [] \/ exists x, In x vars /\ c x = true /\ var_id x = k /\ filter (fun y => c y && (var_id y =? k)%nat) vars = [x].
Proof.
  induction vars as [|v vars IH]; intros N; [now left|]. cbn [map] in N. inversion N as [|? ? N1 N2]; subst. cbn [filter]. destruct (c v) eqn:C; destruct (Nat.eqb_spec (var_id v) k) as [E|E]; cbn [andb].
  - right. exists v. split; [now left|]. split; [exact C|]. split; [exact E|]. f_equal. destruct (IH N2) as [->|(x & Ix & _ & Ex & _)]; [reflexivity|]. destruct N1. rewrite E, <- Ex. now apply in_map.
  - destruct (IH N2) as [->|(x & Ix & X)]; [now left|]. right. exists x. split; [now right|exact X].
  - destruct (IH N2) as [->|(x & Ix & X)]; [now left|]. right. exists x. split; [now right|exact X].
  - destruct (IH N2) as [->|(x & Ix & X)]; [now left|]. right. exists x. split; [now right|exact X].
Qed.
Lemma numbers_every vars (c : bool) n : Forall positive vars -> NoDup (map var_id vars) -> (0 <= n < total (filter (fun y => Bool.eqb (of_qubits y) c) vars))%Z ->
  exists x i, In x vars /\ of_qubits x = c /\ (0 <= i < tsize (var_type x))%Z /\ (first_number vars x + i = n)%Z.
Proof.
  intros P N B.
  assert (A : forall k, (0 <= n < total (filter (fun y => Bool.eqb (of_qubits y) c && (var_id y <? k)%nat) vars))%Z -> exists x i, In x vars /\ of_qubits x = c /\ (0 <= i < tsize (var_type x))%Z /\ (first_number vars x + i = n)%Z).
  { induction k as [|k IH]; intros H.
    - exfalso. replace (filter _ vars) with (@nil variable) in H; [cbn in H; lia|]. clear. induction vars as [|v vars IH]; [reflexivity|]. cbn [filter]. rewrite andb_false_r. exact IH.
    - rewrite (total_split (fun y => Bool.eqb (of_qubits y) c && (var_id y <? k)%nat) (fun y => Bool.eqb (of_qubits y) c && (var_id y =? k)%nat)) in H; [| |].
      + destruct (Z.ltb_spec n (total (filter (fun y => Bool.eqb (of_qubits y) c && (var_id y <? k)%nat) vars))) as [L|L]; [apply IH; lia|].
        destruct (one_id (fun y => Bool.eqb (of_qubits y) c) k vars N) as [E|(x & Ix & Cx & Ex & E)]; rewrite E in H; [change (total []) with 0%Z in H; lia|]. rewrite total_cons in H. change (total []) with 0%Z in H. apply eqb_prop in Cx.
        exists x, (n - first_number vars x)%Z. split; [exact Ix|]. split; [exact Cx|]. unfold first_number. rewrite Cx, Ex. lia.
      + intros y. destruct (Bool.eqb (of_qubits y) c); cbn [andb orb]; [|reflexivity]. destruct (Nat.ltb_spec (var_id y) (S k)), (Nat.ltb_spec (var_id y) k), (Nat.eqb_spec (var_id y) k); cbn; lia || reflexivity.
      + intros y Hy. apply andb_true_iff in Hy. destruct Hy as [_ Hy]. apply Nat.ltb_lt in Hy. apply andb_false_iff. right. apply Nat.eqb_neq. lia. }
  assert (U : exists k, Forall (fun y => (var_id y < k)%nat) vars).
  { clear. induction vars as [|v vars [k IH]]; [exists 0; constructor|]. exists (S (Nat.max (var_id v) k)). constructor; [lia|]. eapply Forall_impl; [|exact IH]. cbn beta. intros; lia. }
  destruct U as (k & U). apply (A k). replace (filter (fun y => Bool.eqb (of_qubits y) c && (var_id y <? k)%nat) vars) with (filter (fun y => Bool.eqb (of_qubits y) c) vars); [exact B|].
  clear -U. induction U as [|v vars Hv _ IH]; [reflexivity|]. cbn [filter]. rewrite IH. apply Nat.ltb_lt in Hv. rewrite Hv, andb_true_r. reflexivity.
Qed.
