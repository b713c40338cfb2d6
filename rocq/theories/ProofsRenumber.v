(** Registers with other numbers for their elements (C114). *)
From Coq Require Import ZArith Lia ZifyBool ZifyNat.
From Verif Require Import Base ModelVersion ModelError ModelTypes ModelOverload ModelFunctions ModelAst
  ModelAnalyzer ModelSemantic
  SpecPlace SpecUtils SpecTypes SpecFunctions SpecInstructions SpecAnalyzer SpecHull SpecDiagnosis SpecMachine SpecEvaluate SpecMeaning SpecResize
  ProofsSpelled ProofsResize SpecMeaning SpecRenumber.
Local Open Scope string_scope.

Section Renumber.
  Variables (lm : libm) (f : string -> option (Z -> Z)).
  Notation ro := (renumber_operand f).
  Notation rv := (renumber_value f).

  (** ** Operands *)
  Lemma indices_renumbered g es zs' : Forall (fun i => exists l1 l2 z, i = IItem l1 (EInt l2 z)) es ->
    indices_mean lm (map (renumber_entry g) es) zs' <-> exists zs, indices_mean lm es zs /\ zs' = map g zs.
  Proof.
    intros F. revert zs'. induction F as [|i es (l1 & l2 & z & ->) _ IH]; intros zs'; cbn [map renumber_entry].
    - split; [intros H; inversion H; subst; exists []; split; [constructor|reflexivity]|intros (zs & H & ->); inversion H; subst; constructor].
    - split.
      + intros H. inversion H as [|? ? z' ? zs1 H1 H2|]; subst. apply number_index in H1. subst z'. apply IH in H2. destruct H2 as (zs & H2 & ->). exists (z :: zs). split; [|reflexivity]. constructor; [now apply number_index|exact H2].
      + intros (zs & H & ->). inversion H as [|? ? z' ? zs1 H1 H2|]; subst. apply number_index in H1. subst z'. cbn [map]. constructor; [now apply number_index|]. apply IH. eauto.
  Qed.
  Definition known (x : variable) : Prop :=
    kind (var_type x) = TQubitArray \/ kind (var_type x) = TBitArray -> forall g, f (var_name x) = Some g -> forall z, (0 <= z < tsize (var_type x))%Z <-> (0 <= g z < tsize (var_type x))%Z.
  Lemma operand_renumbered vars e v' : Forall known vars -> numbered f e -> operand_means lm vars (ro e) v' <-> exists v, operand_means lm vars e v /\ v' = rv v.
  Proof.
    intros Kn N. rewrite Forall_forall in Kn.
    assert (Same : ro e = e -> (forall v, operand_means lm vars e v -> rv v = v) -> operand_means lm vars (ro e) v' <-> exists v, operand_means lm vars e v /\ v' = rv v).
    { intros E H. rewrite E. split; [intros H0; exists v'; split; [exact H0|now rewrite (H v' H0)]|]. intros (v & H0 & ->). now rewrite (H v H0). }
    destruct e as [l b|l z|l r|l n|l b es|l n es|l o a|l o a b|l a b c]; try (apply Same; [reflexivity|intros v H; inversion H; reflexivity]).
    destruct b as [| | |l' n| | | | |]; try (apply Same; [reflexivity|intros v H; inversion H; reflexivity]).
    cbn [renumber_operand] in *. destruct (f n) as [g|] eqn:E; [|apply Same; [reflexivity|]; intros v H; inversion H; subst; cbn [renumber_value]; now rewrite E].
    assert (F : Forall (fun i => exists l1 l2 z, i = IItem l1 (EInt l2 z)) es) by (apply (N l l' n es eq_refl); congruence). clear Same. split.
    - intros H. inversion H as [|? ? x ? zs Hx Kx I B]; subst. apply (indices_renumbered g es _ F) in I. destruct I as (zs0 & I & ->). exists (VIndex x zs0). cbn [renumber_value]. rewrite E. split; [|reflexivity].
      apply some_elements; try assumption. rewrite Forall_map in B. eapply Forall_impl; [|exact B]. intros z. apply (Kn x Hx Kx g E z).
    - intros (v & H & ->). inversion H as [|? ? x ? zs Hx Kx I B]; subst. cbn [renumber_value]. rewrite E. apply some_elements; try assumption; [apply (indices_renumbered g es _ F); eauto|].
      rewrite Forall_map. eapply Forall_impl; [|exact B]. intros z. apply (Kn x Hx Kx g E z).
  Qed.
  Lemma operands_renumbered vars es vs' : Forall known vars -> Forall (numbered f) es -> Forall2 (operand_means lm vars) (map ro es) vs' <-> exists vs, Forall2 (operand_means lm vars) es vs /\ vs' = map rv vs.
  Proof.
    intros Kn N. revert vs'. induction N as [|e es Ne _ IH]; intros vs'; cbn [map].
    - split; [intros H; inversion H; subst; exists []; split; [constructor|reflexivity]|intros (vs & H & ->); inversion H; subst; constructor].
    - split.
      + intros H. inversion H as [|? v' ? ws H1 H2]; subst. apply (operand_renumbered vars e v' Kn Ne) in H1. destruct H1 as (v & H1 & ->). apply IH in H2. destruct H2 as (vs & H2 & ->). exists (v :: vs). split; [constructor; assumption|reflexivity].
      + intros (vs & H & ->). inversion H as [|? v ? ws H1 H2]; subst. cbn [map]. constructor; [apply (operand_renumbered vars e _ Kn Ne); eauto|]. apply IH. eauto.
  Qed.
  Lemma addresses_renumbered c v k : addresses c (rv v) k <-> addresses c v k.
  Proof.
    destruct v as [| | |x|x zs]; cbn [renumber_value]; try reflexivity. destruct (f (var_name x)) as [g|]; [|reflexivity].
    split; intros H; inversion H; subst; rewrite ?map_length; first [now constructor|rewrite <- (map_length g zs); now constructor].
  Qed.
  Lemma instruction_renumbered n vs : instruction_for n (map rv vs) = instruction_for n vs.
  Proof. unfold instruction_for. f_equal. rewrite map_map. apply map_ext. intros [| | |x|x zs]; cbn [renumber_value]; try reflexivity. destruct (f (var_name x)); destruct zs as [|z1 [|z2 zs]]; reflexivity. Qed.

  (** ** Statements *)
  Lemma classes_renumbered (P : operand_class -> value -> Prop) cs vs : (forall c v, P c (rv v) <-> P c v) -> Forall2 P cs (map rv vs) <-> Forall2 P cs vs.
  Proof.
    intros H. revert cs. induction vs as [|v vs IH]; intros cs; cbn [map]; [reflexivity|]. split; intros F; inversion F as [|c ? cs' ? F1 F2]; subst; (constructor; [now apply H|now apply IH]).
  Qed.
  Lemma statement_renumbered vars s x' : Forall known vars -> Forall (numbered f) (operands_of s) -> instruction_means lm vars (renumber_statement f s) x' <-> exists x, instruction_means lm vars s x /\ x' = renumber_instruction f x.
  Proof.
    intros Kn N. split.
    - destruct s as [l n t an|l g ops an|l n ops ps an|l n c an]; cbn [renumber_statement operands_of] in *; intros H.
      + inversion H.
      + inversion H as [? ? ? sg base name vs k G O A| |]; subst. apply (operands_renumbered vars ops vs Kn N) in O. destruct O as (ws & O & ->). rewrite map_length in G.
        exists (SemGateInstr l (instruction_for name ws) sg ws []). cbn [renumber_instruction]. rewrite instruction_renumbered. split; [|reflexivity]. eapply gate_applied; [exact G|exact O|].
        rewrite Forall_map in A. eapply Forall_impl; [|exact A]. intros v. apply addresses_renumbered.
      + inversion H as [|? ? ? ? ks cs vs ws I O P A M|]; subst. apply (operands_renumbered vars ops vs Kn N) in O. destruct O as (us & O & ->).
        exists (SemNonGate l (instruction_for n us) n us ws []). cbn [renumber_instruction]. rewrite instruction_renumbered. split; [|reflexivity]. eapply non_gate_applied; [exact I|exact O|exact P| |].
        * apply (proj1 (classes_renumbered _ cs us (fun c v => conj (fun '(ex_intro _ k H) => ex_intro _ k (proj1 (addresses_renumbered c v k) H)) (fun '(ex_intro _ k H) => ex_intro _ k (proj2 (addresses_renumbered c v k) H)))) A).
        * intros E. destruct (M E) as (k & Hk). exists k. exact (proj1 (classes_renumbered _ cs us (fun c v => addresses_renumbered c v k)) Hk).
      + inversion H; subst. eexists. split; [constructor|reflexivity].
    - intros (x & H & ->). destruct H as [l g ops sg base name vs k G O A|l n ops ps ks cs vs ws I O P A M|l n code]; cbn [renumber_statement renumber_instruction operands_of] in *.
      + rewrite <- (instruction_renumbered name vs). eapply gate_applied; [rewrite map_length; exact G|apply (operands_renumbered vars ops _ Kn N); eauto|]. rewrite Forall_map. eapply Forall_impl; [|exact A]. intros v. apply addresses_renumbered.
      + rewrite <- (instruction_renumbered n vs). eapply non_gate_applied; [exact I|apply (operands_renumbered vars ops _ Kn N); eauto|exact P| |].
        * apply (proj2 (classes_renumbered _ cs vs (fun c v => conj (fun '(ex_intro _ k H) => ex_intro _ k (proj1 (addresses_renumbered c v k) H)) (fun '(ex_intro _ k H) => ex_intro _ k (proj2 (addresses_renumbered c v k) H)))) A).
        * intros E. destruct (M E) as (k & Hk). exists k. exact (proj2 (classes_renumbered _ cs vs (fun c v => addresses_renumbered c v k)) Hk).
      + constructor.
  Qed.

  (** ** Programs *)
  Lemma block_renumbered ss : forall vars vars' xs', Forall known vars -> Forall (fun s => Forall (numbered f) (operands_of s)) ss ->
    (forall l n t an k g, In (SVariable l n t an) ss -> ty_size t = Some k -> f n = Some g -> forall z, (0 <= z < k)%Z <-> (0 <= g z < k)%Z) ->
    block_means lm vars (map (renumber_statement f) ss) vars' xs' <-> exists xs, block_means lm vars ss vars' xs /\ xs' = map (renumber_instruction f) xs.
  Proof.
    induction ss as [|s ss IH]; intros vars vars' xs' Kn N St; cbn [map].
    - split; [intros H; inversion H; subst; exists []; split; [constructor|reflexivity]|intros (xs & H & ->); inversion H; subst; constructor].
    - inversion N as [|? ? N1 N2]; subst. assert (St' : forall l n t an k g, In (SVariable l n t an) ss -> ty_size t = Some k -> f n = Some g -> forall z, (0 <= z < k)%Z <-> (0 <= g z < k)%Z) by (intros l n t an k g Hi; apply (St l n t an k g); now right).
      assert (Kn' : forall l n t ty, s = SVariable l n t [] -> declares_type t ty -> Forall known (vars ++ [mkVariable (List.length vars) n ty])).
      { intros l n t ty Es D. apply Forall_app. split; [exact Kn|]. constructor; [|constructor]. intros K g E. cbn [var_type var_name] in *. intros z. apply (St l n t [] (tsize ty) g); [left; exact Es| |exact E].
        inversion D; subst; cbn [kind tsize ty_size] in *; try reflexivity; destruct K; discriminate. }
      split.
      + intros H. inversion H as [|l n t ty ? ? ? D N3 N4 B E0|s0 x ? ? xs0 M B E0]; subst.
        * destruct s as [l0 n0 t0 an0| | |]; try discriminate. injection E0 as J1 J2 J3 J4; subst. apply (IH _ _ _ (Kn' _ _ _ ty eq_refl D) N2 St') in B. destruct B as (xs & B & ->). exists xs. split; [eapply declaration; eassumption|reflexivity].
        * apply (statement_renumbered vars s x Kn N1) in M. destruct M as (y & M & ->). apply (IH _ _ _ Kn N2 St') in B. destruct B as (xs & B & ->). exists (y :: xs). split; [apply instruction_of; assumption|reflexivity].
      + intros (xs & H & ->). inversion H as [|l n t ty ? ? ? D N3 N4 B E0|s0 x ? ? xs0 M B E0]; subst.
        * cbn [renumber_statement]. eapply declaration; [exact D|exact N3|exact N4|]. apply (IH _ _ _ (Kn' l n t ty eq_refl D) N2 St'). eauto.
        * cbn [map]. apply instruction_of; [apply (statement_renumbered vars s _ Kn N1); eauto|]. apply (IH _ _ _ Kn N2 St'). eauto.
  Qed.
  Lemma locations_renumbered xs : statement_locations (map (renumber_instruction f) xs) = statement_locations xs.
  Proof. unfold statement_locations. induction xs as [|x xs IH]; [reflexivity|]. cbn [map flat_map]. rewrite IH. destruct x; reflexivity. Qed.
  Lemma program_renumbered api p q' : all_numbered f p -> stay_elements f p -> program_means lm api (renumber_program f p) q' <-> exists q, program_means lm api p q /\ q' = renumber_result f q.
  Proof.
    intros N St. assert (N' : Forall (fun s => Forall (numbered f) (operands_of s)) (prog_statements p)) by (apply Forall_forall; intros s Hs; apply Forall_forall; intros e He; exact (N s e Hs He)). split.
    - intros [vars [xs' bl] V B S]. cbn [renumber_program prog_statements prog_version prog_version_loc blk_statements] in *. apply (block_renumbered _ _ _ _ (Forall_nil _) N' St) in B. destruct B as (xs & B & ->).
      exists (mkSemProgram api (prog_version p) (prog_version_loc p) (mkBlock xs bl) (map (fun x => mkSemVariable x []) vars)). split; [|reflexivity]. apply program_of; [exact V|exact B|]. unfold spans_statements in *. cbn [blk_loc blk_statements] in *. now rewrite locations_renumbered in S.
    - intros (q & [vars b V B S] & ->). unfold renumber_result. cbn [sp_api_version sp_version sp_version_loc sp_block sp_variables].
      apply (program_of lm api (renumber_program f p) vars (mkBlock (map (renumber_instruction f) (blk_statements b)) (blk_loc b))); [exact V| |].
      + cbn [renumber_program prog_statements blk_statements]. apply (block_renumbered _ _ _ _ (Forall_nil _) N' St). eauto.
      + unfold spans_statements in *. cbn [blk_loc blk_statements]. now rewrite locations_renumbered.
  Qed.

  (** ** What is asked of programs *)
  Lemma renumbered_literals e : stay_numbers f -> numbered f e -> machine_literals e -> machine_literals (ro e).
  Proof.
    intros Sn N L. destruct e as [| | | |l b0 es| | | |]; try exact L. destruct b0 as [| | |l' n| | | | |]; try exact L. cbn [renumber_operand]. destruct (f n) as [g|] eqn:E; [|exact L].
    assert (F : Forall (fun i => exists l1 l2 z, i = IItem l1 (EInt l2 z)) es) by (apply (N l l' n es eq_refl); congruence). apply index_literals in L. apply index_literals. destruct L as [L1 L2]. split; [exact L1|].
    rewrite Forall_map. rewrite Forall_forall in *. intros i Hi. destruct (F i Hi) as (l1 & l2 & z & ->). specialize (L2 _ Hi). cbn [renumber_entry entry_literals] in *. apply number_literals. apply number_literals in L2. eapply Sn; eauto.
  Qed.
  Lemma renumbered_indexed e : numbered f e -> indexed_expr e = true -> indexed_expr (ro e) = true.
  Proof.
    intros N L. destruct e as [| | | |l b0 es| | | |]; try exact L. destruct b0 as [| | |l' n| | | | |]; try exact L. cbn [renumber_operand]. destruct (f n) as [g|] eqn:E; [|exact L].
    assert (F : Forall (fun i => exists l1 l2 z, i = IItem l1 (EInt l2 z)) es) by (apply (N l l' n es eq_refl); congruence). cbn [indexed_expr] in *. rewrite map_length, !andb_true_iff in *. destruct L as [L1 L2]. split; [exact L1|]. clear -F. induction F as [|i es (l1 & l2 & z & ->) _ IH]; [reflexivity|]. cbn [map forallb renumber_entry]. now rewrite IH.
  Qed.
  Lemma renumbered_demands p : stay_numbers f -> all_numbered f p -> grammar_program p -> machine_program p -> ordered_locations p ->
    grammar_program (renumber_program f p) /\ machine_program (renumber_program f p) /\ ordered_locations (renumber_program f p).
  Proof.
    intros Sn N G M O. unfold grammar_program, machine_program in *. rewrite Forall_forall in G, M. 
    assert (X : forall s, In s (prog_statements p) -> (grammar_statement (renumber_statement f s) /\ machine_statement (renumber_statement f s)) /\ place_of_statement (renumber_statement f s) = place_of_statement s).
    { intros s Hs. specialize (G s Hs). specialize (M s Hs). specialize (N s).
      assert (Y : forall ops, (forall e, In e ops -> numbered f e) -> (forallb indexed_expr ops = true -> forallb indexed_expr (map ro ops) = true) /\ (Forall machine_literals ops -> Forall machine_literals (map ro ops))).
      { intros ops H. induction ops as [|e ops IH]; [auto|]. destruct IH as [I1 I2]; [intros; apply H; now right|]. cbn [map forallb]. rewrite !andb_true_iff. split.
        - intros [H1 H2]. split; [apply renumbered_indexed; auto; apply H; now left|auto].
        - intros H0. inversion H0; subst. constructor; [apply renumbered_literals; auto; apply H; now left|auto]. }
      destruct s as [l n t an|l g ops an|l n ops ps an|l n c an]; [auto| | |auto]; (split; [|reflexivity]); destruct (Y ops (fun e He => N e Hs He)) as [L1 L2]; unfold grammar_statement, machine_statement in *; cbn [renumber_statement statement_exprs SpecAnalyzer.plain] in *;
        destruct G as (P1 & P2 & P3), M as [Q1 Q2]; rewrite !forallb_app, !andb_true_iff in *; rewrite !Forall_app in *; tauto. }
    cbn [renumber_program prog_statements]. split; [|split]; [apply Forall_map, Forall_forall; intros s Hs; apply X, Hs|apply Forall_map, Forall_forall; intros s Hs; apply X, Hs|].
    intros s l Hs E. cbn [renumber_program prog_statements] in Hs. apply in_map_iff in Hs. destruct Hs as (s0 & <- & H0). rewrite (proj2 (X s0 H0)) in E. exact (O s0 l H0 E).
  Qed.
End Renumber.
