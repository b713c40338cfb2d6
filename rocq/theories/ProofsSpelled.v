(** Ranges and whole registers as abbreviations (C107). *)
From Coq Require Import ZArith Lia ZifyBool ZifyNat.
From Verif Require Import Base ModelVersion ModelError ModelTypes ModelOverload ModelFunctions ModelAst
  ModelAnalyzer ModelSemantic
  SpecPlace SpecUtils SpecTypes SpecFunctions SpecInstructions SpecAnalyzer SpecHull SpecDiagnosis SpecMachine SpecEvaluate SpecMeaning SpecResize SpecSpelled.
Local Open Scope string_scope.

Section Spelled.
  Variable lm : libm.

  (** ** Ranges *)
  Lemma number_index l z x : index_means lm (EInt l z) x <-> x = z.
  Proof.
    split.
    - intros H. inversion H as [? q ? E W]; subst. inversion E; subst. cbn in W. congruence.
    - intros ->. apply (index_number lm _ (QInt z)); [constructor|reflexivity].
  Qed.
  Lemma items_mean items zs : Forall2 number_item items zs -> forall es ws, indices_mean lm (items ++ es) ws <-> exists ws', ws = (zs ++ ws')%list /\ indices_mean lm es ws'.
  Proof.
    induction 1 as [|i z items zs (l & l' & ->) _ IH]; intros es ws; cbn [app].
    - split; [eauto|]. intros (ws' & -> & H). exact H.
    - split.
      + intros H. inversion H as [|? ? x ? xs I J|]; subst. apply number_index in I. subst x. apply IH in J. destruct J as (ws' & -> & J). eauto.
      + intros (ws' & -> & H). constructor; [now apply number_index|]. apply IH. eauto.
  Qed.
  Lemma spelled_means es es' : spelled_entries es es' -> forall zs, indices_mean lm es zs <-> indices_mean lm es' zs.
  Proof.
    induction 1 as [|i es es' _ IH|l la lb a b items es es' Hab It _ IH]; intros zs; [tauto| |].
    - split; intros H; inversion H; subst; constructor; auto; now apply IH.
    - rewrite (items_mean _ _ It). split.
      + intros H. inversion H as [| |? ? ? x y ? ws I J Le K]; subst. apply number_index in I, J. subst x y. exists ws. split; [reflexivity|now apply IH].
      + intros (ws & -> & H). constructor; [now apply number_index|now apply number_index|exact Hab|now apply IH].
  Qed.
  Lemma spelled_operand_means vars e e' : spelled_operand e e' -> forall v, operand_means lm vars e v <-> operand_means lm vars e' v.
  Proof.
    intros [e0|l b es es' S] v; [tauto|]. split; intros H; inversion H; subst; constructor; auto; now apply (spelled_means _ _ S).
  Qed.
  Lemma spelled_operands_mean vars es es' : Forall2 spelled_operand es es' -> forall vs, Forall2 (operand_means lm vars) es vs <-> Forall2 (operand_means lm vars) es' vs.
  Proof.
    induction 1 as [|e e' es es' H _ IH]; intros vs; [tauto|]. split; intros F; inversion F; subst; constructor; (now apply (spelled_operand_means vars _ _ H)) || now apply IH.
  Qed.
  Lemma spelled_length es es' : Forall2 spelled_operand es es' -> List.length es = List.length es'.
  Proof. induction 1; cbn [List.length]; congruence. Qed.
  Lemma spelled_statement_means vars s s' : respelled spelled_operand s s' -> forall x, instruction_means lm vars s x <-> instruction_means lm vars s' x.
  Proof.
    intros [l g ops ops' an F|l n ops ops' ps an F|l n t an|l n c an] x; [| |tauto|tauto]; pose proof (spelled_length _ _ F) as Le; (split; intros H; inversion H; subst).
    - eapply gate_applied; [rewrite <- Le; eassumption|now apply (spelled_operands_mean vars _ _ F)|eassumption].
    - eapply gate_applied; [rewrite Le; eassumption|now apply (spelled_operands_mean vars _ _ F)|eassumption].
    - eapply non_gate_applied; try eassumption. now apply (spelled_operands_mean vars _ _ F).
    - eapply non_gate_applied; try eassumption. now apply (spelled_operands_mean vars _ _ F).
  Qed.
  Lemma declared_forth R l n t an s' : respelled R (SVariable l n t an) s' -> s' = SVariable l n t an.
  Proof. intros H. inversion H. reflexivity. Qed.
  Lemma declared_back R l n t an s : respelled R s (SVariable l n t an) -> s = SVariable l n t an.
  Proof. intros H. inversion H. reflexivity. Qed.
  Lemma spelled_block ss ss' : Forall2 (respelled spelled_operand) ss ss' -> forall vars vars' xs, block_means lm vars ss vars' xs <-> block_means lm vars ss' vars' xs.
  Proof.
    induction 1 as [|s s' ss ss' H _ IH]; intros vars vars' xs; [tauto|]. split; intros B; inversion B; subst.
    - apply declared_forth in H. subst s'. eapply declaration; eauto. now apply IH.
    - apply instruction_of; [now apply (spelled_statement_means vars _ _ H)|now apply IH].
    - apply declared_back in H. subst s. eapply declaration; eauto. now apply IH.
    - apply instruction_of; [now apply (spelled_statement_means vars _ _ H)|now apply IH].
  Qed.
  Lemma spelled_program api p p' q : respelled_program spelled_operand p p' -> program_means lm api p q <-> program_means lm api p' q.
  Proof.
    intros (E1 & E2 & _ & F). split; intros [vars b V B S].
    - rewrite <- E1, <- E2. apply program_of; [congruence| |exact S]. now apply (spelled_block _ _ F).
    - rewrite E1, E2. apply program_of; [congruence| |exact S]. now apply (spelled_block _ _ F).
  Qed.

  (** ** What is asked of programs *)
  Lemma within_number l z x : within x (EInt l z) -> x = EInt l z.
  Proof. intros H. inversion H; reflexivity. Qed.
  Lemma numbers_between a b z : In z (from_to a b) -> (a <= z <= b)%Z.
  Proof. unfold from_to. rewrite in_map_iff. intros (i & <- & Hi). apply in_seq in Hi. lia. Qed.
  Lemma from_to_nonempty a b : (a <= b)%Z -> from_to a b <> [].
  Proof. intros H E. apply (f_equal (@List.length Z)) in E. unfold from_to in E. rewrite map_length, seq_length in E. cbn in E. lia. Qed.
  Definition same_demands (R : expr -> expr -> Prop) : Prop :=
    forall e e', R e e' -> (indexed_expr e = true -> indexed_expr e' = true) /\ (machine_literals e -> machine_literals e').
  Lemma items_indexed items zs : Forall2 number_item items zs -> forallb indexed_entry items = true.
  Proof. induction 1 as [|i z items zs (l & l' & ->) _ IH]; [reflexivity|]. exact IH. Qed.
  Lemma spelled_indexed es es' : spelled_entries es es' -> forallb indexed_entry es = true -> forallb indexed_entry es' = true /\ (es <> [] -> es' <> []).
  Proof.
    induction 1 as [|i es es' _ IH|l la lb a b items es es' Hab It _ IH]; cbn [forallb]; intros H; [auto| |].
    - apply andb_true_iff in H. destruct H as [H1 H2]. destruct (IH H2) as [-> _]. rewrite H1. split; [reflexivity|discriminate].
    - apply andb_true_iff in H. destruct H as [_ H2]. destruct (IH H2) as [I1 _]. rewrite forallb_app, (items_indexed _ _ It), I1. split; [reflexivity|]. intros _ E. apply app_eq_nil in E. destruct E as [-> _].
      inversion It as [X Y|]. symmetry in Y. exact (from_to_nonempty a b Hab (eq_sym (eq_sym Y))).
  Qed.
  Definition entry_literals (i : index_entry) : Prop := match i with IItem _ e => machine_literals e | IRange _ a b => machine_literals a /\ machine_literals b end.
  Lemma index_literals l b es : machine_literals (EIndex l b es) <-> machine_literals b /\ Forall entry_literals es.
  Proof.
    unfold machine_literals. split.
    - intros [H1 H2]. split; [split; intros; [eapply H1|eapply H2]; apply within_base; eauto|]. apply Forall_forall. intros [l' e|l' x y] Hi; cbn [entry_literals].
      + split; intros; [eapply H1|eapply H2]; eapply within_item; eauto.
      + split; split; intros; [eapply H1|eapply H2|eapply H1|eapply H2]; (eapply within_first; eauto; fail) || (eapply within_last; eauto).
    - intros [[H1 H2] F]. rewrite Forall_forall in F. split; intros l' z W; inversion W; subst; eauto;
        match goal with Hi : In ?i es |- _ => specialize (F _ Hi); cbn [entry_literals] in F; unfold machine_literals in F end; destruct F as [F1 F2]; eauto; try (destruct F1; eauto; fail); destruct F2; eauto.
  Qed.
  Lemma number_literals l z : machine_literals (EInt l z) <-> fits z.
  Proof.
    unfold machine_literals. split.
    - intros [H _]. apply (H l). constructor.
    - intros F. split; intros l' x W; apply within_number in W; [injection W as _ ->; exact F|discriminate].
  Qed.
  Lemma spelled_literals es es' : spelled_entries es es' -> Forall entry_literals es -> Forall entry_literals es'.
  Proof.
    induction 1 as [|i es es' _ IH|l la lb a b items es es' Hab It _ IH]; intros F; [constructor| |].
    - inversion F; subst. constructor; auto.
    - inversion F as [|? ? Fab F']; subst. cbn [entry_literals] in Fab. destruct Fab as [Fa Fb]. apply number_literals in Fa, Fb. apply Forall_app. split; [|now apply IH].
      assert (G : Forall fits (from_to a b)) by (apply Forall_forall; intros z Hz; apply numbers_between in Hz; unfold fits in *; lia).
      clear -It G. induction It as [|i z items zs (l & l' & ->) _ IH]; [constructor|]. inversion G; subst. constructor; [now apply number_literals|now apply IH].
  Qed.
  Lemma spelled_demands : same_demands spelled_operand.
  Proof.
    intros e e' [e0|l b es es' S]; [tauto|]. split.
    - cbn [indexed_expr]. intros H. apply andb_true_iff in H. destruct H as [H H2]. apply andb_true_iff in H. destruct H as [H0 H1]. destruct (spelled_indexed _ _ S H2) as [I1 I2]. rewrite H1, I1.
      destruct es' as [|]; [|reflexivity]. destruct es; [discriminate H0|]. destruct (I2 ltac:(discriminate) eq_refl).
    - rewrite !index_literals. intros [H1 H2]. split; [exact H1|]. now apply (spelled_literals _ _ S).
  Qed.
  Lemma listed_demands size : sizes_legal size -> same_demands (listed_operand size).
  Proof.
    intros Lg e e' [e0 _|l n k l1 l2 l3 l4 l5 E]; [tauto|]. destruct (Lg _ _ E) as [K F]. split; [reflexivity|]. intros _. rewrite index_literals. split.
    - split; intros l' z W; inversion W.
    - constructor; [|constructor]. cbn [entry_literals]. rewrite !number_literals. unfold fits in *. lia.
  Qed.
  Lemma respelled_demands R p p' : same_demands R -> respelled_program R p p' -> grammar_program p /\ machine_program p /\ ordered_locations p -> grammar_program p' /\ machine_program p' /\ ordered_locations p'.
  Proof.
    intros D (_ & _ & _ & F) (G & M & O). unfold grammar_program, machine_program, ordered_locations in *. revert O.
    induction F as [|s s' ss ss' H _ IH]; intros O; [split; [constructor|]; split; [constructor|]; intros s l []|].
    inversion G as [|? ? G1 G2]; inversion M as [|? ? M1 M2]; subst. destruct (IH G2 M2) as (G' & M' & O'); [intros x l Hx; apply O; now right|].
    assert (X : (grammar_statement s' /\ machine_statement s') /\ place_of_statement s' = place_of_statement s).
    { assert (Lx : forall ops ops', Forall2 R ops ops' -> (forallb indexed_expr ops = true -> forallb indexed_expr ops' = true) /\ (Forall machine_literals ops -> Forall machine_literals ops')).
      { induction 1 as [|e e' es es' He _ [I1 I2]]; [auto|]. destruct (D e e' He) as [D1 D2]. cbn [forallb]. rewrite !andb_true_iff. split; [tauto|]. intros X. inversion X; subst. constructor; auto. }
      destruct H as [l g ops ops' an H|l n ops ops' ps an H|l n t an|l n c an]; [| |tauto|tauto]; (split; [|reflexivity]); destruct (Lx _ _ H) as [L1 L2]; unfold grammar_statement, machine_statement in *; cbn [statement_exprs SpecAnalyzer.plain] in *;
        destruct G1 as (P1 & P2 & P3), M1 as [Q1 Q2]; rewrite !forallb_app, !andb_true_iff in *; rewrite !Forall_app in *; tauto. }
    destruct X as [[X1 X2] X3]. split; [now constructor|]. split; [now constructor|]. intros x l [<-|Hx]; [rewrite X3; apply O; now left|now apply O'].
  Qed.

  (** ** Whole registers *)
  Section Listed.
    Variable size : string -> option Z.
    Hypothesis legal : sizes_legal size.

    (** The variables to be listed are registers of the given sizes. *)
    Definition known_size (x : variable) : Prop := forall k, size (var_name x) = Some k ->
      (kind (var_type x) = TQubitArray \/ kind (var_type x) = TBitArray) /\ tsize (var_type x) = k.
    Lemma from_to_length k : (0 < k)%Z -> Z.of_nat (List.length (from_to 0 (k - 1))) = k.
    Proof. intros H. unfold from_to. rewrite map_length, seq_length. lia. Qed.
    Lemma all_elements l3 l4 l5 k zs : (0 < k)%Z -> indices_mean lm [IRange l3 (EInt l4 0) (EInt l5 (k - 1))] zs <-> zs = from_to 0 (k - 1).
    Proof.
      intros K. split.
      - intros H. inversion H as [| |? ? ? a b ? ws I J Le W]; subst. apply number_index in I, J. subst. inversion W. apply app_nil_r.
      - intros ->. rewrite <- (app_nil_r (from_to 0 (k - 1))). constructor; [now apply number_index|now apply number_index|lia|constructor].
    Qed.
    Lemma listed_means vars e e' : Forall known_size vars -> listed_operand size e e' ->
      forall v', operand_means lm vars e' v' <-> exists v, operand_means lm vars e v /\ v' = list_value size v.
    Proof.
      intros Kn H v'. rewrite Forall_forall in Kn. destruct H as [e Hn|l n k l1 l2 l3 l4 l5 E].
      - split.
        + intros M. exists v'. split; [exact M|]. destruct M as [l x Hx|]; cbn [list_value]; [|reflexivity]. now rewrite (Hn l _ eq_refl).
        + intros (v & M & ->). destruct M as [l x Hx|l l' x es zs Hx K I F]; cbn [list_value]; [|now apply some_elements]. rewrite (Hn l _ eq_refl). now apply whole_variable.
      - destruct (legal _ _ E) as [K _]. split.
        + intros M. inversion M as [|? ? x ? zs Hx Ka I F]; subst. apply all_elements in I; [|exact K]. subst zs. exists (VVar x). split; [now apply whole_variable|]. cbn [list_value]. now rewrite E.
        + intros (v & M & ->). inversion M as [? x Hx|]; subst. destruct (Kn x Hx k E) as [Ka Kt]. cbn [list_value]. rewrite E. apply some_elements; [exact Hx|exact Ka|now apply all_elements|].
          apply Forall_forall. intros z Hz. apply numbers_between in Hz. lia.
    Qed.
    Lemma listed_all vars es es' : Forall known_size vars -> Forall2 (listed_operand size) es es' ->
      forall vs', Forall2 (operand_means lm vars) es' vs' <-> exists vs, Forall2 (operand_means lm vars) es vs /\ vs' = map (list_value size) vs.
    Proof.
      intros Kn. induction 1 as [|e e' es es' H _ IH]; intros vs'; split.
      - intros F. inversion F. exists []. split; [constructor|reflexivity].
      - intros (vs & F & ->). inversion F. constructor.
      - intros F. inversion F as [|? v' ? ws' M F']; subst. apply (listed_means vars _ _ Kn H) in M. destruct M as (v & M & ->). apply IH in F'. destruct F' as (vs & F' & ->). exists (v :: vs). split; [now constructor|reflexivity].
      - intros (vs & F & ->). inversion F as [|? v ? ws M F']; subst. cbn [map]. constructor; [apply (listed_means vars _ _ Kn H); eauto|apply IH; eauto].
    Qed.
    Definition known_value (v : value) : Prop := match v with VVar x => known_size x | _ => True end.
    Lemma operands_known vars es vs : Forall known_size vars -> Forall2 (operand_means lm vars) es vs -> Forall known_value vs.
    Proof. intros Kn. rewrite Forall_forall in Kn. induction 1 as [|e v es vs M _ IH]; constructor; [|exact IH]. destruct M; cbn [known_value]; auto. Qed.
    Lemma listed_addresses c v k : known_value v -> addresses c v k <-> addresses c (list_value size v) k.
    Proof.
      destruct v as [| | |x|x zs]; cbn [known_value list_value]; try tauto. intros Kn. destruct (size (var_name x)) as [z|] eqn:E; [|tauto].
      destruct (Kn z E) as [Ka Kt]. destruct (legal _ _ E) as [Kz _]. pose proof (from_to_length z Kz) as Le. split; intros A; inversion A; subst; try (destruct Ka; congruence).
      - rewrite <- Le at 2. constructor. assumption.
      - rewrite <- Le at 2. constructor. assumption.
      - rewrite Le. constructor. assumption.
      - rewrite Le. constructor. assumption.
    Qed.
    Lemma listed_length es es' : Forall2 (listed_operand size) es es' -> List.length es = List.length es'.
    Proof. induction 1; cbn [List.length]; congruence. Qed.
    Lemma listed_forall (P : value -> Prop) vs : (forall v, known_value v -> P v <-> P (list_value size v)) -> Forall known_value vs -> Forall P vs <-> Forall P (map (list_value size) vs).
    Proof.
      intros H Kn. induction Kn as [|v vs Hv _ IH]; [split; constructor|]. cbn [map]. split; intros F; inversion F; subst; constructor; try (now apply IH); now apply (H v Hv).
    Qed.
    Lemma listed_forall2 {A} (P : A -> value -> Prop) vs : (forall c v, known_value v -> P c v <-> P c (list_value size v)) -> Forall known_value vs -> forall cs, Forall2 P cs vs <-> Forall2 P cs (map (list_value size) vs).
    Proof.
      intros H Kn. induction Kn as [|v vs Hv _ IH]; intros cs; [cbn [map]; tauto|]. cbn [map]. split; intros F; inversion F; subst; constructor; try (now apply IH); now apply (H _ v Hv).
    Qed.
    Lemma listed_statement_means vars s s' : Forall known_size vars -> respelled (listed_operand size) s s' -> forall x', instruction_means lm vars s' x' <-> exists x, instruction_means lm vars s x /\ x' = list_instruction size x.
    Proof.
      intros Kn [l g ops ops' an F|l n ops ops' ps an F|l n t an|l n c an] x'; split.
      - intros M. inversion M as [? ? ? sg base name vs k G O A| |]; subst. apply (listed_all vars _ _ Kn F) in O. destruct O as (ws & O & ->). pose proof (operands_known _ _ _ Kn O) as Kv.
        exists (SemGateInstr l (instruction_for name ws) sg ws []). split; [|reflexivity]. eapply gate_applied; [rewrite (listed_length _ _ F); exact G|exact O|]. apply (listed_forall (fun v => addresses Qubits v k)); [intros; now apply listed_addresses|exact Kv|exact A].
      - intros (x & M & ->). inversion M as [? ? ? sg base name vs k G O A| |]; subst. pose proof (operands_known _ _ _ Kn O) as Kv. cbn [list_instruction instruction_for instr_name].
        eapply gate_applied; [rewrite <- (listed_length _ _ F); exact G|apply (listed_all vars _ _ Kn F); eauto|]. apply (listed_forall (fun v => addresses Qubits v k)) in A; [exact A|intros; now apply listed_addresses|exact Kv].
      - intros M. inversion M as [|? ? ? ? ks cs vs ws I O P A Me|]; subst. apply (listed_all vars _ _ Kn F) in O. destruct O as (us & O & ->). pose proof (operands_known _ _ _ Kn O) as Kv.
        exists (SemNonGate l (instruction_for n us) n us ws []). split; [|reflexivity]. eapply non_gate_applied; [exact I|exact O|exact P| |].
        + apply (listed_forall2 (fun c v => exists k, addresses c v k)); [|exact Kv|exact A]. intros c v Hv. split; intros (k & Hk); exists k; now apply (listed_addresses c v k Hv).
        + intros En. destruct (Me En) as (k & Hk). exists k. apply (listed_forall2 (fun c v => addresses c v k)); [intros; now apply listed_addresses|exact Kv|exact Hk].
      - intros (x & M & ->). inversion M as [|? ? ? ? ks cs vs ws I O P A Me|]; subst. pose proof (operands_known _ _ _ Kn O) as Kv. cbn [list_instruction instruction_for instr_name].
        eapply non_gate_applied; [exact I|apply (listed_all vars _ _ Kn F); eauto|exact P| |].
        + apply (listed_forall2 (fun c v => exists k, addresses c v k)) in A; [exact A| |exact Kv]. intros c v Hv. split; intros (k & Hk); exists k; now apply (listed_addresses c v k Hv).
        + intros En. destruct (Me En) as (k & Hk). exists k. apply (listed_forall2 (fun c v => addresses c v k)) in Hk; [exact Hk|intros; now apply listed_addresses|exact Kv].
      - intros M. inversion M.
      - intros (x & M & ->). inversion M.
      - intros M. inversion M; subst. eexists. split; [constructor|reflexivity].
      - intros (x & M & ->). inversion M; subst. constructor.
    Qed.
    Lemma listed_block all ss ss' : Forall2 (respelled (listed_operand size)) ss ss' -> incl ss all ->
      (forall l n t an k, In (SVariable l n t an) all -> size n = Some k -> ty_size t = Some k) ->
      forall vars vars' xs', Forall known_size vars -> block_means lm vars ss' vars' xs' <-> exists xs, block_means lm vars ss vars' xs /\ xs' = map (list_instruction size) xs.
    Proof.
      intros F I De. induction F as [|s s' ss ss' H _ IH]; intros vars vars' xs' Kn.
      - split; [intros B; inversion B; subst; exists []; split; [constructor|reflexivity]|]. intros (xs & B & ->). inversion B; subst. constructor.
      - assert (I' : incl ss all) by (intros y Hy; apply I; now right).
        assert (Kn' : forall l n t ty, s = SVariable l n t [] -> declares_type t ty -> Forall known_size (vars ++ [mkVariable (List.length vars) n ty])%list).
        { intros l n t ty -> D. apply Forall_app. split; [exact Kn|]. constructor; [|constructor]. intros k E. cbn [var_name var_type] in *. specialize (De l n t [] k (I _ (or_introl eq_refl)) E).
          destruct D; cbn [ty_size kind tsize] in *; try discriminate; injection De as ->; auto. }
        split.
        + intros B. inversion B as [|l n t ty ? ? ? D N1 N2 B'|s0 x' ? ? xs0 M B']; subst.
          * apply declared_back in H. subst s. apply (IH I') in B'; [|eapply Kn'; eauto]. destruct B' as (xs & B' & ->). exists xs. split; [|reflexivity]. eapply declaration; eauto.
          * apply (listed_statement_means vars s s' Kn H) in M. destruct M as (x & M & ->). apply (IH I' _ _ _ Kn) in B'. destruct B' as (xs & B' & ->). exists (x :: xs). split; [now apply instruction_of|reflexivity].
        + intros (xs & B & ->). inversion B as [|l n t ty ? ? ? D N1 N2 B'|s0 x ? ? xs0 M B']; subst.
          * apply declared_forth in H. subst s'. eapply declaration; eauto. apply (IH I'); [eapply Kn'; eauto|]. eauto.
          * cbn [map]. apply instruction_of; [apply (listed_statement_means vars s s' Kn H); eauto|]. apply (IH I' _ _ _ Kn). eauto.
    Qed.
    Lemma locations_listed xs : statement_locations (map (list_instruction size) xs) = statement_locations xs.
    Proof. unfold statement_locations. induction xs as [|x xs IH]; [reflexivity|]. cbn [map flat_map]. rewrite IH. destruct x; reflexivity. Qed.
    Lemma listed_program api p p' : respelled_program (listed_operand size) p p' -> sizes_declared size p ->
      forall q', program_means lm api p' q' <-> exists q, program_means lm api p q /\ q' = list_result size q.
    Proof.
      intros (E1 & E2 & _ & F) De q'. split.
      - intros [vars [xs' bl] V B S]. cbn [blk_statements] in B. apply (listed_block _ _ _ F (incl_refl _) De [] vars xs' (Forall_nil _)) in B. destruct B as (xs & B & ->).
        exists (mkSemProgram api (prog_version p) (prog_version_loc p) (mkBlock xs bl) (map (fun x => mkSemVariable x []) vars)). split; [|unfold list_result; cbn [sp_api_version sp_version sp_version_loc sp_block sp_variables blk_statements blk_loc]; congruence].
        apply program_of; [congruence|exact B|]. unfold spans_statements in *. cbn [blk_loc blk_statements] in *. now rewrite locations_listed in S.
      - intros (q & [vars b V B S] & ->). unfold list_result. cbn [sp_api_version sp_version sp_version_loc sp_block sp_variables]. rewrite <- E1, <- E2.
        apply (program_of lm api p' vars (mkBlock (map (list_instruction size) (blk_statements b)) (blk_loc b))); [congruence| |].
        + cbn [blk_statements]. apply (listed_block _ _ _ F (incl_refl _) De [] vars _ (Forall_nil _)). eauto.
        + unfold spans_statements in *. cbn [blk_loc blk_statements] in *. now rewrite locations_listed.
    Qed.
  End Listed.
End Spelled.

(** ** All ranges spelled out, all given registers listed *)
Definition spell_entry (i : index_entry) : list index_entry :=
  match i with
  | IRange l (EInt la a) (EInt lb b) => if (a <=? b)%Z then map (fun z => IItem l (EInt l z)) (from_to a b) else [i]
  | _ => [i]
  end.
Definition spell_operand (e : expr) : expr := match e with EIndex l b es => EIndex l b (flat_map spell_entry es) | _ => e end.
Definition list_operand (size : string -> option Z) (e : expr) : expr :=
  match e with
  | EIdent l n => match size n with Some k => EIndex l (EIdent l n) [IRange l (EInt l 0) (EInt l (k - 1))] | None => e end
  | _ => e
  end.
Definition change_statement (f : expr -> expr) (s : statement) : statement :=
  match s with SGateInstr l g ops an => SGateInstr l g (map f ops) an | SNonGate l n ops ps an => SNonGate l n (map f ops) ps an | _ => s end.
Definition change_program (f : expr -> expr) (p : program) : program :=
  mkProgram (prog_version p) (prog_version_loc p) (map (change_statement f) (prog_statements p)) (prog_block_loc p).
Lemma changed_respelled (R : expr -> expr -> Prop) f p : (forall e, R e (f e)) -> respelled_program R p (change_program f p).
Proof.
  intros H. assert (L : forall es, Forall2 R es (map f es)) by (induction es; constructor; auto).
  do 3 (split; [reflexivity|]). cbn [change_program prog_statements]. induction (prog_statements p) as [|s ss IH]; constructor; [|exact IH]. destruct s; constructor; apply L.
Qed.
Lemma spell_spelled e : spelled_operand e (spell_operand e).
Proof.
  destruct e; try apply spelled_same. cbn [spell_operand]. apply spelled_index.
  match goal with |- spelled_entries ?es _ => induction es as [|i es IH] end; [constructor|]. cbn [flat_map].
  destruct i as [l' x|l' x y]; try (apply spelled_entry; exact IH). destruct x; try (apply spelled_entry; exact IH). destruct y; try (apply spelled_entry; exact IH). cbn [spell_entry].
  match goal with |- context [(?a <=? ?b)%Z] => destruct (Z.leb_spec a b) as [Le|Le] end; [|apply spelled_entry; exact IH].
  apply spelled_range; [exact Le| |exact IH]. match goal with |- Forall2 _ _ ?u => induction u as [|z1 zs IHz] end; constructor; [|exact IHz]. unfold number_item. eauto.
Qed.
Lemma list_listed size e : listed_operand size e (list_operand size e).
Proof.
  destruct e; try (apply listed_same; intros; discriminate). cbn [list_operand]. match goal with |- context [size ?n] => destruct (size n) as [k|] eqn:E end; [now apply listed_whole|].
  apply listed_same. intros l0 n0 [= _ <-]. exact E.
Qed.
