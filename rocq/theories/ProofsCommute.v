(** Proofs for C99: independent statements change places. *)
From Coq Require Import Permutation.
From Verif Require Import Base ModelUtils ModelVersion ModelError ModelTypes ModelOverload ModelFunctions ModelInstructionSet ModelAst ModelAnalyzer ModelSemantic ModelObjects
  SpecTypes SpecFunctions SpecInstructions SpecAnalyzer SpecObjects SpecRename ProofsTypes ProofsFunctions ProofsFolding ProofsExpr ProofsInstructions ProofsGates
  ProofsAnalyzer ProofsAnalyzer2 ProofsAnalyzer3 ProofsAnalyzer4 ProofsAnalyzer7 ProofsScopes ProofsObjects ProofsRename ProofsRename2 ProofsRename3 SpecCommute.
Local Open Scope string_scope.

(** ** Numbers of the variables of values *)
Definition below (k : nat) (v : value) : Prop := match v with VVar x | VIndex x _ => (var_id x < k)%nat | _ => True end.
Lemma value_ok_below st k v : Forall (fun v => var_id (sv_var v) < k)%nat (variables_of st) -> value_ok true (vars_of st) v -> below k v.
Proof.
  intros B [R _]. assert (L : forall x, In x (vars_of st) -> (var_id x < k)%nat).
  { unfold vars_of. intros x Ix. apply in_map_iff in Ix. destruct Ix as (w & <- & Iw). rewrite Forall_forall in B. exact (B w Iw). }
  destruct v as [| | |x|x idx]; cbn in *; auto; apply L; tauto.
Qed.
Lemma resolve_below st n v : inv true st -> ids_below st -> resolve_variable st n = Ok v -> below (next_id st) v.
Proof.
  intros I B E. pose proof (resolve_variable_hold _ st n v (inv_tables _ _ I) E) as Hv.
  assert (L : forall x, In x (vars_of st) -> (var_id x < next_id st)%nat).
  { unfold vars_of. intros x Ix. apply in_map_iff in Ix. destruct Ix as (w & <- & Iw). unfold ids_below in B. rewrite Forall_forall in B. exact (B w Iw). }
  destruct v as [| | |x|x idx]; cbn in *; auto; now apply L.
Qed.
Definition statement_below (k : nat) (x : sem_statement) : Prop := Forall (below k) (statement_values x).
Lemma statements_below st : inv true st -> ids_below st -> Forall (statement_below (next_id st)) (statements_of st).
Proof.
  intros I B. eapply Forall_impl; [|exact (inv_statements _ _ I)]. intros x [F _]. eapply Forall_impl; [|exact F]. intros v. now apply value_ok_below.
Qed.

Definition variable_below (k : nat) (v : sem_variable) : Prop := (var_id (sv_var v) < k)%nat /\ Forall (below k) (annotation_values (sv_annots v)).
Lemma variables_below st : inv true st -> ids_below st -> Forall (variable_below (next_id st)) (variables_of st).
Proof.
  intros I B. apply Forall_forall. intros v Iv. pose proof (inv_annots _ _ I) as A. rewrite Forall_forall in A. pose proof B as B'. unfold ids_below in B'. rewrite Forall_forall in B'. split; [now apply B'|].
  eapply Forall_impl; [|exact (A v Iv)]. intros x. now apply value_ok_below.
Qed.

(** ** Renumbering *)
Section Numbers.
  Variables f g h : nat -> nat.
  Variable k : nat.
  Hypothesis same : forall i, (i < k)%nat -> f i = g i.
  Hypothesis back : forall i, (i < k)%nat -> f (h i) = i.
  Notation rv n := (rename_value same_name n).

  Lemma ext_value v : below k v -> rv f v = rv g v.
  Proof. destruct v as [| | |x|x idx]; cbn; intros L; try reflexivity; unfold rename_variable; now rewrite (same _ L). Qed.
  Lemma ext_values vs : Forall (below k) vs -> map (rv f) vs = map (rv g) vs.
  Proof. induction 1; cbn; [reflexivity|]. now rewrite ext_value, IHForall. Qed.
  Lemma ext_annotations l : Forall (below k) (annotation_values l) -> map (rename_sem_annotation same_name f) l = map (rename_sem_annotation same_name g) l.
  Proof.
    induction l as [|a l IH]; [reflexivity|]. unfold annotation_values. cbn [flat_map map]. rewrite Forall_app. intros [Ha Hl]. rewrite IH by exact Hl. unfold rename_sem_annotation. now rewrite (ext_values _ Ha).
  Qed.
  Lemma ext_gate x : Forall (below k) (gate_values x) -> rename_sem_gate same_name f x = rename_sem_gate same_name g x.
  Proof.
    revert x. fix IH 1. intros [l n [x|] ps an]; cbn [gate_values rename_sem_gate option_map]; rewrite !Forall_app; intros H.
    - destruct H as (Hg & Hp & Ha). now rewrite (IH x Hg), (ext_values _ Hp), (ext_annotations _ Ha).
    - destruct H as (_ & Hp & Ha). now rewrite (ext_values _ Hp), (ext_annotations _ Ha).
  Qed.
  Lemma ext_statement x : statement_below k x -> rename_sem_statement same_name f x = rename_sem_statement same_name g x.
  Proof.
    unfold statement_below. destruct x as [l r x ops an|l r n ops ps an|l n c an]; cbn [statement_values rename_sem_statement]; rewrite ?Forall_app; intros H.
    - destruct H as (Hg & Ho & Ha). now rewrite (ext_gate _ Hg), (ext_values _ Ho), (ext_annotations _ Ha).
    - destruct H as (Ho & Hp & Ha). now rewrite (ext_values _ Ho), (ext_values _ Hp), (ext_annotations _ Ha).
    - now rewrite (ext_annotations _ H).
  Qed.
  Lemma ext_statements xs : Forall (statement_below k) xs -> map (rename_sem_statement same_name f) xs = map (rename_sem_statement same_name g) xs.
  Proof. induction 1; cbn; [reflexivity|]. now rewrite ext_statement, IHForall. Qed.
  Lemma ext_variables vs : Forall (variable_below k) vs -> map (rename_sem_variable same_name f) vs = map (rename_sem_variable same_name g) vs.
  Proof. induction 1 as [|v vs [L A] _ IH]; cbn [map]; [reflexivity|]. rewrite IH. unfold rename_sem_variable, rename_variable. now rewrite (same _ L), (ext_annotations _ A). Qed.

  Lemma back_value v : below k v -> rv f (rv h v) = v.
  Proof. destruct v as [| | |[i n t]|[i n t] idx]; cbn; intros L; try reflexivity; unfold rename_variable; cbn; now rewrite (back _ L). Qed.
  Lemma back_values vs : Forall (below k) vs -> map (rv f) (map (rv h) vs) = vs.
  Proof. induction 1; cbn; [reflexivity|]. now rewrite back_value, IHForall. Qed.
  Lemma back_annotations l : Forall (below k) (annotation_values l) -> map (rename_sem_annotation same_name f) (map (rename_sem_annotation same_name h) l) = l.
  Proof.
    induction l as [|[l0 a b vs] l IH]; [reflexivity|]. unfold annotation_values. cbn [flat_map map sa_operands]. rewrite Forall_app. intros [Ha Hl]. rewrite IH by exact Hl. unfold rename_sem_annotation. cbn. now rewrite (back_values _ Ha).
  Qed.
  Lemma back_gate x : Forall (below k) (gate_values x) -> rename_sem_gate same_name f (rename_sem_gate same_name h x) = x.
  Proof.
    revert x. fix IH 1. intros [l n [x|] ps an]; cbn [gate_values rename_sem_gate option_map]; rewrite !Forall_app; intros H.
    - destruct H as (Hg & Hp & Ha). now rewrite (IH x Hg), (back_values _ Hp), (back_annotations _ Ha).
    - destruct H as (_ & Hp & Ha). now rewrite (back_values _ Hp), (back_annotations _ Ha).
  Qed.
  Lemma back_statement x : statement_below k x -> rename_sem_statement same_name f (rename_sem_statement same_name h x) = x.
  Proof.
    unfold statement_below. destruct x as [l r x ops an|l r n ops ps an|l n c an]; cbn [statement_values rename_sem_statement]; rewrite ?Forall_app; intros H.
    - destruct H as (Hg & Ho & Ha). now rewrite (back_gate _ Hg), (back_values _ Ho), (back_annotations _ Ha).
    - destruct H as (Ho & Hp & Ha). now rewrite (back_values _ Ho), (back_values _ Hp), (back_annotations _ Ha).
    - now rewrite (back_annotations _ H).
  Qed.
  Lemma back_statements xs : Forall (statement_below k) xs -> map (rename_sem_statement same_name f) (map (rename_sem_statement same_name h) xs) = xs.
  Proof. induction 1; cbn; [reflexivity|]. now rewrite back_statement, IHForall. Qed.
  Lemma back_variables vs : Forall (variable_below k) vs -> map (rename_sem_variable same_name f) (map (rename_sem_variable same_name h) vs) = vs.
  Proof.
    induction 1 as [|v vs [L A] _ IH]; cbn [map]; [reflexivity|]. rewrite IH. destruct v as [[i n t] an]. unfold rename_sem_variable, rename_variable. cbn in *. now rewrite (back _ L), (back_annotations _ A).
  Qed.
End Numbers.

(** ** One statement *)
Definition number_of (s : statement) (k : nat) : nat -> nat := match s with SVariable _ _ _ _ => make_room k | _ => stay end.
Definition room (s : statement) : nat := match s with SVariable _ _ _ _ => 1 | _ => 0 end.
Lemma is_declaration_dec s : is_declaration s \/ ~ is_declaration s.
Proof. destruct s; cbn; tauto. Qed.
Lemma number_low s k i : (i < k)%nat -> number_of s k i = i.
Proof. destruct s; cbn; auto. apply make_room_low. Qed.

Lemma step_resolve st s st' es n : visit_statement st s = (Ok st', es) -> ~ In n (declared_names [s]) -> resolve_variable st' n = resolve_variable st n /\ (In n (names_here st') <-> In n (names_here st)).
Proof.
  intros H N. apply statement_effect in H.
  assert (K : forall f t, (forall s0, sc_variables_table (f s0) = sc_variables_table s0) -> resolve_variable (map_current f t) n = resolve_variable t n /\ (In n (names_here (map_current f t)) <-> In n (names_here t))).
  { intros f t Hf. unfold resolve_variable, map_current, names_here. destruct (scopes t) as [|s0 r] eqn:Es; cbn [scopes resolve_variable_in]; rewrite ?Es; cbn [scopes resolve_variable_in]; [split; reflexivity|]. rewrite Hf. split; reflexivity. }
  destruct H as [l m t an e Nt Le|l m t an ty ans es D A Ns Ni|l m t an ty ans es e D A Ns Ni Le| | | | ]; try (apply K; intros; reflexivity); try (split; reflexivity); try exact (K (with_variable _) (fresh st) (fun _ => eq_refl)).
  cbn in N. assert (Nm : m <> n) by tauto. unfold resolve_variable, map_current, names_here. cbn [fresh scopes]. destruct (scopes st) as [|s0 r]; [congruence|]. cbn [resolve_variable_in scopes with_entry with_variable sc_variables_table].
  unfold variable_resolve. rewrite ProofsTypes.table_find_app. destruct (String.eqb_spec m n) as [->|_]; [congruence|]. split; [destruct (table_find n (sc_variables_table s0)); reflexivity|]. rewrite map_app, in_app_iff. cbn. tauto.
Qed.
Lemma step_next st s st' es : visit_statement st s = (Ok st', es) -> next_id st' = (next_id st + room s)%nat.
Proof.
  intros H. apply statement_effect in H.
  assert (K : forall f t, next_id (map_current f t) = next_id t). { intros f t. unfold map_current. now destruct (scopes t). }
  destruct H as [| | | | | |l s e es El Pl Nv]; rewrite ?K; cbn [room fresh next_id]; try lia. destruct s; cbn; try lia. exact (False_ind _ (Nv _ _ _ _ eq_refl)).
Qed.
Lemma step_loc st s st' es : visit_statement st s = (Ok st', es) -> is_declaration s -> block_loc_of st' = block_loc_of st.
Proof.
  intros H D. apply statement_effect in H.
  assert (K : forall f t, (forall s0, sc_block (f s0) = sc_block s0) -> block_loc_of (map_current f t) = block_loc_of t).
  { intros f t Hf. unfold block_loc_of, map_current. destruct (scopes t) as [|s0 r] eqn:Es; cbn [scopes]; rewrite ?Es; [reflexivity|]. now rewrite Hf. }
  destruct H; cbn in D; try contradiction; rewrite ?K; reflexivity || (intros; reflexivity).
Qed.
Lemma step_statements st s st' es : visit_statement st s = (Ok st', es) -> is_declaration s -> statements_of st' = statements_of st.
Proof.
  intros H D. apply statement_effect in H.
  assert (K : forall f t, (forall s0, sc_block (f s0) = sc_block s0) -> statements_of (map_current f t) = statements_of t).
  { intros f t Hf. unfold statements_of, map_current. destruct (scopes t) as [|s0 r] eqn:Es; cbn [scopes]; rewrite ?Es; [reflexivity|]. now rewrite Hf. }
  destruct H; cbn in D; try contradiction; rewrite ?K; reflexivity || (intros; reflexivity).
Qed.

Section Steps.
  Variable lm : libm.
  Record fine (st : analyzer) : Prop := { f_ordinary : ordinary lm st; f_inv : inv true st; f_ids : ids_below st }.
  Lemma fine_step st s st' es : fine st -> grammar_statement s -> visit_statement st s = (Ok st', es) -> fine st'.
  Proof.
    intros [O I B] G H. pose proof (statement_effect _ _ _ _ H) as E. split.
    - eapply ordinary_extends; [exact O|]. eapply effect_extends, E.
    - eapply inv_effect; [exact O|exact I| |exact E]. intros _. apply G.
    - eapply (ids_block st [s] st' es); [|exact B]. apply (block_run_iff None). rewrite visit_block_cons, H. cbn [lbind visit_block lift]. unfold lift. cbn. now rewrite app_nil_r.
  Qed.
  Lemma fine_analyses st : analyses lm st -> fine st.
  Proof. intros H. split; [now apply analyses_ordinary|now apply analyses_inv with (lm := lm)|now apply ids_analyses with (lm := lm)]. Qed.
  Lemma fine_block l ss : Forall grammar_statement ss -> forall st st' es, fine st -> visit_block l st ss = (Ok st', es) -> fine st'.
  Proof.
    induction 1 as [|s ss Hs _ IH]; intros st st' es F H; [cbn in H; now injection H as <- _|]. rewrite visit_block_cons in H. apply lbind_ok in H. destruct H as (st1 & e1 & e2 & H1 & H2 & _). eapply IH; [|exact H2]. eapply fine_step; eauto.
  Qed.

  Lemma step_matches st s st' es : fine st -> grammar_statement s -> visit_statement st s = (Ok st', es) ->
    matches same_name (number_of s (next_id st)) lm (fun n => ~ In n (declared_names [s])) (is_declaration s)
      (variables_of st) (variables_of st') (statements_of st) (statements_of st') st st'.
  Proof.
    intros F G H. pose proof (fine_step _ _ _ _ F G H) as F'. destruct F as [O I B], F' as [O' I' B']. split.
    - split; [exact O|exact O'|]. intros n Dn. change (same_name n) with n. destruct (step_resolve _ _ _ _ n H Dn) as [-> _].
      destruct (resolve_variable st n) as [v|e|w|k] eqn:E; cbn; try reflexivity; [|apply renamed_same]. unfold image. symmetry. apply kept_value. pose proof (resolve_below _ _ _ I B E) as L. destruct v; cbn in *; auto; now apply number_low.
    - apply statement_effect, effect_extends in H. destruct H as [H _]. exact H.
    - intros n Dn. change (same_name n) with n. destruct (step_resolve _ _ _ _ n H Dn) as [_ X]. now symmetry.
    - intros k. rewrite (step_next _ _ _ _ H). destruct s; cbn [number_of room]; unfold stay; try lia. rewrite make_room_high by lia. lia.
    - exists []. cbn. now rewrite !app_nil_r.
    - exists []. cbn. now rewrite !app_nil_r.
    - intros D. now apply (step_loc _ _ _ _ H).
  Qed.

  (** ** Two statements *)
  Lemma declares_in s n : In n (declared_names [s]) <-> declares s n.
  Proof.
    unfold declared_names, declares. cbn [flat_map]. rewrite app_nil_r. destruct s as [l m t an| | | ]; cbn; (split; [|intros (? & ? & ? & E)]); try discriminate; try tauto.
    - intros [->|[]]. eauto.
    - injection E as _ -> _ _. now left.
  Qed.
  Lemma independent_sym s t : independent s t -> independent t s.
  Proof. intros H n. destruct (H n) as [A B]. tauto. Qed.
  Lemma independent_within s t : independent s t -> within (fun n => ~ In n (declared_names [s])) t.
  Proof.
    intros H. split.
    - intros e Ie. apply Forall_forall. intros n In1 D. apply declares_in in D. destruct (H n) as [X _]. destruct (X D) as [_ M]. apply M. exists e. auto.
    - apply Forall_forall. intros n D D'. apply declares_in in D, D'. destruct (H n) as [X _]. tauto.
  Qed.
  Definition number_swap (s t : statement) (k : nat) : nat -> nat :=
    match s, t with SVariable _ _ _ _, SVariable _ _ _ _ => exchange k | _, _ => fun i => i end.
  Lemma number_swap_spec s t k : exchanged_numbers s t (number_swap s t k).
  Proof. destruct s, t; cbn; try reflexivity. eauto. Qed.
  Lemma swap_back s t k i : (i < k + room t)%nat -> number_swap s t k (number_of s k i) = i.
  Proof.
    destruct s, t; cbn [number_swap number_of room]; unfold stay, exchange, make_room; intros L; try reflexivity; destruct (Nat.ltb_spec i k); try lia; repeat match goal with |- context [Nat.eqb ?x ?y] => destruct (Nat.eqb_spec x y) end; lia.
  Qed.
  Lemma swap_same s t k i : (i < k + room s)%nat -> number_swap s t k i = number_of t k i.
  Proof.
    destruct s, t; cbn [number_swap number_of room]; unfold stay, exchange, make_room; intros L; try reflexivity; destruct (Nat.ltb_spec i k); try lia; repeat match goal with |- context [Nat.eqb ?x ?y] => destruct (Nat.eqb_spec x y) end; lia.
  Qed.
  Lemma swap_high s t k j : number_swap s t k (k + room s + room t + j)%nat = (k + room t + room s + j)%nat.
  Proof.
    destruct s, t; cbn [number_swap room]; unfold exchange; repeat match goal with |- context [Nat.eqb ?x ?y] => destruct (Nat.eqb_spec x y) end; lia.
  Qed.
  Lemma swap_injective s t k i j : number_swap s t k i = number_swap s t k j -> i = j.
  Proof.
    destruct s, t; cbn [number_swap]; unfold exchange; try tauto. repeat match goal with |- context [Nat.eqb ?x ?y] => destruct (Nat.eqb_spec x y) end; lia.
  Qed.
  Lemma orel_same_name num (a b : outcome error value) : orel same_name (image (rename_value same_name num)) a b -> b = map_outcome (rename_value same_name num) a.
  Proof. destruct a, b; cbn; try contradiction; try (now intros ->). intros E. apply renamed_same_error in E. now subst. Qed.

  Lemma visit_related num D loc V1 V2 X1 X2 a b t : matches same_name num lm D loc V1 V2 X1 X2 a b -> within D t ->
    match visit_statement a t, visit_statement b t with
    | (Ok a', es), (Ok b', es') => es' = es /\ matches same_name num lm D loc V1 V2 X1 X2 a' b'
    | (Ok _, _), _ | _, (Ok _, _) => False
    | _, _ => True
    end.
  Proof.
    intros M W. pose proof (matches_visit same_name num lm D (fun a b _ _ E => E) loc V1 V2 X1 X2 a b t M W) as L. rewrite rename_same_statement in L.
    destruct (visit_statement a t) as [[a'|e|w|k] es], (visit_statement b t) as [[b'|e'|w'|k'] es']; destruct L as [L1 L2]; cbn [fst snd orel] in L1, L2; try contradiction; auto. split; [now apply renamed_same_errors|exact L1].
  Qed.

  Lemma swap_states st0 s t st1 es st2 et : fine st0 -> grammar_statement s -> grammar_statement t -> independent s t ->
    visit_statement st0 s = (Ok st1, es) -> visit_statement st1 t = (Ok st2, et) ->
    exists st1' st2', visit_statement st0 t = (Ok st1', et) /\ visit_statement st1' s = (Ok st2', es) /\
      let N := number_swap s t (next_id st0) in
      matches same_name N lm (fun _ => True) (is_declaration s \/ is_declaration t) (variables_of st2) (variables_of st2') (statements_of st2) (statements_of st2') st2 st2' /\
      (forall a b, variables_of st1 = (variables_of st0 ++ a)%list -> variables_of st2 = (variables_of st1 ++ b)%list ->
         variables_of st2' = map (rename_sem_variable same_name N) (variables_of st0 ++ b ++ a)) /\
      (forall a b, statements_of st1 = (statements_of st0 ++ a)%list -> statements_of st2 = (statements_of st1 ++ b)%list ->
         statements_of st2' = map (rename_sem_statement same_name N) (statements_of st0 ++ b ++ a)).
  Proof.
    intros F0 Gs Gt Ind Hs Ht. pose proof (fine_step _ _ _ _ F0 Gs Hs) as F1. pose proof (fine_step _ _ _ _ F1 Gt Ht) as F2.
    pose proof (visit_related _ _ _ _ _ _ _ _ _ t (step_matches _ _ _ _ F0 Gs Hs) (independent_within s t Ind)) as R1. rewrite Ht in R1.
    destruct (visit_statement st0 t) as [[st1'|?|?|?] e1] eqn:Ht'; try contradiction. destruct R1 as [<- M1].
    pose proof (fine_step _ _ _ _ F0 Gt Ht') as F1'.
    pose proof (visit_related _ _ _ _ _ _ _ _ _ s (step_matches _ _ _ _ F0 Gt Ht') (independent_within t s (independent_sym _ _ Ind))) as R2. rewrite Hs in R2.
    destruct (visit_statement st1' s) as [[st2'|?|?|?] e2] eqn:Hs'; try contradiction. destruct R2 as [-> M2].
    pose proof (fine_step _ _ _ _ F1' Gs Hs') as F2'.
    exists st1', st2'. split; [reflexivity|]. split; [exact Hs'|]. intros N. set (k := next_id st0) in *.
    pose proof (step_next _ _ _ _ Hs) as K1. pose proof (step_next _ _ _ _ Ht) as K2. pose proof (step_next _ _ _ _ Ht') as K1'. pose proof (step_next _ _ _ _ Hs') as K2'. fold k in K1, K1'.
    assert (B1 : forall i, (i < next_id st1')%nat -> N (number_of s k i) = i) by (intros i Hi; apply swap_back; lia).
    assert (B2 : forall i, (i < next_id st1)%nat -> N i = number_of t k i) by (intros i Hi; apply swap_same; lia).
    assert (B0 : forall i, (i < k)%nat -> N i = stay i). { intros i Hi. rewrite B2 by lia. apply number_low, Hi. }
    split; [|split].
    - split.
      + split; [apply F2|apply F2'|]. intros n _. change (same_name n) with n. destruct (in_dec string_dec n (declared_names [s])) as [D|D].
        * destruct (Ind n) as [X _]. pose proof (proj1 (declares_in s n) D) as Ds. destruct (X Ds) as [Dt _]. rewrite <- declares_in in Dt.
          pose proof (orel_same_name _ _ _ (sees_names _ _ _ _ _ _ (m_sees _ _ _ _ _ _ _ _ _ _ _ M2) n Dt)) as E. change (same_name n) with n in E. destruct (step_resolve _ _ _ _ n Ht Dt) as [E' _]. rewrite E, E'.
          destruct (resolve_variable st1 n) as [v|e|w|c] eqn:Ev; cbn; try reflexivity; [|apply renamed_same]. unfold image. symmetry. apply (ext_value _ _ _ B2). exact (resolve_below _ _ _ (f_inv _ F1) (f_ids _ F1) Ev).
        * pose proof (orel_same_name _ _ _ (sees_names _ _ _ _ _ _ (m_sees _ _ _ _ _ _ _ _ _ _ _ M1) n D)) as E. change (same_name n) with n in E. destruct (step_resolve _ _ _ _ n Hs' D) as [E' _]. rewrite E, E'.
          destruct (resolve_variable st1' n) as [v|e|w|c] eqn:Ev; cbn; try reflexivity; [|apply renamed_same]. unfold image. symmetry. apply (back_value _ _ _ B1). exact (resolve_below _ _ _ (f_inv _ F1') (f_ids _ F1') Ev).
      + rewrite (m_version _ _ _ _ _ _ _ _ _ _ _ M2), (m_version _ _ _ _ _ _ _ _ _ _ _ M1). pose proof (m_version _ _ _ _ _ _ _ _ _ _ _ (step_matches _ _ _ _ F0 Gs Hs)) as V1. pose proof (m_version _ _ _ _ _ _ _ _ _ _ _ (step_matches _ _ _ _ F0 Gt Ht')) as V2. congruence.
      + intros n _. change (same_name n) with n. destruct (in_dec string_dec n (declared_names [s])) as [D|D].
        * destruct (Ind n) as [X _]. pose proof (proj1 (declares_in s n) D) as Ds. destruct (X Ds) as [Dt _]. rewrite <- declares_in in Dt.
          destruct (step_resolve _ _ _ _ n Ht Dt) as [_ E']. rewrite E'. exact (m_here _ _ _ _ _ _ _ _ _ _ _ M2 n Dt).
        * destruct (step_resolve _ _ _ _ n Hs' D) as [_ E']. rewrite E'. symmetry. exact (m_here _ _ _ _ _ _ _ _ _ _ _ M1 n D).
      + intros j. rewrite K2, K1, K2', K1'. apply swap_high.
      + exists []. cbn. now rewrite !app_nil_r.
      + exists []. cbn. now rewrite !app_nil_r.
      + intros [D|D].
        * rewrite (step_loc _ _ _ _ Hs' D). symmetry. exact (m_loc _ _ _ _ _ _ _ _ _ _ _ M1 D).
        * rewrite (step_loc _ _ _ _ Ht D). exact (m_loc _ _ _ _ _ _ _ _ _ _ _ M2 D).
    - intros a b Ea Eb. destruct (m_variables _ _ _ _ _ _ _ _ _ _ _ M2) as (vs & E1 & E2). destruct (m_variables _ _ _ _ _ _ _ _ _ _ _ M1) as (ws & E3 & E4).
      rewrite Ea in E1. apply app_inv_head in E1. subst vs. rewrite Eb in E4. apply app_inv_head in E4. subst b. rewrite E2, E3, <- app_assoc, !map_app.
      pose proof (variables_below _ (f_inv _ F1) (f_ids _ F1)) as L1. rewrite Ea in L1. apply Forall_app in L1. destruct L1 as [_ L1].
      pose proof (variables_below _ (f_inv _ F1') (f_ids _ F1')) as L1'. rewrite E3 in L1'. apply Forall_app in L1'. destruct L1' as [_ L1'].
      rewrite (ext_variables _ _ _ B0 _ (variables_below _ (f_inv _ F0) (f_ids _ F0))), (map_same _ _ stay_variable).
      rewrite (back_variables _ _ _ B1 _ L1'), (ext_variables _ _ _ B2 _ L1). reflexivity.
    - intros a b Ea Eb. destruct (m_statements _ _ _ _ _ _ _ _ _ _ _ M2) as (vs & E1 & E2). destruct (m_statements _ _ _ _ _ _ _ _ _ _ _ M1) as (ws & E3 & E4).
      rewrite Ea in E1. apply app_inv_head in E1. subst vs. rewrite Eb in E4. apply app_inv_head in E4. subst b. rewrite E2, E3, <- app_assoc, !map_app.
      pose proof (statements_below _ (f_inv _ F1) (f_ids _ F1)) as L1. rewrite Ea in L1. apply Forall_app in L1. destruct L1 as [_ L1].
      pose proof (statements_below _ (f_inv _ F1') (f_ids _ F1')) as L1'. rewrite E3 in L1'. apply Forall_app in L1'. destruct L1' as [_ L1'].
      rewrite (ext_statements _ _ _ B0 _ (statements_below _ (f_inv _ F0) (f_ids _ F0))), (map_same _ _ stay_statement).
      rewrite (back_statements _ _ _ B1 _ L1'), (ext_statements _ _ _ B2 _ L1). reflexivity.
  Qed.
End Steps.

(** ** Programs *)
Lemma all_within ss : Forall (within (fun _ => True)) ss.
Proof. apply Forall_forall. intros s _. split; [intros e _|]; apply Forall_forall; intros; exact I. Qed.
Lemma statements_swap lm st p ss1 s t ss2 st' r : analyses lm st -> grammar_program p -> prog_statements p = (ss1 ++ s :: t :: ss2)%list -> independent s t ->
  analyze_ast st p = Ok (st', r) ->
  exists st'' r', analyze_ast st (with_statements (ss1 ++ t :: s :: ss2) p) = Ok (st'', r') /\ statements_swapped s t r r'.
Proof.
  intros H Hp Ep Ind A. pose proof (fine_analyses lm st H) as F.
  destruct (visit_version (api_version st) (prog_version p) (prog_version_loc p)) as [rv es0] eqn:Ev. destruct (visit_version_ok _ _ _ _ _ Ev) as [v ->].
  unfold grammar_program in Hp. rewrite Ep in Hp. pose proof Hp as Hp0. apply Forall_app in Hp. destruct Hp as [Hp1 Hp2]. inversion Hp2 as [|? ? Hs Hp3]; subst. inversion Hp3 as [|? ? Ht Hp4]; subst.
  set (p' := with_statements _ p). assert (Hp' : grammar_program p') by (apply Forall_app; split; [exact Hp1|]; constructor; [exact Ht|]; constructor; [exact Hs|exact Hp4]).
  assert (Hpp : grammar_program p) by (unfold grammar_program; rewrite Ep; exact Hp0).
  destruct (analyze_cases lm st p v es0 H Hpp Ev) as [(st3 & es & B & E)|(k & es & _ & E)]; [|congruence]. rewrite A in E. injection E as <- ->.
  rewrite Ep, visit_block_app in B. apply lbind_ok in B. destruct B as (st1 & es1 & es2 & B1 & B2 & ->). rewrite !visit_block_cons in B2.
  apply lbind_ok in B2. destruct B2 as (st2 & ea & es3 & B2 & B3 & ->). rewrite visit_block_cons in B3. apply lbind_ok in B3. destruct B3 as (st4 & eb & ec & B3 & B4 & ->).
  pose proof (fine_block lm _ _ Hp1 _ _ _ F B1) as F1. pose proof (fine_step lm _ _ _ _ F1 Hs B2) as F2.
  destruct (statement_contribution lm _ _ _ _ (f_ordinary _ _ F1) (proj1 Hs) B2) as (c & Cs & V1 & X1 & -> & _).
  destruct (statement_contribution lm _ _ _ _ (f_ordinary _ _ F2) (proj1 Ht) B3) as (d & Ct & V2 & X2 & -> & _).
  destruct (swap_states lm st1 s t st2 _ st4 _ F1 Hs Ht Ind B2 B3) as (st5 & st6 & B5 & B6 & M & Va & Xa). specialize (Va _ _ V1 V2). specialize (Xa _ _ X1 X2).
  pose proof (matches_block same_name _ lm (fun _ => True) (fun a b _ _ E => E) _ _ _ _ _ (prog_block_loc p) ss2 _ _ M (all_within ss2)) as K. rewrite rename_same_statements, B4 in K.
  destruct (visit_block (prog_block_loc p) st6 ss2) as [[st7|e|w|k] e7] eqn:B7; destruct K as [K1 K2]; cbn [fst snd orel] in K1, K2; try contradiction. apply renamed_same_errors in K2. subst e7.
  assert (B : visit_block (prog_block_loc p) st (ss1 ++ t :: s :: ss2) = (Ok st7, (es1 ++ new_errors d ++ new_errors c ++ ec)%list)).
  { rewrite visit_block_app, B1. cbn [lbind]. rewrite visit_block_cons, B5. cbn [lbind]. rewrite visit_block_cons, B6. cbn [lbind]. rewrite B7. reflexivity. }
  destruct (analyze_cases lm st p' v es0 H Hp' Ev) as [(st8 & es & B' & E)|(k & es & B' & E)]; cbn [p' with_statements prog_statements prog_block_loc] in B'; rewrite B in B'; [|discriminate B'].
  injection B' as <- <-. eexists _, _. split; [exact E|]. destruct K1 as [_ _ _ _ (vs & Ev1 & Ev2) (xs & Ex1 & Ex2) Kl].
  exists (number_swap s t (next_id st1)), c, d, (es0 ++ es1)%list, ec, (variables_of st1), vs, (statements_of st1), xs. split; [apply number_swap_spec|]. split; [exact Cs|]. split; [exact Ct|].
  cbn [res_errors]. rewrite !app_assoc. split; [reflexivity|]. split; [reflexivity|].
  eexists _, _. split; [reflexivity|]. split; [reflexivity|]. cbn [program_of sp_api_version sp_version sp_version_loc sp_variables sp_block blk_statements blk_loc p' with_statements prog_version_loc].
  split; [reflexivity|]. split; [reflexivity|]. split; [reflexivity|]. rewrite Ev1, Ev2, Ex1, Ex2, V2, V1, X2, X1, Va, Xa, !map_app, <- !app_assoc. split; [reflexivity|]. split; [reflexivity|]. split; [reflexivity|]. split; [reflexivity|exact Kl].
Qed.

Lemma exchanged_injective s t f : exchanged_numbers s t f -> forall i j, f i = f j -> i = j.
Proof.
  assert (X : forall k i j, exchange k i = exchange k j -> i = j).
  { intros k i j. unfold exchange. repeat match goal with |- context [Nat.eqb ?x ?y] => destruct (Nat.eqb_spec x y) end; lia. }
  destruct s, t; cbn; try (intros ->; tauto). intros [k ->]. apply X.
Qed.
Lemma middle {A} (xs a b ys : list A) : Permutation (xs ++ a ++ b ++ ys) (xs ++ b ++ a ++ ys).
Proof. apply Permutation_app_head. rewrite !app_assoc. apply Permutation_app_tail, Permutation_app_comm. Qed.
Lemma rename_twice_values f g vs : map (rename_value same_name g) (map (rename_value same_name f) vs) = map (rename_value same_name (fun i => g (f i))) vs.
Proof. rewrite map_map. apply map_ext. intros [| | |x|x idx]; reflexivity. Qed.
Lemma rename_twice_annotations f g l : map (rename_sem_annotation same_name g) (map (rename_sem_annotation same_name f) l) = map (rename_sem_annotation same_name (fun i => g (f i))) l.
Proof. rewrite map_map. apply map_ext. intros a. unfold rename_sem_annotation. cbn. now rewrite rename_twice_values. Qed.
Lemma rename_twice_gate f g x : rename_sem_gate same_name g (rename_sem_gate same_name f x) = rename_sem_gate same_name (fun i => g (f i)) x.
Proof.
  revert x. fix IH 1. intros [l n [x|] ps an]; cbn [rename_sem_gate option_map]; rewrite rename_twice_values, rename_twice_annotations; [now rewrite IH|reflexivity].
Qed.
Lemma rename_twice_statement f g x : rename_sem_statement same_name g (rename_sem_statement same_name f x) = rename_sem_statement same_name (fun i => g (f i)) x.
Proof. destruct x; cbn [rename_sem_statement]; now rewrite ?rename_twice_gate, ?rename_twice_values, ?rename_twice_annotations. Qed.
Lemma rename_twice_variable f g x : rename_sem_variable same_name g (rename_sem_variable same_name f x) = rename_sem_variable same_name (fun i => g (f i)) x.
Proof. unfold rename_sem_variable. cbn. now rewrite rename_twice_annotations. Qed.
Lemma same_order_refl r q : res_root r = Some q -> same_but_order r r.
Proof.
  intros E. exists (fun i => i). split; [auto|]. split; [reflexivity|]. exists q, q. split; [exact E|]. split; [exact E|]. split; [reflexivity|]. split; [reflexivity|]. split; [reflexivity|].
  change (fun i : nat => i) with stay. rewrite (map_same _ _ stay_variable), (map_same _ _ stay_statement). auto.
Qed.
Lemma same_order_trans r r1 r2 : same_but_order r r1 -> same_but_order r1 r2 -> same_but_order r r2.
Proof.
  intros (f & If & P & q & q1 & Q & Q1 & A1 & A2 & A3 & V & X) (g & Ig & P' & q1' & q2 & Q1' & Q2 & B1 & B2 & B3 & V' & X'). rewrite Q1 in Q1'. injection Q1' as <-.
  exists (fun i => g (f i)). split; [intros i j E; now apply If, Ig|]. split; [now rewrite P|]. exists q, q2. split; [exact Q|]. split; [exact Q2|]. split; [congruence|]. split; [congruence|]. split; [congruence|]. split.
  - rewrite <- V', <- V, map_map. apply Permutation_refl'. apply map_ext. intros x. symmetry. apply rename_twice_variable.
  - rewrite <- X', <- X, map_map. apply Permutation_refl'. apply map_ext. intros x. symmetry. apply rename_twice_statement.
Qed.
Lemma swapped_same_order s t r r' : statements_swapped s t r r' -> same_but_order r r'.
Proof.
  intros (f & c & d & es1 & es2 & vs1 & vs2 & xs1 & xs2 & Hf & _ & _ & E1 & E2 & q & q' & Q & Q' & A1 & A2 & A3 & V1 & V2 & X1 & X2 & _).
  exists f. split; [eapply exchanged_injective; eauto|]. split; [rewrite E1, E2; apply middle|]. exists q, q'. repeat (split; [assumption|]). rewrite V1, V2, X1, X2. split; apply Permutation_map, middle.
Qed.
Lemma result_root lm st p st' r : analyses lm st -> grammar_program p -> analyze_ast st p = Ok (st', r) -> exists q, res_root r = Some q.
Proof.
  intros H Hp A. destruct (visit_version (api_version st) (prog_version p) (prog_version_loc p)) as [rv es0] eqn:Ev. destruct (visit_version_ok _ _ _ _ _ Ev) as [v ->].
  destruct (analyze_cases lm st p v es0 H Hp Ev) as [(st3 & es & B & E)|(k & es & _ & E)]; [|congruence]. rewrite A in E. injection E as <- ->. eexists. reflexivity.
Qed.
Lemma grammar_swap ss1 s t ss2 p : grammar_program p -> prog_statements p = (ss1 ++ s :: t :: ss2)%list -> grammar_program (with_statements (ss1 ++ t :: s :: ss2) p).
Proof.
  unfold grammar_program. intros G E. rewrite E in G. cbn [with_statements prog_statements]. eapply Permutation_Forall; [|exact G]. apply Permutation_app_head, perm_swap.
Qed.
Lemma reordered_results lm st ss ss' : analyses lm st -> reordered ss ss' -> forall p st' r, grammar_program p -> prog_statements p = ss -> analyze_ast st p = Ok (st', r) ->
  exists st'' r', analyze_ast st (with_statements ss' p) = Ok (st'', r') /\ same_but_order r r'.
Proof.
  intros H R. induction R as [ss|ss1 s t ss2 ss Ind _ IH]; intros p st' r G E A.
  - subst ss. destruct p as [v vl ss bl]. cbn in *. eexists _, _. split; [exact A|]. destruct (result_root lm _ _ _ _ H G A) as [q Q]. eapply same_order_refl; eauto.
  - destruct (statements_swap lm st p ss1 s t ss2 st' r H G E Ind A) as (st1 & r1 & A1 & S).
    destruct (IH (with_statements (ss1 ++ t :: s :: ss2) p) st1 r1 (grammar_swap _ _ _ _ _ G E) eq_refl A1) as (st2 & r2 & A2 & S2).
    exists st2, r2. split; [exact A2|]. eapply same_order_trans; [eapply swapped_same_order; eauto|exact S2].
Qed.

(** ** Declarations first *)
Lemma swapped_nothing s t r r' : ~ is_declaration s -> is_declaration t -> statements_swapped s t r r' -> res_errors r = [] -> res_errors r' = [] /\
  results_with r r' (fun q q' => sp_variables q' = sp_variables q /\ blk_statements (sp_block q') = blk_statements (sp_block q) /\ blk_loc (sp_block q') = blk_loc (sp_block q)).
Proof.
  intros Ns Dt (f & c & d & es1 & es2 & vs1 & vs2 & xs1 & xs2 & Hf & Cs & Ct & E1 & E2 & q & q' & Q & Q' & A1 & A2 & A3 & V1 & V2 & X1 & X2 & L) E.
  rewrite E in E1. symmetry in E1. apply app_eq_nil in E1. destruct E1 as [-> E1]. apply app_eq_nil in E1. destruct E1 as [Ec E1]. apply app_eq_nil in E1. destruct E1 as [Ed ->].
  rewrite Ec, Ed in E2. split; [exact E2|]. exists q, q'. repeat (split; [assumption|]).
  assert (f = stay) as -> by (destruct s, t; cbn in *; try contradiction; exact Hf). rewrite V1, V2, X1, X2, (map_same _ _ stay_variable), (map_same _ _ stay_statement).
  assert (Vc : new_variables c = []) by (destruct Cs; cbn in *; try reflexivity; tauto). assert (Xd : new_statements d = []) by (destruct Ct; cbn in *; try reflexivity; contradiction).
  rewrite Vc, Xd. cbn [app]. split; [reflexivity|]. split; [reflexivity|]. apply L. now right.
Qed.
Lemma accepted_independent lm st p ss1 s t ss2 st' r : analyses lm st -> grammar_program p -> prog_statements p = (ss1 ++ s :: t :: ss2)%list -> ~ is_declaration s -> is_declaration t ->
  analyze_ast st p = Ok (st', r) -> res_errors r = [] -> independent s t.
Proof.
  intros H Hp Ep Ns Dt A Er. pose proof (fine_analyses lm st H) as F.
  destruct (visit_version (api_version st) (prog_version p) (prog_version_loc p)) as [rv es0] eqn:Ev. destruct (visit_version_ok _ _ _ _ _ Ev) as [v ->].
  destruct (analyze_cases lm st p v es0 H Hp Ev) as [(st3 & es & B & E)|(k & es & _ & E)]; [|congruence]. rewrite A in E. injection E as <- ->.
  unfold grammar_program in Hp. rewrite Ep in Hp. apply Forall_app in Hp. destruct Hp as [Hp1 Hp2]. inversion Hp2 as [|? ? Hs Hp3]; subst. inversion Hp3 as [|? ? Ht Hp4]; subst.
  rewrite Ep, visit_block_app in B. apply lbind_ok in B. destruct B as (st1 & es1 & es2 & B1 & B2 & ->). rewrite !visit_block_cons in B2.
  apply lbind_ok in B2. destruct B2 as (st2 & ea & es3 & B2 & B3 & ->). rewrite visit_block_cons in B3. apply lbind_ok in B3. destruct B3 as (st4 & eb & ec & B3 & B4 & ->).
  cbn [res_errors] in Er. apply app_eq_nil in Er. destruct Er as [_ Er]. apply app_eq_nil in Er. destruct Er as [_ Er]. apply app_eq_nil in Er. destruct Er as [-> Er]. apply app_eq_nil in Er. destruct Er as [-> _].
  pose proof (fine_block lm _ _ Hp1 _ _ _ F B1) as F1. pose proof (fine_step lm _ _ _ _ F1 Hs B2) as F2.
  assert (Nd : forall n, ~ declares s n) by (intros n (l & ty & an & ->); exact (Ns I)).
  intros n. split; [intros D; destruct (Nd n D)|]. intros (l & ty & an & ->) M. destruct (mentioned_resolves _ _ _ _ B2 M) as [w W].
  destruct (inv_scope _ _ (f_inv _ _ F1)) as [g Eg]. pose proof (resolve_single _ _ _ _ Eg W) as In1.
  assert (Dn : ~ In n (declared_names [s])) by (rewrite declares_in; apply Nd). destruct (step_resolve _ _ _ _ n B2 Dn) as [_ X]. apply X in In1.
  destruct (statement_contribution lm _ _ _ _ (f_ordinary _ _ F2) (proj1 Ht) B3) as (c & _ & _ & _ & Ec & _ & _ & K). apply (K l n ty an eq_refl In1). now symmetry.
Qed.
Lemma with_same p : with_statements (prog_statements p) p = p.
Proof. now destruct p. Qed.
Lemma hoist_one lm st p ss1 s t ss2 st' r : analyses lm st -> grammar_program p -> prog_statements p = (ss1 ++ s :: t :: ss2)%list -> ~ is_declaration s -> is_declaration t ->
  analyze_ast st p = Ok (st', r) -> res_errors r = [] ->
  exists st'', analyze_ast st (with_statements (ss1 ++ t :: s :: ss2) p) = Ok (st'', r).
Proof.
  intros H G E Ns Dt A Er. pose proof (accepted_independent lm _ _ _ _ _ _ _ _ H G E Ns Dt A Er) as Ind.
  destruct (statements_swap lm st p ss1 s t ss2 st' r H G E Ind A) as (st1 & r1 & A1 & S). exists st1. rewrite A1. do 2 f_equal.
  destruct (swapped_nothing s t r r1 Ns Dt S Er) as (Er1 & q & q1 & Q & Q1 & V1 & V2 & V3 & V4 & V5 & V6).
  destruct r as [ro es], r1 as [ro1 es1]. cbn in *. subst es es1 ro ro1. do 2 f_equal. destruct q as [a b c [x l] v], q1 as [a1 b1 c1 [x1 l1] v1]. cbn in *. congruence.
Qed.
Lemma hoist_over lm st is d : analyses lm st -> Forall (fun s => ~ is_declaration s) is -> is_declaration d ->
  forall ss1 ss2 p st' r, grammar_program p -> prog_statements p = (ss1 ++ is ++ d :: ss2)%list -> analyze_ast st p = Ok (st', r) -> res_errors r = [] ->
  exists st'', analyze_ast st (with_statements (ss1 ++ d :: is ++ ss2) p) = Ok (st'', r).
Proof.
  intros H Fi Dd. induction is as [|i is IH] using rev_ind; intros ss1 ss2 p st' r G E A Er.
  - cbn [app] in *. rewrite <- E, with_same. eauto.
  - apply Forall_app in Fi. destruct Fi as [Fi Fl]. inversion Fl as [|? ? Ni _]; subst. rewrite <- app_assoc in E. cbn [app] in E. rewrite app_assoc in E.
    destruct (hoist_one lm st p _ _ _ _ st' r H G E Ni Dd A Er) as [st1 A1]. pose proof (grammar_swap _ _ _ _ _ G E) as G1.
    destruct (IH Fi ss1 (i :: ss2) _ st1 r G1 (eq_sym (app_assoc _ _ _)) A1 Er) as [st2 A2]. exists st2. rewrite <- app_assoc. exact A2.
Qed.
Lemma hoist_all lm st rest : analyses lm st -> forall ds is p st' r, Forall (fun s => ~ is_declaration s) is ->
  grammar_program p -> prog_statements p = (ds ++ is ++ rest)%list -> analyze_ast st p = Ok (st', r) -> res_errors r = [] ->
  exists st'', analyze_ast st (with_statements (ds ++ filter declaration rest ++ is ++ filter (fun s => negb (declaration s)) rest) p) = Ok (st'', r).
Proof.
  intros H. induction rest as [|s rest IH]; intros ds is p st' r Fi G E A Er.
  - cbn [filter app]. rewrite <- E, with_same. eauto.
  - destruct (is_declaration_dec s) as [D|D].
    + assert (declaration s = true) as Ds by (destruct s; cbn in *; tauto). cbn [filter]. rewrite Ds. cbn [negb].
      destruct (hoist_over lm st is s H Fi D ds rest p st' r G E A Er) as [st1 A1].
      assert (G1 : grammar_program (with_statements (ds ++ s :: is ++ rest) p)).
      { unfold grammar_program in *. cbn. rewrite E in G. eapply Permutation_Forall; [|exact G]. apply Permutation_app_head. symmetry. apply Permutation_middle. }
      destruct (IH (ds ++ [s])%list is _ st1 r Fi G1) as [st2 A2]; [cbn; now rewrite <- app_assoc|exact A1|exact Er|]. exists st2. rewrite <- app_assoc in A2. exact A2.
    + assert (declaration s = false) as Ds by (destruct s; cbn in *; tauto). cbn [filter]. rewrite Ds. cbn [negb].
      destruct (IH ds (is ++ [s])%list p st' r) as [st2 A2]; auto; [apply Forall_app; auto|now rewrite <- app_assoc|]. exists st2. rewrite <- app_assoc in A2. exact A2.
Qed.
Lemma hoisted lm st p st' r : analyses lm st -> grammar_program p -> analyze_ast st p = Ok (st', r) -> res_errors r = [] ->
  exists st'', analyze_ast st (with_statements (declarations_first (prog_statements p)) p) = Ok (st'', r).
Proof. intros H G A Er. exact (hoist_all lm st (prog_statements p) H [] [] p st' r (Forall_nil _) G eq_refl A Er). Qed.
