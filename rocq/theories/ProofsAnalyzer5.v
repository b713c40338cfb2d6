(** Lemmas for C21 (undefined behaviour), C41 (reuse), C42 (scopes) and C43
    (registered instructions). *)
From Coq Require Import SpecFloat ZifyBool.
From Verif Require Import Base ModelUtils ModelVersion ModelError ModelTypes ModelOverload ModelFunctions
  ModelInstructionSet ModelAst ModelAnalyzer ModelSemantic SpecUtils SpecTypes SpecFunctions SpecInstructions SpecAnalyzer
  ProofsVersion ProofsTypes ProofsFunctions ProofsFolding ProofsExpr ProofsInstructions ProofsGates ProofsIndex
  ProofsAnalyzer ProofsAnalyzer2 ProofsAnalyzer3.
Local Open Scope string_scope.

(** ** Undefined behaviour (C21) *)
Lemma bind_ub {A B} (m : outcome error A) (f : A -> outcome error B) k : bind m f = UB k -> m = UB k \/ exists a, m = Ok a /\ f a = UB k.
Proof. destruct m; cbn; try discriminate; [eauto|intros [= ->]; auto]. Qed.
Lemma context_ub_iff {A} l (m : outcome error A) k : with_context l m = UB k <-> m = UB k.
Proof. destruct m; cbn; split; congruence. Qed.
Lemma mapM_ub {A B} (f : A -> outcome error B) l k : mapM f l = UB k -> exists a, In a l /\ f a = UB k.
Proof.
  induction l as [|a l IH]; cbn [mapM]; [discriminate|]. intros H. apply bind_ub in H. destruct H as [H|(b & _ & H)]; [exists a; split; [now left|exact H]|].
  apply bind_ub in H. destruct H as [H|(bs & _ & H)]; [|discriminate]. destruct (IH H) as (a' & I & E). exists a'. split; [now right|exact E].
Qed.
Lemma check_const_ub vs k : check_const vs <> UB k.
Proof.
  unfold check_const. intros H. apply bind_ub in H. destruct H as [H|(b & _ & H)]; [|discriminate]. apply mapM_ub in H. destruct H as (v & _ & H).
  destruct v; discriminate.
Qed.
Lemma int_result_ub z k : int_result z = UB k -> ~ fits z.
Proof.
  unfold int_result, ret_int64. destruct (in_int64 z) eqn:E; [discriminate|]. intros _ F.
  assert (in_int64 z = true); [|congruence]. unfold in_int64, fits, int64_min, int64_max in *. lia.
Qed.
Lemma not_in_int64 z : in_int64 z = false -> ~ fits z.
Proof. unfold in_int64, fits, int64_min, int64_max. lia. Qed.

Lemma default_ub lm : Forall (fun r => forall vs k, List.length vs = List.length (snd r) -> snd (fst r) vs = UB k ->
  exists zs, vs = map VInt zs /\ no_result (fst (fst r)) zs) (function_history lm).
Proof.
  assert (U1 : forall n F, (forall a k, F a = UB k -> no_result n [a]) -> forall t vs k, List.length vs = List.length [t : type] -> unary_i F vs = UB k ->
     exists zs, vs = map VInt zs /\ no_result n zs).
  { intros n F H t vs k L E. unfold unary_i in E. apply bind_ub in E. destruct E as [E|(u & _ & E)]; [destruct (check_const_ub _ _ E)|].
    destruct vs as [|[] [|? ?]]; try discriminate. exists [z]. split; [reflexivity|eauto]. }
  assert (B1 : forall n F, (forall a b k, F a b = UB k -> no_result n [a; b]) -> forall t t' vs k, List.length vs = List.length [t : type; t'] -> binary_i F vs = UB k ->
     exists zs, vs = map VInt zs /\ no_result n zs).
  { intros n F H t t' vs k L E. unfold binary_i in E. apply bind_ub in E. destruct E as [E|(u & _ & E)]; [destruct (check_const_ub _ _ E)|].
    destruct vs as [|[] [|[] [|? ?]]]; try discriminate. eexists [_; _]. split; [reflexivity|eauto]. }
  assert (U2 : forall F, (forall a k, F a <> UB k) -> forall vs k, unary_f F vs <> UB k).
  { intros F H vs k E. unfold unary_f in E. apply bind_ub in E. destruct E as [E|(u & _ & E)]; [destruct (check_const_ub _ _ E)|].
    destruct vs as [|[] ?]; try discriminate. exact (H _ _ E). }
  assert (U3 : forall F, (forall a k, F a <> UB k) -> forall vs k, unary_b F vs <> UB k).
  { intros F H vs k E. unfold unary_b in E. apply bind_ub in E. destruct E as [E|(u & _ & E)]; [destruct (check_const_ub _ _ E)|].
    destruct vs as [|[] ?]; try discriminate. exact (H _ _ E). }
  assert (U4 : forall F, (forall a k, F a <> UB k) -> forall vs k, unary_i F vs <> UB k).
  { intros F H vs k E. unfold unary_i in E. apply bind_ub in E. destruct E as [E|(u & _ & E)]; [destruct (check_const_ub _ _ E)|].
    destruct vs as [|[] ?]; try discriminate. exact (H _ _ E). }
  assert (B2 : forall F, (forall a b k, F a b <> UB k) -> forall vs k, binary_f F vs <> UB k).
  { intros F H vs k E. unfold binary_f in E. apply bind_ub in E. destruct E as [E|(u & _ & E)]; [destruct (check_const_ub _ _ E)|].
    destruct vs as [|[] [|[] ?]]; try discriminate. exact (H _ _ _ E). }
  assert (B3 : forall F, (forall a b k, F a b <> UB k) -> forall vs k, binary_b F vs <> UB k).
  { intros F H vs k E. unfold binary_b in E. apply bind_ub in E. destruct E as [E|(u & _ & E)]; [destruct (check_const_ub _ _ E)|].
    destruct vs as [|[] [|[] ?]]; try discriminate. exact (H _ _ _ E). }
  assert (B4 : forall F, (forall a b k, F a b <> UB k) -> forall vs k, binary_i F vs <> UB k).
  { intros F H vs k E. unfold binary_i in E. apply bind_ub in E. destruct E as [E|(u & _ & E)]; [destruct (check_const_ub _ _ E)|].
    destruct vs as [|[] [|[] ?]]; try discriminate. exact (H _ _ _ E). }
  assert (T1 : forall vs k, cond_i vs <> UB k).
  { intros vs k E. unfold cond_i in E. apply bind_ub in E. destruct E as [E|(u & _ & E)]; [destruct (check_const_ub _ _ E)|].
    destruct vs as [|[] [|[] [|[] ?]]]; discriminate. }
  assert (T2 : forall vs k, cond_f vs <> UB k).
  { intros vs k E. unfold cond_f in E. apply bind_ub in E. destruct E as [E|(u & _ & E)]; [destruct (check_const_ub _ _ E)|].
    destruct vs as [|[] [|[] [|[] ?]]]; discriminate. }
  assert (T3 : forall vs k, cond_b vs <> UB k).
  { intros vs k E. unfold cond_b in E. apply bind_ub in E. destruct E as [E|(u & _ & E)]; [destruct (check_const_ub _ _ E)|].
    destruct vs as [|[] [|[] [|[] ?]]]; discriminate. }
  unfold function_history, default_functions. cbn [map fst snd].
  repeat (constructor; [cbn [fst snd];
     first [ intros vs k _ E; exfalso; revert E; first [exact (T1 vs k)|exact (T2 vs k)|exact (T3 vs k)|apply U2|apply U3|apply U4|apply B2|apply B3|apply B4]; intros; discriminate
           | apply U1 | apply B1 ]|]); [..|constructor].
  - intros a k. unfold op_neg_i. intros E. apply int_result_ub in E. now constructor.
  - intros a b k. unfold op_add_ii. intros E. apply int_result_ub in E. now constructor.
  - intros a b k. unfold op_sub_ii. intros E. apply int_result_ub in E. now constructor.
  - intros a b k. unfold op_mul_ii. intros E. apply int_result_ub in E. now constructor.
  - intros a b k. unfold op_div_ii. destruct (Z.eqb_spec b 0) as [->|N]; [constructor|]. intros E. apply int_result_ub in E. now constructor.
  - intros a b k. unfold op_mod_ii. destruct (Z.eqb_spec b 0) as [->|N]; [constructor|]. destruct (in_int64 (Z.quot a b)) eqn:E; [discriminate|].
    apply not_in_int64 in E. now constructor.
  - intros a b k. unfold op_shl_ii. destruct ((b <? 0) || (64 <=? b))%Z eqn:E; [|discriminate]. intros _. constructor. lia.
  - intros a b k. unfold op_shr_ii. destruct ((b <? 0) || (64 <=? b))%Z eqn:E; [|discriminate]. intros _. constructor. lia.
  - intros a k. unfold fn_abs_i. intros E. apply int_result_ub in E. now constructor.
Qed.

(** A constant that counts as the integer z. *)
Definition counts_as (v : value) (z : Z) : Prop := v = VInt z \/ (v = VBool true /\ z = 1%Z) \/ (v = VBool false /\ z = 0%Z).
Lemma promote_int v t z : promote v t = Ok (Some (VInt z)) -> counts_as v z.
Proof.
  unfold promote. destruct (type_of v) as [tv| | |]; try discriminate. cbn [bind]. destruct (type_check t tv); [intros [= ->]; now left|].
  destruct (kind t); try discriminate; destruct v as [b|z'|f|x|x i]; try discriminate.
  - destruct b; intros [= <-]; unfold counts_as; auto.
  - destruct (type_check _ _); discriminate.
Qed.
Lemma call_ub lm n args k : Forall typed args -> call lm n args = UB k -> exists zs, Forall2 counts_as args zs /\ no_result n zs.
Proof.
  intros Ht. rewrite call_resolve. destruct (resolve_total (function_history lm) n args Ht) as [[[f args'] R]|[e R]]; rewrite R; cbn [bind fst snd]; [|discriminate].
  apply resolve_ok_iff in R; [|exact Ht]. destruct R as (h1 & ps & h2 & E & (L1 & L2 & Pr) & _). intros U.
  pose proof (default_ub lm) as G. rewrite E in G. apply Forall_app in G. destruct G as [_ G]. inversion G as [|? ? G0 _]; subst. cbn [fst snd] in G0.
  destruct (G0 args' k) as (zs & -> & N); [now rewrite L2|exact U|]. exists zs. split; [|exact N]. clear - L1 L2 Pr.
  revert ps zs L1 L2 Pr. induction args as [|a args IH]; intros [|p ps] [|z zs] L1 L2 Pr; try discriminate; constructor.
  - eapply promote_int. exact (Pr 0%nat a p (VInt z) eq_refl eq_refl eq_refl).
  - apply (IH ps zs); [now injection L1|now injection L2|]. intros i. exact (Pr (S i)).
Qed.

Section Undefined.
  Variables (lm : libm) (st : analyzer).
  Hypothesis Hst : ordinary lm st.

  Lemma denotes_counts e v z : visit st e = Ok v -> counts_as v z -> denotes_int st e z.
  Proof. intros E C. exists v. split; [exact E|]. split; [destruct C as [->|[[-> _]|[-> _]]]; exact I|exact C]. Qed.
  Lemma function_ub n args k : Forall ordinary_value args -> resolve_function st n args = UB k -> exists zs, Forall2 counts_as args zs /\ no_result n zs.
  Proof.
    intros Ha E. rewrite (resolve_function_call lm st n args (ord_functions lm st Hst)) in E. eapply call_ub; eauto using ordinary_typed_list.
  Qed.
  Lemma const_int_ub l e k : const_int_of l (visit st e) = UB k -> visit st e = UB k.
  Proof.
    unfold const_int_of. intros H. apply bind_ub in H. destruct H as [H|(v & Ev & H)]; [exact H|].
    destruct (ordinary_typed v (proj1 (visit_ordinary lm st Hst e) v Ev)) as [t Ht].
    destruct (promote_total v (make_type TInt) (ex_intro _ t Ht)) as [r Hr]. rewrite Hr in H. cbn [bind] in H.
    destruct r as [[]|]; discriminate.
  Qed.

  Lemma visit_ub e : forall k, visit st e = UB k -> exists e', within e' e /\ hazard st e'.
  Proof.
    assert (CTX : forall e v, with_context (expr_loc e) (visit st e) = Ok v -> visit st e = Ok v) by (intros ? ?; now rewrite with_context_ok_iff).
    apply (expr_ind_full (fun e => forall k, visit st e = UB k -> exists e', within e' e /\ hazard st e')
             (fun i => forall k, visit_entry st i = UB k ->
                match i with
                | IItem _ a => exists e', within e' a /\ hazard st e'
                | IRange _ a b => (exists e', within e' a /\ hazard st e') \/ (exists e', within e' b /\ hazard st e') \/
                                  exists z, denotes_int st a z /\ denotes_int st b (2 ^ 63 - 1)
                end)); clear e; try (cbn; discriminate).
    - intros l n k H. cbn [visit] in H. destruct (resolve_variable_cases st n) as [[v E]|[e E]]; congruence.
    - intros l b idx IHb IHi k H. cbn [visit] in H. apply context_ub_iff in H. apply bind_ub in H. destruct H as [H|(v & Ev & H)].
      + apply context_ub_iff in H. destruct (IHb k H) as (e' & W & Hz). exists e'. split; [now apply within_base|exact Hz].
      + apply CTX in Ev. destruct v as [x|x|x|x|x y]; try (exists (EIndex l b idx); split; [apply within_refl|eapply hz_index; [exact Ev|discriminate]]).
        assert (M : mapM (visit_entry st) idx = UB k).
        { destruct (kind (var_type x)); try discriminate; apply bind_ub in H; destruct H as [H|(is & _ & H)]; auto;
            apply bind_ub in H; destruct H as [H|(u & _ & H)]; try discriminate;
            destruct (check_out_of_range_cases (concat is) (tsize (var_type x))) as [C|[e' C]]; congruence. }
        apply mapM_ub in M. destruct M as (i & Ii & Ei). rewrite Forall_forall in IHi. specialize (IHi i Ii k Ei). destruct i as [l' a|l' a c].
        * destruct IHi as (e' & W & Hz). exists e'. split; [eapply within_item; eauto|exact Hz].
        * destruct IHi as [(e' & W & Hz)|[(e' & W & Hz)|(z & D1 & D2)]].
          -- exists e'. split; [eapply within_first; eauto|exact Hz].
          -- exists e'. split; [eapply within_last; eauto|exact Hz].
          -- exists (EIndex l b idx). split; [apply within_refl|]. eapply hz_range; eauto.
    - intros l n k H. cbn [visit] in H. apply function_ub in H; [|constructor]. destruct H as (zs & F & N). inversion F; subst. inversion N.
    - intros l n args IH k H. cbn [visit] in H. apply bind_ub in H. destruct H as [H|(vs & Ev & H)].
      + apply mapM_ub in H. destruct H as (a & Ia & Ea). apply context_ub_iff in Ea. rewrite Forall_forall in IH. destruct (IH a Ia k Ea) as (e' & W & Hz).
        exists e'. split; [eapply within_arg; eauto|exact Hz].
      + pose proof (visit_list_ordinary lm st Hst args vs Ev) as Ov. destruct (function_ub n vs k Ov H) as (zs & F & N).
        exists (ECall l n (Some args)). split; [apply within_refl|]. apply hz_call with (zs := zs); [|exact N]. apply mapM_ok in Ev. clear -Ev F CTX.
        revert zs F. induction Ev as [|a v args vs E _ IH]; intros zs F; inversion F; subst; constructor; auto. eapply denotes_counts; eauto.
    - intros l op e IH k H. cbn [visit] in H. apply bind_ub in H. destruct H as [H|(v & Ev & H)].
      + apply context_ub_iff in H. destruct (IH k H) as (e' & W & Hz). exists e'. split; [now apply within_unary|exact Hz].
      + apply CTX in Ev. apply function_ub in H; [|constructor; [apply (visit_ordinary lm st Hst e), Ev|constructor]].
        destruct H as (zs & F & N). inversion F as [|? z ? ? C F']; subst. inversion F'; subst.
        exists (EUnary l op e). split; [apply within_refl|]. eapply hz_unary; eauto using denotes_counts.
    - intros l op e1 e2 IH1 IH2 k H. cbn [visit] in H. apply bind_ub in H. destruct H as [H|(v1 & E1 & H)].
      { apply context_ub_iff in H. destruct (IH1 k H) as (e' & W & Hz). exists e'. split; [now apply within_left|exact Hz]. }
      apply bind_ub in H. destruct H as [H|(v2 & E2 & H)].
      { apply context_ub_iff in H. destruct (IH2 k H) as (e' & W & Hz). exists e'. split; [now apply within_right|exact Hz]. }
      apply CTX in E1, E2. apply function_ub in H.
      + destruct H as (zs & F & N). inversion F as [|? z1 ? ? C1 F']; subst. inversion F' as [|? z2 ? ? C2 F'']; subst. inversion F''; subst.
        exists (EBinary l op e1 e2). split; [apply within_refl|]. eapply hz_binary; eauto using denotes_counts.
      + repeat constructor; eapply visit_ordinary; eauto.
    - intros l c e1 e2 IHc IH1 IH2 k H. cbn [visit] in H. apply bind_ub in H. destruct H as [H|(vc & Ec & H)].
      { apply context_ub_iff in H. destruct (IHc k H) as (e' & W & Hz). exists e'. split; [now apply within_cond|exact Hz]. }
      apply bind_ub in H. destruct H as [H|(v1 & E1 & H)].
      { apply context_ub_iff in H. destruct (IH1 k H) as (e' & W & Hz). exists e'. split; [now apply within_then|exact Hz]. }
      apply bind_ub in H. destruct H as [H|(v2 & E2 & H)].
      { apply context_ub_iff in H. destruct (IH2 k H) as (e' & W & Hz). exists e'. split; [now apply within_else|exact Hz]. }
      apply CTX in Ec, E1, E2. apply function_ub in H.
      + destruct H as (zs & F & N). inversion F as [|? z1 ? ? C1 F']; subst. inversion F' as [|? z2 ? ? C2 F'']; subst. inversion F'' as [|? z3 ? ? C3 F3]; subst.
        inversion N.
      + repeat constructor; eapply visit_ordinary; eauto.
    - intros l e IH k H. rewrite visit_entry_item in H. apply bind_ub in H. destruct H as [H|(z & _ & H)]; [|discriminate]. apply const_int_ub in H. eauto.
    - intros l e1 e2 IH1 IH2 k H. rewrite visit_entry_range in H. apply bind_ub in H. destruct H as [H|(z1 & E1 & H)]; [left; apply const_int_ub in H; eauto|].
      apply bind_ub in H. destruct H as [H|(z2 & E2 & H)]; [right; left; apply const_int_ub in H; eauto|]. right. right.
      apply (const_int_of_denotes lm st Hst) in E1, E2. exists z1. split; [exact E1|]. unfold expand_range in H. destruct (_ <? _)%Z; [discriminate|].
      destruct (Z.eqb_spec z2 int64_max) as [->|]; [|discriminate]. exact E2.
  Qed.

  (** Such operations and indices are undefined indeed. *)
  Lemma hazard_visit e : hazard st e -> (forall l b idx, e <> EIndex l b idx) \/ (exists l b idx v, e = EIndex l b idx /\ visit st b = Ok v /\ forall x, v <> VVar x) ->
    exists k, visit st e = UB k.
  Proof.
    assert (R : forall n zs vs, Forall2 counts_as vs zs -> no_result n zs -> exists k, resolve_function st n vs = UB k).
    { intros n zs vs F N. rewrite (resolve_function_call lm st n vs (ord_functions lm st Hst)).
      inversion N; subst; repeat match goal with H : Forall2 counts_as _ (_ :: _) |- _ => inversion H; clear H; subst | H : Forall2 counts_as _ [] |- _ => inversion H; clear H; subst end.
      all: repeat match goal with H : counts_as ?v ?z |- _ => destruct H as [->|[[-> ?]|[-> ?]]]; subst end.
      all: try discriminate.
      all: overloads; run_call; unfold op_neg_i, op_add_ii, op_sub_ii, op_mul_ii, op_div_ii, op_mod_ii, op_shl_ii, op_shr_ii, fn_abs_i.
      all: try (match goal with |- context [int_result ?z] => destruct (int_result_cases z) as [[F _]|[_ ->]]; [contradiction|eauto] end).
      all: try (eexists; reflexivity).
      all: try match goal with |- context [(?b =? 0)%Z] => destruct (Z.eqb_spec b 0); [eauto|] end.
      all: try match goal with |- context [in_int64 ?z] => destruct (in_int64 z) eqn:E; [exfalso; unfold in_int64, fits, int64_min, int64_max in *; lia|eauto] end.
      all: try (match goal with |- context [int_result ?z] => destruct (int_result_cases z) as [[F _]|[_ ->]]; [contradiction|eauto] end).
      all: try match goal with |- context [if ?c then UB InvalidShift else _] => destruct c eqn:E; [eauto|exfalso; lia] end.
      all: eexists; reflexivity. }
    intros Hz D. destruct Hz as [l op e z D1 N|l op e1 e2 z1 z2 D1 D2 N|l n args zs F N|l b idx v E N|l b idx l' e1 e2 z I1 D1 D2].
    - destruct D1 as (v & Ev & _ & C). destruct (R _ [z] [v] (Forall2_cons _ _ C (Forall2_nil _)) N) as [k Hk]. exists k. cbn [visit]. rewrite Ev. exact Hk.
    - destruct D1 as (v1 & E1 & _ & C1). destruct D2 as (v2 & E2 & _ & C2).
      destruct (R _ [z1; z2] [v1; v2] (Forall2_cons _ _ C1 (Forall2_cons _ _ C2 (Forall2_nil _))) N) as [k Hk]. exists k. cbn [visit]. rewrite E1, E2. exact Hk.
    - assert (V : exists vs, mapM (fun a => with_context (expr_loc a) (visit st a)) args = Ok vs /\ Forall2 counts_as vs zs).
      { clear -F. induction F as [|a z args zs (v & Ev & _ & C) _ (vs & IH1 & IH2)]; [exists []; split; [reflexivity|constructor]|].
        exists (v :: vs). cbn [mapM]. rewrite Ev, IH1. split; [reflexivity|constructor; auto]. }
      destruct V as (vs & V1 & V2). destruct (R n zs vs V2 N) as [k Hk]. exists k. cbn [visit]. rewrite V1. exact Hk.
    - exists NullDereference. cbn [visit]. rewrite E. destruct v; try reflexivity. destruct (N v eq_refl).
    - destruct D as [D|(l0 & b0 & idx0 & v & [= <- <- <-] & E & N)]; [destruct (D _ _ _ eq_refl)|].
      exists NullDereference. cbn [visit]. rewrite E. destruct v; try reflexivity. destruct (N v eq_refl).
  Qed.

  (** Undefined behaviour comes from an expression of the statement. *)
  Definition ub_from {A} (es : list expr) (m : outcome error A) : Prop := forall k, m = UB k -> exists e k', In e es /\ visit st e = UB k'.
  Lemma ubf_bind {A B} es (m : outcome error A) (f : A -> outcome error B) : ub_from es m -> (forall a, m = Ok a -> ub_from es (f a)) -> ub_from es (bind m f).
  Proof. intros H1 H2 k E. apply bind_ub in E. destruct E as [E|(a & Ea & E)]; [eauto|exact (H2 a Ea k E)]. Qed.
  Lemma ubf_clean {A} es (m : outcome error A) : clean m -> ub_from es m.
  Proof. intros [[a ->]|[e ->]] k; discriminate. Qed.
  Lemma ubf_list es es' : incl es es' -> ub_from es' (visit_expression_list st es).
  Proof.
    intros I k H. apply mapM_ub in H. destruct H as (e & Ie & E). unfold visit_expression in E. apply context_ub_iff in E. eauto.
  Qed.
  Lemma ubf_incl {A} es es' (m : outcome error A) : incl es es' -> ub_from es m -> ub_from es' m.
  Proof. intros I H k E. destruct (H k E) as (e & k' & Ie & Ee). eauto. Qed.
  Lemma resolve_parameters_clean n vs : Forall ordinary_value vs -> clean (resolve_parameters n vs).
  Proof.
    intros Ho. destruct (in_dec string_dec n (map fst gates)) as [G|G].
    - apply In_names in G. destruct G as [[ks a] G]. apply (resolve_parameters_known n ks vs); eauto.
    - destruct (in_dec string_dec n (map fst modifiers)) as [M|M].
      + apply In_names in M. destruct M as [ks M]. apply (resolve_parameters_known n ks vs); eauto.
      + destruct (in_dec string_dec n (map fst non_gates)) as [N|N].
        * now apply resolve_parameters_non_gate.
        * destruct (resolve_parameters_unknown n vs G N M) as [e ->]. right. eauto.
  Qed.
  Lemma check_gate_is_clean i : clean (check_gate i).
  Proof. unfold check_gate, clean. destruct i as [g|]; [destruct (is_two_qubit_gate _)|]; eauto. Qed.
  Lemma resolve_clean {T} (t : table T) n args : Forall typed args -> clean (resolve t n args).
  Proof.
    intros H. unfold resolve. destruct (table_find n t) as [os|]; [|right; eauto]. unfold resolve_overload.
    destruct (resolve_loop_spec args (rev os) H) as [(l1 & o & l2 & a & _ & _ & _ & ->)|[_ ->]]; cbn [bind]; [left; eauto|].
    destruct (types_of_typed args H) as [ts ->]. right. cbn. eauto.
  Qed.
  Lemma resolve_instruction_clean n args : Forall typed args -> clean (resolve_instruction st n args).
  Proof.
    intros H. unfold resolve_instruction. induction (scopes st) as [|s l IH]; cbn [resolve_instruction_in].
    - destruct (types_of_typed args H) as [ts ->]. right. cbn. eauto.
    - pose proof (resolve_clean (sc_instructions s) n args H) as N. destruct (resolve (sc_instructions s) n args); try exact IH; exact N.
  Qed.
  Lemma pure_gate_ub g : grammar_gate g -> ub_from (gate_exprs g) (pure_gate st g).
  Proof.
    induction 1 as [l n ps H1 H2|l m g ps Hm Hg IH]; cbn [pure_gate gate_exprs app]; intros k H; apply context_ub_iff in H; revert k H.
    - cbn [bind]. apply ubf_bind; [apply ubf_list, incl_appl, incl_refl|]. intros vs Ev.
      apply ubf_bind; [apply ubf_clean, resolve_parameters_clean, (visit_list_ordinary lm st Hst _ _ Ev)|]. intros ws _.
      apply ubf_bind; [apply ubf_clean, check_gate_is_clean|]. intros u _ k. discriminate.
    - apply ubf_bind; [apply ubf_bind; [eapply ubf_incl; [|exact IH]; apply incl_appl, incl_refl|]; intros r _ k; discriminate|]. intros i _.
      apply ubf_bind; [apply ubf_list, incl_appr, incl_appl, incl_refl|]. intros vs Ev.
      apply ubf_bind; [apply ubf_clean, resolve_parameters_clean, (visit_list_ordinary lm st Hst _ _ Ev)|]. intros ws _.
      apply ubf_bind; [apply ubf_clean, check_gate_is_clean|]. intros u _ k. discriminate.
  Qed.
  Lemma catch_ub {A} l (d : A) m k es : catch_log l d (lift m) = (UB k, es) -> m = UB k.
  Proof. destruct m; cbn; unfold lift; congruence. Qed.
  Lemma statement_ub s k es : grammar_statement s -> visit_statement st s = (UB k, es) ->
    exists e e', In e (statement_exprs s) /\ within e' e /\ hazard st e'.
  Proof.
    intros Hs E. cut (exists e k', In e (statement_exprs s) /\ visit st e = UB k').
    { intros (e & k' & Ie & Ee). destruct (visit_ub e k' Ee) as (e' & W & Hz). eauto. }
    pose proof Hs as (Hp & _ & Hg). destruct s as [l n t an|l g ops an|l n ops ps an|l n c an].
    - exfalso. cbn in Hp. subst an. revert E. cbn [visit_statement]. unfold visit_variable.
      destruct (build_type_spec t) as [(ty & -> & _)|(e & -> & _)]; cbn [lift lbind catch_log visit_annotated]; [|discriminate].
      destruct (ordinary_scopes lm st Hst) as (s & r & E).
      unfold add_variable, update_current. cbn [fresh scopes]. rewrite E. cbn [bind lift lbind]. unfold register_variable, update_current. cbn [scopes].
      unfold variable_add. cbn [sc_variables_table]. destruct (table_find n (sc_variables_table s)); cbn; discriminate.
    - destruct Hp as [_ ->]. rewrite visit_gate_statement_pure in E by exact Hg. apply catch_ub in E. revert k E. unfold pure_gate_statement. cbn [statement_exprs].
      apply ubf_bind; [eapply ubf_incl; [|now apply pure_gate_ub]; apply incl_appl, incl_refl|]. intros sg _.
      apply ubf_bind; [apply ubf_list, incl_appr, incl_appl, incl_refl|]. intros vs Ev.
      apply ubf_bind; [apply ubf_clean, resolve_instruction_clean, ordinary_typed_list, (visit_list_ordinary lm st Hst _ _ Ev)|]. intros r _.
      apply ubf_bind; [intros k; unfold check_gate_operands; destruct (adjacent_equal _); discriminate|]. intros u _.
      destruct (add_statement_ok lm st Hst (SemGateInstr l (fst r) sg (snd r) [])) as [st' ->]. intros k. discriminate.
    - cbn in Hp. subst an. rewrite visit_non_gate_statement_pure in E. apply catch_ub in E. revert k E. unfold pure_non_gate_statement. cbn [statement_exprs].
      apply ubf_bind; [apply ubf_list, incl_appl, incl_refl|]. intros vs Ev.
      apply ubf_bind; [apply ubf_clean, resolve_instruction_clean, ordinary_typed_list, (visit_list_ordinary lm st Hst _ _ Ev)|]. intros r _.
      apply ubf_bind; [apply ubf_list, incl_appr, incl_appl, incl_refl|]. intros pvs Ep.
      apply ubf_bind; [apply ubf_clean, resolve_parameters_clean, (visit_list_ordinary lm st Hst _ _ Ep)|]. intros ws _.
      apply ubf_bind; [intros k; unfold check_non_gate_operands; destruct (is_measure n); [destruct (_ =? _)%Z|]; discriminate|]. intros u _.
      destruct (add_statement_ok lm st Hst (SemNonGate l (fst r) n (snd r) ws [])) as [st' ->]. intros k. discriminate.
    - exfalso. cbn in Hp. subst an. revert E. cbn [visit_statement]. unfold visit_asm_declaration. cbn [visit_annotated lift lbind].
      destruct (add_statement_ok lm st Hst (SemAsm l n c [])) as [st' ->]. cbn. discriminate.
  Qed.
End Undefined.

Lemma block_ub lm l ss : Forall grammar_statement ss -> forall st k es, ordinary lm st -> visit_block l st ss = (UB k, es) ->
  exists ss1 s ss2 st1 es1 e e', ss = (ss1 ++ s :: ss2)%list /\ block_run st ss1 st1 es1 /\
    In e (statement_exprs s) /\ within e' e /\ hazard st1 e'.
Proof.
  induction 1 as [|s ss Hs _ IH]; intros st k es Ho; [discriminate|]. rewrite visit_block_cons.
  destruct (statement_total lm st Ho s Hs) as [(st1 & e1 & E)|(k1 & e1 & E)].
  - rewrite E. cbn [lbind]. destruct (visit_block l st1 ss) as [r e2] eqn:E2. intros [= -> _].
    destruct (IH st1 k e2) as (ss1 & s' & ss2 & st2 & es2 & e & e' & -> & B & H); [|exact E2|].
    + eapply ordinary_extends; [exact Ho|]. eapply effect_extends, statement_effect, E.
    + exists (s :: ss1), s', ss2, st2, (e1 ++ es2)%list, e, e'. split; [reflexivity|]. split; [|exact H]. econstructor; eauto.
  - intros _. destruct (statement_ub lm st Ho s k1 e1 Hs E) as (e & e' & H). exists [], s, ss, st, [], e, e'. split; [reflexivity|]. split; [constructor|exact H].
Qed.
Lemma analysis_ub lm st p k : ordinary lm st -> grammar_program p -> analyze_ast st p = UB k ->
  exists ss1 s ss2 st1 es1 e e', prog_statements p = (ss1 ++ s :: ss2)%list /\ visit_block (prog_block_loc p) st ss1 = (Ok st1, es1) /\
    In e (statement_exprs s) /\ within e' e /\ hazard st1 e'.
Proof.
  intros Ho Hp H. unfold analyze_ast, visit_program in H.
  destruct (visit_version (api_version st) (prog_version p) (prog_version_loc p)) as [r es1] eqn:Ev.
  destruct (visit_version_ok _ _ _ _ _ Ev) as [v ->]. cbn [lbind] in H.
  destruct (visit_block (prog_block_loc p) st (prog_statements p)) as [r es2] eqn:B. destruct r as [st'|e|w|k'].
  - exfalso. cbn [lbind] in H. destruct (block_run_iff (prog_block_loc p) st (prog_statements p) st' es2) as [BR _]. specialize (BR B).
    assert (Ho' : ordinary lm st') by (eapply ordinary_extends; [exact Ho|]; eapply block_extends, BR).
    destruct (ordinary_scopes lm st' Ho') as (s & rest & Es). unfold current_scope in H. rewrite Es in H. cbn [lift lbind] in H.
    destruct (es1 ++ es2 ++ [] ++ [])%list; [destruct (program_well_formed _)|]; discriminate.
  - cbn [lbind] in H. discriminate.
  - cbn [lbind] in H. discriminate.
  - destruct (block_ub lm _ _ Hp st k' es2 Ho B) as (ss1 & s & ss2 & st1 & es & e & e' & E & R & X).
    exists ss1, s, ss2, st1, es, e, e'. split; [exact E|]. split; [now apply block_run_iff|exact X].
Qed.

