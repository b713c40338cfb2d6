(** Lemmas about the values of expressions in an ordinary analyzer. *)
From Coq Require Import SpecFloat ZifyBool.
From Verif Require Import Base ModelUtils ModelVersion ModelError ModelTypes ModelOverload ModelFunctions
  ModelInstructionSet ModelAst ModelAnalyzer ModelSemantic SpecTypes SpecFunctions SpecInstructions
  ProofsTypes ProofsFunctions ProofsFolding.
Local Open Scope string_scope.

(** ** Induction on expressions *)
Section ExprInd.
  Variables (P : expr -> Prop) (Q : index_entry -> Prop).
  Hypotheses (Hbool : forall l b, P (EBool l b)) (Hint : forall l z, P (EInt l z)) (Hfloat : forall l f, P (EFloat l f))
    (Hident : forall l n, P (EIdent l n))
    (Hindex : forall l e idx, P e -> Forall Q idx -> P (EIndex l e idx))
    (Hcall0 : forall l n, P (ECall l n None))
    (Hcall : forall l n args, Forall P args -> P (ECall l n (Some args)))
    (Hunary : forall l op e, P e -> P (EUnary l op e))
    (Hbinary : forall l op e1 e2, P e1 -> P e2 -> P (EBinary l op e1 e2))
    (Hternary : forall l c e1 e2, P c -> P e1 -> P e2 -> P (ETernary l c e1 e2))
    (Hitem : forall l e, P e -> Q (IItem l e))
    (Hrange : forall l e1 e2, P e1 -> P e2 -> Q (IRange l e1 e2)).
  Fixpoint expr_ind_full (e : expr) : P e :=
    match e with
    | EBool l b => Hbool l b
    | EInt l z => Hint l z
    | EFloat l f => Hfloat l f
    | EIdent l n => Hident l n
    | EIndex l b idx => Hindex l b idx (expr_ind_full b)
        ((fix go (is : list index_entry) : Forall Q is :=
            match is with [] => Forall_nil Q | i :: is' => Forall_cons i (entry_ind_full i) (go is') end) idx)
    | ECall l n None => Hcall0 l n
    | ECall l n (Some args) => Hcall l n args
        ((fix go (es : list expr) : Forall P es :=
            match es with [] => Forall_nil P | a :: es' => Forall_cons a (expr_ind_full a) (go es') end) args)
    | EUnary l op a => Hunary l op a (expr_ind_full a)
    | EBinary l op a b => Hbinary l op a b (expr_ind_full a) (expr_ind_full b)
    | ETernary l c a b => Hternary l c a b (expr_ind_full c) (expr_ind_full a) (expr_ind_full b)
    end
  with entry_ind_full (i : index_entry) : Q i :=
    match i with
    | IItem l e => Hitem l e (expr_ind_full e)
    | IRange l a b => Hrange l a b (expr_ind_full a) (expr_ind_full b)
    end.
End ExprInd.

(** ** Outcomes *)
Definition no_throw {A} (m : outcome error A) : Prop := forall w, m <> Throw w.
Lemma no_throw_bind {A B} (m : outcome error A) (f : A -> outcome error B) :
  no_throw m -> (forall a, m = Ok a -> no_throw (f a)) -> no_throw (bind m f).
Proof. intros H1 H2 w. destruct m as [a|e|w'|k]; cbn; try discriminate; [now apply H2|intros _; exact (H1 _ eq_refl)]. Qed.
Lemma no_throw_context {A} l (m : outcome error A) : no_throw m -> no_throw (with_context l m).
Proof. intros H w. destruct m; cbn; try discriminate. intros E. exact (H _ E). Qed.
Lemma no_throw_mapM {A B} (f : A -> outcome error B) l : Forall (fun a => no_throw (f a)) l -> no_throw (mapM f l).
Proof.
  induction 1 as [|a l H _ IH]; cbn [mapM]; [discriminate|]. apply no_throw_bind; [exact H|]. intros b _.
  apply no_throw_bind; [exact IH|]. intros bs _ w. discriminate.
Qed.
Lemma mapM_ok {E A B} (f : A -> outcome E B) l bs : mapM f l = Ok bs <-> Forall2 (fun a b => f a = Ok b) l bs.
Proof.
  revert bs. induction l as [|a l IH]; intros bs; cbn [mapM].
  - split; [intros [= <-]; constructor|]. intros H. inversion H. reflexivity.
  - destruct (f a) as [b| | |] eqn:Ef; cbn [bind].
    2-4: split; [discriminate|]; intros H; inversion H; congruence.
    destruct (mapM f l) as [bs'| | |]; cbn [bind]; split; intros H; try discriminate.
    + injection H as <-. constructor; [exact Ef|]. now apply IH.
    + inversion H as [|? ? ? ? H1 H2]; subst. rewrite Ef in H1. injection H1 as <-. apply IH in H2. congruence.
    + inversion H as [|? ? ? ? H1 H2]; subst. apply IH in H2. congruence.
    + inversion H as [|? ? ? ? H1 H2]; subst. apply IH in H2. congruence.
    + inversion H as [|? ? ? ? H1 H2]; subst. apply IH in H2. congruence.
Qed.

Lemma Forall2_length {A B} {R : A -> B -> Prop} {l m} : Forall2 R l m -> List.length l = List.length m.
Proof. induction 1; cbn; congruence. Qed.

(** ** Values *)
Definition ordinary_value (v : value) : Prop :=
  match v with
  | VBool _ | VInt _ | VFloat _ => True
  | VVar x => declared x
  | VIndex x idx => (kind (var_type x) = TQubitArray \/ kind (var_type x) = TBitArray) /\
                    Forall (fun i => 0 <= i < tsize (var_type x))%Z idx
  end.

Lemma nameable_ordinary v : nameable v -> ordinary_value v.
Proof. destruct v; cbn; tauto. Qed.
Lemma const_ordinary v : is_const v -> ordinary_value v.
Proof. destruct v; cbn; tauto. Qed.
Lemma ordinary_language v : ordinary_value v -> is_const v \/ language_reference v.
Proof.
  destruct v; cbn; try tauto. unfold declared. destruct (kind (var_type v)); cbn; tauto.
Qed.
Lemma ordinary_typed v : ordinary_value v -> typed v.
Proof.
  destruct v; cbn; try (eexists; reflexivity). intros [H _]. unfold typed. cbn [type_of].
  destruct (_ =? _)%Z; [|eauto]. unfold element_type_of, type_check. destruct H as [-> | ->]; eexists; reflexivity.
Qed.
Lemma ordinary_typed_list l : Forall ordinary_value l -> Forall typed l.
Proof. apply Forall_impl, ordinary_typed. Qed.

Lemma resolve_variable_nameable st name v :
  Forall (fun s => Forall (fun e => nameable (snd e)) (sc_variables_table s)) (scopes st) ->
  resolve_variable st name = Ok v -> nameable v.
Proof.
  unfold resolve_variable. induction 1 as [|s l Hs _ IH]; cbn [resolve_variable_in]; [discriminate|].
  unfold variable_resolve. destruct (table_find name (sc_variables_table s)) as [w|] eqn:E.
  - intros [= ->]. rewrite Forall_forall in Hs. clear IH.
    assert (I : exists n, In (n, v) (sc_variables_table s)).
    { revert E. generalize (sc_variables_table s). induction v0 as [|[n a] t IH]; cbn; [discriminate|].
      destruct (n =? name); [intros [= ->]; eauto|]. intros H. destruct (IH H) as [m Hm]. eauto. }
    destruct I as [n I]. exact (Hs _ I).
  - exact IH.
Qed.
Lemma resolve_variable_cases st name : (exists v, resolve_variable st name = Ok v) \/ exists e, resolve_variable st name = Err e.
Proof.
  unfold resolve_variable. induction (scopes st) as [|s l IH]; cbn [resolve_variable_in]; [eauto|].
  unfold variable_resolve. destruct (table_find name (sc_variables_table s)); [eauto|exact IH].
Qed.

Lemma check_out_of_range_ok l n : check_out_of_range l n = Ok tt <-> Forall (fun i => 0 <= i < n)%Z l.
Proof.
  induction l as [|i l IH]; cbn [check_out_of_range]; [split; [constructor|reflexivity]|].
  destruct ((i <? 0) || (n <=? i))%Z eqn:E.
  - split; [discriminate|]. intros H. inversion H; subst. lia.
  - rewrite IH. split; intros H; [constructor; [lia|exact H]|now inversion H].
Qed.
Lemma check_out_of_range_cases l n : check_out_of_range l n = Ok tt \/ exists e, check_out_of_range l n = Err e.
Proof. induction l as [|i l IH]; cbn [check_out_of_range]; [auto|]. destruct (_ || _); eauto. Qed.

Section Ordinary.
  Variables (lm : libm) (st : analyzer).
  Hypothesis Hst : ordinary lm st.

  Lemma ord_functions : has_default_functions lm st. Proof. exact (proj1 Hst). Qed.

  Lemma resolve_function_ordinary name args : Forall ordinary_value args ->
    (exists v, resolve_function st name args = Ok v /\ is_const v) \/ (exists e, resolve_function st name args = Err e) \/
    (exists k, resolve_function st name args = UB k).
  Proof.
    intros H. rewrite (resolve_function_call lm st name args ord_functions).
    destruct (Forall_dec is_const const_dec args) as [F|N].
    - pose proof (call_kind lm name args F) as K. destruct (result_kind name (map const_kind args)); cbn [kind_result] in K.
      + destruct K as [(v & E & C & _)|(_ & u & E)]; [left|right; right]; eauto.
      + right; left. exact K.
    - right; left. apply call_nonconst; [|exact N]. now apply ordinary_typed_list.
  Qed.

  Lemma const_int_of_ordinary l r : no_throw r -> (forall v, r = Ok v -> ordinary_value v) -> no_throw (const_int_of l r).
  Proof.
    intros H1 H2. unfold const_int_of. apply no_throw_bind; [exact H1|]. intros v E. specialize (H2 v E).
    destruct (ordinary_typed v H2) as [t Ht]. unfold promote. rewrite Ht. cbn [bind]. intros w.
    destruct (type_check (make_type TInt) t); cbn [bind].
    - destruct v; discriminate.
    - cbn [kind make_type]. destruct v; cbn [bind]; try discriminate. destruct (type_check t (make_type TBool)); discriminate.
  Qed.

  (** The value of every expression is a constant, a declared variable or a
      selection of elements of a register; evaluation does not throw anything but
      an analysis error. *)
  Lemma visit_ordinary e : (forall v, visit st e = Ok v -> ordinary_value v) /\ no_throw (visit st e).
  Proof.
    apply (expr_ind_full (fun e => (forall v, visit st e = Ok v -> ordinary_value v) /\ no_throw (visit st e))
                         (fun i => no_throw (visit_entry st i))); clear e.
    - intros l b. cbn. split; [intros v [= <-]; exact I|discriminate].
    - intros l z. cbn. split; [intros v [= <-]; exact I|discriminate].
    - intros l f. cbn. split; [intros v [= <-]; exact I|discriminate].
    - intros l n. cbn [visit]. split.
      + intros v E. apply nameable_ordinary. eapply resolve_variable_nameable; [|exact E]. apply Hst.
      + intros w. destruct (resolve_variable_cases st n) as [[v ->]|[e ->]]; discriminate.
    - intros l e idx [IH1 IH2] IHi. cbn [visit]. split.
      + intros v E. apply with_context_ok_iff in E. apply bind_ok_inv in E. destruct E as (b & Eb & E).
        apply with_context_ok_iff in Eb. specialize (IH1 b Eb).
        destruct b as [| | |x|]; try discriminate.
        assert (E' : exists is, (let! _ := check_out_of_range (concat is) (tsize (var_type x)) in Ok (VIndex x (concat is))) = Ok v
                               /\ (kind (var_type x) = TQubitArray \/ kind (var_type x) = TBitArray)).
        { destruct (kind (var_type x)); try discriminate;
            apply bind_ok_inv in E; destruct E as (is & _ & E); eauto. }
        destruct E' as (is & E' & K). apply bind_ok_inv in E'. destruct E' as ([] & R & [= <-]).
        apply check_out_of_range_ok in R. cbn. auto.
      + apply no_throw_context, no_throw_bind; [now apply no_throw_context|]. intros b Eb. apply with_context_ok_iff in Eb.
        destruct b as [| | |x|]; try discriminate.
        assert (N : no_throw (let! is := mapM (visit_entry st) idx in
             let! _ := check_out_of_range (concat is) (tsize (var_type x)) in (Ok (VIndex x (concat is)) : outcome error value))).
        { apply no_throw_bind; [now apply no_throw_mapM|]. intros is _.
          destruct (check_out_of_range_cases (concat is) (tsize (var_type x))) as [->|[e' ->]]; discriminate. }
        destruct (kind (var_type x)); try exact N; discriminate.
    - intros l n. cbn [visit]. destruct (resolve_function_ordinary n [] (Forall_nil _)) as [(v & -> & C)|[[e ->]|[k ->]]];
        (split; [intros w [= <-]; now apply const_ordinary|discriminate]) || (split; discriminate).
    - intros l n args IH. cbn [visit]. split.
      + intros v E. apply bind_ok_inv in E. destruct E as (vs & Evs & E).
        rewrite (resolve_function_call lm st n vs ord_functions) in E. apply call_ok_const in E. now apply const_ordinary.
      + apply no_throw_bind.
        * apply no_throw_mapM. eapply Forall_impl; [|exact IH]. cbn. intros a [_ H]. now apply no_throw_context.
        * intros vs Evs. assert (F : Forall ordinary_value vs).
          { apply mapM_ok in Evs. clear -IH Evs. induction Evs as [|a v args vs E _ IHv]; [constructor|].
            inversion IH as [|? ? [H1 H2] H3]; subst. constructor; [|now apply IHv]. apply H1. now apply with_context_ok_iff in E. }
          intros w. destruct (resolve_function_ordinary n vs F) as [(v & -> & C)|[[e ->]|[k ->]]]; discriminate.
    - intros l op e [IH1 IH2]. cbn [visit]. split.
      + intros v E. apply bind_ok_inv in E. destruct E as (v1 & E1 & E).
        rewrite (resolve_function_call lm st _ _ ord_functions) in E. apply call_ok_const in E. now apply const_ordinary.
      + apply no_throw_bind; [now apply no_throw_context|]. intros v1 E1. apply with_context_ok_iff in E1. intros w.
        destruct (resolve_function_ordinary (unop_name op) [v1]) as [(v & -> & C)|[[e' ->]|[k ->]]]; try discriminate. auto.
    - intros l op e1 e2 [IH1 IH2] [IH3 IH4]. cbn [visit]. split.
      + intros v E. apply bind_ok_inv in E. destruct E as (v1 & E1 & E). apply bind_ok_inv in E. destruct E as (v2 & E2 & E).
        rewrite (resolve_function_call lm st _ _ ord_functions) in E. apply call_ok_const in E. now apply const_ordinary.
      + apply no_throw_bind; [now apply no_throw_context|]. intros v1 E1. apply with_context_ok_iff in E1.
        apply no_throw_bind; [now apply no_throw_context|]. intros v2 E2. apply with_context_ok_iff in E2. intros w.
        destruct (resolve_function_ordinary (binop_name op) [v1; v2]) as [(v & -> & C)|[[e' ->]|[k ->]]]; try discriminate. auto.
    - intros l c e1 e2 [IHc1 IHc2] [IH1 IH2] [IH3 IH4]. cbn [visit]. split.
      + intros v E. apply bind_ok_inv in E. destruct E as (vc & Ec & E).
        apply bind_ok_inv in E. destruct E as (v1 & E1 & E). apply bind_ok_inv in E. destruct E as (v2 & E2 & E).
        rewrite (resolve_function_call lm st _ _ ord_functions) in E. apply call_ok_const in E. now apply const_ordinary.
      + apply no_throw_bind; [now apply no_throw_context|]. intros vc Ec. apply with_context_ok_iff in Ec.
        apply no_throw_bind; [now apply no_throw_context|]. intros v1 E1. apply with_context_ok_iff in E1.
        apply no_throw_bind; [now apply no_throw_context|]. intros v2 E2. apply with_context_ok_iff in E2. intros w.
        destruct (resolve_function_ordinary "operator?:" [vc; v1; v2]) as [(v & -> & C)|[[e' ->]|[k ->]]]; try discriminate. auto.
    - intros l e [IH1 IH2]. cbn [visit_entry]. apply no_throw_bind; [now apply const_int_of_ordinary|]. discriminate.
    - intros l e1 e2 [IH1 IH2] [IH3 IH4]. cbn [visit_entry]. apply no_throw_bind; [now apply const_int_of_ordinary|]. intros z1 _.
      apply no_throw_bind; [now apply const_int_of_ordinary|]. intros z2 _ w. unfold expand_range.
      destruct (_ <? _)%Z; [discriminate|]. destruct (_ =? _)%Z; discriminate.
  Qed.

  Lemma visit_expression_ordinary e v : visit_expression st e = Ok v -> ordinary_value v.
  Proof. unfold visit_expression. intros E. apply with_context_ok_iff in E. exact (proj1 (visit_ordinary e) v E). Qed.
  Lemma visit_expression_no_throw e : no_throw (visit_expression st e).
  Proof. apply no_throw_context, visit_ordinary. Qed.
  Lemma visit_list_ordinary es vs : visit_expression_list st es = Ok vs -> Forall ordinary_value vs.
  Proof.
    unfold visit_expression_list. rewrite mapM_ok. induction 1; constructor; eauto using visit_expression_ordinary.
  Qed.
  Lemma visit_list_no_throw es : no_throw (visit_expression_list st es).
  Proof. apply no_throw_mapM, Forall_forall. intros e _. apply visit_expression_no_throw. Qed.
End Ordinary.
