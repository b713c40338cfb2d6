(** Lemmas about types, values, promotion and overload tables (C14-C18). *)
From Coq Require Import Reals SpecFloat.
From Verif Require Import Base ModelUtils ModelError ModelTypes ModelOverload SpecTypes ProofsFloat.
Local Open Scope string_scope.

Lemma kind_eqb_eq a b : kind_eqb a b = true <-> a = b.
Proof. destruct a, b; cbn; split; congruence. Qed.
Lemma kind_eqb_refl a : kind_eqb a a = true.
Proof. now apply kind_eqb_eq. Qed.

Definition kind_eq_dec (a b : type_kind) : {a = b} + {a <> b}.
Proof. decide equality. Defined.

(** ** Promotion *)

Definition value_in_range (v : value) : Prop :=
  match v with VInt z => in_int64 z = true | _ => True end.

Lemma type_of_const v : is_const v -> type_of v = Ok (make_type (const_kind v)).
Proof. destruct v; cbn; easy. Qed.

Lemma promote_const v t : is_const v ->
  (const_kind v = kind t -> promote v t = Ok (Some v)) /\
  (const_kind v <> kind t -> ~ below (const_kind v) (kind t) -> promote v t = Ok None) /\
  (below (const_kind v) (kind t) -> exists w, promote v t = Ok (Some w) /\ is_const w /\ const_kind w = kind t).
Proof.
  intros Hc. unfold promote. rewrite (type_of_const v Hc). cbn [bind].
  destruct t as [k sz]. unfold type_check. cbn [kind make_type].
  destruct v; cbn in Hc; try easy; destruct k; cbn; repeat split; intros; try easy; eauto.
Qed.

Lemma float_of_bool_exact b : real_of (float_of_bool b) = number_of (VBool b).
Proof.
  unfold float_of_bool. destruct b.
  - destruct (float_of_Z_correct 1) as [_ ->]; [cbn; lia|]. now rewrite nearest_exact by (cbn; lia).
  - destruct (float_of_Z_correct 0) as [_ ->]; [cbn; lia|]. now rewrite nearest_exact by (cbn; lia).
Qed.

Lemma promote_const_number v t w : is_const v -> value_in_range v -> promote v t = Ok (Some w) ->
  is_const w /\ const_kind w = kind t /\ value_in_range w /\
  (number_of w = number_of v \/
   exists z, v = VInt z /\ kind t = TFloat /\ number_of w = nearest_double (IZR z)).
Proof.
  intros Hc Hr. unfold promote. rewrite (type_of_const v Hc). cbn [bind].
  destruct t as [k sz]. unfold type_check. cbn [kind make_type].
  destruct v as [b|z|f|x|x idx]; cbn [const_kind] in *; try easy; destruct k; cbn; intros [= <-]; cbn;
    repeat split; auto; try (now left).
  - now destruct b.
  - left. now destruct b.
  - left. apply float_of_bool_exact.
  - right. exists z. repeat split. apply float_of_Z_correct. now apply int64_abs.
Qed.

Lemma promoted_finite v t f : is_const v -> value_in_range v -> const_kind v <> TFloat ->
  promote v t = Ok (Some (VFloat f)) -> finite_double f.
Proof.
  intros Hc Hr N. unfold promote. rewrite (type_of_const v Hc). cbn [bind].
  destruct t as [k sz]. unfold type_check. cbn [kind make_type].
  destruct v as [b|z|g|x|x idx]; cbn [const_kind] in *; try easy; destruct k; cbn; intros [= <-].
  - unfold float_of_bool. destruct b; apply float_of_Z_correct; cbn; lia.
  - apply float_of_Z_correct. now apply int64_abs.
Qed.

(** The exact value of promoting a boolean or an integer. *)
Lemma promote_const_value v t : is_const v ->
  promote v t = Ok (match v, kind t with
                    | VBool _, TBool | VInt _, TInt | VFloat _, TFloat => Some v
                    | VBool b, TInt => Some (VInt (if b then 1 else 0)%Z)
                    | VBool b, TFloat => Some (VFloat (float_of_bool b))
                    | VInt z, TFloat => Some (VFloat (float_of_Z z))
                    | _, _ => None
                    end).
Proof.
  intros Hc. unfold promote. rewrite (type_of_const v Hc). cbn [bind].
  destruct t as [k sz]. unfold type_check. cbn [kind make_type].
  destruct v; cbn in Hc; try easy; destruct k; reflexivity.
Qed.

Lemma promote_ref v tv t w : ~ is_const v -> quantum_or_bit (kind tv) -> type_of v = Ok tv ->
  promote v t = Ok (Some w) <-> (kind t = kind tv /\ w = v).
Proof.
  intros Hc Hq Ht. unfold promote. rewrite Ht. cbn [bind]. unfold type_check.
  destruct (kind_eqb (kind tv) (kind t)) eqn:E.
  - apply kind_eqb_eq in E. split; [intros [= <-]; auto | intros [_ ->]; reflexivity].
  - split; [|intros [H _]; rewrite H, kind_eqb_refl in E; discriminate].
    destruct v as [b|z|f|x|x idx]; try (cbn in Hc; tauto).
    + destruct (kind t); try discriminate. cbn [make_type kind]. destruct (kind tv); cbn; try discriminate. contradiction.
    + destruct (kind t); discriminate.
Qed.

Lemma promote_total v t : typed v -> exists r, promote v t = Ok r.
Proof.
  intros [tv Ht]. unfold promote. rewrite Ht. cbn [bind]. destruct (type_check t tv); eauto.
Qed.

(** What promotion can return in general. *)
Lemma promote_some_typed v t w : promote v t = Ok (Some w) -> typed w.
Proof.
  unfold promote. destruct (type_of v) as [tv| | |] eqn:Ht; try discriminate. cbn [bind].
  destruct (type_check t tv); [intros [= <-]; eexists; exact Ht|].
  destruct (kind t), v; try discriminate;
  try (intros [= <-]; eexists; reflexivity).
  destruct (type_check tv (make_type TBool)); [intros [= <-]; eexists; exact Ht|discriminate].
Qed.

(** ** check_promote *)

Lemma check_promote_iff a b : check_promote a b = true <-> kind a = kind b \/ below (kind a) (kind b).
Proof.
  unfold check_promote, type_check. destruct a as [ka sa], b as [kb sb]. cbn.
  destruct ka, kb; cbn; intuition (congruence || easy).
Qed.

Lemma check_promote_agrees v tv t : type_of v = Ok tv -> (is_const v \/ quantum_or_bit (kind tv)) ->
  (check_promote tv t = true <-> exists w, promote v t = Ok (Some w)).
Proof.
  intros Ht H. rewrite check_promote_iff. destruct v as [b|z|f|x|x idx].
  1-3: (rewrite (promote_const_value _ t) by exact I; cbn in Ht; injection Ht as <-; cbn [kind make_type];
        destruct (kind t); cbn; split; intros; eauto; try tauto; try (destruct H0; discriminate);
        destruct H0; (discriminate || contradiction)).
  - destruct H as [[]|Hq]. split.
    + intros [E|B]; [|destruct (kind tv), (kind t); contradiction].
      exists (VVar x). apply (promote_ref (VVar x) tv); auto.
    + intros [w Hw]. apply (promote_ref (VVar x) tv) in Hw; auto. left. now symmetry.
  - destruct H as [[]|Hq]. split.
    + intros [E|B]; [|destruct (kind tv), (kind t); contradiction].
      exists (VIndex x idx). apply (promote_ref (VIndex x idx) tv); auto.
    + intros [w Hw]. apply (promote_ref (VIndex x idx) tv) in Hw; auto. left. now symmetry.
Qed.

Lemma check_promote_refl t : check_promote t t = true.
Proof. apply check_promote_iff. now left. Qed.
Lemma check_promote_trans a b c : check_promote a b = true -> check_promote b c = true -> check_promote a c = true.
Proof.
  rewrite !check_promote_iff. intros [Hab|Hab] [Hbc|Hbc].
  - left. congruence.
  - right. now rewrite Hab.
  - right. now rewrite <- Hbc.
  - right. destruct (kind a), (kind b), (kind c); auto; contradiction.
Qed.

(** ** Overload resolution *)

Lemma nth_error_ext {A} (a b : list A) : (forall i, nth_error a i = nth_error b i) -> a = b.
Proof.
  revert b. induction a as [|x a IH]; intros [|y b] H; [reflexivity|..].
  - discriminate (H 0%nat).
  - discriminate (H 0%nat).
  - generalize (H 0%nat). intros [= ->]. f_equal. apply IH. intros i. exact (H (S i)).
Qed.

Section Overloads.
  Context {T : Type}.

  Lemma table_find_add name n tag ps (t : table T) :
    table_find name (add_overload n tag ps t) =
    if n =? name then Some (match table_find name t with Some r => r ++ [mkOverload tag ps] | None => [mkOverload tag ps] end)%list
    else table_find name t.
  Proof.
    induction t as [|[k r] t IH]; cbn [add_overload table_find].
    - reflexivity.
    - destruct (String.eqb_spec k n) as [->|Hk]; cbn [table_find].
      + destruct (String.eqb_spec n name) as [->|Hn]; reflexivity.
      + destruct (String.eqb_spec k name) as [->|Hkn].
        * destruct (String.eqb_spec n name); [congruence|reflexivity].
        * exact IH.
  Qed.

  Definition overloads_of (name : string) (h : list (registration T)) : resolver T :=
    map (fun r => mkOverload (snd (fst r)) (snd r)) (filter (fun r => fst (fst r) =? name) h).

  Lemma register_all_find (h : list (registration T)) name :
    table_find name (register_all h) = match overloads_of name h with [] => None | l => Some l end.
  Proof.
    induction h as [|r h IH] using rev_ind; [reflexivity|].
    unfold register_all in *. rewrite fold_left_app. cbn [fold_left]. rewrite table_find_add.
    unfold registration in *. rewrite IH. unfold overloads_of.
    rewrite filter_app, map_app. cbn [filter].
    destruct (fst (fst r) =? name).
    - cbn [map]. destruct (map _ (filter _ h)); reflexivity.
    - cbn [map]. now rewrite app_nil_r.
  Qed.

  Lemma promote_args_spec args params : List.length params = List.length args -> Forall typed args ->
    (exists args', promote_args args params = Ok (Some args') /\ promotes_all args params args') \/
    (promote_args args params = Ok None /\ ~ exists args', promotes_all args params args').
  Proof.
    revert params. induction args as [|a args IH]; intros [|p params] Hl Hty; try discriminate.
    - left. exists []. split; [reflexivity|]. repeat split. intros [] ? ? ? H; discriminate H.
    - inversion Hty as [|? ? Ha Hty']; subst. injection Hl as Hl. cbn [promote_args].
      destruct (promote_total a p Ha) as [r Hr]. rewrite Hr. cbn [bind]. destruct r as [a'|].
      + destruct (IH params Hl Hty') as [(args' & H1 & H2 & H3 & H4)|(H1 & H2)]; rewrite H1; cbn [bind].
        * left. exists (a' :: args'). split; [reflexivity|]. split; [cbn; congruence|]. split; [cbn; congruence|].
          intros [|i] b q b'; cbn; [congruence|apply H4].
        * right. split; [reflexivity|]. intros (args' & L1 & L2 & H).
          apply H2. destruct args' as [|b' args']; [discriminate|]. exists args'.
          cbn in *. repeat split; try lia. intros i x q x'. apply (H (S i)).
      + right. split; [reflexivity|]. intros (args' & L1 & L2 & H).
        destruct args' as [|b' args']; [discriminate|]. specialize (H 0%nat a p b' eq_refl eq_refl eq_refl).
        congruence.
  Qed.

  Lemma promotes_all_unique args params a b : promotes_all args params a -> promotes_all args params b -> a = b.
  Proof.
    intros (L1 & L2 & H) (_ & L3 & H'). apply nth_error_ext. intros i.
    destruct (nth_error a i) as [x|] eqn:Ea, (nth_error b i) as [y|] eqn:Eb; auto.
    - assert (i < List.length params)%nat by (rewrite <- L2; apply nth_error_Some; congruence).
      destruct (nth_error args i) as [v|] eqn:Ev; [|apply nth_error_None in Ev; lia].
      destruct (nth_error params i) as [p|] eqn:Ep; [|apply nth_error_None in Ep; lia].
      specialize (H i v p x Ev Ep Ea). specialize (H' i v p y Ev Ep Eb). congruence.
    - apply nth_error_None in Eb. assert (i < List.length a)%nat by (apply nth_error_Some; congruence). lia.
    - apply nth_error_None in Ea. assert (i < List.length b)%nat by (apply nth_error_Some; congruence). lia.
  Qed.

  Definition ov_applicable (args : list value) (o : overload T) : Prop :=
    exists args', promotes_all args (ov_params o) args'.

  Lemma resolve_loop_spec args os : Forall typed args ->
    (exists l1 o l2 args', os = l1 ++ o :: l2 /\ Forall (fun o => ~ ov_applicable args o) l1 /\
        promotes_all args (ov_params o) args' /\ resolve_loop os args = Ok (Some (ov_tag o, args')))%list \/
    (Forall (fun o => ~ ov_applicable args o) os /\ resolve_loop os args = Ok None).
  Proof.
    intros Hty. induction os as [|o os IH]; [now right|]. cbn [resolve_loop].
    destruct (Nat.eqb_spec (List.length (ov_params o)) (List.length args)) as [Hl|Hl]; cbn [negb].
    - destruct (promote_args_spec args (ov_params o) Hl Hty) as [(args' & -> & Hp)|(-> & Hp)]; cbn [bind].
      + left. exists [], o, os, args'. auto.
      + destruct IH as [(l1 & o' & l2 & args' & -> & H1 & H2 & H3)|(H1 & H2)].
        * left. exists (o :: l1), o', l2, args'. auto.
        * right. auto.
    - assert (Hn : ~ ov_applicable args o) by (intros (args' & L & _); congruence).
      destruct IH as [(l1 & o' & l2 & args' & -> & H1 & H2 & H3)|(H1 & H2)].
      + left. exists (o :: l1), o', l2, args'. auto.
      + right. auto.
  Qed.

  Lemma overloads_of_split name h l1 o l2 : overloads_of name h = (l1 ++ o :: l2)%list ->
    exists h1 h2, h = (h1 ++ (name, ov_tag o, ov_params o) :: h2)%list /\ overloads_of name h1 = l1 /\ overloads_of name h2 = l2.
  Proof.
    revert l1. induction h as [|r h IH]; intros l1; cbn.
    - destruct l1; discriminate.
    - unfold overloads_of at 1. cbn [filter]. destruct (String.eqb_spec (fst (fst r)) name) as [Hr|Hr].
      + cbn [map]. fold (overloads_of name h). destruct l1 as [|o' l1]; intros [= H1 H2].
        * exists [], h. subst o. cbn. destruct r as [[n t] p]. cbn in *. subst. auto.
        * destruct (IH _ H2) as (h1 & h2 & -> & <- & <-). exists (r :: h1), h2. repeat split.
          unfold overloads_of. cbn [filter]. rewrite <- Hr, String.eqb_refl. cbn [map]. now rewrite H1.
      + fold (overloads_of name h). intros H. destruct (IH _ H) as (h1 & h2 & -> & H1 & H2).
        exists (r :: h1), h2. repeat split; [|exact H2]. unfold overloads_of. cbn [filter].
        destruct (String.eqb_spec (fst (fst r)) name); [contradiction|exact H1].
  Qed.

  Lemma overloads_of_applicable name args h :
    Forall (fun o => ~ ov_applicable args o) (overloads_of name h) <->
    Forall (fun r => ~ applicable name args r) h.
  Proof.
    unfold overloads_of. induction h as [|[[n t] p] h IH]; cbn [filter map]; [split; constructor|].
    cbn [fst snd]. destruct (String.eqb_spec n name) as [->|Hn].
    - cbn [map]. rewrite !Forall_cons_iff, IH. unfold applicable, ov_applicable. cbn. tauto.
    - rewrite Forall_cons_iff, IH. unfold applicable. cbn. tauto.
  Qed.

  (** Success: the last applicable registration. *)
  Lemma resolve_ok_iff (h : list (registration T)) name args tag args' : Forall typed args ->
    resolve (register_all h) name args = Ok (tag, args') <->
    exists h1 params h2, h = (h1 ++ (name, tag, params) :: h2)%list /\
      promotes_all args params args' /\ Forall (fun r => ~ applicable name args r) h2.
  Proof.
    intros Hty. unfold resolve. rewrite register_all_find.
    destruct (resolve_loop_spec args (rev (overloads_of name h)) Hty)
      as [(l1 & o & l2 & args'' & E & N & P & R)|(N & R)].
    - apply (f_equal (@rev _)) in E. rewrite rev_involutive, rev_app_distr in E. cbn [rev] in E.
      rewrite <- app_assoc in E. cbn [app] in E.
      destruct (overloads_of name h) as [|o0 os] eqn:Eh; [destruct (rev l2); discriminate|].
      unfold resolve_overload. rewrite R. cbn [bind].
      destruct (overloads_of_split name h (rev l2) o (rev l1)) as (h1 & h2 & Hh & H1 & H2); [congruence|].
      assert (Hn2 : Forall (fun r => ~ applicable name args r) h2).
      { apply overloads_of_applicable. rewrite H2. now apply Forall_rev. }
      split.
      + intros [= <- <-]. eauto 8.
      + intros (k1 & params & k2 & Hk & Hp & Hn).
        (* two splits of h at the last applicable registration coincide *)
        assert (Happ : applicable name args (name, ov_tag o, ov_params o)) by (split; [reflexivity|eauto]).
        assert (Happ' : applicable name args (name, tag, params)) by (split; [reflexivity|cbn; eauto]).
        rewrite Hh in Hk. clear - Hk Hn Hn2 Happ Happ' P Hp.
        assert (Eq : (name, ov_tag o, ov_params o) = (name, tag, params)).
        { revert k1 Hk. induction h1 as [|x h1 IH]; intros [|y k1]; cbn; intros [= Ha Hb]; subst.
          - reflexivity.
          - exfalso. rewrite Forall_app, Forall_cons_iff in Hn2. tauto.
          - exfalso. rewrite Forall_app, Forall_cons_iff in Hn. tauto.
          - eapply IH; eauto. }
        injection Eq as Et Ep. subst. rewrite (promotes_all_unique _ _ _ _ Hp P). reflexivity.
    - assert (Nh : Forall (fun r => ~ applicable name args r) h).
      { apply overloads_of_applicable. rewrite <- (rev_involutive (overloads_of name h)). now apply Forall_rev. }
      split.
      + destruct (overloads_of name h); [discriminate|]. unfold resolve_overload. rewrite R. cbn [bind].
        destruct (types_of args); discriminate.
      + intros (h1 & params & h2 & -> & Hp & _). exfalso.
        rewrite Forall_app, Forall_cons_iff in Nh. destruct Nh as (_ & Nh & _). apply Nh.
        split; [reflexivity|cbn; eauto].
  Qed.

  Lemma types_of_typed args : Forall typed args -> exists ts, types_of args = Ok ts.
  Proof.
    unfold types_of. induction 1 as [|v args [t Ht] _ [ts IH]]; cbn [mapM]; [eauto|].
    rewrite Ht. cbn [bind]. rewrite IH. cbn [bind]. eauto.
  Qed.

  (** Otherwise an error. *)
  Lemma resolve_total (h : list (registration T)) name args : Forall typed args ->
    (exists r, resolve (register_all h) name args = Ok r) \/
    (exists e, resolve (register_all h) name args = Err e).
  Proof.
    intros Hty. unfold resolve. rewrite register_all_find.
    destruct (overloads_of name h) as [|o os] eqn:E; [right; eauto|].
    unfold resolve_overload.
    destruct (resolve_loop_spec args (rev (o :: os)) Hty) as [(l1 & o' & l2 & args'' & _ & _ & _ & ->)|(_ & ->)]; cbn [bind].
    - left. eauto.
    - right. destruct (types_of_typed args Hty) as [ts ->]. cbn [bind]. eauto.
  Qed.

  (** Registrations under other names have no effect. *)
  Lemma resolve_other_names (h : list (registration T)) name args :
    resolve (register_all h) name args =
    resolve (register_all (filter (fun r => fst (fst r) =? name) h)) name args.
  Proof.
    unfold resolve. rewrite !register_all_find. unfold overloads_of.
    replace (filter (fun r => fst (fst r) =? name) (filter (fun r => fst (fst r) =? name) h))
      with (filter (fun r : registration T => fst (fst r) =? name) h); [reflexivity|].
    induction h as [|r h IH]; cbn [filter]; [reflexivity|].
    destruct (fst (fst r) =? name) eqn:E; cbn [filter]; [rewrite E; f_equal; exact IH|exact IH].
  Qed.

  Lemma resolve_add_other (t : table T) n tag ps name args : n <> name ->
    resolve (add_overload n tag ps t) name args = resolve t name args.
  Proof.
    intros H. unfold resolve. rewrite table_find_add. destruct (String.eqb_spec n name); [contradiction|reflexivity].
  Qed.
End Overloads.

(** ** Variable tables *)

Lemma table_find_app {A} name (t : list (string * A)) n v :
  table_find name (t ++ [(n, v)]) =
  match table_find name t with Some x => Some x | None => if n =? name then Some v else None end.
Proof. induction t as [|[k x] t IH]; cbn; [reflexivity|]. now destruct (k =? name). Qed.

Lemma variable_add_iff name v t : (exists t', variable_add name v t = Ok t') <-> table_find name t = None.
Proof. unfold variable_add. destruct (table_find name t); split; intros H; [destruct H|..]; try discriminate; eauto. Qed.

Lemma variable_add_resolve name v t t' n : variable_add name v t = Ok t' ->
  variable_resolve n t' = if name =? n then Ok v else variable_resolve n t.
Proof.
  unfold variable_add, variable_resolve. destruct (table_find name t) eqn:E; [discriminate|]. intros [= <-].
  rewrite table_find_app. destruct (String.eqb_spec name n) as [->|Hn].
  - now rewrite E.
  - now destruct (table_find n t).
Qed.

(** The first declaration of a name is the one found. *)
Lemma declare_all_find h name : table_find name (declare_all h) = table_find name h.
Proof.
  induction h as [|r h IH] using rev_ind; [reflexivity|].
  unfold declare_all in *. rewrite fold_left_app. cbn [fold_left]. destruct r as [n v]. rewrite table_find_app, <- IH.
  cbn [fst snd]. generalize (fold_left (fun (t : variable_table) (r : string * value) =>
    match variable_add (fst r) (snd r) t with Ok t' => t' | _ => t end) h []). intros t. unfold variable_add.
  destruct (table_find n t) eqn:E.
  - destruct (table_find name t) eqn:E'; [reflexivity|].
    destruct (String.eqb_spec n name) as [->|]; congruence.
  - rewrite table_find_app. reflexivity.
Qed.

Lemma declare_all_resolve h name v :
  variable_resolve name (declare_all h) = Ok v <->
  exists h1 h2, h = (h1 ++ (name, v) :: h2)%list /\ Forall (fun r => fst r <> name) h1.
Proof.
  unfold variable_resolve. rewrite declare_all_find.
  induction h as [|[n w] h IH]; cbn [table_find].
  - split; [discriminate|]. intros ([|? ?] & h2 & H & _); discriminate.
  - destruct (String.eqb_spec n name) as [->|Hn].
    + split.
      * intros [= <-]. exists [], h. auto.
      * intros ([|r h1] & h2 & H & F); injection H; intros; subst; [reflexivity|].
        inversion F; subst. cbn in *. congruence.
    + rewrite IH. split.
      * intros (h1 & h2 & -> & F). exists ((n, w) :: h1), h2. auto.
      * intros ([|r h1] & h2 & H & F); injection H; intros; subst; [congruence|].
        inversion F; subst. exists h1, h2. auto.
Qed.

Lemma declare_all_none h name :
  (exists e, variable_resolve name (declare_all h) = Err e) <-> Forall (fun r => fst r <> name) h.
Proof.
  unfold variable_resolve. rewrite declare_all_find.
  induction h as [|[n w] h IH]; cbn [table_find].
  - split; [constructor|eauto].
  - rewrite Forall_cons_iff. cbn [fst]. destruct (String.eqb_spec n name) as [->|Hn].
    + split; [intros [e H]; discriminate|tauto].
    + rewrite IH. tauto.
Qed.
