(** Lemmas for C82: the errors of calls and of expressions. *)
From Coq Require Import SpecFloat ZifyBool.
From Verif Require Import Base ModelUtils ModelVersion ModelError ModelTypes ModelOverload ModelFunctions
  ModelInstructionSet ModelAst ModelAnalyzer ModelSemantic SpecUtils SpecTypes SpecFunctions SpecInstructions SpecAnalyzer SpecSites SpecDiagnosis
  ProofsTypes ProofsFunctions ProofsFolding ProofsExpr ProofsInstructions ProofsGates ProofsIndex ProofsAnalyzer.
Local Open Scope string_scope.

(** ** Words *)

Lemma join_concat sep l : join sep l = String.concat sep l.
Proof.
  induction l as [|x [|y l] IH]; [reflexivity|reflexivity|]. change (join sep (x :: y :: l)) with (x ++ sep ++ join sep (y :: l)).
  rewrite IH. reflexivity.
Qed.
Lemma type_text t : type_to_string t = kind_text (kind t).
Proof. reflexivity. Qed.
Lemma operand_kind_type v t : ordinary_value v -> type_of v = Ok t -> kind t = operand_kind v.
Proof.
  intros Ho E. destruct v as [b|z|f|x|x idx]; cbn in E.
  1-4: injection E as <-; reflexivity.
  cbn in Ho. destruct Ho as [K _]. destruct idx as [|i [|j idx]]; cbn [List.length] in E.
  - injection E as <-. reflexivity.
  - cbn in E. unfold element_type_of, type_check in E. cbn [operand_kind]. destruct K as [K|K]; rewrite K in *; injection E as <-; reflexivity.
  - destruct (Z.eqb_spec (Z.of_nat (S (S (List.length idx)))) 1); [lia|]. injection E as <-. reflexivity.
Qed.
Lemma types_text vs : Forall ordinary_value vs -> forall ts, types_of vs = Ok ts -> types_to_string ts = kinds_text vs.
Proof.
  intros Ho ts E. unfold types_to_string, kinds_text. rewrite join_concat. f_equal. unfold types_of in E. apply mapM_ok in E.
  induction E as [|v t vs ts Et _ IH]; [reflexivity|]. inversion Ho; subst. cbn [map]. rewrite IH by assumption.
  rewrite type_text, (operand_kind_type v t) by assumption. reflexivity.
Qed.
Lemma context_nearest l m p : error_context l (mkRawError m p) = mkRawError m (nearest [p; l]).
Proof. destruct p as [p|]; [reflexivity|]. destruct l; reflexivity. Qed.
Lemma nearest_flat p l l' : nearest [nearest [p; l]; l'] = nearest [p; l; l'].
Proof. destruct p, l, l'; reflexivity. Qed.
Lemma error_eta e : mkRawError (message e) (location e) = e.
Proof. now destruct e. Qed.
Lemma mk_error_raw a m : mk_error (String a m) = mkRawError (String a m) None.
Proof. reflexivity. Qed.

(** ** Calls *)

Definition of_types (vs : list value) (ts : list type) : Prop := Forall2 (fun v t => is_const v /\ const_kind v = kind t) vs ts.
Definition never_err {A} (m : outcome error A) : Prop := forall e, m <> Err e.

Lemma of_types_const vs ts : of_types vs ts -> Forall is_const vs.
Proof. induction 1 as [|v t vs ts [H _] _ IH]; constructor; auto. Qed.

(** The functions do not fail on arguments of the declared types. *)
Lemma default_succeed lm : Forall (fun r => forall vs, of_types vs (snd r) -> never_err (snd (fst r) vs)) (function_history lm).
Proof.
  assert (I1 : forall F t, kind t = TInt -> (forall a, never_err (F a)) -> forall vs, of_types vs [t] -> never_err (unary_i F vs)).
  { intros F t K H vs O. unfold unary_i. rewrite (check_const_ok vs (of_types_const _ _ O)). inversion O as [|v ? ? ? [C Kv] O1]; subst. inversion O1; subst.
    rewrite K in Kv. destruct v; try discriminate Kv; try contradiction. cbn. apply H. }
  assert (F1 : forall F t, kind t = TFloat -> (forall a, never_err (F a)) -> forall vs, of_types vs [t] -> never_err (unary_f F vs)).
  { intros F t K H vs O. unfold unary_f. rewrite (check_const_ok vs (of_types_const _ _ O)). inversion O as [|v ? ? ? [C Kv] O1]; subst. inversion O1; subst.
    rewrite K in Kv. destruct v; try discriminate Kv; try contradiction. cbn. apply H. }
  assert (B1 : forall F t, kind t = TBool -> (forall a, never_err (F a)) -> forall vs, of_types vs [t] -> never_err (unary_b F vs)).
  { intros F t K H vs O. unfold unary_b. rewrite (check_const_ok vs (of_types_const _ _ O)). inversion O as [|v ? ? ? [C Kv] O1]; subst. inversion O1; subst.
    rewrite K in Kv. destruct v; try discriminate Kv; try contradiction. cbn. apply H. }
  assert (I2 : forall F t u, kind t = TInt -> kind u = TInt -> (forall a b, never_err (F a b)) -> forall vs, of_types vs [t; u] -> never_err (binary_i F vs)).
  { intros F t u K K' H vs O. unfold binary_i. rewrite (check_const_ok vs (of_types_const _ _ O)). inversion O as [|v ? ? ? [C Kv] O1]; subst.
    inversion O1 as [|v' ? ? ? [C' Kv'] O2]; subst. inversion O2; subst. rewrite K in Kv. rewrite K' in Kv'.
    destruct v; try discriminate Kv; try contradiction. destruct v'; try discriminate Kv'; try contradiction. cbn. apply H. }
  assert (F2 : forall F t u, kind t = TFloat -> kind u = TFloat -> (forall a b, never_err (F a b)) -> forall vs, of_types vs [t; u] -> never_err (binary_f F vs)).
  { intros F t u K K' H vs O. unfold binary_f. rewrite (check_const_ok vs (of_types_const _ _ O)). inversion O as [|v ? ? ? [C Kv] O1]; subst.
    inversion O1 as [|v' ? ? ? [C' Kv'] O2]; subst. inversion O2; subst. rewrite K in Kv. rewrite K' in Kv'.
    destruct v; try discriminate Kv; try contradiction. destruct v'; try discriminate Kv'; try contradiction. cbn. apply H. }
  assert (B2 : forall F t u, kind t = TBool -> kind u = TBool -> (forall a b, never_err (F a b)) -> forall vs, of_types vs [t; u] -> never_err (binary_b F vs)).
  { intros F t u K K' H vs O. unfold binary_b. rewrite (check_const_ok vs (of_types_const _ _ O)). inversion O as [|v ? ? ? [C Kv] O1]; subst.
    inversion O1 as [|v' ? ? ? [C' Kv'] O2]; subst. inversion O2; subst. rewrite K in Kv. rewrite K' in Kv'.
    destruct v; try discriminate Kv; try contradiction. destruct v'; try discriminate Kv'; try contradiction. cbn. apply H. }
  assert (T1 : forall s t u, kind s = TBool -> kind t = TInt -> kind u = TInt -> forall vs, of_types vs [s; t; u] -> never_err (cond_i vs)).
  { intros s t u K K' K'' vs O. unfold cond_i. rewrite (check_const_ok vs (of_types_const _ _ O)). inversion O as [|v ? ? ? [C Kv] O1]; subst.
    inversion O1 as [|v' ? ? ? [C' Kv'] O2]; subst. inversion O2 as [|v'' ? ? ? [C'' Kv''] O3]; subst. inversion O3; subst. rewrite K in Kv. rewrite K' in Kv'. rewrite K'' in Kv''.
    destruct v; try discriminate Kv; try contradiction. destruct v'; try discriminate Kv'; try contradiction. destruct v''; try discriminate Kv''; try contradiction. cbn. discriminate. }
  assert (T2 : forall s t u, kind s = TBool -> kind t = TFloat -> kind u = TFloat -> forall vs, of_types vs [s; t; u] -> never_err (cond_f vs)).
  { intros s t u K K' K'' vs O. unfold cond_f. rewrite (check_const_ok vs (of_types_const _ _ O)). inversion O as [|v ? ? ? [C Kv] O1]; subst.
    inversion O1 as [|v' ? ? ? [C' Kv'] O2]; subst. inversion O2 as [|v'' ? ? ? [C'' Kv''] O3]; subst. inversion O3; subst. rewrite K in Kv. rewrite K' in Kv'. rewrite K'' in Kv''.
    destruct v; try discriminate Kv; try contradiction. destruct v'; try discriminate Kv'; try contradiction. destruct v''; try discriminate Kv''; try contradiction. cbn. discriminate. }
  assert (T3 : forall s t u, kind s = TBool -> kind t = TBool -> kind u = TBool -> forall vs, of_types vs [s; t; u] -> never_err (cond_b vs)).
  { intros s t u K K' K'' vs O. unfold cond_b. rewrite (check_const_ok vs (of_types_const _ _ O)). inversion O as [|v ? ? ? [C Kv] O1]; subst.
    inversion O1 as [|v' ? ? ? [C' Kv'] O2]; subst. inversion O2 as [|v'' ? ? ? [C'' Kv''] O3]; subst. inversion O3; subst. rewrite K in Kv. rewrite K' in Kv'. rewrite K'' in Kv''.
    destruct v; try discriminate Kv; try contradiction. destruct v'; try discriminate Kv'; try contradiction. destruct v''; try discriminate Kv''; try contradiction. cbn. discriminate. }
  unfold function_history, default_functions. cbn [map fst snd].
  repeat (constructor; [cbv [fst snd spec_types types_of_spec mapM list_ascii_of_string type_of_char Ascii.eqb Bool.eqb bind];
    first [apply T1|apply T2|apply T3|apply I1|apply F1|apply B1|apply I2|apply F2|apply B2]; try reflexivity; try (unfold never_err; intros; discriminate)|]); [..|constructor].
  all: intros a; intros; unfold op_neg_i, op_add_ii, op_sub_ii, op_mul_ii, op_div_ii, op_mod_ii, op_binv_i, op_band_ii, op_bxor_ii, op_bor_ii, op_shl_ii, op_shr_ii, fn_abs_i, int_result, ret_int64;
    repeat match goal with |- context [if ?c then _ else _] => destruct c end; unfold never_err, bind; intros; discriminate.
Qed.

Lemma known_names n : In n function_names <-> known_function n.
Proof.
  split.
  - assert (F : forallb (fun n => existsb (fun ks => match result_kind n ks with Some _ => true | None => false end)
        [[TBool]; [TFloat]; [TInt]; [TBool; TBool]; [TInt; TInt]; [TFloat; TFloat]; [TBool; TInt; TInt]]) function_names = true) by (vm_compute; reflexivity).
    intros H. rewrite forallb_forall in F. specialize (F n H). apply existsb_exists in F. destruct F as (ks & _ & E).
    destruct (result_kind n ks) as [k|] eqn:R; [|discriminate]. exists ks, k. exact R.
  - intros (ks & k & E). destruct (in_dec string_dec n function_names) as [H|H]; [exact H|]. rewrite (unknown_kind n ks H) in E. discriminate.
Qed.
Lemma names_history lm n : In n function_names -> In n (map (fun r : registration core_function => fst (fst r)) (function_history lm)).
Proof.
  assert (F : forallb (fun n => existsb (String.eqb n) (map (fun r : registration core_function => fst (fst r)) (function_history lm))) function_names = true)
    by reflexivity.
  intros H. rewrite forallb_forall in F. apply F in H. apply existsb_exists in H. destruct H as (x & Hx & E). apply String.eqb_eq in E. now subst x.
Qed.
Lemma overloads_named {T} n (h : list (registration T)) : In n (map (fun r => fst (fst r)) h) -> overloads_of n h <> [].
Proof.
  intros I E. apply in_map_iff in I. destruct I as (r & <- & I). unfold overloads_of in E. apply map_eq_nil in E.
  assert (X : In r (filter (fun r0 => fst (fst r0) =? fst (fst r)) h)) by (apply filter_In; split; [exact I|apply String.eqb_refl]).
  rewrite E in X. exact X.
Qed.
Lemma known_overloads lm n : known_function n <-> overloads_of n (function_history lm) <> [].
Proof.
  rewrite <- known_names. split.
  - intros H. now apply overloads_named, names_history.
  - intros H. destruct (overloads_names lm n) as [I|E]; [exact I|destruct (H E)].
Qed.

Lemma promotes_of_types args params args' : promotes_all args params args' -> Forall is_const args -> of_types args' params.
Proof.
  unfold of_types. intros (L1 & L2 & H) C. revert args args' L1 L2 H C. induction params as [|t params IH]; intros [|a args] [|a' args'] L1 L2 H C; try discriminate; constructor.
  - inversion C; subst. pose proof (H 0%nat a t a' eq_refl eq_refl eq_refl) as P. rewrite promote_const_value in P by assumption.
    destruct a as [b|z|f|x|x i]; try contradiction; destruct (kind t); try discriminate P; injection P as <-; split; reflexivity || exact I.
  - inversion C; subst. apply (IH args args'); [now injection L1|now injection L2| |assumption]. intros i. exact (H (S i)).
Qed.
Lemma promotes_numeric_const args params args' : promotes_all args params args' -> Forall ordinary_value args ->
  Forall (fun t => numeric (kind t) = true) params -> Forall is_const args.
Proof.
  intros (L1 & L2 & H) O N. revert args args' L1 L2 H O. induction N as [|t params Nt N IH]; intros [|a args] [|a' args'] L1 L2 H O; try discriminate; constructor.
  - inversion O as [|? ? Oa O']; subst. pose proof (H 0%nat a t a' eq_refl eq_refl eq_refl) as P. destruct a as [b|z|f|x|x i]; try exact I; exfalso.
    + cbn in Oa. unfold declared in Oa. assert (Q : quantum_or_bit (kind (var_type x))) by (destruct (kind (var_type x)); cbn; tauto).
      apply (promote_ref (VVar x) (var_type x) t a' (fun y => y) Q eq_refl) in P. destruct P as [K _]. rewrite K in Nt. destruct (kind (var_type x)); contradiction || discriminate.
    + destruct (ordinary_typed _ Oa) as [tv Et]. pose proof (operand_kind_type _ _ Oa Et) as K.
      assert (Q : quantum_or_bit (kind tv)).
      { rewrite K. cbn [operand_kind const_kind]. destruct Oa as [Kx _]. destruct i as [|? [|? ?]]; destruct Kx as [->| ->]; exact I. }
      apply (promote_ref (VIndex x i) tv t a' (fun y => y) Q Et) in P. destruct P as [E _]. rewrite E in Nt. destruct (kind tv); contradiction || discriminate.
  - inversion O; subst. apply (IH args args'); [now injection L1|now injection L2| |assumption]. intros i. exact (H (S i)).
Qed.

Definition call_text (n : string) (vs : list value) : string :=
  "failed to resolve overload for '" ++ n ++ "' with argument pack (" ++ kinds_text vs ++ ")".

Lemma resolve_err {T} (h : list (registration T)) n vs e : Forall ordinary_value vs -> resolve (register_all h) n vs = Err e ->
  (overloads_of n h = [] /\ e = mkRawError ("failed to resolve '" ++ n ++ "'") None) \/
  (overloads_of n h <> [] /\ e = mkRawError (call_text n vs) None).
Proof.
  intros O. unfold resolve. rewrite register_all_find. destruct (overloads_of n h) as [|o os] eqn:Eo.
  - intros [= <-]. left. split; reflexivity.
  - unfold resolve_overload. pose proof (ordinary_typed_list _ O) as Ty.
    destruct (resolve_loop_spec vs (rev (o :: os)) Ty) as [(l1 & o' & l2 & args' & _ & _ & _ & R)|(_ & R)]; rewrite R; cbn [bind]; [discriminate|].
    destruct (types_of_typed vs Ty) as [ts Et]. rewrite Et. cbn [bind]. intros [= <-]. right. split; [discriminate|].
    rewrite (types_text vs O ts Et). reflexivity.
Qed.

Lemma call_err lm n vs e : Forall ordinary_value vs -> call lm n vs = Err e ->
  (~ known_function n /\ e = mkRawError ("failed to resolve '" ++ n ++ "'") None) \/
  (known_function n /\ ~ applies n vs /\ e = mkRawError (call_text n vs) None).
Proof.
  intros O E. assert (NA : ~ applies n vs).
  { intros (C & k & R). pose proof (call_kind lm n vs C) as K. rewrite R, E in K. destruct K as [(w & X & _)|(_ & u & X)]; discriminate. }
  rewrite call_resolve in E. destruct (resolve (register_all (function_history lm)) n vs) as [[f vs']|e'| |] eqn:R; cbn [bind fst snd] in E; try discriminate.
  - exfalso. apply resolve_ok_iff in R; [|now apply ordinary_typed_list]. destruct R as (h1 & ps & h2 & Eh & P & _).
    pose proof (default_succeed lm) as S. rewrite Eh in S. apply Forall_app in S. destruct S as [_ S]. inversion S as [|? ? S0 _]; subst. cbn [fst snd] in S0.
    pose proof (default_params lm) as N. rewrite Eh in N. apply Forall_app in N. destruct N as [_ N]. inversion N as [|? ? N0 _]; subst. cbn [snd] in N0.
    exact (S0 vs' (promotes_of_types _ _ _ P (promotes_numeric_const _ _ _ P O N0)) e E).
  - injection E as <-. destruct (resolve_err _ n vs e' O R) as [[H ->]|[H ->]].
    + left. split; [|reflexivity]. intros X. apply (known_overloads lm) in X. exact (X H).
    + right. split; [now apply (known_overloads lm)|]. auto.
Qed.
Lemma call_unknown lm n vs : ~ known_function n -> call lm n vs = Err (mkRawError ("failed to resolve '" ++ n ++ "'") None).
Proof.
  intros H. unfold call. destruct (overloads_names lm n) as [I|E]; [exact (False_ind _ (H (proj1 (known_names n) I)))|]. rewrite E. reflexivity.
Qed.
Lemma call_not_applies lm n vs : Forall ordinary_value vs -> known_function n -> ~ applies n vs -> call lm n vs = Err (mkRawError (call_text n vs) None).
Proof.
  intros O H N. assert (X : exists e, call lm n vs = Err e).
  { destruct (Forall_dec is_const const_dec vs) as [C|C].
    - pose proof (call_kind lm n vs C) as K. destruct (result_kind n (map const_kind vs)) as [k|] eqn:R; [|exact K].
      destruct N. split; [exact C|]. exists k. exact R.
    - apply call_nonconst; [now apply ordinary_typed_list|exact C]. }
  destruct X as [e E]. destruct (call_err lm n vs e O E) as [[H' _]|(_ & _ & ->)]; [destruct (H' H)|exact E].
Qed.
