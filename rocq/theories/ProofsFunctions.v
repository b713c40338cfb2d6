(** Lemmas about the default functions and constant folding (C19-C26). *)
From Coq Require Import SpecFloat.
From Verif Require Import Base ModelUtils ModelVersion ModelError ModelTypes ModelOverload ModelFunctions
  ModelInstructionSet ModelAst ModelAnalyzer ModelSemantic SpecTypes SpecFunctions ProofsTypes.
From Coq Require Import ZifyBool.
Local Open Scope string_scope.

(** ** The default analyzer *)

Definition spec_types (s : string) : list type :=
  match types_of_spec s with Ok ts => ts | _ => [] end.
Definition ok_spec (s : string) : bool :=
  match types_of_spec s with Ok _ => true | _ => false end.

Lemma ok_spec_types s : ok_spec s = true -> types_of_spec s = Ok (spec_types s).
Proof. unfold ok_spec, spec_types. now destruct (types_of_spec s). Qed.

Definition set_functions (t : function_table) (s : scope) : scope :=
  mkScope (sc_variables_table s) t (sc_instructions s) (sc_block s) (sc_variables s).
Definition set_instructions (t : instruction_table) (s : scope) : scope :=
  mkScope (sc_variables_table s) (sc_functions s) t (sc_block s) (sc_variables s).
Definition set_variables (t : variable_table) (s : scope) : scope :=
  mkScope t (sc_functions s) (sc_instructions s) (sc_block s) (sc_variables s).

Lemma foldM_functions (l : list (string * string * core_function)) :
  forall v s n, forallb (fun e => ok_spec (snd (fst e))) l = true ->
  foldM (fun st e => register_function_spec st (fst (fst e)) (snd (fst e)) (snd e)) (mkAnalyzer v [s] n) l =
  Ok (mkAnalyzer v [set_functions
    (fold_left (fun t e => add_overload (fst (fst e)) (snd e) (spec_types (snd (fst e))) t) l (sc_functions s)) s] n).
Proof.
  induction l as [|[[name spec] f] l IH]; intros v s n H.
  - destruct s; reflexivity.
  - cbn [forallb fst snd] in H. apply andb_true_iff in H. destruct H as [H1 H2]. cbn [foldM].
    unfold register_function_spec at 1. cbn [fst snd]. rewrite (ok_spec_types _ H1). cbn [bind].
    unfold register_function. cbn [scopes update_last bind]. rewrite IH by exact H2. reflexivity.
Qed.

Lemma foldM_instructions (l : list (string * string)) :
  forall v s n, forallb (fun e => ok_spec (snd e)) l = true ->
  foldM (fun st e => register_instruction_spec st (fst e) (Some (snd e))) (mkAnalyzer v [s] n) l =
  Ok (mkAnalyzer v [set_instructions
    (fold_left (fun t e => add_overload (fst e) (mkInstruction (fst e) (spec_types (snd e))) (spec_types (snd e)) t)
       l (sc_instructions s)) s] n).
Proof.
  induction l as [|[name spec] l IH]; intros v s n H.
  - destruct s; reflexivity.
  - cbn [forallb fst snd] in H. apply andb_true_iff in H. destruct H as [H1 H2]. cbn [foldM].
    unfold register_instruction_spec at 1, make_instruction. cbn [fst snd]. rewrite (ok_spec_types _ H1). cbn [bind].
    unfold register_instruction, update_current. cbn [scopes bind]. rewrite IH by exact H2. reflexivity.
Qed.

(** The histories of registrations of the default analyzer. *)
Definition function_history (lm : libm) : list (registration core_function) :=
  map (fun e => (fst (fst e), snd e, spec_types (snd (fst e)))) (default_functions lm).
Definition instruction_history : list (registration instruction) :=
  map (fun e => (fst e, mkInstruction (fst e) (spec_types (snd e)), spec_types (snd e))) default_instructions.

Definition default_scope (lm : libm) : scope :=
  mkScope default_constants (register_all (function_history lm)) (register_all instruction_history)
    (mkBlock [] None) [].

Lemma fold_left_map {A B C} (f : A -> B -> A) (g : C -> B) l : forall a,
  fold_left f (map g l) a = fold_left (fun x y => f x (g y)) l a.
Proof. induction l as [|c l IH]; intros a; cbn; [reflexivity|]. now rewrite IH. Qed.

Lemma default_analyzer_value lm : default_analyzer lm "3.0" = Ok (mkAnalyzer [3; 0]%Z [default_scope lm] 0).
Proof.
  unfold default_analyzer. replace (version_of_string "3.0") with (Ok [3; 0]%Z : outcome error version) by reflexivity.
  cbn [bind]. replace (new_analyzer [3; 0]%Z) with (Ok (mkAnalyzer [3;0]%Z [empty_scope] 0) : outcome error analyzer) by reflexivity.
  cbn [bind]. replace (register_default_constants (mkAnalyzer [3;0]%Z [empty_scope] 0))
    with (Ok (mkAnalyzer [3;0]%Z [set_variables default_constants empty_scope] 0) : outcome error analyzer) by reflexivity.
  cbn [bind]. unfold register_default_functions. rewrite foldM_functions by reflexivity.
  cbn [bind]. unfold register_default_instructions. rewrite foldM_instructions by reflexivity.
  unfold default_scope, register_all, function_history, instruction_history. rewrite !fold_left_map. reflexivity.
Qed.

Lemma functions_of_default lm st : has_default_functions lm st ->
  exists g, global_scope st = Ok g /\ sc_functions g = register_all (function_history lm).
Proof.
  intros (st0 & g0 & g & H0 & Hg0 & Hg & E). rewrite default_analyzer_value in H0. injection H0 as <-.
  cbn in Hg0. injection Hg0 as <-. exists g. rewrite E. auto.
Qed.
Lemma default_has_default lm st : default_analyzer lm "3.0" = Ok st -> has_default_functions lm st.
Proof.
  intros H. pose proof H as H'. rewrite default_analyzer_value in H. injection H as <-.
  exists (mkAnalyzer [3; 0]%Z [default_scope lm] 0), (default_scope lm), (default_scope lm). auto.
Qed.

(** Calls of a default function. *)
Definition call (lm : libm) (name : string) (args : list value) : outcome error value :=
  match overloads_of name (function_history lm) with
  | [] => Err (mk_error ("failed to resolve '" ++ name ++ "'"))
  | os => let! o := resolve_overload os args in
          match o with
          | Some x => fst x (snd x)
          | None =>
            let! ts := types_of args in
            Err (mk_error ("failed to resolve overload for '" ++ name ++ "' with argument pack (" ++
                           types_to_string ts ++ ")"))
          end
  end.
Lemma resolve_function_call lm st name args : has_default_functions lm st ->
  resolve_function st name args = call lm name args.
Proof.
  intros H. destruct (functions_of_default lm st H) as (g & Hg & E). unfold resolve_function. rewrite Hg. cbn [bind].
  unfold function_resolve, resolve. rewrite E, register_all_find. unfold call.
  destruct (overloads_of name (function_history lm)) as [|o os]; [reflexivity|].
  destruct (resolve_overload (o :: os) args) as [[x|]| | |]; cbn [bind]; try reflexivity.
  destruct (types_of args); reflexivity.
Qed.

(** ** Case analysis on the name *)
Definition function_names : list string := nodup string_dec (map (fun e => fst (fst e)) (default_functions (mkLibm
  (fun a _ => a) id id id id id id id id id id id id id id))).

Lemma overloads_names lm name : In name function_names \/ overloads_of name (function_history lm) = [].
Proof.
  destruct (in_dec string_dec name function_names) as [|N]; [now left|right].
  unfold overloads_of. replace (filter (fun r => fst (fst r) =? name) (function_history lm)) with (@nil (registration core_function)); [reflexivity|].
  symmetry. unfold function_history. apply Bool.not_true_iff_false in N || idtac.
  assert (F : forall (l : list (registration core_function)), ~ In name (map (fun r => fst (fst r)) l) ->
     filter (fun r => fst (fst r) =? name) l = []).
  { induction l as [|r l IH]; [reflexivity|]. cbn. intros H. destruct (String.eqb_spec (fst (fst r)) name); [tauto|].
    apply IH. tauto. }
  apply F. intros H. apply N. unfold function_names. apply nodup_In. exact H.
Qed.

(** ** Types of results *)

Ltac overloads := cbv [call overloads_of function_history default_functions map filter fst snd String.eqb Ascii.eqb
  Bool.eqb spec_types types_of_spec mapM list_ascii_of_string type_of_char bind].
Ltac run_call := cbv [resolve_overload rev List.app app resolve_loop ov_params ov_tag List.length Nat.eqb negb promote_args
  promote type_of type_check kind_eqb kind make_type bind fst snd unary_i unary_f unary_b binary_i binary_f binary_b
  cond_i cond_f cond_b check_const mapM check_const_value ret_b ret_f types_of].
Ltac run_kind := cbv [result_kind map const_kind numeric integral boolean arith both among existsb orb andb
  arithmetic_names comparison_names bitwise_names logical_names math_names
  String.eqb Ascii.eqb Bool.eqb].

Definition int_or_ub (r : outcome error value) : Prop := (exists z, r = Ok (VInt z)) \/ exists u, r = UB u.
Lemma int_result_or_ub z : int_or_ub (int_result z).
Proof. unfold int_or_ub, int_result, ret_int64. destruct (in_int64 z); cbn; eauto. Qed.
Lemma int_ops_or_ub :
  (forall a, int_or_ub (op_neg_i a)) /\ (forall a b, int_or_ub (op_add_ii a b)) /\ (forall a b, int_or_ub (op_sub_ii a b)) /\
  (forall a b, int_or_ub (op_mul_ii a b)) /\ (forall a b, int_or_ub (op_div_ii a b)) /\ (forall a b, int_or_ub (op_mod_ii a b)) /\
  (forall a, int_or_ub (op_binv_i a)) /\ (forall a b, int_or_ub (op_band_ii a b)) /\ (forall a b, int_or_ub (op_bxor_ii a b)) /\
  (forall a b, int_or_ub (op_bor_ii a b)) /\ (forall a b, int_or_ub (op_shl_ii a b)) /\ (forall a b, int_or_ub (op_shr_ii a b)) /\
  (forall a, int_or_ub (fn_abs_i a)).
Proof.
  repeat split; intros; try apply int_result_or_ub; try (left; eexists; reflexivity).
  - unfold op_div_ii. destruct (_ =? _)%Z; [right; eauto|apply int_result_or_ub].
  - unfold op_mod_ii. destruct (_ =? _)%Z; [right; eauto|]. destruct (in_int64 _); [left; eauto|right; eauto].
  - unfold op_shl_ii. destruct (_ || _); [right; eauto|left; eauto].
  - unfold op_shr_ii. destruct (_ || _); [right; eauto|left; eauto].
Qed.
Definition kind_result (k : option type_kind) (r : outcome error value) : Prop :=
  match k with
  | Some k => (exists v, r = Ok v /\ is_const v /\ const_kind v = k) \/ (k = TInt /\ exists u, r = UB u)
  | None => exists e, r = Err e
  end.
Lemma int_or_ub_kind r : int_or_ub r -> kind_result (Some TInt) r.
Proof. intros [[z ->]|[u ->]]; cbn; [left; eexists; repeat split|right; eauto]. Qed.


Lemma among_unknown name l : ~ In name function_names -> forallb (fun n => existsb (String.eqb n) function_names) l = true ->
  among l name = false.
Proof.
  intros H F. unfold among. apply not_true_iff_false. intros E. apply existsb_exists in E. destruct E as (x & Hx & E).
  apply String.eqb_eq in E. subst x. rewrite forallb_forall in F. apply F in Hx. apply existsb_exists in Hx.
  destruct Hx as (x & Hx & E). apply String.eqb_eq in E. subst x. exact (H Hx).
Qed.
Lemma unknown_kind name args : ~ In name function_names -> result_kind name args = None.
Proof.
  intros H. assert (F : forall n, existsb (String.eqb n) function_names = true -> (name =? n) = false).
  { intros n Hn. apply String.eqb_neq. intros ->. apply existsb_exists in Hn. destruct Hn as (x & Hx & E).
    apply String.eqb_eq in E. subst x. exact (H Hx). }
  unfold result_kind. rewrite !among_unknown by (assumption || reflexivity).
  rewrite (F "operator-"), (F "abs"), (F "operator~"), (F "operator!"), (F "operator**"), (F "operator?:") by reflexivity.
  cbn [orb andb]. destruct args as [|? [|? [|? [|]]]]; reflexivity.
Qed.

Lemma typed_const v : is_const v -> typed v.
Proof. intros H. eexists. exact (type_of_const v H). Qed.
Lemma typed_consts l : Forall is_const l -> Forall typed l.
Proof. apply Forall_impl, typed_const. Qed.

Lemma no_arity {T} (os : list (overload T)) args :
  forallb (fun o => negb (Nat.eqb (List.length (ov_params o)) (List.length args))) os = true ->
  resolve_overload os args = Ok None.
Proof.
  intros H. unfold resolve_overload. rewrite forallb_forall in H.
  assert (H' : forall o, In o (rev os) -> negb (Nat.eqb (List.length (ov_params o)) (List.length args)) = true)
    by (intros o Ho; apply H; now apply in_rev).
  induction (rev os) as [|o l IH]; [reflexivity|]. cbn [resolve_loop]. rewrite (H' o) by now left.
  apply IH. intros x Hx. apply H'. now right.
Qed.
Lemma call_no_arity lm name args : Forall is_const args ->
  forallb (fun o => negb (Nat.eqb (List.length (ov_params o)) (List.length args))) (overloads_of name (function_history lm)) = true ->
  kind_result None (call lm name args).
Proof.
  intros Hc H. unfold call. destruct (overloads_of name (function_history lm)) as [|o os]; [eexists; reflexivity|].
  rewrite (no_arity _ _ H). cbn [bind]. destruct (types_of_typed args (typed_consts _ Hc)) as [ts ->]. eexists. reflexivity.
Qed.
Lemma arities lm : forallb (fun r => Nat.leb (List.length (snd r)) 3) (function_history lm) = true.
Proof. reflexivity. Qed.
Lemma overloads_of_In {T} name (h : list (registration T)) o : In o (overloads_of name h) ->
  In (name, ov_tag o, ov_params o) h.
Proof.
  unfold overloads_of. rewrite in_map_iff. intros ([[n t] p] & <- & H). apply filter_In in H. destruct H as [H E].
  cbn in *. apply String.eqb_eq in E. now subst.
Qed.
Lemma call_many lm name a b c d args : Forall is_const (a :: b :: c :: d :: args) ->
  kind_result None (call lm name (a :: b :: c :: d :: args)).
Proof.
  intros Hc. apply call_no_arity; [exact Hc|]. apply forallb_forall. intros o Ho. apply overloads_of_In in Ho.
  generalize (arities lm). rewrite forallb_forall. intros F. apply F in Ho. cbn [snd] in Ho.
  apply Nat.leb_le in Ho. apply negb_true_iff, Nat.eqb_neq. cbn [List.length]. lia.
Qed.
Ltac not_arity lm := run_kind; apply call_no_arity; [assumption|vm_compute; reflexivity].
Ltac finish_call := run_call; run_kind;
    first [apply int_or_ub_kind; solve [auto] | left; eexists; repeat split; fail | eexists; reflexivity].

Lemma call_kind1 lm name a : is_const a -> kind_result (result_kind name (map const_kind [a])) (call lm name [a]).
Proof.
  intros Ha. assert (Hc : Forall is_const [a]) by auto.
  destruct int_ops_or_ub as (I1 & I2 & I3 & I4 & I5 & I6 & I7 & I8 & I9 & I10 & I11 & I12 & I13).
  destruct (in_dec string_dec name function_names) as [Hn|Hn].
  2: { rewrite (unknown_kind _ _ Hn). unfold call. destruct (overloads_names lm name) as [E|E]; [destruct (Hn E)|].
       rewrite E. eexists. reflexivity. }
  vm_compute in Hn.
  repeat (destruct Hn as [<-|Hn]; [first [not_arity lm | overloads; destruct a; cbn in Ha; try contradiction; finish_call]|]).
  destruct Hn.
Qed.
Lemma call_kind2 lm name a b : is_const a -> is_const b ->
  kind_result (result_kind name (map const_kind [a; b])) (call lm name [a; b]).
Proof.
  intros Ha Hb. assert (Hc : Forall is_const [a; b]) by auto.
  destruct int_ops_or_ub as (I1 & I2 & I3 & I4 & I5 & I6 & I7 & I8 & I9 & I10 & I11 & I12 & I13).
  destruct (in_dec string_dec name function_names) as [Hn|Hn].
  2: { rewrite (unknown_kind _ _ Hn). unfold call. destruct (overloads_names lm name) as [E|E]; [destruct (Hn E)|].
       rewrite E. eexists. reflexivity. }
  vm_compute in Hn.
  repeat (destruct Hn as [<-|Hn]; [first [not_arity lm | overloads; destruct a, b; cbn in Ha, Hb; try contradiction; finish_call]|]).
  destruct Hn.
Qed.
Lemma call_kind3 lm name a b c : is_const a -> is_const b -> is_const c ->
  kind_result (result_kind name (map const_kind [a; b; c])) (call lm name [a; b; c]).
Proof.
  intros Ha Hb Hc'. assert (Hc : Forall is_const [a; b; c]) by auto.
  destruct (in_dec string_dec name function_names) as [Hn|Hn].
  2: { rewrite (unknown_kind _ _ Hn). unfold call. destruct (overloads_names lm name) as [E|E]; [destruct (Hn E)|].
       rewrite E. eexists. reflexivity. }
  vm_compute in Hn.
  repeat (destruct Hn as [<-|Hn]; [first [not_arity lm | overloads; destruct a, b, c; cbn in Ha, Hb, Hc'; try contradiction; finish_call]|]).
  destruct Hn.
Qed.
Lemma call_kind lm name args : Forall is_const args -> kind_result (result_kind name (map const_kind args)) (call lm name args).
Proof.
  intros Hc. destruct args as [|a [|b [|c [|d args]]]].
  - apply call_no_arity; [exact Hc|]. apply forallb_forall. intros o Ho. apply overloads_of_In in Ho.
    assert (F : forallb (fun r => negb (Nat.eqb (List.length (snd r)) 0)) (function_history lm) = true) by reflexivity.
    rewrite forallb_forall in F. apply F in Ho. exact Ho.
  - apply call_kind1. now inversion Hc.
  - inversion Hc as [|? ? H1 H2]; inversion H2; subst. now apply call_kind2.
  - inversion Hc as [|? ? H1 H2]; inversion H2 as [|? ? H3 H4]; inversion H4; subst. now apply call_kind3.
  - exact (call_many lm name a b c d args Hc).
Qed.
