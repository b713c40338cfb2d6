(** Lemmas for C91: expressions. *)
From Coq Require Import Reals SpecFloat ZArith Lia ZifyBool.
From Verif Require Import Base ModelUtils ModelVersion ModelError ModelTypes ModelOverload ModelFunctions ModelInstructionSet ModelAst ModelAnalyzer ModelSemantic
  SpecUtils SpecTypes SpecFunctions SpecInstructions SpecAnalyzer SpecMachine SpecSites SpecDiagnosis
  ProofsTypes ProofsFunctions ProofsFolding ProofsFolding2 ProofsIeee ProofsExpr ProofsInstructions ProofsGates ProofsIndex
  ProofsAnalyzer ProofsAnalyzer2 ProofsAnalyzer3 ProofsAnalyzer7 ProofsConstants ProofsRename2 ProofsMachine ProofsDiagnosis ProofsDiagnosis2 ProofsDiagnosis3
  SpecEvaluate ProofsEvaluate ProofsEvaluate2 ProofsEvaluate3 SpecMeaning ProofsMeaning SpecOutcome.
Local Open Scope string_scope.

Scheme wrong_mind := Minimality for wrong Sort Prop
  with wrong_entry_mind := Minimality for wrong_entry Sort Prop
  with not_index_mind := Minimality for not_index Sort Prop.
Combined Scheme wrongs_ind from wrong_mind, wrong_entry_mind, not_index_mind.

Lemma calls_machine e f args : calls e = Some (f, args) -> machine_literals e -> Forall machine_literals args.
Proof.
  intros C M. destruct e as [l b|l z|l x|l n|l b idx|l n [as_|]|l o a|l o a b|l c a b]; cbn [calls] in C; try discriminate; injection C as <- <-.
  - apply Forall_forall. intros a I. apply (machine_sub _ _ M). intros x W. eapply within_arg; eauto.
  - constructor.
  - constructor; [|constructor]. apply (machine_sub _ _ M). intros x W. now apply within_unary.
  - constructor; [|constructor; [|constructor]]; apply (machine_sub _ _ M); intros x W; [now apply within_left|now apply within_right].
  - constructor; [|constructor; [|constructor; [|constructor]]]; apply (machine_sub _ _ M); intros x W; [now apply within_cond|now apply within_then|now apply within_else].
Qed.

Section State.
  Variables (lm : libm) (vars : list variable) (st : analyzer).
  Hypothesis Hlib : machine_libm lm.
  Hypothesis Hst : sees lm vars st.
  Let Ho : ordinary lm st := re_ordinary _ _ _ Hst.

  Lemma visit_is e v : machine_literals e -> (visit st e = Ok v <-> has_value lm vars e v).
  Proof.
    intros M. destruct (reached_visit lm vars st Hlib Hst e M) as [E _]. split.
    - intros V. destruct v as [b|z|f|x|x zs].
      + apply (constant_expression lm vars e (QBool b)). now apply E.
      + apply (constant_expression lm vars e (QInt z)). now apply E.
      + apply (constant_expression lm vars e (QFloat f)). now apply E.
      + destruct (variable_identifier lm vars st Hst e x V) as (l & -> & I). apply operand_expression. now constructor.
      + destruct (index_shape lm vars st Hst e x zs V) as (l & l' & n & es & ->). apply operand_expression.
        apply (reached_index lm vars st Hlib Hst); [exact M|]. unfold visit_expression. now apply with_context_ok_iff.
    - intros H. destruct H as [e q H|e v H].
      + now apply E.
      + destruct H as [l x I|l l' x es zs I K S F].
        * cbn [visit]. now apply (reached_resolve lm vars st Hst).
        * assert (V : visit_expression st (EIndex l (EIdent l' (var_name x)) es) = Ok (VIndex x zs)) by (apply (reached_index lm vars st Hlib Hst); [exact M|now constructor]).
          unfold visit_expression in V. now apply with_context_ok_iff in V.
  Qed.
  Lemma expression_is e v : machine_literals e -> (visit_expression st e = Ok v <-> has_value lm vars e v).
  Proof. intros M. unfold visit_expression. rewrite with_context_ok_iff. now apply visit_is. Qed.
  Lemma list_is es vs : Forall machine_literals es -> (visit_expression_list st es = Ok vs <-> Forall2 (has_value lm vars) es vs).
  Proof.
    intros M. unfold visit_expression_list. rewrite mapM_ok. revert vs. induction M as [|e es M _ IH]; intros vs.
    - split; intros H; inversion H; constructor.
    - split; intros H; inversion H as [|? v ? vs' E R]; subst; constructor; try (now apply IH); now apply (expression_is e).
  Qed.
  Lemma taken_names n : In n (visible_names st) <-> taken vars n.
  Proof.
    destruct (re_scope _ _ _ Hst) as [g S]. pose proof (re_table _ _ _ Hst) as T. unfold table_here in T. rewrite S in T.
    unfold visible_names, taken. rewrite S. cbn [flat_map]. rewrite app_nil_r, T, map_app, in_app_iff, map_map. reflexivity.
  Qed.
  Lemma entries_are is : Forall machine_entry is -> forall zs, (exists rs, mapM (visit_entry st) is = Ok rs /\ concat rs = zs) <-> expands lm is zs.
  Proof.
    induction 1 as [|i is M _ IH]; intros zs.
    - split; [intros (rs & [= <-] & <-); constructor|]. intros H. inversion H. exists []. auto.
    - cbn [mapM]. split.
      + intros (rs & E & <-). apply bind_ok_inv in E. destruct E as (r & V & E). apply bind_ok_inv in E. destruct E as (rs' & V' & E). injection E as <-.
        apply (visit_entry_ok lm st Ho) in V. assert (X : expands lm is (concat rs')) by (apply IH; eauto). cbn [concat]. destruct i as [l e|l a b]; cbn [machine_entry] in M.
        * destruct V as (z & D & ->). cbn [app]. constructor; [now apply (reached_denotes lm vars st Hlib Hst)|exact X].
        * destruct V as (x & y & Da & Db & L & N & ->). rewrite <- from_to_zseq. constructor; auto; now apply (reached_denotes lm vars st Hlib Hst).
      + intros H. inversion H as [|l e z ? zs' D S|l a b x y ? zs' Da Db L N S]; subst; apply IH in S; destruct S as (rs & E & <-); cbn [machine_entry] in M.
        * assert (V : visit_entry st (IItem l e) = Ok [z]) by (apply (visit_entry_ok lm st Ho); exists z; split; [now apply (reached_denotes lm vars st Hlib Hst)|reflexivity]).
          rewrite V, E. cbn [bind]. eexists. split; reflexivity.
        * assert (V : visit_entry st (IRange l a b) = Ok (from_to x y)).
          { apply (visit_entry_ok lm st Ho). exists x, y. rewrite from_to_zseq. destruct M as [Ma Mb].
            split; [now apply (reached_denotes lm vars st Hlib Hst)|]. split; [now apply (reached_denotes lm vars st Hlib Hst)|]. auto. }
          rewrite V, E. cbn [bind]. eexists. split; reflexivity.
  Qed.

  (** ** What is wrong is reported. *)
  Lemma const_int_is e z : machine_literals e -> (const_int_of (expr_loc e) (visit st e) = Ok z <-> index_means lm e z).
  Proof. intros M. rewrite (const_int_of_denotes lm st Ho). now apply (reached_denotes lm vars st Hlib Hst). Qed.
  Lemma base_machine l b is : machine_literals (EIndex l b is) -> machine_literals b.
  Proof. intros M. apply (machine_sub _ _ M). intros x W. now apply within_base. Qed.

  Lemma wrong_reported : (forall e m p, wrong lm vars e m p -> machine_literals e -> visit st e = Err (mkRawError m p)) /\
    (forall i m p, wrong_entry lm vars i m p -> machine_entry i -> visit_entry st i = Err (mkRawError m p)) /\
    (forall e m p, not_index lm vars e m p -> machine_literals e -> const_int_of (expr_loc e) (visit st e) = Err (mkRawError m p)).
  Proof.
    apply (wrongs_ind lm vars (fun e m p => machine_literals e -> visit st e = Err (mkRawError m p)) (fun i m p => machine_entry i -> visit_entry st i = Err (mkRawError m p))
             (fun e m p => machine_literals e -> const_int_of (expr_loc e) (visit st e) = Err (mkRawError m p))).
    - intros l n N _. apply unknown_names. now rewrite taken_names.
    - intros l b idx m p _ IH M. rewrite visit_index. unfold visit_expression. rewrite IH by (eapply base_machine; eauto). cbn [with_context bind].
      rewrite context_nearest. cbn [bind]. now rewrite context_nearest, nearest_flat.
    - intros l b idx x E R M. apply expression_is in E; [|eapply base_machine; eauto]. rewrite visit_index, E. cbn [bind]. unfold is_register in R.
      destruct (kind (var_type x)) eqn:K; try tauto; rewrite type_text, K; destruct l; reflexivity.
    - intros l b before i after x zs m p E R S _ IH M. pose proof (entries_machine _ _ _ M) as Me. apply Forall_app in Me. destruct Me as [Mb Mi]. inversion Mi as [|? ? Mi1 _]; subst.
      apply expression_is in E; [|eapply base_machine; eauto]. rewrite (index_register st l b _ x E R).
      apply (entries_are before Mb) in S. destruct S as (rs & S & _). destruct (mapM_stops (visit_entry st) before i after rs S) as [F _].
      rewrite (F _ (IH Mi1)). cbn [bind with_context]. now rewrite context_nearest.
    - intros l b idx x before z after E R S F N M. pose proof (entries_machine _ _ _ M) as Me. apply expression_is in E; [|eapply base_machine; eauto].
      rewrite (index_register st l b _ x E R). apply (entries_are idx Me) in S. destruct S as (rs & -> & S). cbn [bind]. rewrite S, (out_of_range_reports x before z after F N).
      cbn [bind with_context]. now rewrite context_nearest, nearest_none.
    - intros e f before a after vs m p C V _ IH M. pose proof (calls_machine e f _ C M) as Ma. apply Forall_app in Ma. destruct Ma as [Mb Ma]. inversion Ma as [|? ? Ma1 _]; subst.
      rewrite (visit_calls st e f _ C). apply list_is in V; [|exact Mb]. unfold visit_expression_list in *. destruct (mapM_stops _ before a after vs V) as [F _].
      rewrite (F (mkRawError m (nearest [p; expr_loc a]))); [reflexivity|]. unfold visit_expression. rewrite IH by exact Ma1. cbn [with_context]. now rewrite context_nearest.
    - intros e f args vs C V N M. apply list_is in V; [|eapply calls_machine; eauto]. rewrite (visit_calls st e f _ C), V. cbn [bind].
      rewrite (resolve_function_call lm st f vs (ord_functions lm st Ho)). now apply call_unknown.
    - intros e f args vs C V K N M. apply list_is in V; [|eapply calls_machine; eauto]. rewrite (visit_calls st e f _ C), V. cbn [bind].
      rewrite (resolve_function_call lm st f vs (ord_functions lm st Ho)). apply call_not_applies; auto. exact (visit_list_ordinary lm st Ho args vs V).
    - intros l e m p _ IH M. rewrite visit_entry_item, IH by exact M. reflexivity.
    - intros l a b m p _ IH [M _]. rewrite visit_entry_range, IH by exact M. reflexivity.
    - intros l a b z m p D _ IH [Ma Mb]. rewrite visit_entry_range. apply (const_int_is a z Ma) in D. rewrite D. cbn [bind]. rewrite IH by exact Mb. reflexivity.
    - intros l a b x y Da Db L [Ma Mb]. rewrite visit_entry_range. apply (const_int_is a x Ma) in Da. apply (const_int_is b y Mb) in Db. rewrite Da. cbn [bind]. rewrite Db. cbn [bind].
      unfold expand_range. destruct (Z.ltb_spec y x); [|lia]. destruct l; reflexivity.
    - intros e m p _ IH M. unfold const_int_of. rewrite IH by exact M. reflexivity.
    - intros e v V N M. apply (visit_is e v M) in V. apply (const_int_reports lm st Ho e v V). intros z D. apply (N z). now apply (reached_denotes lm vars st Hlib Hst).
  Qed.

  (** ** What is reported is wrong. *)
  Lemma const_int_wrong e err : machine_literals e -> (forall err, visit st e = Err err -> wrong lm vars e (message err) (location err)) ->
    const_int_of (expr_loc e) (visit st e) = Err err -> not_index lm vars e (message err) (location err).
  Proof.
    intros M IH E. destruct (const_int_err lm st Ho e err E) as [X|(v & V & N & ->)].
    - apply not_index_value. auto.
    - apply (not_index_type lm vars e v); [now apply visit_is|]. intros z H. apply (N z). now apply (reached_denotes lm vars st Hlib Hst).
  Qed.
  Lemma expression_wrong e err : (forall err, visit st e = Err err -> wrong lm vars e (message err) (location err)) -> visit_expression st e = Err err ->
    exists p, wrong lm vars e (message err) p /\ location err = nearest [p; expr_loc e].
  Proof. intros IH E. apply context_err in E. destruct E as (e' & E & -> & ->). exists (location e'). auto. Qed.
  Lemma calls_wrong e f args err : calls e = Some (f, args) -> machine_literals e ->
    Forall (fun a => machine_literals a -> forall err, visit st a = Err err -> wrong lm vars a (message err) (location err)) args ->
    visit st e = Err err -> wrong lm vars e (message err) (location err).
  Proof.
    intros C M IH E. pose proof (calls_machine e f args C M) as Ma. rewrite (visit_calls st e f args C) in E.
    destruct (visit_expression_list st args) as [vs|err'|w|k] eqn:El; cbn [bind] in E; try discriminate E.
    - pose proof (visit_list_ordinary lm st Ho args vs El) as O. apply list_is in El; [|exact Ma].
      destruct (function_err lm st Ho f vs err O E) as [[N ->]|(K & N & ->)]; cbn [message location].
      + eapply wrong_function; eauto.
      + eapply wrong_types; eauto.
    - injection E as ->. apply mapM_err in El. destruct El as (before & a & after & bs & -> & Eb & Ea). rewrite Forall_forall in IH.
      assert (Mx : machine_literals a) by (rewrite Forall_forall in Ma; apply Ma, in_elt).
      destruct (expression_wrong a err (IH a ltac:(apply in_elt) Mx) Ea) as (p & P & ->). eapply wrong_argument; eauto.
      apply list_is; [|exact Eb]. apply Forall_app in Ma. apply Ma.
  Qed.
  Lemma visit_wrong e : machine_literals e -> forall err, visit st e = Err err -> wrong lm vars e (message err) (location err).
  Proof.
    apply (expr_ind_full (fun e => machine_literals e -> forall err, visit st e = Err err -> wrong lm vars e (message err) (location err))
                         (fun i => machine_entry i -> forall err, visit_entry st i = Err err -> wrong_entry lm vars i (message err) (location err))); clear e.
    - discriminate.
    - discriminate.
    - discriminate.
    - intros l n _ err E. destruct (names_unknown st n err E) as [N ->]. apply wrong_name. now rewrite <- taken_names.
    - intros l b idx IHb IHi M err E. rewrite visit_index in E. apply context_err in E. destruct E as (e' & E & -> & ->).
      pose proof (base_machine _ _ _ M) as Mb. pose proof (entries_machine _ _ _ M) as Mi.
      destruct (visit_expression st b) as [v|eb|w|k] eqn:Eb; cbn [bind] in E; try discriminate E.
      + destruct v as [| | |x|]; try discriminate E. apply expression_is in Eb; [|exact Mb].
        assert (D : is_register x \/ ~ is_register x) by (unfold is_register; destruct (kind (var_type x)); intuition discriminate).
        destruct D as [R|R].
        * assert (E' : (let! is := mapM (visit_entry st) idx in let! _ := check_out_of_range (concat is) (tsize (var_type x)) in Ok (VIndex x (concat is))) = Err e')
            by (destruct R as [R|R]; rewrite R in E; exact E). clear E.
          destruct (mapM (visit_entry st) idx) as [is|ei|w|k] eqn:Ei; cbn [bind] in E'; try discriminate E'.
          -- destruct (check_out_of_range (concat is) (tsize (var_type x))) as [u|er|w|k] eqn:Er; cbn [bind] in E'; try discriminate E'. injection E' as ->.
             destruct (out_of_range _ _ _ Er) as (before & z & after & Ec & F & N & ->). cbn [message location].
             rewrite nearest_none. eapply wrong_range; eauto. apply (entries_are idx Mi). eauto.
          -- injection E' as ->. apply mapM_err in Ei. destruct Ei as (before & i & after & bs & -> & Ebs & Ei). rewrite Forall_forall in IHi.
             apply (wrong_in_index lm vars l b before i after x (concat bs)); [exact Eb|exact R| |].
             ++ apply Forall_app in Mi. apply (entries_are before (proj1 Mi)). eauto.
             ++ apply IHi; [apply in_elt| |exact Ei]. rewrite Forall_forall in Mi. apply Mi, in_elt.
        * assert (E' : e' = mk_error ("indexation is not supported for value of type '" ++ type_to_string (var_type x) ++ "'")).
          { unfold is_register in R. destruct (kind (var_type x)); try tauto; injection E as <-; reflexivity. }
          subst e'. cbn [message location mk_error mk_error_at error_context]. rewrite nearest_none. exact (wrong_single lm vars l b idx x Eb R).
      + injection E as ->. destruct (expression_wrong b e' (IHb Mb) Eb) as (p & P & ->). rewrite nearest_flat. now apply wrong_base.
    - intros l n M err. eapply calls_wrong; [reflexivity|exact M|constructor].
    - intros l n args IH M err. eapply calls_wrong; [reflexivity|exact M|exact IH].
    - intros l op e IH M err. eapply calls_wrong; [reflexivity|exact M|]. constructor; [exact IH|constructor].
    - intros l op e1 e2 IH1 IH2 M err. eapply calls_wrong; [reflexivity|exact M|]. constructor; [exact IH1|]. constructor; [exact IH2|constructor].
    - intros l c e1 e2 IHc IH1 IH2 M err. eapply calls_wrong; [reflexivity|exact M|]. constructor; [exact IHc|]. constructor; [exact IH1|]. constructor; [exact IH2|constructor].
    - intros l e IH M err. cbn [machine_entry] in M. rewrite visit_entry_item. intros E.
      destruct (const_int_of (expr_loc e) (visit st e)) as [z|e'|w|k] eqn:Ec; cbn [bind] in E; try discriminate E. injection E as ->.
      apply wrong_item. now apply const_int_wrong; auto.
    - intros l e1 e2 IH1 IH2 [M1 M2] err. rewrite visit_entry_range. intros E.
      destruct (const_int_of (expr_loc e1) (visit st e1)) as [z1|e'|w|k] eqn:Ec; cbn [bind] in E; try discriminate E.
      + apply (const_int_is e1 z1 M1) in Ec.
        destruct (const_int_of (expr_loc e2) (visit st e2)) as [z2|e'|w|k] eqn:Ec2; cbn [bind] in E; try discriminate E.
        * apply (const_int_is e2 z2 M2) in Ec2.
          unfold expand_range in E. destruct (Z.ltb_spec z2 z1); [|destruct (_ =? _)%Z; discriminate E]. injection E as <-.
          replace (location (mk_error_at "last index is lower than first index" l)) with l by (destruct l; reflexivity).
          replace (message (mk_error_at "last index is lower than first index" l)) with "last index is lower than first index" by (destruct l; reflexivity).
          eapply wrong_order; eauto.
        * injection E as ->. eapply wrong_last; [exact Ec|]. apply const_int_wrong; auto.
      + injection E as ->. apply wrong_first. apply const_int_wrong; auto.
  Qed.
  Lemma list_wrong es m p : Forall machine_literals es -> (visit_expression_list st es = Err (mkRawError m p) <-> first_wrong lm vars es m p).
  Proof.
    intros M. split.
    - intros E. apply mapM_err in E. destruct E as (before & a & after & bs & -> & Eb & Ea). apply Forall_app in M. destruct M as [M1 M2]. inversion M2 as [|? ? M3 _]; subst.
      destruct (expression_wrong a _ (visit_wrong a M3) Ea) as (p' & P & Q). cbn [message location] in P, Q. subst p.
      apply (first_wrong_at lm vars before a after bs); [apply list_is; [exact M1|exact Eb]|exact P].
    - intros H. destruct H as [before e after vs m p V W]. apply Forall_app in M. destruct M as [M1 M2]. inversion M2 as [|? ? M3 _]; subst.
      apply list_is in V; [|exact M1]. unfold visit_expression_list in *. destruct (mapM_stops _ before e after vs V) as [F _]. apply F.
      unfold visit_expression. rewrite (proj1 wrong_reported e m p W M3). cbn [with_context]. now rewrite context_nearest.
  Qed.
End State.
