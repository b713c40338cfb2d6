(** Lemmas for C82: what is reported for expressions. *)
From Coq Require Import ZifyBool.
From Verif Require Import Base ModelUtils ModelVersion ModelError ModelTypes ModelOverload ModelFunctions
  ModelInstructionSet ModelAst ModelAnalyzer ModelSemantic SpecUtils SpecTypes SpecFunctions SpecInstructions SpecAnalyzer SpecSites SpecDiagnosis
  ProofsTypes ProofsFunctions ProofsFolding ProofsExpr ProofsInstructions ProofsGates ProofsIndex ProofsAnalyzer ProofsDiagnosis.
Local Open Scope string_scope.

Scheme problem_mind := Minimality for problem Sort Prop
  with entry_problem_mind := Minimality for entry_problem Sort Prop
  with int_problem_mind := Minimality for int_problem Sort Prop.
Combined Scheme problems_ind from problem_mind, entry_problem_mind, int_problem_mind.

Lemma mapM_err {A B} (f : A -> outcome error B) l e : mapM f l = Err e ->
  exists before a after bs, l = (before ++ a :: after)%list /\ mapM f before = Ok bs /\ f a = Err e.
Proof.
  induction l as [|a l IH]; cbn [mapM]; [discriminate|]. destruct (f a) as [b|e'|w|k] eqn:Ef; cbn [bind]; try discriminate.
  - destruct (mapM f l) as [bs|e'|w|k]; cbn [bind]; try discriminate. intros [= ->]. destruct (IH eq_refl) as (before & a' & after & bs & -> & Eb & Ea).
    exists (a :: before), a', after, (b :: bs). split; [reflexivity|]. split; [|exact Ea]. cbn [mapM]. rewrite Ef. cbn [bind]. rewrite Eb. reflexivity.
  - intros [= ->]. exists [], a, l, []. auto.
Qed.
Lemma mapM_stops {A B} (f : A -> outcome error B) before a after bs : mapM f before = Ok bs ->
  (forall e, f a = Err e -> mapM f (before ++ a :: after) = Err e) /\ (forall k, f a = UB k -> mapM f (before ++ a :: after) = UB k).
Proof.
  revert bs. induction before as [|b before IH]; intros bs; cbn [mapM app].
  - intros _. split; intros x ->; reflexivity.
  - destruct (f b) as [c|e'|w|k]; cbn [bind]; try discriminate. destruct (mapM f before) as [bs'|e'|w|k] eqn:Eb; cbn [bind]; try discriminate.
    intros _. destruct (IH bs' eq_refl) as [IH1 IH2]. split; intros x Ex; [rewrite (IH1 x Ex)|rewrite (IH2 x Ex)]; reflexivity.
Qed.

Section Expressions.
  Variables (lm : libm) (st : analyzer).
  Hypothesis Hst : ordinary lm st.

  (** Err with this message and place, or undefined *)
  Definition reports {A} (r : outcome error A) (m : string) (p : loc) : Prop := r = Err (mkRawError m p) \/ exists k, r = UB k.

  Lemma visit_calls e f args : calls e = Some (f, args) ->
    visit st e = let! vs := visit_expression_list st args in resolve_function st f vs.
  Proof.
    destruct e as [l b|l z|l x|l n|l b idx|l n [as_|]|l o a|l o a b|l c a b]; cbn [calls]; try discriminate; intros [= <- <-]; unfold visit_expression_list;
      cbn [visit mapM]; try reflexivity; unfold visit_expression.
    - destruct (with_context (expr_loc a) (visit st a)); reflexivity.
    - destruct (with_context (expr_loc a) (visit st a)); [|reflexivity..]. cbn [bind]. destruct (with_context (expr_loc b) (visit st b)); reflexivity.
    - destruct (with_context (expr_loc c) (visit st c)); [|reflexivity..]. cbn [bind]. destruct (with_context (expr_loc a) (visit st a)); [|reflexivity..].
      cbn [bind]. destruct (with_context (expr_loc b) (visit st b)); reflexivity.
  Qed.
  Lemma function_err n vs e : Forall ordinary_value vs -> resolve_function st n vs = Err e ->
    (~ known_function n /\ e = mkRawError ("failed to resolve '" ++ n ++ "'") None) \/
    (known_function n /\ ~ applies n vs /\ e = mkRawError (call_text n vs) None).
  Proof. rewrite (resolve_function_call lm st n vs (ord_functions lm st Hst)). apply call_err. Qed.

  Lemma names_unknown n e : resolve_variable st n = Err e -> ~ In n (visible_names st) /\ e = mkRawError ("failed to resolve variable '" ++ n ++ "'") None.
  Proof.
    unfold resolve_variable, visible_names. induction (scopes st) as [|s l IH]; cbn [resolve_variable_in flat_map].
    - intros [= <-]. split; [auto|reflexivity].
    - unfold variable_resolve. destruct (table_find n (sc_variables_table s)) as [v|] eqn:E; [discriminate|]. intros H. destruct (IH H) as [N ->].
      split; [|reflexivity]. rewrite in_app_iff. intros [I|I]; [|exact (N I)]. exact (table_find_None _ _ E I).
  Qed.
  Lemma unknown_names n : ~ In n (visible_names st) -> resolve_variable st n = Err (mkRawError ("failed to resolve variable '" ++ n ++ "'") None).
  Proof.
    intros N. destruct (resolve_variable_cases st n) as [[v E]|[e E]]; [exfalso|destruct (names_unknown n e E) as [_ ->]; exact E].
    apply N. unfold visible_names. clear N. unfold resolve_variable in E. induction (scopes st) as [|s l IH]; cbn [resolve_variable_in flat_map] in *; [discriminate|].
    apply in_app_iff. unfold variable_resolve in E. destruct (table_find n (sc_variables_table s)) as [w|] eqn:Et; [|right; now apply IH].
    left. apply table_find_Some_In in Et. exact (in_map fst _ _ Et).
  Qed.

  (** ** Integers *)

  Lemma const_int_err e err : const_int_of (expr_loc e) (visit st e) = Err err ->
    (visit st e = Err err) \/ (exists v, visit st e = Ok v /\ (forall z, ~ denotes_int st e z) /\ err = mkRawError "expected an integer" (expr_loc e)).
  Proof.
    unfold const_int_of. destruct (visit st e) as [v|e'|w|k] eqn:Ev; cbn [bind]; try discriminate; [|intros [= ->]; auto].
    pose proof (proj1 (visit_ordinary lm st Hst e) v Ev) as Ho. intros E. right. exists v. split; [reflexivity|].
    assert (N : forall z, ~ denotes_int st e z).
    { intros z (v' & Ev' & C & H). rewrite Ev in Ev'. injection Ev' as <-. destruct H as [->|[[-> ->]|[-> ->]]]; discriminate E. }
    split; [exact N|]. destruct (ordinary_typed v Ho) as [t Et]. unfold promote in E. rewrite Et in E. cbn [bind] in E.
    destruct (type_check (make_type TInt) t) eqn:Tc.
    - exfalso. apply kind_eqb_eq in Tc. cbn [kind make_type] in Tc. pose proof (operand_kind_type v t Ho Et) as K. rewrite Tc in K.
      destruct v as [b|z|f|x|x idx]; cbn in K; try discriminate K; [discriminate E|..].
      + unfold ordinary_value, nameable in Ho. unfold declared in Ho. rewrite <- K in Ho. destruct Ho.
      + destruct Ho as [Kx _]. destruct idx as [|? [|? ?]]; destruct Kx as [Kx|Kx]; rewrite Kx in K; discriminate.
    - cbn [kind make_type] in E. destruct v as [b|z|f|x|x idx]; cbn in E; try discriminate E.
      + cbn in Et. injection Et as <-. discriminate Tc.
      + injection E as <-. destruct (expr_loc e); reflexivity.
      + cbn in Et. injection Et as <-. cbn in Ho. unfold declared in Ho.
        destruct (kind (var_type x)); try (injection E as <-; reflexivity). destruct Ho.
      + injection E as <-. destruct (expr_loc e); reflexivity.
  Qed.
  Lemma const_int_reports e v : visit st e = Ok v -> (forall z, ~ denotes_int st e z) ->
    const_int_of (expr_loc e) (visit st e) = Err (mkRawError "expected an integer" (expr_loc e)).
  Proof.
    intros Ev N. destruct (const_int_of (expr_loc e) (visit st e)) as [z|err|w|k] eqn:E.
      + apply (const_int_of_denotes lm st Hst) in E. destruct (N z E).
      + destruct (const_int_err e err E) as [X|(v' & _ & _ & ->)]; [congruence|reflexivity].
      + exfalso. unfold const_int_of in E. rewrite Ev in E. cbn [bind] in E. unfold promote in E.
        destruct (ordinary_typed v (proj1 (visit_ordinary lm st Hst e) v Ev)) as [t Et]. rewrite Et in E. cbn [bind] in E.
        destruct (type_check (make_type TInt) t); [destruct v; discriminate|]. destruct v; try discriminate. cbn in E. destruct (kind t); discriminate.
      + exfalso. unfold const_int_of in E. rewrite Ev in E. cbn [bind] in E. unfold promote in E.
        destruct (ordinary_typed v (proj1 (visit_ordinary lm st Hst e) v Ev)) as [t Et]. rewrite Et in E. cbn [bind] in E.
        destruct (type_check (make_type TInt) t); [destruct v; discriminate|]. destruct v; try discriminate. cbn in E. destruct (kind t); discriminate.
  Qed.
  Lemma out_of_range zs x e : check_out_of_range zs (tsize (var_type x)) = Err e ->
    exists before z after, zs = (before ++ z :: after)%list /\ Forall (in_range x) before /\ ~ in_range x z /\
      e = mkRawError ("index " ++ dec_Z z ++ " out of range (size " ++ dec_Z (tsize (var_type x)) ++ ")") None.
  Proof.
    induction zs as [|z zs IH]; cbn [check_out_of_range]; [discriminate|]. unfold in_range.
    destruct ((z <? 0) || (tsize (var_type x) <=? z))%Z eqn:R.
    - intros [= <-]. exists [], z, zs. split; [reflexivity|]. split; [constructor|]. split; [lia|reflexivity].
    - intros E. destruct (IH E) as (b & y & a & -> & F & N & ->). exists (z :: b), y, a. split; [reflexivity|]. split; [constructor; [lia|exact F]|]. auto.
  Qed.
  Lemma out_of_range_reports x before z after : Forall (in_range x) before -> ~ in_range x z ->
    check_out_of_range (before ++ z :: after) (tsize (var_type x)) =
    Err (mkRawError ("index " ++ dec_Z z ++ " out of range (size " ++ dec_Z (tsize (var_type x)) ++ ")") None).
  Proof.
    induction 1 as [|b before Hb _ IH]; intros N; cbn [app check_out_of_range]; unfold in_range in *.
    - destruct ((z <? 0) || (tsize (var_type x) <=? z))%Z eqn:R; [reflexivity|lia].
    - destruct ((b <? 0) || (tsize (var_type x) <=? b))%Z eqn:R; [lia|auto].
  Qed.

  Lemma context_reports {A} l (r : outcome error A) m p : reports r m p -> reports (with_context l r) m (nearest [p; l]).
  Proof. intros [->|[k ->]]; [left; cbn; now rewrite context_nearest|right; now exists k]. Qed.
  Lemma bind_reports {A B} (r : outcome error A) (f : A -> outcome error B) m p : reports r m p -> reports (bind r f) m p.
  Proof. intros [->|[k ->]]; [now left|right; now exists k]. Qed.
  Lemma mapM_reports {A B} (f : A -> outcome error B) before a after bs m p : mapM f before = Ok bs -> reports (f a) m p ->
    reports (mapM f (before ++ a :: after)) m p.
  Proof. intros Eb. destruct (mapM_stops f before a after bs Eb) as [H1 H2]. intros [E|[k E]]; [left; auto|right; exists k; auto]. Qed.

  Lemma context_err {A} l (r : outcome error A) e : with_context l r = Err e -> exists e', r = Err e' /\ message e = message e' /\ location e = nearest [location e'; l].
  Proof.
    destruct r as [a|e'|w|k]; cbn; try discriminate. intros [= <-]. exists e'. split; [reflexivity|]. destruct e' as [m p]. rewrite context_nearest. auto.
  Qed.

  Lemma visit_index l b idx : visit st (EIndex l b idx) = with_context l
    (let! v := visit_expression st b in
     match v with
     | VVar x => match kind (var_type x) with
                 | TQubitArray | TBitArray => let! is := mapM (visit_entry st) idx in
                     let! _ := check_out_of_range (concat is) (tsize (var_type x)) in Ok (VIndex x (concat is))
                 | _ => Err (mk_error ("indexation is not supported for value of type '" ++ type_to_string (var_type x) ++ "'"))
                 end
     | _ => UB NullDereference
     end).
  Proof.
    change (visit st (EIndex l b idx)) with (with_context l
      (let! v := with_context (expr_loc b) (visit st b) in
       match v with
       | VVar x => match kind (var_type x) with
                   | TQubitArray | TBitArray => let! is := mapM (visit_entry st) idx in
                       let! _ := check_out_of_range (concat is) (tsize (var_type x)) in Ok (VIndex x (concat is))
                   | _ => let! t := type_of v in Err (mk_error ("indexation is not supported for value of type '" ++ type_to_string t ++ "'"))
                   end
       | _ => UB NullDereference
       end)). unfold visit_expression. f_equal. destruct (with_context (expr_loc b) (visit st b)) as [v|e|w|k]; [|reflexivity..]. cbn [bind].
    destruct v; reflexivity.
  Qed.
  Lemma index_register l b idx x : visit_expression st b = Ok (VVar x) -> is_register x ->
    visit st (EIndex l b idx) = with_context l (let! is := mapM (visit_entry st) idx in
      let! _ := check_out_of_range (concat is) (tsize (var_type x)) in Ok (VIndex x (concat is))).
  Proof. intros E [K|K]; rewrite visit_index, E; cbn [bind]; rewrite K; reflexivity. Qed.

  Lemma expression_err e err : (forall err, visit st e = Err err -> problem st e (message err) (location err)) -> visit_expression st e = Err err ->
    exists p, problem st e (message err) p /\ location err = nearest [p; expr_loc e].
  Proof. intros IH E. apply context_err in E. destruct E as (e' & E & -> & ->). exists (location e'). auto. Qed.

  Lemma calls_err e f args err : calls e = Some (f, args) -> Forall (fun a => forall err, visit st a = Err err -> problem st a (message err) (location err)) args ->
    visit st e = Err err -> problem st e (message err) (location err).
  Proof.
    intros C IH E. rewrite (visit_calls e f args C) in E. destruct (visit_expression_list st args) as [vs|err'|w|k] eqn:El; cbn [bind] in E; try discriminate E.
    - pose proof (visit_list_ordinary lm st Hst args vs El) as O. destruct (function_err f vs err O E) as [[N ->]|(K & N & ->)]; cbn [message location].
      + eapply pr_unknown; eauto.
      + eapply pr_overload; eauto.
    - injection E as ->. apply mapM_err in El. destruct El as (before & a & after & bs & -> & Eb & Ea). rewrite Forall_forall in IH.
      destruct (expression_err a err (IH a ltac:(apply in_elt)) Ea) as (p & P & ->). eapply pr_argument; eauto.
  Qed.

  (** ** Every reported error is deserved. *)
  Lemma visit_problem e : forall err, visit st e = Err err -> problem st e (message err) (location err).
  Proof.
    apply (expr_ind_full (fun e => forall err, visit st e = Err err -> problem st e (message err) (location err))
                         (fun i => forall err, visit_entry st i = Err err -> entry_problem st i (message err) (location err))); clear e.
    - discriminate.
    - discriminate.
    - discriminate.
    - intros l n err E. destruct (names_unknown n err E) as [N ->]. now apply pr_name.
    - intros l b idx IHb IHi err E. rewrite visit_index in E. apply context_err in E. destruct E as (e' & E & -> & ->).
      destruct (visit_expression st b) as [v|eb|w|k] eqn:Eb; cbn [bind] in E; try discriminate E.
      + destruct v as [| | |x|]; try discriminate E.
        assert (D : is_register x \/ ~ is_register x) by (unfold is_register; destruct (kind (var_type x)); intuition discriminate).
        destruct D as [R|R].
        * assert (E' : (let! is := mapM (visit_entry st) idx in let! _ := check_out_of_range (concat is) (tsize (var_type x)) in Ok (VIndex x (concat is))) = Err e')
            by (destruct R as [R|R]; rewrite R in E; exact E). clear E.
          destruct (mapM (visit_entry st) idx) as [is|ei|w|k] eqn:Ei; cbn [bind] in E'; try discriminate E'.
          -- destruct (check_out_of_range (concat is) (tsize (var_type x))) as [u|er|w|k] eqn:Er; cbn [bind] in E'; try discriminate E'. injection E' as ->.
             destruct (out_of_range _ _ _ Er) as (before & z & after & Ec & F & N & ->). cbn [message location].
             replace (nearest [None; l]) with l by (destruct l; reflexivity). eapply pr_range; eauto. rewrite <- Ec. now apply (selects_sound lm st Hst).
          -- injection E' as ->. apply mapM_err in Ei. destruct Ei as (before & i & after & bs & -> & Ebs & Ei). rewrite Forall_forall in IHi.
             apply (pr_entry st l b before i after x (concat bs)); [exact Eb|exact R|now apply (selects_sound lm st Hst)|]. apply IHi; [apply in_elt|exact Ei].
        * assert (E' : e' = mk_error ("indexation is not supported for value of type '" ++ type_to_string (var_type x) ++ "'")).
          { unfold is_register in R. destruct (kind (var_type x)); try tauto; injection E as <-; reflexivity. }
          subst e'. cbn [message location mk_error mk_error_at error_context].
          replace (nearest [None; l]) with l by (destruct l; reflexivity). exact (pr_single st l b idx x Eb R).
      + injection E as ->. destruct (expression_err b e' IHb Eb) as (p & P & ->). rewrite nearest_flat. now apply pr_base.
    - intros l n err. eapply calls_err; [reflexivity|constructor].
    - intros l n args IH err. eapply calls_err; [reflexivity|exact IH].
    - intros l op e IH err. eapply calls_err; [reflexivity|]. constructor; [exact IH|constructor].
    - intros l op e1 e2 IH1 IH2 err. eapply calls_err; [reflexivity|]. constructor; [exact IH1|]. constructor; [exact IH2|constructor].
    - intros l c e1 e2 IHc IH1 IH2 err. eapply calls_err; [reflexivity|]. constructor; [exact IHc|]. constructor; [exact IH1|]. constructor; [exact IH2|constructor].
    - intros l e IH err. rewrite visit_entry_item. intros E.
      destruct (const_int_of (expr_loc e) (visit st e)) as [z|e'|w|k] eqn:Ec; cbn [bind] in E; try discriminate E. injection E as ->.
      apply ep_item. destruct (const_int_err e err Ec) as [X|(v & Ev & N & ->)]; [apply ip_value; auto|]. eapply ip_type; eauto.
    - intros l e1 e2 IH1 IH2 err. rewrite visit_entry_range. intros E.
      destruct (const_int_of (expr_loc e1) (visit st e1)) as [z1|e'|w|k] eqn:Ec; cbn [bind] in E; try discriminate E.
      + assert (D1 : denotes_int st e1 z1) by now apply (const_int_of_denotes lm st Hst) in Ec.
        destruct (const_int_of (expr_loc e2) (visit st e2)) as [z2|e'|w|k] eqn:Ec2; cbn [bind] in E; try discriminate E.
        * assert (D2 : denotes_int st e2 z2) by now apply (const_int_of_denotes lm st Hst) in Ec2.
          unfold expand_range in E. destruct (Z.ltb_spec z2 z1); [|destruct (_ =? _)%Z; discriminate E]. injection E as <-.
          replace (location (mk_error_at "last index is lower than first index" l)) with l by (destruct l; reflexivity).
          replace (message (mk_error_at "last index is lower than first index" l)) with "last index is lower than first index" by (destruct l; reflexivity).
          eapply ep_order; eauto.
        * injection E as ->. eapply ep_last; [exact D1|]. destruct (const_int_err e2 err Ec2) as [X|(v & Ev & N & ->)]; [apply ip_value; auto|]. eapply ip_type; eauto.
      + injection E as ->. apply ep_first. destruct (const_int_err e1 err Ec) as [X|(v & Ev & N & ->)]; [apply ip_value; auto|]. eapply ip_type; eauto.
  Qed.

  (** ** What is wrong is reported. *)
  Lemma selects_cases idx zs : selects st idx zs -> (exists is, mapM (visit_entry st) idx = Ok is /\ concat is = zs) \/ exists k, mapM (visit_entry st) idx = UB k.
  Proof.
    induction 1 as [|l e z idx zs H _ IH|l e1 e2 a b r idx zs Ha Hb L Lr Nr _ IH].
    - left. exists []. auto.
    - cbn [mapM]. assert (V : visit_entry st (IItem l e) = Ok [z]) by (apply (visit_entry_ok lm st Hst); eauto). rewrite V. cbn [bind].
      destruct IH as [(is & -> & <-)|[k ->]]; [left|right]; eexists; [split; reflexivity|reflexivity].
    - cbn [mapM]. destruct (Z.eq_dec b int64_max) as [->|B].
      + right. exists SignedOverflow. rewrite visit_entry_range. apply (const_int_of_denotes lm st Hst (expr_loc e1)) in Ha. apply (const_int_of_denotes lm st Hst (expr_loc e2)) in Hb.
        rewrite Ha. cbn [bind]. rewrite Hb. cbn [bind]. unfold expand_range. destruct (Z.ltb_spec int64_max a); [lia|]. rewrite Z.eqb_refl. reflexivity.
      + pose proof (zseq_unique a r Nr) as Er. rewrite Lr in Er.
        assert (V : visit_entry st (IRange l e1 e2) = Ok r) by (apply (visit_entry_ok lm st Hst); exists a, b; auto). rewrite V. cbn [bind].
        destruct IH as [(is & -> & <-)|[k ->]]; [left|right]; eexists; [split; reflexivity|reflexivity].
  Qed.

  Lemma problem_reported : (forall e m p, problem st e m p -> reports (visit st e) m p) /\
    (forall i m p, entry_problem st i m p -> reports (visit_entry st i) m p) /\
    (forall e m p, int_problem st e m p -> reports (const_int_of (expr_loc e) (visit st e)) m p).
  Proof.
    apply (problems_ind st (fun e m p => reports (visit st e) m p) (fun i m p => reports (visit_entry st i) m p)
             (fun e m p => reports (const_int_of (expr_loc e) (visit st e)) m p)).
    - intros l n N. left. exact (unknown_names n N).
    - intros l b idx m p _ IH. rewrite visit_index. rewrite <- nearest_flat. now apply context_reports, bind_reports, context_reports.
    - intros l b idx x E R. rewrite visit_index, E. cbn [bind].
      replace l with (nearest [None; l]) at 2 by (destruct l; reflexivity). apply context_reports. left. unfold is_register in R.
      destruct (kind (var_type x)) eqn:K; try tauto; rewrite type_text, K; reflexivity.
    - intros l b before i after x zs m p E R S _ IH. rewrite (index_register l b _ x E R). apply context_reports, bind_reports.
      destruct (selects_cases before zs S) as [(is & Eb & _)|[k Eb]].
      + exact (mapM_reports _ before i after is m p Eb IH).
      + right. exists k. clear -Eb. induction before as [|a before IH]; cbn [mapM app] in *; [discriminate|].
        destruct (visit_entry st a); cbn [bind] in *; try discriminate; [|exact Eb].
        destruct (mapM (visit_entry st) before); cbn [bind] in *; try discriminate. injection Eb as ->. rewrite IH; reflexivity.
    - intros l b idx x before z after E R S F N. rewrite (index_register l b _ x E R).
      replace l with (nearest [None; l]) at 2 by (destruct l; reflexivity). apply context_reports.
      destruct (selects_cases idx _ S) as [(is & -> & Ec)|[k ->]]; [|right; now exists k]. cbn [bind]. rewrite Ec. apply bind_reports. left. now apply out_of_range_reports.
    - intros e f before a after vs m p C Ev _ IH. rewrite (visit_calls e f _ C). apply bind_reports. unfold visit_expression_list.
      eapply mapM_reports; [exact Ev|]. now apply context_reports.
    - intros e f args vs C Ev N. rewrite (visit_calls e f _ C), Ev. cbn [bind]. left.
      rewrite (resolve_function_call lm st f vs (ord_functions lm st Hst)). now apply call_unknown.
    - intros e f args vs C Ev K N. rewrite (visit_calls e f _ C), Ev. cbn [bind]. left.
      rewrite (resolve_function_call lm st f vs (ord_functions lm st Hst)). apply call_not_applies; auto. exact (visit_list_ordinary lm st Hst args vs Ev).
    - intros l e m p _ IH. rewrite visit_entry_item. now apply bind_reports.
    - intros l a b m p _ IH. rewrite visit_entry_range. now apply bind_reports.
    - intros l a b z m p Ha _ IH. rewrite visit_entry_range. apply (const_int_of_denotes lm st Hst (expr_loc a)) in Ha. rewrite Ha. cbn [bind]. now apply bind_reports.
    - intros l a b x y Ha Hb L. rewrite visit_entry_range. apply (const_int_of_denotes lm st Hst (expr_loc a)) in Ha. apply (const_int_of_denotes lm st Hst (expr_loc b)) in Hb.
      rewrite Ha. cbn [bind]. rewrite Hb. cbn [bind]. left. unfold expand_range. destruct (Z.ltb_spec y x); [|lia]. destruct l; reflexivity.
    - intros e m p _ IH. unfold const_int_of. now apply bind_reports.
    - intros e v Ev N. left. exact (const_int_reports e v Ev N).
  Qed.
End Expressions.
