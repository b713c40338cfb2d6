(** The value of every constant expression. *)
From Coq Require Import Reals SpecFloat ZArith Lia.
From Verif Require Import Base ModelUtils ModelError ModelTypes ModelOverload ModelFunctions ModelAst ModelAnalyzer ModelSemantic
  SpecTypes SpecFunctions SpecInstructions SpecAnalyzer SpecMachine ProofsTypes ProofsFunctions ProofsFolding ProofsFolding2 ProofsIeee ProofsExpr
  ProofsAnalyzer ProofsAnalyzer2 ProofsAnalyzer7 ProofsConstants ProofsRename2 ProofsMachine SpecEvaluate ProofsEvaluate ProofsEvaluate2.
Local Open Scope string_scope.

Definition returns_doubles (lm : libm) : Prop :=
  (forall name g f, In (name, g) (library lm) -> valid_double f -> valid_double (g f)) /\
  (forall f g, valid_double f -> valid_double g -> valid_double (lm_pow lm f g)).
Lemma machine_returns lm : machine_libm lm -> returns_doubles lm.
Proof.
  intros [P F]. split; [|exact P]. intros name g f I. rewrite Forall_forall in F. intros V. apply F; [|exact V].
  apply (in_map snd) in I. exact I.
Qed.
(** The literals are 64-bit numbers, as the parser makes them. *)
Fixpoint fitting (e : expr) : Prop :=
  match e with
  | EInt _ z => fits z
  | EFloat _ f => valid_double f
  | EUnary _ _ e1 => fitting e1
  | EBinary _ _ e1 e2 => fitting e1 /\ fitting e2
  | ETernary _ c e1 e2 => fitting c /\ fitting e1 /\ fitting e2
  | ECall _ _ (Some es) => fold_right (fun e P => fitting e /\ P) True es
  | _ => True
  end.

Lemma machine_fitting e : machine_literals e -> fitting e.
Proof.
  induction e as [l b|l z|l f|l n|l b idx Hb _|l n|l n es He|l op e He|l op a b Ha Hb|l c a b Hc Ha Hb|l e He|l a b Ha Hb] using expr_ind_full with (Q := fun _ => True);
    try exact I; intros M; cbn [fitting]; auto.
  - apply (proj1 M l). constructor.
  - apply (proj2 M l). constructor.
  - assert (Ms : Forall machine_literals es) by (apply Forall_forall; intros a Ia; apply (machine_sub _ _ M); intros b W; now apply (within_arg _ _ _ _ a)).
    clear M. induction He as [|a es Ha _ IH]; cbn [fold_right]; [exact I|]. inversion Ms; subst. auto.
  - apply He. apply (machine_sub _ _ M). intros a W. now apply within_unary.
  - split; [apply Ha|apply Hb]; apply (machine_sub _ _ M); intros x W; [now apply within_left|now apply within_right].
  - split; [apply Hc|split; [apply Ha|apply Hb]]; apply (machine_sub _ _ M); intros x W; [now apply within_cond|now apply within_then|now apply within_else].
Qed.

Lemma as_double_fits q f : quantity_fits q -> as_double q f -> valid_double f.
Proof. intros Q A. apply as_double_is in A; [|exact Q]. subst. now apply to_double_valid. Qed.
Lemma unary_fits op q r : quantity_fits q -> unary op q r -> quantity_fits r.
Proof.
  intros Q H. destruct H as [q z W F|f|q z c W B|b]; cbn [quantity_fits]; auto using opposite_valid.
  apply bitnot_is in B. subst. apply fits_lnot. now apply (whole_fits q).
Qed.
Lemma binary_fits lm op p q r : returns_doubles lm -> quantity_fits p -> quantity_fits q -> binary lm op p q r -> quantity_fits r.
Proof.
  intros L P Q H. destruct H as [op p q a b z A B O|op p q a b z S A B O|p q a b A B|op p q a b z A B O|op p q a b z S A B O|op a b z O]; cbn [quantity_fits]; auto.
  - assert (IO : exists f, int_binop op = Some f) by (inversion O; eexists; reflexivity). destruct IO as [f I].
    destruct (int_binop_spec op f a b I (whole_fits p _ P A) (whole_fits q _ Q B)) as [(z' & O' & F & _)|(N & _)]; [|destruct (N _ O)].
    now rewrite (int_op_functional _ _ _ _ _ O O').
  - destruct (ieee_ops _ _ _ _ O) as [g G]. pose proof (as_double_fits _ _ P A) as V. pose proof (as_double_fits _ _ Q B) as W.
    apply (ieee_is op g) in O; auto. subst. now apply (sf_op_valid op g).
  - apply L; eauto using as_double_fits.
Qed.
Lemma conditional_fits c p q r : quantity_fits p -> quantity_fits q -> conditional c p q r -> quantity_fits r.
Proof.
  intros P Q H. destruct H as [c a b|c p q a b N A B|c p q a b S A B]; cbn [quantity_fits]; auto; destruct c; eauto using whole_fits, as_double_fits.
Qed.
Lemma function_fits lm n qs r : returns_doubles lm -> Forall quantity_fits qs -> function lm n qs r -> quantity_fits r.
Proof.
  intros L F H. destruct H as [q z W X|f|q f r A S|n g q f I A|op q r U|op p q r B|c p q r C]; inversion F as [|? ? P F2]; subst.
  - exact X.
  - cbn [quantity_fits] in *. rewrite magnitude_is. destruct f; exact P.
  - cbn [quantity_fits]. pose proof (as_double_fits _ _ P A) as V. apply sqrt_is in S; [|exact V]. subst. now apply sqrt_valid.
  - cbn [quantity_fits]. apply (proj1 L n g f I). eauto using as_double_fits.
  - eauto using unary_fits.
  - inversion F2; subst. eauto using binary_fits.
  - inversion F2 as [|? ? Q F3]; subst. inversion F3; subst. eauto using conditional_fits.
Qed.

Section Evaluate.
  Variable lm : libm.
  Variable st : analyzer.
  Hypothesis Hlib : returns_doubles lm.
  Hypothesis Hf : has_default_functions lm st.
  Hypothesis Hid : forall l n q, visit st (EIdent l n) = Ok (cv q) <-> constant n q.
  Hypothesis Hidf : forall n q, constant n q -> quantity_fits q.

  Lemma consts_quantities vs : Forall is_const vs -> exists qs, vs = map cv qs.
  Proof.
    induction 1 as [|v vs V _ (qs & ->)]; [now exists []|]. destruct (const_cv v V) as [q ->]. now exists (q :: qs).
  Qed.
  Lemma resolve_is n vs q : resolve_function st n vs = Ok (cv q) -> exists qs, vs = map cv qs /\ call lm n (map cv qs) = Ok (cv q).
  Proof.
    rewrite (resolve_function_call lm st n vs Hf). intros E. destruct (call_ok_const _ _ _ _ E) as [F _].
    destruct (consts_quantities vs F) as [qs ->]. eauto.
  Qed.
  Lemma resolve_at n qs q : call lm n (map cv qs) = Ok (cv q) -> resolve_function st n (map cv qs) = Ok (cv q).
  Proof. now rewrite (resolve_function_call lm st n _ Hf). Qed.

  Definition correct (e : expr) : Prop := fitting e -> (forall q, visit st e = Ok (cv q) <-> evaluates lm e q) /\ forall q, evaluates lm e q -> quantity_fits q.
  Lemma arguments_correct es : Forall correct es -> fold_right (fun e P => fitting e /\ P) True es ->
    forall qs, (mapM (fun a => with_context (expr_loc a) (visit st a)) es = Ok (map cv qs) <-> evaluate_all lm es qs) /\ (evaluate_all lm es qs -> Forall quantity_fits qs).
  Proof.
    induction 1 as [|e es C _ IH]; cbn [fold_right]; intros L qs.
    - split; [|intros H; inversion H; constructor]. cbn [mapM]. split; [intros [= E]; destruct qs; [constructor|discriminate]|]. intros H. inversion H. reflexivity.
    - destruct L as [L1 L2]. destruct (C L1) as [C1 C2]. split; [split|].
      + intros H. apply mapM_ok in H. inversion H as [|? v ? vs E R X Y]; subst. destruct qs as [|q qs]; [discriminate|]. injection Y as -> ->.
        apply with_context_ok_iff in E. constructor; [now apply C1|]. apply (IH L2). now apply mapM_ok.
      + intros H. inversion H as [|? ? q ? E R]; subst. apply mapM_ok. cbn [map]. constructor; [apply with_context_ok_iff; now apply C1|].
        apply mapM_ok. now apply (IH L2).
      + intros H. inversion H as [|? ? q ? E R]; subst. constructor; [now apply C2|]. now apply (IH L2).
  Qed.
  Lemma visit_correct e : correct e.
  Proof.
    induction e as [l b|l z|l f|l n|l b idx Hb _|l n|l n es He|l op e He|l op a b Ha Hb|l c a b Hc Ha Hb|l e He|l a b Ha Hb] using expr_ind_full with (Q := fun _ => True);
      try exact I; intros L; cbn [fitting] in L.
    - split; [|intros q H; inversion H; exact I]. intros q. split; [intros [= E]; destruct q; try discriminate; injection E as <-; constructor|].
      intros H. inversion H. reflexivity.
    - split; [|intros q H; inversion H; exact L]. intros q. split; [intros [= E]; destruct q; try discriminate; injection E as <-; constructor|].
      intros H. inversion H. reflexivity.
    - split; [|intros q H; inversion H; exact L]. intros q. split; [intros [= E]; destruct q; try discriminate; injection E as <-; constructor|].
      intros H. inversion H. reflexivity.
    - split; [|intros q H; inversion H; eauto]. intros q. rewrite Hid. split; [now constructor|]. intros H. inversion H. assumption.
    - split; [|intros q H; inversion H]. intros q. split; [|intros H; inversion H]. intros E. exfalso. cbn [visit] in E.
      apply with_context_ok_iff in E. apply bind_ok_inv in E. destruct E as (v & _ & E). destruct v; try discriminate. destruct (kind (var_type v)); try discriminate;
        apply bind_ok_inv in E; destruct E as (is & _ & E); try discriminate; apply bind_ok_inv in E; destruct E as (? & _ & E); destruct q; discriminate.
    - split; [|intros q H; inversion H]. intros q. split; [|intros H; inversion H]. intros E. exfalso. cbn [visit] in E. apply resolve_is in E.
      destruct E as (qs & N & E). destruct qs; [|discriminate]. revert E. now apply (no_kind lm n []).
    - pose proof (arguments_correct es He L) as A. split.
      + intros q. cbn [visit]. split.
        * intros E. apply bind_ok_inv in E. destruct E as (vs & M & E). apply resolve_is in E. destruct E as (qs & -> & E). apply A in M.
          econstructor; [exact M|]. apply call_is; [now apply (A qs)|exact E].
        * intros H. inversion H as [| | | | | | |? ? ? qs ? E F]; subst. rewrite (proj2 (proj1 (A qs)) E). cbn [bind]. apply resolve_at. apply call_is; [now apply (A qs)|exact F].
      + intros q H. inversion H as [| | | | | | |? ? ? qs ? E F]; subst. eapply function_fits; [exact Hlib| |exact F]. now apply (A qs).
    - destruct (He L) as [C F]. split.
      + intros q. cbn [visit]. split.
        * intros E. apply bind_ok_inv in E. destruct E as (v & V & E). apply with_context_ok_iff in V. apply resolve_is in E. destruct E as ([|p [|? ?]] & X & E); try discriminate.
          injection X as ->. apply C in V. econstructor; [exact V|]. apply (unary_call lm); [now apply F|]. now rewrite <- unary_names.
        * intros H. inversion H as [| | | |? ? ? p ? V U| | |]; subst. rewrite (proj2 (with_context_ok_iff _ _ _) (proj2 (C p) V)). cbn [bind]. apply (resolve_at _ [p]).
          rewrite unary_names. apply unary_call; [now apply F|exact U].
      + intros q H. inversion H as [| | | |? ? ? p ? V U| | |]; subst. eauto using unary_fits.
    - destruct L as [La Lb]. destruct (Ha La) as [Ca Fa], (Hb Lb) as [Cb Fb]. split.
      + intros q. cbn [visit]. split.
        * intros E. apply bind_ok_inv in E. destruct E as (v & V & E). apply bind_ok_inv in E. destruct E as (w & W & E). apply with_context_ok_iff in V, W.
          apply resolve_is in E. destruct E as ([|p [|p' [|? ?]]] & X & E); try discriminate. injection X as -> ->. apply Ca in V. apply Cb in W.
          econstructor; [exact V|exact W|]. apply (binary_call lm); [now apply Fa|now apply Fb|]. now rewrite <- binary_names.
        * intros H. inversion H as [| | | | |? ? ? ? p p' ? V W U| |]; subst. rewrite (proj2 (with_context_ok_iff _ _ _) (proj2 (Ca p) V)). cbn [bind].
          rewrite (proj2 (with_context_ok_iff _ _ _) (proj2 (Cb p') W)). cbn [bind]. apply (resolve_at _ [p; p']).
          rewrite binary_names. apply binary_call; [now apply Fa|now apply Fb|exact U].
      + intros q H. inversion H as [| | | | |? ? ? ? p p' ? V W U| |]; subst. eauto using binary_fits.
    - destruct L as (Lc & La & Lb). destruct (Hc Lc) as [Cc Fc], (Ha La) as [Ca Fa], (Hb Lb) as [Cb Fb]. split.
      + intros q. cbn [visit]. split.
        * intros E. apply bind_ok_inv in E. destruct E as (u & U & E). apply bind_ok_inv in E. destruct E as (v & V & E). apply bind_ok_inv in E. destruct E as (w & W & E).
          apply with_context_ok_iff in U, V, W.
          apply resolve_is in E. destruct E as ([|p0 [|p [|p' [|? ?]]]] & X & E); try discriminate. injection X as -> -> ->. apply Cc in U. apply Ca in V. apply Cb in W.
          econstructor; [exact U|exact V|exact W|]. apply (conditional_call lm); [now apply Fa|now apply Fb|]. exact E.
        * intros H. inversion H as [| | | | | |? ? ? ? p0 p p' ? U V W X|]; subst. rewrite (proj2 (with_context_ok_iff _ _ _) (proj2 (Cc p0) U)). cbn [bind].
          rewrite (proj2 (with_context_ok_iff _ _ _) (proj2 (Ca p) V)). cbn [bind].
          rewrite (proj2 (with_context_ok_iff _ _ _) (proj2 (Cb p') W)). cbn [bind]. apply (resolve_at _ [p0; p; p']).
          apply conditional_call; [now apply Fa|now apply Fb|exact X].
      + intros q H. inversion H as [| | | | | |? ? ? ? p0 p p' ? U V W X|]; subst. eauto using conditional_fits.
  Qed.
End Evaluate.

(** ** Identifiers *)
Definition only_constants (st : analyzer) : Prop :=
  exists g t, scopes st = [g] /\ sc_variables_table g = (default_constants ++ t)%list /\ Forall (fun e : string * value => exists x, snd e = VVar x) t.
Lemma only_constants_extends st st' : only_constants st -> state_extends st st' -> only_constants st'.
Proof.
  intros (g & t & S & T & F) [_ X]. rewrite S in X. destruct (scopes st') as [|g' r] eqn:S'; [destruct X|]. destruct X as [[_ _ (t' & T' & F') _ _] ->].
  exists g', (t ++ t')%list. split; [exact S'|]. split; [now rewrite T', T, app_assoc|]. apply Forall_app. split; [exact F|].
  eapply Forall_impl; [|exact F']. intros e (x & E & _). eauto.
Qed.
Lemma analyses_only_constants lm st : analyses lm st -> only_constants st.
Proof.
  induction 1 as [st D|st p st' r A IH G H].
  - destruct (default_analyzer_inv _ _ _ D) as (v & _ & _ & ->). exists (default_scope lm), []. split; [reflexivity|]. split; [now rewrite app_nil_r|constructor].
  - apply analyze_ast_inv in H. destruct H as (v & es1 & es2 & s & rest & _ & R & _). eapply only_constants_extends; [exact IH|]. eapply block_extends, R.
Qed.
Lemma table_find_app {A} n (a b : list (string * A)) : table_find n (a ++ b) = match table_find n a with Some x => Some x | None => table_find n b end.
Proof. induction a as [|[m x] a IH]; [reflexivity|]. cbn. destruct (String.eqb m n); [reflexivity|exact IH]. Qed.
Lemma only_constants_find st n q : only_constants st -> (resolve_variable st n = Ok (cv q) <-> table_find n default_constants = Some (cv q)).
Proof.
  intros (g & t & S & T & F). unfold resolve_variable. rewrite S. cbn [resolve_variable_in]. unfold variable_resolve. rewrite T, table_find_app.
  destruct (table_find n default_constants) as [v|]; [split; congruence|]. destruct (table_find n t) as [v|] eqn:E; [|split; discriminate].
  apply table_find_In_snd in E. rewrite Forall_forall in F. destruct (F _ E) as [x X]. cbn [snd] in X. subst. split; [|discriminate]. destruct q; discriminate.
Qed.
Lemma constant_is n q : table_find n default_constants = Some (cv q) <-> constant n q.
Proof.
  split.
  - intros H. apply table_find_In_snd in H.
    repeat (destruct H as [[= <- E]|H]; [destruct q; try discriminate; injection E as <-; constructor; try (split; reflexivity); symmetry; auto using pi_nearest, tau_nearest, eu_nearest|]). destruct H.
  - intros H. destruct H as [| |f F R|f F R|f F R]; try reflexivity;
      [rewrite pi_nearest in R; assert (f = const_pi) as -> |rewrite tau_nearest in R; assert (f = const_tau) as -> |rewrite eu_nearest in R; assert (f = const_eu) as ->]; try reflexivity.
    all: apply double_unique; auto; try (split; reflexivity).
    all: destruct (negative_sign f F) as [_ P]; rewrite P; [reflexivity|]; rewrite R; apply finite_positive.
Qed.
Lemma constant_fits n q : constant n q -> quantity_fits q.
Proof. intros H. destruct H as [| |f F R|f F R|f F R]; cbn; auto; apply F. Qed.

Lemma evaluation lm st lb ss st1 es e : analyses lm st -> visit_block lb st ss = (Ok st1, es) -> machine_libm lm -> machine_literals e ->
  forall q, visit_expression st1 e = Ok (cv q) <-> evaluates lm e q.
Proof.
  intros A B L F q. apply machine_returns in L. apply machine_fitting in F. apply block_run_iff in B. pose proof (block_extends _ _ _ _ B) as X.
  assert (O : ordinary lm st1) by (eapply ordinary_extends; [apply analyses_ordinary, A|exact X]).
  assert (C : only_constants st1) by (eapply only_constants_extends; [eapply analyses_only_constants, A|exact X]).
  unfold visit_expression. rewrite with_context_ok_iff. apply (visit_correct lm st1 L (ord_functions _ _ O)); [|exact constant_fits|exact F].
  intros l n p. cbn [visit]. rewrite only_constants_find by exact C. apply constant_is.
Qed.

Lemma one_value lm e p q : machine_libm lm -> machine_literals e -> evaluates lm e p -> evaluates lm e q -> p = q.
Proof.
  intros L F P Q.
  assert (A : analyses lm (mkAnalyzer [3%Z; 0%Z] [default_scope lm] 0)) by (apply an_default, default_analyzer_value).
  assert (E : forall q, visit_expression _ e = Ok (cv q) <-> evaluates lm e q) by exact (evaluation lm _ None [] _ [] e A eq_refl L F).
  apply E in P, Q. rewrite P in Q. injection Q as Q. now apply cv_inj.
Qed.
Lemma double_results op a b : In op [BAdd; BSub; BMul; BDiv] -> valid_double a -> valid_double b -> exists! c, ieee op a b c.
Proof.
  intros I A B. assert (G : exists g, sf_op op = Some g) by (repeat (destruct I as [<-|I]; [eexists; reflexivity|]); destruct I).
  destruct G as [g G]. exists (g a b). split; [now apply (ieee_is op g)|]. intros c C. apply (ieee_is op g) in C; auto.
Qed.
Lemma sqrt_results a : valid_double a -> exists! c, ieee_sqrt a c.
Proof. intros A. exists (SFsqrt 53 1024 a). split; [now apply sqrt_is|]. intros c C. apply sqrt_is in C; auto. Qed.
