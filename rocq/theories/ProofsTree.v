(** The syntax tree that is built is the one specified (C05, C51, C53, C64). *)
From Coq Require Import ZifyBool ZifyN ZifyNat Sorting.Sorted.
From Verif Require Import Base ModelUtils ModelVersion ModelError ModelTypes ModelAst ModelLexer ModelParser ModelSyntactic SpecUtils SpecLexer SpecParser SpecSyntax SpecTree
  ProofsUtils ProofsLexer ProofsLexer2 ProofsLexer3 ProofsParser ProofsParser2 ProofsParser3 ProofsParser4 ProofsParser5 ProofsSyntax ProofsSyntax2.
Local Open Scope string_scope.

Lemma bind_ok {E A B} (m : outcome E A) (f : A -> outcome E B) b : bind m f = Ok b <-> exists a, m = Ok a /\ f a = Ok b.
Proof. destruct m; cbn; split; intros H; try discriminate; try (destruct H as (? & H & _); discriminate); eauto. destruct H as (? & [= <-] & H). exact H. Qed.
Lemma ok_iff {E A} (a b : A) : @Ok E A a = Ok b <-> b = a.
Proof. split; congruence. Qed.
Lemma both_ok {A B} rtl (a : outcome error A) (b : outcome error B) p : both rtl a b = Ok p <-> a = Ok (fst p) /\ b = Ok (snd p).
Proof.
  unfold both. destruct p as [x y]. cbn [fst snd]. destruct rtl; rewrite bind_ok; split.
  - intros (y' & Hb & H). apply bind_ok in H. destruct H as (x' & Ha & [= <- <-]). auto.
  - intros [Ha Hb]. exists y. split; [exact Hb|]. rewrite Ha. reflexivity.
  - intros (x' & Ha & H). apply bind_ok in H. destruct H as (y' & Hb & [= <- <-]). auto.
  - intros [Ha Hb]. exists x. split; [exact Ha|]. rewrite Hb. reflexivity.
Qed.

(** ** The order of tokens *)
Definition pos_le (p q : N * N) : Prop := (fst p < fst q \/ fst p = fst q /\ snd p <= snd q)%N.
Definition start_of (t : token) : N * N := (tk_line t, tk_col t).
Definition end_of (t : token) : N * N := advance (tk_text t) (tk_line t) (tk_col t).
Definition follows (t u : token) : Prop := pos_le (end_of t) (start_of u).
Lemma pos_le_trans p q r : pos_le p q -> pos_le q r -> pos_le p r.
Proof. unfold pos_le. lia. Qed.
Lemma advance_le s : forall line col, pos_le (line, col) (advance s line col).
Proof.
  induction s as [|c s IH]; intros line col; cbn [advance]; [right; cbn; lia|].
  destruct (Ascii.eqb c newline); [|destruct (is_continuation c)].
  - eapply pos_le_trans; [|apply IH]. left. cbn. lia.
  - apply IH.
  - eapply pos_le_trans; [|apply IH]. right. cbn. lia.
Qed.
Lemma tokens_at_order before ls ts : tokens_at before ls ts -> forall line col, line_of before = line -> column_of before = (col + 1)%N ->
  Forall (fun t => pos_le (line, col) (start_of t)) ts /\ StronglySorted follows ts.
Proof.
  induction 1 as [before|before l ls ts I T IH|before l ls ts line col I E1 E2 T IH]; intros line0 col0 P1 P2.
  - split; constructor.
  - pose proof (advance_spec (lx_text l) before line0 col0 (eq_sym P1) P2) as A. pose proof (advance_le (lx_text l) line0 col0) as L. rewrite A in L.
    destruct (IH _ (column_of (before ++ lx_text l) - 1)%N eq_refl) as [F S]; [unfold column_of; lia|]. split; [|exact S].
    apply Forall_impl with (2 := F). intros t Ht. eapply pos_le_trans; eauto.
  - assert (line0 = line) by congruence. assert (col0 = col) by lia. subst line0 col0.
    pose proof (advance_spec (lx_text l) before line col (eq_sym E1) E2) as A. pose proof (advance_le (lx_text l) line col) as L. rewrite A in L.
    destruct (IH _ (column_of (before ++ lx_text l) - 1)%N eq_refl) as [F S]; [unfold column_of; lia|]. split.
    + constructor; [right; split; [exact H|apply N.le_refl]|]. apply Forall_impl with (2 := F). intros t Ht. rewrite H; eapply pos_le_trans; eauto.
    + constructor; [exact S|]. apply Forall_impl with (2 := F). intros t Ht. unfold follows, end_of. cbn [tk_text tk_line tk_col]. now rewrite A.
Qed.
Lemma advance_ascii s : all_bytes (fun c => letter c \/ digit c) s -> forall line col, advance s line col = (line, (col + N.of_nat (String.length s))%N).
Proof.
  induction s as [|c s IH]; intros A line col; cbn [advance String.length]; [f_equal; lia|]. destruct A as [Ac A].
  assert (N : (48 <= N_of_ascii c <= 122)%N) by (unfold letter, digit, code_between in Ac; destruct Ac as [[H|[H|H]]|H]; subst; cbn; lia).
  destruct (Ascii.eqb_spec c newline) as [->|_]; [cbn in N; lia|]. assert (is_continuation c = false) as -> by (unfold is_continuation, byte_val; lia).
  rewrite IH by exact A. f_equal. lia.
Qed.
Lemma strongly_sorted_app {A} (R : A -> A -> Prop) l1 l2 : StronglySorted R (l1 ++ l2) -> StronglySorted R l1 /\ StronglySorted R l2 /\ forall x y, In x l1 -> In y l2 -> R x y.
Proof.
  induction l1 as [|a l1 IH]; cbn [app]; intros H; [repeat split; auto; [constructor|intros x y []]|].
  inversion H as [|? ? S F]; subst. destruct (IH S) as (S1 & S2 & C). apply Forall_app in F. destruct F as [F1 F2]. split; [now constructor|]. split; [exact S2|].
  intros x y [<-|Hx] Hy; [rewrite Forall_forall in F2; auto|auto].
Qed.

Lemma append_inj_r (a b c : string) : a ++ c = b ++ c -> a = b.
Proof.
  revert b. induction a as [|x a IH]; intros [|y b] H; auto; cbn [String.append] in H.
  - apply (f_equal String.length) in H. cbn [String.length] in H. rewrite length_append in H. lia.
  - apply (f_equal String.length) in H. cbn [String.length] in H. rewrite length_append in H. lia.
  - injection H as -> H. f_equal. auto.
Qed.

Section Tree.
  Variables (file : option string) (rtl : bool) (fm : string -> float -> Prop).
  Hypothesis fm_ok : forall t f, is T_FLOAT_LITERAL t -> good_token t -> (stod (tk_text t) = Some f <-> fm (tk_text t) f).
  Notation means := (expr_means file fm).
  Notation all_mean := (exprs_mean file fm).
  Notation idx_mean := (entries_mean file fm).

  Lemma token_loc_at t : token_loc file t = at_token file t.
  Proof using file.
    clear fm_ok fm. unfold token_loc, at_token, span, mk_location, mk_range. do 2 f_equal.
    - destruct file as [[|]|]; reflexivity.
    - f_equal. unfold index_max, index_ltb. cbn [line column]. match goal with |- context [if ?b then _ else _] => destruct b eqn:E end; [|reflexivity]. exfalso. lia.
  Qed.
  Lemma int_ok t z : is T_INTEGER_LITERAL t -> good_token t -> forall line col, get_int_value file line col (tk_text t) = Ok z <-> int_means (tk_text t) z.
  Proof.
    intros K [m G] line col. unfold is in K. rewrite K in G. apply form_digits in G. unfold get_int_value. rewrite stoll_decimal by exact G.
    destruct (Z.leb_spec (decimal (tk_text t)) max_int) as [L|L]; split; intros H; try discriminate.
    - injection H as <-. now constructor.
    - inversion H; subst. reflexivity.
    - inversion H; subst. lia.
  Qed.
  Lemma float_ok t f : is T_FLOAT_LITERAL t -> good_token t -> forall line col, get_float_value file line col (tk_text t) = Ok f <-> fm (tk_text t) f.
  Proof. intros K G line col. rewrite <- (fm_ok t f K G). unfold get_float_value. destruct (stod (tk_text t)); split; congruence. Qed.
  Lemma form_bool m s : form m T_BOOLEAN_LITERAL s -> s = "true" \/ s = "false".
  Proof.
    destruct m; cbn; intros F.
    - remember T_BOOLEAN_LITERAL as k eqn:K. destruct F; subst; try discriminate K; cbn in H; repeat (destruct H as [H|H]; [try discriminate; injection H as <-; auto|]); destruct H.
    - inversion F.
  Qed.
  Lemma binop_table k op : binop_of_token k = Some op <-> In (k, op) binary_meaning.
  Proof.
    split.
    - destruct k; cbn; intros H; try discriminate; injection H as <-; tauto.
    - cbn. intros H. repeat (destruct H as [[= <- <-]|H]; [reflexivity|]). destruct H.
  Qed.
  Ltac inv H := inversion H; subst; clear H.
  Lemma visit_means :
    (forall c u, expr_tokens c u -> Forall good_token u -> forall e, visit_cexpr file rtl c = Ok e <-> means c e) /\
    (forall cs u, exprs_tokens cs u -> Forall good_token u -> forall es, mapM (visit_cexpr file rtl) cs = Ok es <-> all_mean cs es) /\
    (forall i u, entry_tokens i u -> Forall good_token u -> forall x, visit_centry file rtl i = Ok x <-> idx_mean [i] [x]) /\
    (forall l u, entries_tokens l u -> Forall good_token u -> forall es, mapM (visit_centry file rtl) l = Ok es <-> idx_mean l es).
  Proof.
    apply expr_tokens_mutind.
    - intros o c ts cl Ko T IH Kc G e. inv G. apply Forall_app in H2. destruct H2 as [G _]. cbn [visit_cexpr]. rewrite IH by exact G. split; intros H; [now constructor|now inv H].
    - intros t c ts K T IH G e. inv G. specialize (IH H2). cbn [visit_cexpr]. unfold one_of in K. cbn in K.
      assert (Cases : tk_kind t = T_PLUS \/ exists op, In (tk_kind t, op) unary_meaning).
      { destruct K as [<-|[<-|[<-|[<-|[]]]]]; cbn; eauto 8. }
      destruct Cases as [Kp|[op Ku]].
      + rewrite Kp, IH. split; intros H; [now apply em_plus|]. inv H; [assumption|]. exfalso. rewrite Kp in *. cbn in *. intuition discriminate.
      + assert (V : (match tk_kind t with T_PLUS => visit_cexpr file rtl c | T_MINUS => let! e' := visit_cexpr file rtl c in Ok (EUnary (token_loc file t) UMinus e')
          | T_BITWISE_NOT_OP => let! e' := visit_cexpr file rtl c in Ok (EUnary (token_loc file t) UBitNot e') | T_LOGICAL_NOT_OP => let! e' := visit_cexpr file rtl c in Ok (EUnary (token_loc file t) ULogNot e') | _ => UB AssertFailed end)
          = let! e' := visit_cexpr file rtl c in Ok (EUnary (token_loc file t) op e')).
        { cbn in Ku. destruct Ku as [[= <- <-]|[[= <- <-]|[[= <- <-]|[]]]]; reflexivity. }
        rewrite V, bind_ok, token_loc_at. split.
        * intros (e' & He & H). injection H as <-. apply em_unary; [exact Ku|now apply IH].
        * intros H. inversion H as [|t' c' e' Kp M|t' op' c' e' Ku' M| | | | | | | | |]; subst; [exfalso; unfold is in Kp; rewrite Kp in Ku; cbn in Ku; intuition discriminate|].
          exists e'. split; [now apply IH|]. do 2 f_equal. cbn in Ku, Ku'. intuition congruence.
    - intros t c1 c2 ts1 ts2 K T1 IH1 T2 IH2 G e. apply Forall_app in G. destruct G as [G1 G2]. inv G2. specialize (IH1 G1). specialize (IH2 H2). cbn [visit_cexpr].
      destruct (binop_some t K) as [op Eo]. rewrite Eo, bind_ok, token_loc_at. apply binop_table in Eo. split.
      + intros ([x y] & Hb & H). apply both_ok in Hb. destruct Hb as [Ha Hb]. injection H as <-. apply em_binary; [exact Eo|now apply IH1|now apply IH2].
      + intros H. inv H. exists (e1, e2). split; [apply both_ok; cbn; split; [now apply IH1|now apply IH2]|]. cbn. match goal with X : In (tk_kind t, op0) _ |- _ => apply binop_table in X; apply binop_table in Eo; congruence end.
    - intros t colon c1 c2 c3 ts1 ts2 ts3 Kt Kc T1 IH1 T2 IH2 T3 IH3 G e. apply Forall_app in G. destruct G as [G1 G2]. inv G2. apply Forall_app in H2. destruct H2 as [G3 G4]. inv G4.
      specialize (IH1 G1). specialize (IH2 G3). specialize (IH3 H3). cbn [visit_cexpr]. rewrite bind_ok, token_loc_at. split.
      + intros ([x [y z]] & Hb & H). apply both_ok in Hb. destruct Hb as [Ha Hb]. apply both_ok in Hb. destruct Hb as [Hb Hc]. injection H as <-. cbn in *. apply em_ternary; [now apply IH1|now apply IH2|now apply IH3].
      + intros H. inv H. exists (e1, (e2, e3)). split; [|reflexivity]. apply both_ok. cbn. split; [now apply IH1|]. apply both_ok. cbn. split; [now apply IH2|now apply IH3].
    - intros name o c Kn Ko Kc G e. cbn [visit_cexpr]. rewrite token_loc_at. split; intros H; [injection H as <-; constructor|]. inv H; [reflexivity|congruence].
    - intros name o args ts c Kn Ko T IH Kc G e. inv G. inv H2. apply Forall_app in H4. destruct H4 as [G _]. specialize (IH G). cbn [visit_cexpr].
      assert (Ne : args <> []) by (intros ->; inv T). destruct args as [|a args]; [congruence|]. rewrite bind_ok, token_loc_at. split.
      + intros (es & Hes & H'). injection H' as <-. apply em_call; [discriminate|now apply IH].
      + intros H'. inv H'. exists es. split; [now apply IH|reflexivity].
    - intros name o idx ts c Kn Ko T IH Kc G e. inv G. inv H2. apply Forall_app in H4. destruct H4 as [G _]. specialize (IH G). cbn [visit_cexpr].
      rewrite bind_ok, token_loc_at. split.
      + intros (es & Hes & H'). injection H' as <-. apply em_index. now apply IH.
      + intros H'. inv H'. exists es. split; [now apply IH|reflexivity].
    - intros t K G e. cbn [visit_cexpr]. rewrite token_loc_at. split; intros H; [injection H as <-; constructor|]. now inv H.
    - intros t K G e. cbn [visit_cexpr]. rewrite token_loc_at. inv G. destruct H1 as [m F]. unfold is in K. rewrite K in F. apply form_bool in F. split; intros H.
      + injection H as <-. constructor. destruct F as [-> | ->]; cbn; auto.
      + inv H. do 2 f_equal. cbn in H1. destruct H1 as [[= <- <-]|[[= <- <-]|[]]]; reflexivity.
    - intros t K G e. cbn [visit_cexpr]. rewrite bind_ok, token_loc_at. inv G. split.
      + intros (z & Hz & H). injection H as <-. constructor. now apply (int_ok t z K H1) in Hz.
      + intros H. inv H. exists z. split; [now apply (int_ok t z K)|reflexivity].
    - intros t K G e. cbn [visit_cexpr]. rewrite bind_ok, token_loc_at. inv G. split.
      + intros (z & Hz & H). injection H as <-. constructor. now apply (float_ok t z K H1) in Hz.
      + intros H. inv H. exists f. split; [now apply (float_ok t f K)|reflexivity].
    - intros c ts T IH G es. specialize (IH G). cbn [mapM]. rewrite bind_ok. split.
      + intros (e & He & H). cbn in H. injection H as <-. constructor; [now apply IH|constructor].
      + intros H. inv H. inv H4. exists e. split; [now apply IH|reflexivity].
    - intros c ts comma cs ts' T IH K Ts IHs G es. apply Forall_app in G. destruct G as [G1 G2]. inv G2. specialize (IH G1). specialize (IHs H2). cbn [mapM]. rewrite bind_ok. split.
      + intros (e & He & H). apply bind_ok in H. destruct H as (es' & Hes & H). injection H as <-. constructor; [now apply IH|now apply IHs].
      + intros H. inv H. exists e. split; [now apply IH|]. apply bind_ok. exists es0. split; [now apply IHs|reflexivity].
    - intros c ts T IH G x. specialize (IH G). cbn [visit_centry]. rewrite bind_ok. split.
      + intros (e & He & H). injection H as <-. constructor; [now apply IH|constructor].
      + intros H. inv H. exists e. split; [now apply IH|reflexivity].
    - intros c1 c2 ts1 colon ts2 T1 IH1 K T2 IH2 G x. apply Forall_app in G. destruct G as [G1 G2]. inv G2. specialize (IH1 G1). specialize (IH2 H2). cbn [visit_centry]. rewrite bind_ok. split.
      + intros ([a b] & Hb & H). apply both_ok in Hb. destruct Hb as [Ha Hb]. injection H as <-. constructor; [now apply IH1|now apply IH2|constructor].
      + intros H. inv H. exists (e1, e2). split; [|reflexivity]. apply both_ok. split; [now apply IH1|now apply IH2].
    - intros i ts T IH G es. specialize (IH G). cbn [mapM]. rewrite bind_ok. split.
      + intros (e & He & H). cbn in H. injection H as <-. now apply IH.
      + intros H. assert (exists x, es = [x]) as [x ->] by (inv H; match goal with X : entries_mean _ _ [] _ |- _ => inv X end; eauto). exists x. split; [now apply IH|reflexivity].
    - intros i ts comma cs ts' T IH K Ts IHs G es. apply Forall_app in G. destruct G as [G1 G2]. inv G2. specialize (IH G1). specialize (IHs H2). cbn [mapM]. rewrite bind_ok. split.
      + intros (e & He & H). apply bind_ok in H. destruct H as (es' & Hes & H). injection H as <-. apply IH in He. apply IHs in Hes. inv He; now constructor.
      + intros H. assert (exists x es', es = x :: es' /\ idx_mean [i] [x] /\ idx_mean cs es') as (x & es' & -> & Hx & Hs) by (inv H; eexists; eexists; split; eauto; split; auto; now repeat constructor).
        exists x. split; [now apply IH|]. apply bind_ok. exists es'. split; [now apply IHs|reflexivity].
  Qed.
  Lemma params_means ps u : params_tokens ps u -> Forall good_token u -> forall es, visit_cparams file rtl ps = Ok es <-> params_mean file fm ps es.
  Proof.
    intros T G es. inv T; cbn [visit_cparams].
    - split; intros H; [injection H as <-; constructor|now inv H].
    - inv G. apply Forall_app in H5. destruct H5 as [G _]. unfold visit_cexprs. rewrite (proj1 (proj2 visit_means) _ _ H0 G es). split; intros X; [now constructor|now inv X].
  Qed.
  Lemma visit_gate_loc g g' : visit_cgate file rtl g = Ok g' -> gate_loc g' = at_token file (first_token g).
  Proof. destruct g; cbn [visit_cgate]; intros H; repeat (apply bind_ok in H; destruct H as (? & _ & H)); injection H as <-; apply token_loc_at. Qed.
  Lemma gate_visit_means g u : gate_tokens g u -> Forall good_token u -> forall g', visit_cgate file rtl g = Ok g' <-> gate_means file fm g g'.
  Proof.
    induction 1 as [t dot g ts K1 K2 T IH|t o e ts c dot g ts' K1 K2 Te K3 K4 T IH|t dot g ts K1 K2 T IH|t ps ts K T]; intros G g'; cbn [visit_cgate]; rewrite bind_ok, token_loc_at.
    - inv G. inv H2. split; [intros (i & Hi & H'); injection H' as <-; constructor; now apply IH|]. intros X. inv X. eexists. split; [apply IH; eassumption|reflexivity].
    - inv G. inv H2. apply Forall_app in H4. destruct H4 as [G1 G2]. inv G2. inv H4. split.
      + intros (i & Hi & H'). apply bind_ok in H'. destruct H' as (e' & He & H'). injection H' as <-. constructor; [now apply (proj1 visit_means e ts Te G1)|now apply IH].
      + intros X. inv X. eexists. split; [apply IH; eassumption|]. apply bind_ok. eexists. split; [apply (proj1 visit_means e ts Te G1); eassumption|reflexivity].
    - inv G. inv H2. split; [intros (i & Hi & H'); injection H' as <-; constructor; now apply IH|]. intros X. inv X. eexists. split; [apply IH; eassumption|reflexivity].
    - inv G. split; [intros (es & Hi & H'); injection H' as <-; constructor; now apply (params_means ps ts T H2)|]. intros X. inv X. eexists. split; [apply (params_means ps ts T H2); eassumption|reflexivity].
  Qed.
  Lemma form_type m k s : form m k s -> In k [T_QUBIT_TYPE; T_BIT_TYPE] -> all_bytes (fun c => letter c \/ digit c) s.
  Proof.
    intros F K. destruct m; cbn in F.
    - destruct F as [k s H|k s H| | | | | | | | |]; try (cbn in K; intuition discriminate).
      + cbn in K. cbn in H. repeat (destruct H as [[= <- <-]|H]; [intuition discriminate|]). destruct H.
      + cbn in K. cbn in H. repeat (destruct H as [[= <- <-]|H]; [try (intuition discriminate)|]); try destruct H; cbn; unfold letter, code_between; cbn; repeat split; left; left; lia.
    - destruct F; cbn in K; intuition discriminate.
  Qed.
  Lemma type_name_table t : one_of [T_QUBIT_TYPE; T_BIT_TYPE] t -> forall name, In (tk_kind t, name) type_meaning <-> name = match tk_kind t with T_QUBIT_TYPE => "qubit" | _ => "bit" end.
  Proof. unfold one_of. cbn. intros [<-|[<-|[]]] name; split; intros H; subst; auto; intuition congruence. Qed.
  Lemma expand_span t c : follows t c -> advance (tk_text t) (tk_line t) (tk_col t) = (tk_line t, (tk_col t + N.of_nat (String.length (tk_text t)))%N) ->
    expand_loc (token_loc file t) c = span file t c.
  Proof.
    intros F A. rewrite token_loc_at. unfold follows, end_of in F. rewrite A in F. unfold pos_le, start_of in F. cbn [fst snd] in F.
    unfold at_token, span, expand_loc, expand_to_include. cbn [file_name loc_range first last]. do 2 f_equal. f_equal.
    - unfold index_min, index_ltb. cbn [line column]. match goal with |- context [if ?b then _ else _] => destruct b eqn:E end; [exfalso; lia|reflexivity].
    - unfold index_max, index_ltb. cbn [line column]. match goal with |- context [if ?b then _ else _] => destruct b eqn:E end; [reflexivity|]. f_equal; lia.
  Qed.
  Lemma type_visit_means ty u : type_tokens ty u -> Forall good_token u -> StronglySorted follows u -> forall ty', visit_ctype file ty = Ok ty' <-> type_means file ty ty'.
  Proof.
    intros T G S ty'. inv T; unfold visit_ctype; cbn [ct_keyword ct_size].
    - rewrite token_loc_at. split; intros X; [injection X as <-; constructor; now apply type_name_table|]. inv X. match goal with Y : In (_, _) type_meaning |- _ => apply type_name_table in Y; [|assumption]; now subst end.
    - assert (Gt : good_token t) by (now inv G). destruct Gt as [m F]. apply form_type in F; [|exact H]. apply strongly_sorted_app with (l1 := [t]) in S. destruct S as (_ & _ & Fo).
      specialize (Fo t c (or_introl eq_refl) ltac:(cbn; auto)). rewrite bind_ok. rewrite expand_span by (auto using advance_ascii).
      assert (Gi : good_token i) by (rewrite Forall_forall in G; apply G; cbn; auto). split.
      + intros (z & Hz & X). injection X as <-. apply (int_ok i z H1 Gi) in Hz. constructor; [now apply type_name_table|exact Hz].
      + intros X. inv X. exists z. split; [now apply (int_ok i z H1 Gi)|]. match goal with Y : In (_, _) type_meaning |- _ => apply type_name_table in Y; [|assumption]; now subst end.
  Qed.
  Lemma statement_visit_means s u : statement_tokens s u -> Forall good_token u -> StronglySorted follows u -> forall s', visit_cstatement file rtl s = Ok s' <-> statement_means file fm s s'.
  Proof.
    intros T G S s'. inversion T as [ty ts name Tt Kn|g ts es ts' Tg Te|e1 ts1 eq t ps ts2 e2 ts3 T1 Ke Kt Tp T2|t e ts Kt Te|t e ts Kt Te|t e ts Kt Te|t o p ts c e ts' Kt Ko Tp Kc Te|t o name c code Kt Ko Kn Kc Kcode]; subst; cbn [visit_cstatement].
    - apply Forall_app in G. destruct G as [G1 _]. apply strongly_sorted_app in S. destruct S as [S _]. rewrite bind_ok, token_loc_at. pose proof (type_visit_means ty ts Tt G1 S) as M. split.
      + intros (x & Hx & X). injection X as <-. constructor. now apply M.
      + intros X. inv X. eexists. split; [apply M; eassumption|reflexivity].
    - apply Forall_app in G. destruct G as [G1 G2]. pose proof (gate_visit_means g ts Tg G1) as M1. pose proof (proj1 (proj2 visit_means) es ts' Te G2) as M2. rewrite bind_ok. unfold visit_cexprs. split.
      + intros (x & Hx & X). apply bind_ok in X. destruct X as (y & Hy & X). injection X as <-. rewrite (visit_gate_loc _ _ Hx). constructor; [now apply M1|now apply M2].
      + intros X. inv X. match goal with X1 : gate_means _ _ _ ?x, X2 : exprs_mean _ _ _ ?y |- _ => apply M1 in X1; apply M2 in X2; exists x; split; [exact X1|]; apply bind_ok; exists y; split; [exact X2|]; now rewrite (visit_gate_loc _ _ X1) end.
    - apply Forall_app in G. destruct G as [G1 G2]. inv G2. inv H2. apply Forall_app in H4. destruct H4 as [G4 G5]. rewrite bind_ok, token_loc_at.
      pose proof (params_means ps ts2 Tp G4) as Mp. pose proof (proj1 visit_means e1 ts1 T1 G1) as M1. pose proof (proj1 visit_means e2 ts3 T2 G5) as M2. split.
      + intros (x & Hx & X). apply bind_ok in X. destruct X as (y & Hy & X). apply bind_ok in X. destruct X as (z & Hz & X). injection X as <-. constructor; [now apply M1|now apply Mp|now apply M2].
      + intros X. inv X. eexists. split; [apply Mp; eassumption|]. apply bind_ok. eexists. split; [apply M1; eassumption|]. apply bind_ok. eexists. split; [apply M2; eassumption|]. reflexivity.
    - inv G. pose proof (proj1 visit_means e ts Te H2) as M. rewrite bind_ok, token_loc_at. split.
      + intros (x & Hx & X). injection X as <-. constructor. now apply M.
      + intros X. inv X. eexists. split; [apply M; eassumption|reflexivity].
    - inv G. pose proof (proj1 visit_means e ts Te H2) as M. rewrite bind_ok, token_loc_at. split.
      + intros (x & Hx & X). injection X as <-. constructor. now apply M.
      + intros X. inv X. eexists. split; [apply M; eassumption|reflexivity].
    - inv G. pose proof (proj1 visit_means e ts Te H2) as M. rewrite bind_ok, token_loc_at. split.
      + intros (x & Hx & X). injection X as <-. constructor. now apply M.
      + intros X. inv X. eexists. split; [apply M; eassumption|reflexivity].
    - inv G. inv H2. apply Forall_app in H4. destruct H4 as [G1 G2]. inversion G2 as [|? ? _ G3]; subst. pose proof (proj1 visit_means e ts' Te G3) as M. pose proof (proj1 visit_means p ts Tp G1) as M2. rewrite bind_ok, token_loc_at. split.
      + intros (x & Hx & X). apply bind_ok in X. destruct X as (y & Hy & X). injection X as <-. constructor; [now apply M2|now apply M].
      + intros X. inv X. eexists. split; [apply M2; eassumption|]. apply bind_ok. eexists. split; [apply M; eassumption|reflexivity].
    - assert (Gc : good_token code) by (rewrite Forall_forall in G; apply G; cbn; auto 6). destruct Gc as [m F]. unfold is in Kcode. rewrite Kcode in F.
      apply form_raw_text in F. destruct F as (b & Eb & _). rewrite bind_ok, Eb, remove_triple_quotes_wrapped. split.
      + intros (x & Hx & X). injection Hx as <-. injection X as <-. now constructor.
      + intros X. inversion X as [| | | | | | |name' code' body' Ec]; subst. exists body'. split; [|reflexivity]. f_equal. rewrite Eb in Ec. apply append_inj_l in Ec. now apply append_inj_r in Ec.
  Qed.
  Lemma version_visit_means t : is T_VERSION_NUMBER t -> good_token t -> forall v, visit_cversion file t = Ok v <-> version_means (tk_text t) v.
  Proof.
    intros K [m G] v. unfold is in K. rewrite K in G. unfold visit_cversion. apply form_version in G. destruct G as [[N D]|(a & b & E & Na & Da & Nb & Db)].
    - rewrite split_version_plain by exact D. unfold get_int_value. rewrite stoll_decimal by exact D. destruct (Z.leb_spec (decimal (tk_text t)) max_int) as [L|L]; cbn [bind].
      + split; intros H; [injection H as <-; constructor; now constructor|]. inv H; [inv H0; reflexivity|]. exfalso. rewrite <- H0 in D. exact (digits_no_dot _ _ D).
      + split; intros H; [discriminate|]. inv H; [inv H0; lia|]. exfalso. rewrite <- H0 in D. exact (digits_no_dot _ _ D).
    - rewrite E, split_version_dot by exact Da. unfold get_int_value. rewrite (stoll_decimal a), (stoll_decimal b) by assumption.
      assert (Inv : forall v, version_means (a ++ "." ++ b) v -> exists x y, v = [x; y] /\ int_means a x /\ int_means b y).
      { intros v' H. inversion H as [a' x I Ea|a' x b' y I J Ea]; subst.
        - exfalso. inv I. match goal with X : digits (_ ++ "." ++ _) |- _ => exact (digits_no_dot _ _ X) end.
        - assert (digits a') by (now inv I). apply dot_unique in Ea; auto. destruct Ea as [-> ->]. eauto. }
      destruct (Z.leb_spec (decimal a) max_int) as [L|L]; [destruct (Z.leb_spec (decimal b) max_int) as [L'|L']|]; cbn [bind]; split; intros H; try discriminate.
      + injection H as <-. constructor; now constructor.
      + destruct (Inv _ H) as (x & y & -> & I & J). inv I. inv J. reflexivity.
      + destruct (Inv _ H) as (x & y & -> & I & J). inv J. lia.
      + destruct (Inv _ H) as (x & y & -> & I & J). inv I. lia.
  Qed.
  Lemma block_visit_means ss u : block_tokens ss u -> Forall good_or_eof u -> StronglySorted follows u -> forall ss', mapM (visit_cstatement file rtl) ss = Ok ss' <-> Forall2 (statement_means file fm) ss ss'.
  Proof.
    induction 1 as [seps eof F Ke|seps s ts ss ts' F Ne Ts Tb IH]; intros G S ss'; cbn [mapM].
    - split; intros H; [injection H as <-; constructor|now inv H].
    - apply Forall_app in G. destruct G as [_ G]. apply Forall_app in G. destruct G as [G1 G2]. apply strongly_sorted_app in S. destruct S as (_ & S & _). apply strongly_sorted_app in S. destruct S as (S1 & S2 & _).
      pose proof (statement_visit_means s ts Ts (plain_good _ (statement_plain _ _ Ts) G1) S1) as M. specialize (IH G2 S2). rewrite bind_ok. split.
      + intros (x & Hx & X). apply bind_ok in X. destruct X as (y & Hy & X). injection X as <-. constructor; [now apply M|now apply IH].
      + intros X. inv X. eexists. split; [apply M; eassumption|]. apply bind_ok. eexists. split; [apply IH; eassumption|reflexivity].
  Qed.
  Lemma program_visit_means p u : program_tokens p u -> Forall good_or_eof u -> StronglySorted follows u -> forall p', visit_cprogram file rtl p = Ok p' <-> program_means file fm p p'.
  Proof.
    intros T G S p'. destruct T as [seps v n ss ts F Kv Kn Tb]. apply Forall_app in G. destruct G as [_ G]. inv G. inv H2. apply strongly_sorted_app in S. destruct S as (_ & S & _). inv S. inv H2.
    assert (Gn : good_token n) by (destruct H3 as [X|X]; [exact X|unfold is in Kn; congruence]).
    unfold visit_cprogram. cbn [cp_version cp_statements]. rewrite bind_ok, token_loc_at. pose proof (block_visit_means ss ts Tb H4 H6) as M. pose proof (version_visit_means n Kn Gn) as Mv. split.
    - intros (x & Hx & X). apply bind_ok in X. destruct X as (y & Hy & X). injection X as <-. constructor; [now apply Mv|now apply M].
    - intros X. inv X. eexists. split; [apply Mv; eassumption|]. apply bind_ok. eexists. split; [apply M; eassumption|reflexivity].
  Qed.
End Tree.

Lemma concat_cons l ls : String.concat "" (map lx_text (l :: ls)) = lx_text l ++ String.concat "" (map lx_text ls).
Proof. cbn [map String.concat]. destruct (map lx_text ls) eqn:E; [cbn; now rewrite append_nil_r|]. reflexivity. Qed.
Lemma tokens_at_eof before ls ts : tokens_at before ls ts -> forall l c, line_of (before ++ String.concat "" (map lx_text ls)) = l -> column_of (before ++ String.concat "" (map lx_text ls)) = (c + 1)%N ->
  tokens_at before (ls ++ [mkLexeme T_EOF ""])%list (ts ++ [mkToken T_EOF "" l c])%list.
Proof.
  induction 1 as [before|before l ls ts I T IH|before l ls ts line col I E1 E2 T IH]; intros l0 c0 P1 P2; cbn [app].
  - cbn in P1, P2. rewrite append_nil_r in *. apply (ta_token before (mkLexeme T_EOF "")); auto; [|constructor]. cbn. intuition discriminate.
  - rewrite concat_cons, <- append_assoc in *. apply ta_skip; auto.
  - rewrite concat_cons, <- append_assoc in *. apply ta_token; auto.
Qed.
Lemma tokens_of_order s ts : tokens_of s ts -> StronglySorted follows ts.
Proof.
  intros (ls & body & line & col & L & T & P1 & P2 & ->). pose proof (tokenisation_lossless _ _ _ _ L) as E. rewrite append_nil_r in E.
  assert (A : tokens_at "" (ls ++ [mkLexeme T_EOF ""])%list (body ++ [mkToken T_EOF "" line col])%list) by (apply tokens_at_eof; [exact T|..]; cbn [String.append]; rewrite <- E; auto).
  exact (proj2 (tokens_at_order _ _ _ A 1%N 0%N eq_refl eq_refl)).
Qed.
(** Each token is in the text where it says. *)
Lemma tokens_at_text before ls ts : tokens_at before ls ts -> forall rest t, In t ts -> text_at (before ++ String.concat "" (map lx_text ls) ++ rest) (tk_text t) (tk_line t) (tk_col t + 1).
Proof.
  induction 1 as [before|before l ls ts I T IH|before l ls ts line col I E1 E2 T IH]; intros rest t Ht.
  - destruct Ht.
  - rewrite concat_cons, append_assoc, <- append_assoc. auto.
  - rewrite concat_cons, append_assoc. destruct Ht as [<-|Ht].
    + cbn [tk_text tk_line tk_col]. exists before, (String.concat "" (map lx_text ls) ++ rest). auto.
    + rewrite <- append_assoc. auto.
Qed.
Lemma tokens_of_text s ts t : tokens_of s ts -> In t ts -> text_at s (tk_text t) (tk_line t) (tk_col t + 1).
Proof.
  intros (ls & body & line & col & L & T & P1 & P2 & ->) Ht. pose proof (tokenisation_lossless _ _ _ _ L) as E. apply in_app_or in Ht. destruct Ht as [Ht|[<-|[]]].
  - rewrite E. exact (tokens_at_text "" ls body T "" t Ht).
  - exists s, "". cbn [tk_text tk_line tk_col]. rewrite append_nil_r. auto.
Qed.
Lemma tokens_of_good s ts : tokens_of s ts -> Forall good_or_eof ts.
Proof.
  intros H. apply tokenize_tokens_of in H. destruct H as (_ & body & eof & -> & G & K). apply Forall_app. split; [apply Forall_impl with (2 := G); intros; now left|]. constructor; [now right|constructor].
Qed.
Lemma tokens_of_unique s ts ts' : tokens_of s ts -> tokens_of s ts' -> ts = ts'.
Proof. intros H H'. apply tokenize_tokens_of in H, H'. destruct H as [H _], H' as [H' _]. congruence. Qed.

(** The reading of floating-point literals, as modelled *)
Definition read_float (s : string) (f : float) : Prop := stod s = Some f.

(** The parser returns exactly the syntax tree of the text. *)
Theorem scan_ok file rtl fm data s p : (forall t f, is T_FLOAT_LITERAL t -> good_token t -> (stod (tk_text t) = Some f <-> fm (tk_text t) f)) ->
  text_of data s -> valid_utf8 s = true -> scan file rtl data = Ok p <-> syntax_tree file fm s p.
Proof.
  intros Fm T V. pose proof (text_of_unique _ _ _ (strip_bom_text data) T) as E. unfold scan. rewrite E, V. cbn [negb]. split.
  - intros H. destruct (tokenize_spec s) as (ls & rest & body & line & col & L & Ta & G & Et & P). rewrite Et in H.
    destruct (parse_program (body ++ [end_token rest line col])) as [c r|r|] eqn:Pp; try discriminate H.
    apply parse_body in Pp; [|exact G|apply end_not_plain]. destruct Pp as (-> & Ke & Tp & B).
    assert (To : tokens_of s (body ++ [end_token rest line col])) by (apply tokenize_tokens_of; split; [exact Et|]; eauto).
    exists (body ++ [end_token rest line col])%list, c. split; [exact To|]. split; [exact Tp|]. split; [exact B|].
    eapply program_visit_means; eauto using tokens_of_good, tokens_of_order.
  - intros (ts & c & To & Tp & B & M). destruct (program_complete _ _ Tp B) as (eof & _ & Pp). pose proof To as To'. apply tokenize_tokens_of in To'. destruct To' as [-> _]. rewrite Pp.
    eapply program_visit_means; eauto using tokens_of_good, tokens_of_order.
Qed.
Theorem parse_string_ok file rtl fm data s p : (forall t f, is T_FLOAT_LITERAL t -> good_token t -> (stod (tk_text t) = Some f <-> fm (tk_text t) f)) ->
  text_of data s -> valid_utf8 s = true ->
  parse_string file rtl data = Ok (mkResult (Some p) []) <-> syntax_tree file fm s p.
Proof.
  intros Fm T V. rewrite <- (scan_ok file rtl fm data s p Fm T V). unfold parse_string. destruct (scan file rtl data); split; congruence.
Qed.
