(** The nodes of a parsed program are where their text is (C44, C53). *)
From Coq Require Import ZArith Lia ZifyBool ZifyN ZifyNat.
From Verif Require Import Base ModelUtils ModelVersion ModelError ModelTypes ModelAst ModelLexer ModelParser ModelSyntactic SpecUtils SpecTypes SpecLexer SpecParser SpecSyntax SpecLiteral SpecTree SpecReading SpecSites
  ProofsUtils ProofsLexer ProofsLexer2 ProofsLexer3 ProofsParser ProofsParser2 ProofsParser3 ProofsParser4 ProofsParser5 ProofsSyntax ProofsSyntax2 ProofsTree.
Local Open Scope string_scope.

(** ** Positions inside a text *)
Definition simple (s : string) : Prop := all_bytes (fun c => is_lf c = false /\ continues c = false) s.
Lemma simple_append a b : simple a -> simple b -> simple (a ++ b).
Proof. intros. now apply all_bytes_append. Qed.
Lemma simple_line s : simple s -> line_feeds s = 0%N /\ characters s = N.of_nat (String.length s).
Proof.
  induction s as [|c s IH]; cbn [line_feeds characters String.length]; [split; reflexivity|]. intros [[L C] S]. destruct (IH S) as [-> ->]. rewrite L, C. split; lia.
Qed.
Lemma position_append a t : simple t -> position (a ++ t) = mkIndex (line_of a) (column_of a + N.of_nat (String.length t)).
Proof.
  intros S. destruct (simple_line t S) as [L C]. unfold position, line_of, column_of. rewrite line_feeds_append, last_line_append, L. cbn [N.eqb]. rewrite characters_append, C. f_equal; lia.
Qed.

(** ** Texts of tokens *)
Lemma letter_simple c : letter c -> is_lf c = false /\ continues c = false.
Proof. unfold letter, code_between, is_lf, continues. intros [H|[H|H]]; [lia|lia|subst; cbn; auto]. Qed.
Lemma digit_simple c : digit c -> is_lf c = false /\ continues c = false.
Proof. unfold digit, code_between, is_lf, continues. lia. Qed.
Lemma digits_simple s : digits s -> simple s.
Proof. induction s as [|c s IH]; [intros; exact I|]. intros [D S]. split; [now apply digit_simple|now apply IH]. Qed.
Lemma name_simple s : all_bytes (fun c => letter c \/ digit c) s -> simple s.
Proof. induction s as [|c s IH]; [intros; exact I|]. intros [[D|D] S]; (split; [|now apply IH]); [now apply letter_simple|now apply digit_simple]. Qed.
Lemma exponent_simple e : exponent e -> simple e.
Proof.
  intros [|e' sign d He Hs D N]; [exact I|]. apply simple_append; [destruct He as [->| ->]; repeat split|]. apply simple_append; [destruct Hs as [->|[->| ->]]; repeat split|now apply digits_simple].
Qed.
Lemma fixed_simple (l : list (token_kind * string)) k s : forallb (fun p => forallb (fun c => negb (is_lf c) && negb (continues c)) (list_ascii_of_string (snd p))) l = true -> In (k, s) l -> simple s.
Proof.
  intros F H. rewrite forallb_forall in F. specialize (F _ H). cbn [snd] in F. clear H. induction s as [|c s IH]; [exact I|]. cbn [list_ascii_of_string forallb] in F. apply andb_true_iff in F. destruct F as [F1 F2]. apply andb_true_iff in F1. destruct F1 as [G1 G2]. apply negb_true_iff in G1, G2. split; [now split|now apply IH].
Qed.
Definition wild : list token_kind := [T_WHITE_SPACE; T_SINGLE_LINE_COMMENT; T_MULTI_LINE_COMMENT; T_NEW_LINE; T_RAW_TEXT_STRING; T_VERSION_WHITE_SPACE].
Lemma form_simple m k s : form m k s -> ~ In k wild -> simple s.
Proof.
  destruct m; cbn [form]; intros F N; destruct F; try (destruct N; cbn; tauto).
  - now apply (fixed_simple signs k s).
  - now apply (fixed_simple words k s).
  - now apply digits_simple.
  - apply simple_append; [now apply digits_simple|]. apply simple_append; [repeat split|]. apply simple_append; [now apply digits_simple|now apply exponent_simple].
  - split; [now apply letter_simple|now apply name_simple].
  - now apply digits_simple.
  - apply simple_append; [now apply digits_simple|]. apply simple_append; [repeat split|now apply digits_simple].
Qed.
(** The tokens with one text *)
Definition fixed_texts : list (token_kind * string) := [
  (T_MINUS, "-"); (T_BITWISE_NOT_OP, "~"); (T_LOGICAL_NOT_OP, "!"); (T_POWER_OP, "**"); (T_PRODUCT_OP, "*"); (T_DIVISION_OP, "/"); (T_MODULO_OP, "%");
  (T_PLUS, "+"); (T_SHL_OP, "<<"); (T_SHR_OP, ">>"); (T_CMP_GT_OP, ">"); (T_CMP_LT_OP, "<"); (T_CMP_GE_OP, ">="); (T_CMP_LE_OP, "<="); (T_CMP_EQ_OP, "=="); (T_CMP_NE_OP, "!=");
  (T_BITWISE_AND_OP, "&"); (T_BITWISE_XOR_OP, "^"); (T_BITWISE_OR_OP, "|"); (T_LOGICAL_AND_OP, "&&"); (T_LOGICAL_XOR_OP, "^^"); (T_LOGICAL_OR_OP, "||"); (T_TERNARY_CONDITIONAL_OP, "?");
  (T_CLOSE_BRACKET, "]"); (T_MEASURE, "measure"); (T_RESET, "reset"); (T_INIT, "init"); (T_BARRIER, "barrier"); (T_WAIT, "wait"); (T_INV, "inv"); (T_POW, "pow"); (T_CTRL, "ctrl");
  (T_QUBIT_TYPE, "qubit"); (T_BIT_TYPE, "bit")].
Lemma form_fixed m k s x : form m k s -> In (k, x) fixed_texts -> s = x.
Proof.
  assert (C : forall k' (l : list (token_kind * string)) s', forallb (fun p => if token_kind_beq (fst p) k then String.eqb (snd p) x else true) l = true -> k' = k -> In (k', s') l -> s' = x).
  { intros k' l s' F -> H. rewrite forallb_forall in F. specialize (F _ H). cbn [fst snd] in F. rewrite (internal_token_kind_dec_lb k k eq_refl) in F. now apply String.eqb_eq. }
  intros F H. unfold fixed_texts in H. cbn [In] in H.
  repeat (destruct H as [H|H]; [injection H as <- <-; destruct m; cbn [form] in F; inversion F; subst; try discriminate; (eapply C with (l := signs); [|reflexivity|eassumption]; reflexivity) || (eapply C with (l := words); [|reflexivity|eassumption]; reflexivity)|]). destruct H.
Qed.

(** ** Tokens in the text *)
Lemma concat_app ls1 ls2 : String.concat "" (map lx_text (ls1 ++ ls2)) = String.concat "" (map lx_text ls1) ++ String.concat "" (map lx_text ls2).
Proof. induction ls1 as [|l ls1 IH]; [reflexivity|]. cbn [app]. rewrite !concat_cons, IH. now rewrite append_assoc. Qed.
Lemma tokens_at_split before ls ts : tokens_at before ls ts -> forall u v, ts = (u ++ v)%list ->
  exists ls1 ls2, ls = (ls1 ++ ls2)%list /\ tokens_at before ls1 u /\ tokens_at (before ++ String.concat "" (map lx_text ls1)) ls2 v.
Proof.
  induction 1 as [before|before l ls ts I T IH|before l ls ts line col I E1 E2 T IH]; intros u v E.
  - symmetry in E. apply app_eq_nil in E. destruct E as [-> ->]. exists [], []. repeat split; constructor.
  - destruct (IH u v E) as (ls1 & ls2 & -> & T1 & T2). exists (l :: ls1), ls2. split; [reflexivity|]. split; [now apply ta_skip|]. now rewrite concat_cons, <- append_assoc.
  - destruct u as [|x u]; cbn [app] in E.
    + exists [], (l :: ls). split; [reflexivity|]. split; [constructor|]. subst v. cbn [map String.concat]. rewrite append_nil_r. now apply ta_token.
    + injection E as <- E. destruct (IH u v E) as (ls1 & ls2 & -> & T1 & T2). exists (l :: ls1), ls2. split; [reflexivity|]. split; [now apply ta_token|]. now rewrite concat_cons, <- append_assoc.
Qed.
Lemma tokens_at_head before ls ts : tokens_at before ls ts -> forall t v, ts = t :: v ->
  exists a ls', before ++ String.concat "" (map lx_text ls) = a ++ tk_text t ++ String.concat "" (map lx_text ls') /\ (exists m, a = before ++ m) /\
    tk_line t = line_of a /\ column_of a = (tk_col t + 1)%N /\ tokens_at (a ++ tk_text t) ls' v.
Proof.
  induction 1 as [before|before l ls ts I T IH|before l ls ts line col I E1 E2 T IH]; intros t v E; [discriminate| |].
  - destruct (IH t v E) as (a & ls' & Ea & (m & Em) & P1 & P2 & T'). exists a, ls'. rewrite concat_cons, <- append_assoc. split; [exact Ea|]. split; [|auto]. exists (lx_text l ++ m). now rewrite <- append_assoc.
  - injection E as <- <-. exists before, ls. cbn [tk_text tk_line tk_col]. rewrite concat_cons. split; [reflexivity|]. split; [exists ""; now rewrite append_nil_r|]. auto.
Qed.
Lemma tokens_of_between s ts u t1 v t2 w : tokens_of s ts -> ts = (u ++ t1 :: v ++ t2 :: w)%list ->
  exists a m b, s = a ++ tk_text t1 ++ m ++ tk_text t2 ++ b /\
    tk_line t1 = line_of a /\ column_of a = (tk_col t1 + 1)%N /\ tk_line t2 = line_of (a ++ tk_text t1 ++ m) /\ column_of (a ++ tk_text t1 ++ m) = (tk_col t2 + 1)%N.
Proof.
  intros (ls & body & line & col & L & T & P1 & P2 & ->) E. pose proof (tokenisation_lossless _ _ _ _ L) as Es. rewrite append_nil_r in Es.
  assert (A : tokens_at "" (ls ++ [mkLexeme T_EOF ""])%list (body ++ [mkToken T_EOF "" line col])%list) by (apply tokens_at_eof; [exact T|..]; cbn [String.append]; rewrite <- Es; auto).
  assert (Es' : s = "" ++ String.concat "" (map lx_text (ls ++ [mkLexeme T_EOF ""]))) by (rewrite concat_app; cbn; rewrite append_nil_r; exact Es).
  destruct (tokens_at_split _ _ _ A _ _ E) as (ls1 & ls2 & El & _ & A2). rewrite El, concat_app, <- append_assoc in Es'.
  destruct (tokens_at_head _ _ _ A2 _ _ eq_refl) as (a & ls3 & Ea & _ & Q1 & Q2 & A3).
  destruct (tokens_at_split _ _ _ A3 _ _ eq_refl) as (ls4 & ls5 & -> & _ & A4).
  destruct (tokens_at_head _ _ _ A4 _ _ eq_refl) as (a' & ls6 & Ea' & (m & Em) & Q3 & Q4 & _).
  exists a, (String.concat "" (map lx_text ls4) ++ m), (String.concat "" (map lx_text ls6)). rewrite Es', Ea, concat_app.
  assert (F : a ++ tk_text t1 ++ String.concat "" (map lx_text ls4) ++ m = a') by (rewrite Em, !append_assoc; reflexivity).
  rewrite F. split; [|auto]. rewrite <- append_assoc, <- append_assoc. rewrite Ea'. rewrite Em, !append_assoc. reflexivity.
Qed.

Section Sites.
  Variables (file : option string) (s : string) (all : list token).
  Hypothesis all_of : tokens_of s all.
  Notation here x := (placed file s x /\ one_line x).

  Lemma one_piece t : In t all -> forall P : string -> Prop, P (tk_text t) -> simple (tk_text t) -> here (at_token file t, P).
  Proof.
    intros Ht P Hp Si. destruct (tokens_of_text s all t all_of Ht) as (a & b & Es & E1 & E2). split.
    - exists a, (tk_text t), b. split; [exact Es|]. split; [exact Hp|]. cbn [fst]. unfold at_token, span. rewrite position_append by exact Si. unfold position. rewrite <- E1, <- E2. reflexivity.
    - reflexivity.
  Qed.
  Lemma good_all t : In t all -> tk_kind t <> T_EOF -> exists m, form m (tk_kind t) (tk_text t).
  Proof. intros Ht N. pose proof (tokens_of_good s all all_of) as G. rewrite Forall_forall in G. destruct (G t Ht) as [X|X]; [exact X|contradiction]. Qed.
  Lemma token_site t k (P : string -> Prop) : In t all -> is k t -> k <> T_EOF -> ~ In k wild -> (forall m, form m k (tk_text t) -> P (tk_text t)) -> here (at_token file t, P).
  Proof.
    intros Ht K N W H. unfold is in K. destruct (good_all t Ht ltac:(congruence)) as [m F]. rewrite K in F. apply one_piece; [exact Ht|now apply (H m)|now apply (form_simple m k)].
  Qed.
  Lemma fixed_site t k x : In t all -> is k t -> In (k, x) fixed_texts -> here (at_token file t, eq x).
  Proof.
    intros Ht K H. apply (token_site t k); auto.
    - unfold fixed_texts in H. cbn [In] in H. intros ->. repeat (destruct H as [H|H]; [discriminate H|]). destruct H.
    - unfold fixed_texts in H. cbn [In] in H. intros W. cbn [wild In] in W. repeat (destruct W as [W|W]; [subst k; repeat (destruct H as [H|H]; [discriminate H|]); destruct H|]). destruct W.
    - intros m F. symmetry. now apply (form_fixed m k).
  Qed.
  Lemma name_site t : In t all -> is T_IDENTIFIER t -> here (at_token file t, eq (tk_text t)).
  Proof. intros Ht K. apply (token_site t T_IDENTIFIER); auto; [discriminate|]. cbn. intuition discriminate. Qed.

  Notation means := (expr_means file reads_double).
  Definition sites_here (l : list site) : Prop := Forall (fun x => here x) l.
  Lemma exprs_sites :
    (forall c ts, expr_tokens c ts -> incl ts all -> forall e, means c e -> sites_here (expr_sites e)) /\
    (forall cs ts, exprs_tokens cs ts -> incl ts all -> forall es, exprs_mean file reads_double cs es -> sites_here (flat_map expr_sites es)) /\
    (forall c ts, entry_tokens c ts -> incl ts all -> forall cs es, entries_mean file reads_double (c :: cs) es -> exists i es', es = i :: es' /\ sites_here (entry_sites i) /\ entries_mean file reads_double cs es') /\
    (forall cs ts, entries_tokens cs ts -> incl ts all -> forall es, entries_mean file reads_double cs es -> sites_here (flat_map entry_sites es)).
  Proof.
    assert (I2 : forall (a b : list token), incl (a ++ b) all -> incl a all /\ incl b all).
    { intros a b H. split; intros x Hx; apply H, in_or_app; auto. }
    assert (I1 : forall a (b : list token), incl (a :: b) all -> In a all /\ incl b all).
    { intros a b H. split; [apply H; now left|intros x Hx; apply H; now right]. }
    unfold sites_here. apply expr_tokens_mutind.
    - intros o e ts c Ko T IH Kc I x M. inversion M; subst. apply I1 in I. destruct I as [_ I]. apply I2 in I. apply IH; tauto.
    - intros t e ts K T IH I x M. apply I1 in I. destruct I as [It I]. inversion M; subst; [now apply IH|]. cbn [expr_sites]. constructor; [|now apply IH].
      unfold unary_meaning in *. cbn [In] in *. match goal with H : _ \/ _ |- _ => destruct H as [H|[H|[H|[]]]]; injection H as Hk <- end; symmetry in Hk; (eapply fixed_site; [exact It|exact Hk|cbn; tauto]).
    - intros t e1 e2 ts1 ts2 K T1 IH1 T2 IH2 I x M. apply I2 in I. destruct I as [J1 I]. apply I1 in I. destruct I as [It I]. inversion M; subst. cbn [expr_sites]. constructor; [|apply Forall_app; split; auto].
      unfold binary_meaning in *. cbn [In] in *. match goal with H : _ \/ _ |- _ => rename H into Hm end. repeat (destruct Hm as [Hm|Hm]; [injection Hm as Hk <-; symmetry in Hk; eapply fixed_site; [exact It|exact Hk|cbn; tauto]|]). destruct Hm.
    - intros t colon e1 e2 e3 ts1 ts2 ts3 K Kc T1 IH1 T2 IH2 T3 IH3 I x M. apply I2 in I. destruct I as [J1 I]. apply I1 in I. destruct I as [It I]. apply I2 in I. destruct I as [J2 I]. apply I1 in I. destruct I as [_ I].
      inversion M; subst. cbn [expr_sites]. constructor; [|apply Forall_app; split; auto; apply Forall_app; split; auto]. eapply fixed_site; [exact It|exact K|cbn; tauto].
    - intros name o c Kn Ko Kc I x M. apply I1 in I. destruct I as [It _]. inversion M; subst; [|congruence]. cbn [expr_sites]. constructor; [now apply name_site|constructor].
    - intros name o args ts c Kn Ko T IH Kc I x M. apply I1 in I. destruct I as [It I]. apply I1 in I. destruct I as [_ I]. apply I2 in I. destruct I as [I _]. inversion M; subst; [inversion T|]. cbn [expr_sites]. constructor; [now apply name_site|]. now apply IH.
    - intros name o idx ts c Kn Ko T IH Kc I x M. apply I1 in I. destruct I as [It I]. apply I1 in I. destruct I as [_ I]. apply I2 in I. destruct I as [I _]. inversion M; subst. cbn [expr_sites]. constructor; [|now apply IH].
      apply (token_site name T_IDENTIFIER); [exact It|exact Kn|discriminate|cbn; intuition discriminate|reflexivity].
    - intros t K I x M. apply I1 in I. destruct I as [It _]. inversion M; subst. cbn [expr_sites]. constructor; [now apply name_site|constructor].
    - intros t K I x M. apply I1 in I. destruct I as [It _]. inversion M; subst. cbn [expr_sites]. constructor; [|constructor]. apply (token_site t T_BOOLEAN_LITERAL); auto; [discriminate|cbn; intuition discriminate|].
      intros _ _. unfold bool_meaning in *. cbn [In] in *. match goal with H : _ \/ _ |- _ => destruct H as [H|[H|[]]]; injection H as <- <- end; reflexivity.
    - intros t K I x M. apply I1 in I. destruct I as [It _]. inversion M; subst. cbn [expr_sites]. constructor; [|constructor]. apply (token_site t T_INTEGER_LITERAL); auto; [discriminate|cbn; intuition discriminate|].
      intros m F. match goal with H : int_means _ _ |- _ => inversion H; subst end. split; [|auto]. intros Z. rewrite Z in F. destruct (form_nonempty m T_INTEGER_LITERAL "" F eq_refl).
    - intros t K I x M. apply I1 in I. destruct I as [It _]. inversion M; subst. cbn [expr_sites]. constructor; [|constructor]. apply (token_site t T_FLOAT_LITERAL); auto; [discriminate|]. cbn. intuition discriminate.
    - intros e ts T IH I es M. inversion M as [|? ? ? ? M1 M2]; subst. inversion M2; subst. cbn [flat_map]. rewrite app_nil_r. now apply IH.
    - intros e ts comma es ts' T IH K Ts IHs I x M. apply I2 in I. destruct I as [J1 I]. apply I1 in I. destruct I as [_ I]. inversion M; subst. cbn [flat_map]. apply Forall_app. split; auto.
    - intros e ts T IH I cs es M. inversion M; subst. do 2 eexists. split; [reflexivity|]. split; [|eassumption]. cbn [entry_sites]. now apply IH.
    - intros e1 e2 ts1 colon ts2 T1 IH1 K T2 IH2 I cs es M. apply I2 in I. destruct I as [J1 I]. apply I1 in I. destruct I as [_ I]. inversion M; subst. do 2 eexists. split; [reflexivity|]. split; [|eassumption].
      cbn [entry_sites]. apply Forall_app. split; auto.
    - intros i ts T IH I es M. destruct (IH I _ _ M) as (j & es' & -> & Si & M'). inversion M'; subst. cbn [flat_map]. now rewrite app_nil_r.
    - intros i ts comma es ts' T IH K Ts IHs I x M. apply I2 in I. destruct I as [J1 I]. apply I1 in I. destruct I as [_ I]. destruct (IH J1 _ _ M) as (j & es' & -> & Si & M'). cbn [flat_map]. apply Forall_app. split; auto.
  Qed.
  Definition one_sites := proj1 exprs_sites.
  Definition list_sites := proj1 (proj2 exprs_sites).
  Lemma incl2 (a b : list token) : incl (a ++ b) all -> incl a all /\ incl b all.
  Proof. intros H. split; intros x Hx; apply H, in_or_app; auto. Qed.
  Lemma incl1 a (b : list token) : incl (a :: b) all -> In a all /\ incl b all.
  Proof. intros H. split; [apply H; now left|intros x Hx; apply H; now right]. Qed.
  Ltac parts I := repeat match type of I with
    | incl (_ ++ _) _ => let J := fresh "J" in apply incl2 in I; destruct I as [J I]
    | incl (_ :: _) _ => let J := fresh "J" in apply incl1 in I; destruct I as [J I]
    end.
  Ltac one := match goal with Hm : expr_means _ _ ?c ?e |- _ (expr_sites ?e) => match goal with Ht : expr_tokens c _ |- _ => apply (one_sites _ _ Ht); [assumption|exact Hm] end end.
  Lemma params_sites ps ts : params_tokens ps ts -> incl ts all -> forall es, params_mean file reads_double ps es -> sites_here (flat_map expr_sites es).
  Proof.
    intros T I es M. destruct T; inversion M; subst; [constructor|]. parts I. eapply list_sites; eauto.
  Qed.
  Lemma gate_sites_here g ts : gate_tokens g ts -> incl ts all -> forall g', gate_means file reads_double g g' -> sites_here (gate_sites g') /\ here (at_token file (first_token g), eq (gate_word g')).
  Proof.
    induction 1 as [t dot g ts K Kd T IH|t o e ts c dot g ts' K Ko Te Kc Kd T IH|t dot g ts K Kd T IH|t ps ts K Tp]; intros I g' M; inversion M; subst; parts I; cbn [first_token gate_word gate_sites flat_map].
    - assert (X : here (at_token file t, eq "inv")) by (eapply fixed_site; eauto; cbn; tauto). split; [|exact X]. constructor; [exact X|]. rewrite app_nil_r. now apply IH.
    - assert (X : here (at_token file t, eq "pow")) by (eapply fixed_site; eauto; cbn; tauto). split; [|exact X]. constructor; [exact X|]. apply Forall_app. split; [now apply IH|]. rewrite app_nil_r. one.
    - assert (X : here (at_token file t, eq "ctrl")) by (eapply fixed_site; eauto; cbn; tauto). split; [|exact X]. constructor; [exact X|]. rewrite app_nil_r. now apply IH.
    - assert (X : here (at_token file t, eq (tk_text t))) by now apply name_site. split; [|exact X]. constructor; [exact X|]. cbn [app]. eapply params_sites; eauto.
  Qed.
  Lemma statement_sites_here st ts : statement_tokens st ts -> (exists u v, all = (u ++ ts ++ v)%list) -> forall st', statement_means file reads_double st st' ->
    sites_here (statement_sites st') /\ Forall (placed file s) (array_sites st').
  Proof.
    intros T (u & v & Ea) st' M. assert (Ea' : all = (u ++ ts ++ v)%list /\ True) by auto. clear Ea. assert (I : incl ts all) by (rewrite (proj1 Ea'); intros x Hx; apply in_or_app; right; apply in_or_app; now left).
    destruct T; inversion M; subst st'; parts I; cbn [statement_sites array_sites flat_map]; try (split; [|constructor]); rewrite ?app_nil_r.
    - match goal with H : type_means _ _ _ |- _ => rename H into Mt end. match goal with H : type_tokens _ _ |- _ => destruct H as [t K|t o i c K Ko Ki Kc] end; inversion Mt; subst; cbn [ty_size ty_loc ty_name]; parts I; parts J.
      + split; [|constructor]. constructor; [now apply name_site|]. constructor; [|constructor].
        unfold type_meaning in *. cbn [In] in *. match goal with H : _ \/ _ \/ False |- _ => destruct H as [H|[H|[]]]; injection H as Hk <- end; symmetry in Hk; (eapply fixed_site; [|exact Hk|cbn; tauto]); auto.
      + split; [constructor; [now apply name_site|constructor]|]. constructor; [|constructor].
        assert (Ek : exists m, form m (tk_kind t) (tk_text t)) by (apply good_all; auto; unfold one_of in K; cbn in K; destruct K as [K|[K|[]]]; congruence). destruct Ek as [m Fm].
        assert (Ec : exists m, form m (tk_kind c) (tk_text c)) by (apply good_all; auto; unfold is in Kc; congruence). destruct Ec as [mc Fc]. unfold is in Kc. rewrite Kc in Fc.
        assert (Sc : simple (tk_text c)) by (apply (form_simple _ _ _ Fc); cbn; intuition discriminate).
        apply form_fixed with (x := "]") in Fc; [|cbn; tauto].
        destruct (tokens_of_between s _ u t [o; i] c (name :: v) all_of (proj1 Ea')) as (a & mid & b & Es & P1 & P2 & P3 & P4).
        exists a, (tk_text t ++ mid ++ tk_text c), b. cbn [fst snd]. split; [rewrite Es, !append_assoc; reflexivity|]. split.
        * exists mid. rewrite Fc. f_equal. unfold type_meaning in *. cbn [In] in *. match goal with H : _ \/ _ \/ False |- _ => destruct H as [H|[H|[]]]; injection H as Hk <- end; rewrite <- Hk in Fm; eapply form_fixed; eauto; cbn; tauto.
        * unfold span. rewrite <- append_assoc, <- append_assoc. rewrite position_append by exact Sc. rewrite append_assoc, <- P3. unfold position. rewrite <- P1, P2, P4. reflexivity.
    - match goal with H : gate_means _ _ _ _, H' : gate_tokens _ _ |- _ => destruct (gate_sites_here _ _ H' J _ H) as [X1 X2] end. constructor; [exact X2|]. apply Forall_app. split; [exact X1|]. eapply list_sites; eauto.
    - constructor; [eapply fixed_site; eauto; cbn; tauto|]. apply Forall_app. split; [apply Forall_app; split; one|]. eapply params_sites; eauto.
    - constructor; [eapply fixed_site; eauto; cbn; tauto|]. one.
    - constructor; [eapply fixed_site; eauto; cbn; tauto|]. one.
    - constructor; [eapply fixed_site; eauto; cbn; tauto|]. one.
    - constructor; [eapply fixed_site; eauto; cbn; tauto|]. apply Forall_app. split; one.
    - constructor.
  Qed.
End Sites.

Theorem program_placed file s p : text_means file s p ->
  Forall (fun x => placed file s x /\ one_line x) (program_sites p) /\ Forall (placed file s) (flat_map array_sites (prog_statements p)).
Proof.
  intros (ts & c & To & Tp & _ & M). inversion M as [v x cs ss Mv Ms]; subst. unfold program_sites. cbn [prog_version_loc prog_version prog_statements].
  inversion Tp as [seps v' n' ss' rest F Kv Kn Tb]; subst.
  assert (X : Forall (fun x => placed file s x /\ one_line x) (flat_map statement_sites ss) /\ Forall (placed file s) (flat_map array_sites ss)).
  { remember (seps ++ v' :: v :: rest)%list as all eqn:Eall. assert (D : exists done, all = (done ++ rest)%list) by (exists (seps ++ [v'; v])%list; now rewrite <- app_assoc). clear Eall M Mv Kv Kn F Tp.
    revert ss Ms D. induction Tb as [seps' eof F' Ke|seps' st ts ss ts' F' Ne Ts Tb IH]; intros ss0 Ms (done & E).
    - inversion Ms; subst. split; constructor.
    - inversion Ms as [|? st' ? ss1 M1 M2]; subst ss0. cbn [flat_map].
      destruct (statement_sites_here file s all To st ts Ts) with (st' := st') as [A1 A2]; [exists (done ++ seps')%list, ts'; now rewrite <- app_assoc|exact M1|].
      destruct (IH ss1 M2) as [B1 B2]; [exists (done ++ seps' ++ ts)%list; now rewrite <- !app_assoc|]. split; apply Forall_app; auto. }
  destruct X as [X1 X2]. split; [|exact X2]. constructor; [|exact X1].
  apply (token_site file s _ To v T_VERSION_NUMBER); [apply in_or_app; right; right; now left|exact Kn|discriminate|cbn; intuition discriminate|auto].
Qed.

Lemma position_ordered a t : let p := position a in let q := position (a ++ t) in (line p < line q \/ line p = line q /\ column p <= column q)%N.
Proof.
  unfold position. cbv zeta. cbn [line column]. unfold line_of, column_of. rewrite line_feeds_append, last_line_append. destruct (N.eqb_spec (line_feeds t) 0) as [E|E].
  - right. rewrite characters_append. lia.
  - left. lia.
Qed.
Lemma placed_ordered file s x : placed file s x -> exists l, fst x = Some l /\ ordered_from_1 l.
Proof.
  intros (a & t & b & _ & _ & ->). eexists. split; [reflexivity|]. unfold ordered_from_1. cbn [loc_range first last]. cbv zeta. unfold position. cbn [line column]. pose proof (position_ordered a t) as H. cbv zeta in H. unfold position in H. cbn [line column] in H. unfold line_of, column_of in *. lia.
Qed.
