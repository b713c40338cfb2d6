(** The visitor on parse trees: a program, or an error at a literal that is out of
    range (C05, C51, C52). *)
From Coq Require Import ZifyBool ZifyN ZifyNat.
From Verif Require Import Base ModelUtils ModelVersion ModelError ModelTypes ModelAst ModelLexer ModelParser ModelSyntactic SpecUtils SpecLexer SpecParser SpecSyntax
  ProofsUtils ProofsLexer ProofsLexer2 ProofsLexer3 ProofsParser ProofsParser2 ProofsParser3 ProofsParser4 ProofsParser5 ProofsSyntax.
Local Open Scope string_scope.

(** ** Integers *)
Lemma digit_model c : digit c -> is_digit c = true /\ digit_val c = (Z.of_N (N_of_ascii c) - 48)%Z.
Proof. unfold digit, code_between, is_digit, digit_val, byte_val. lia. Qed.
Lemma read_digits_decimal s : forall acc any, digits s -> fst (read_digits acc any s) = (acc * 10 ^ Z.of_nat (String.length s) + decimal s)%Z.
Proof.
  induction s as [|c s IH]; intros acc any D; cbn [read_digits decimal String.length]; [cbn; lia|].
  destruct D as [Dc D]. destruct (digit_model c Dc) as [-> ->]. rewrite IH by exact D. rewrite Nat2Z.inj_succ, Z.pow_succ_r by lia. nia.
Qed.
Lemma stoll_decimal s : digits s -> stoll s = if (decimal s <=? max_int)%Z then Some (decimal s) else None.
Proof. intros D. unfold stoll. rewrite read_digits_decimal by exact D. rewrite Z.mul_0_l, Z.add_0_l. reflexivity. Qed.

(** ** Literals in range *)
Definition literal_fits (k : token_kind) (s : string) : Prop :=
  match k with
  | T_INTEGER_LITERAL => (decimal s <= max_int)%Z
  | T_FLOAT_LITERAL => stod s <> None
  | _ => True
  end.
Definition literals_fit (t : token) : Prop := forall k s col, literal_in t k s col -> literal_fits k s.
Definition kind_name (k : token_kind) : string := match k with T_INTEGER_LITERAL => "INTEGER_LITERAL" | _ => "FLOAT_LITERAL" end.
Definition range_error (file : option string) (t : token) (e : error) : Prop :=
  exists k s col, literal_in t k s col /\ ~ literal_fits k s /\
    e = syntax_error file (tk_line t) col 0 ("value '" ++ s ++ "' is out of the " ++ kind_name k ++ " range").

Section Visitor.
  Variables (file : option string) (rtl : bool).

  (** The outcome [m] of visiting a tree with the tokens [ts]. *)
  Definition over {A} (ts : list token) (m : outcome error A) : Prop :=
    match m with
    | Ok _ => Forall literals_fit ts
    | Err e => exists t, In t ts /\ range_error file t e
    | _ => False
    end.
  Lemma over_incl {A} ts ts' (m : outcome error A) : incl ts ts' -> (forall t, In t ts' -> In t ts \/ literals_fit t) -> over ts m -> over ts' m.
  Proof.
    intros I F O. destruct m as [a|e| |]; cbn in *; auto.
    - rewrite Forall_forall in *. intros t Ht. destruct (F t Ht); auto.
    - destruct O as (t & Ht & R). exists t. split; [now apply I|exact R].
  Qed.
  Lemma over_bind {A B} ts1 ts2 (m : outcome error A) (f : A -> outcome error B) :
    over ts1 m -> (forall a, m = Ok a -> over ts2 (f a)) -> over (ts1 ++ ts2)%list (bind m f).
  Proof.
    intros O1 O2. destruct m as [a|e| |]; cbn in O1; try contradiction; cbn [bind].
    - specialize (O2 a eq_refl). destruct (f a) as [b|e| |]; cbn in *; auto.
      + rewrite Forall_app. auto.
      + destruct O2 as (t & Ht & R). exists t. split; [apply in_or_app; auto|exact R].
    - destruct O1 as (t & Ht & R). exists t. split; [apply in_or_app; auto|exact R].
  Qed.
  Lemma over_map {A B} ts (m : outcome error A) (f : A -> outcome error B) : over ts m -> (forall a, exists b, f a = Ok b) -> over ts (bind m f).
  Proof. intros O F. destruct m as [a|e| |]; cbn in *; auto. destruct (F a) as [b ->]. exact O. Qed.
  Lemma over_both {A B} ts1 ts2 (a : outcome error A) (b : outcome error B) : over ts1 a -> over ts2 b -> over (ts1 ++ ts2)%list (both rtl a b).
  Proof.
    intros O1 O2. unfold both. destruct rtl.
    - apply over_incl with (ts2 ++ ts1)%list; [intros t; rewrite !in_app_iff; tauto|intros t; rewrite !in_app_iff; tauto|].
      apply over_bind; [exact O2|]. intros y _. apply over_map; eauto.
    - apply over_bind; [exact O1|]. intros x _. apply over_map; eauto.
  Qed.
  (** Tokens that are no literals *)
  Definition no_literal (k : token_kind) : Prop := k <> T_INTEGER_LITERAL /\ k <> T_FLOAT_LITERAL /\ k <> T_VERSION_NUMBER.
  Lemma no_literal_fits t : no_literal (tk_kind t) -> literals_fit t.
  Proof. intros (N1 & N2 & N3) k s col L. inversion L; congruence. Qed.
  Lemma over_more {A} ts ts' (m : outcome error A) : incl ts ts' -> (forall t, In t ts' -> In t ts \/ no_literal (tk_kind t)) -> over ts m -> over ts' m.
  Proof. intros I F. apply over_incl; [exact I|]. intros t Ht. destruct (F t Ht); auto using no_literal_fits. Qed.

  Lemma form_digits m s : form m T_INTEGER_LITERAL s -> digits s.
  Proof.
    destruct m; cbn; intros F.
    - remember T_INTEGER_LITERAL as k eqn:K. destruct F; subst; try discriminate K; auto; cbn in H; intuition discriminate.
    - inversion F.
  Qed.
  Lemma over_int t : is T_INTEGER_LITERAL t -> good_token t -> over [t] (get_int_value file (tk_line t) (tk_col t) (tk_text t)).
  Proof.
    intros K [m G]. unfold is in K. rewrite K in G. apply form_digits in G. unfold get_int_value. rewrite stoll_decimal by exact G.
    destruct (Z.leb_spec (decimal (tk_text t)) max_int) as [L|L]; cbn.
    - constructor; [|constructor]. intros k s col Li. inversion Li; subst; try congruence; exact L.
    - exists t. split; [now left|]. exists T_INTEGER_LITERAL, (tk_text t), (tk_col t). split; [now constructor|]. split; [intros X; cbn [literal_fits] in X; lia|reflexivity].
  Qed.
  Lemma over_float t : is T_FLOAT_LITERAL t -> over [t] (get_float_value file (tk_line t) (tk_col t) (tk_text t)).
  Proof.
    intros K. unfold is in K. unfold get_float_value. destruct (stod (tk_text t)) as [f|] eqn:E; cbn.
    - constructor; [|constructor]. intros k s col Li. inversion Li; subst; cbn; congruence.
    - exists t. split; [now left|]. exists T_FLOAT_LITERAL, (tk_text t), (tk_col t). split; [now constructor|]. split; [cbn; auto|reflexivity].
  Qed.
  Ltac kinds := repeat match goal with H : is ?k ?t |- context [no_literal (tk_kind ?t)] => unfold is in H; rewrite H end.
  Ltac nolit := repeat match goal with H : _ \/ _ |- _ => destruct H | H : In _ [] |- _ => destruct H | H : In _ _ |- _ => progress (cbn [In] in H; rewrite ?in_app_iff in H; cbn [In] in H) end.
  (** Membership up to tokens that are not literals *)
  Lemma nl k t : is k t -> no_literal k -> no_literal (tk_kind t).
  Proof. now intros ->. Qed.
  Lemma nl_one_of ks t : one_of ks t -> Forall no_literal ks -> no_literal (tk_kind t).
  Proof. intros H F. rewrite Forall_forall in F. now apply F. Qed.
  Lemma prefix_nl : Forall no_literal prefix_operators.
  Proof. repeat constructor; discriminate. Qed.
  Lemma binary_nl : Forall no_literal (List.concat binary_operators).
  Proof. repeat constructor; discriminate. Qed.
  Lemma binop_some t : one_of (List.concat binary_operators) t -> exists op, binop_of_token (tk_kind t) = Some op.
  Proof. unfold one_of. destruct (tk_kind t); cbn; intros H; try (eexists; reflexivity); intuition discriminate. Qed.
  Ltac sets := let t := fresh in intros t; cbn [In]; rewrite ?in_app_iff; cbn [In]; rewrite ?in_app_iff; cbn [In]; intuition (subst; eauto).
  Ltac more := apply over_more; [sets|let t := fresh "t" in let H := fresh in intros t H; cbn [In] in H; rewrite ?in_app_iff in H; cbn [In] in H; rewrite ?in_app_iff in H; cbn [In] in H; rewrite ?in_app_iff; cbn [In];
    repeat match goal with H : _ \/ _ |- _ => destruct H end; try contradiction; subst; auto;
    try (right; match goal with K : is _ ?x |- no_literal (tk_kind ?x) => apply (nl _ _ K); repeat split; discriminate
              | K : one_of prefix_operators ?x |- _ => exact (nl_one_of _ _ K prefix_nl) | K : one_of (List.concat binary_operators) ?x |- _ => exact (nl_one_of _ _ K binary_nl) end)].

  Lemma mapM_over {A B} (f : A -> outcome error B) (l : list (A * list token)) :
    Forall (fun p => over (snd p) (f (fst p))) l -> over (List.concat (map snd l)) (mapM f (map fst l)).
  Proof.
    induction 1 as [|[a ts] l O F IH]; cbn [map List.concat mapM fst snd]; [cbn; constructor|].
    apply over_bind; [exact O|]. intros b _. apply over_map; [exact IH|eauto].
  Qed.
  Lemma visit_over :
    (forall e u, expr_tokens e u -> Forall good_token u -> over u (visit_cexpr file rtl e)) /\
    (forall es u, exprs_tokens es u -> Forall good_token u -> over u (mapM (visit_cexpr file rtl) es)) /\
    (forall i u, entry_tokens i u -> Forall good_token u -> over u (visit_centry file rtl i)) /\
    (forall l u, entries_tokens l u -> Forall good_token u -> over u (mapM (visit_centry file rtl) l)).
  Proof.
    apply expr_tokens_mutind.
    - intros o e ts c Ko T IH Kc G. inversion G as [|? ? _ G1]; subst. apply Forall_app in G1. destruct G1 as [G1 _]. cbn [visit_cexpr]. specialize (IH G1). revert IH. more.
    - intros t e ts K T IH G. inversion G as [|? ? _ G1]; subst. specialize (IH G1).
      assert (O : over (t :: ts) (visit_cexpr file rtl e)) by (revert IH; more).
      cbn [visit_cexpr]. unfold one_of in K. cbn in K. destruct K as [<-|[<-|[<-|[<-|[]]]]]; try exact O; (apply over_map; [exact O|eauto]).
    - intros t e1 e2 ts1 ts2 K T1 IH1 T2 IH2 G. apply Forall_app in G. destruct G as [G1 G2]. inversion G2 as [|? ? _ G3]; subst. cbn [visit_cexpr].
      destruct (binop_some t K) as [op ->]. apply over_map; [|eauto]. pose proof (over_both ts1 ts2 _ _ (IH1 G1) (IH2 G3)) as O. revert O. more.
    - intros t colon e1 e2 e3 ts1 ts2 ts3 Kt Kc T1 IH1 T2 IH2 T3 IH3 G. apply Forall_app in G. destruct G as [G1 G2]. inversion G2 as [|? ? _ G3]; subst.
      apply Forall_app in G3. destruct G3 as [G3 G4]. inversion G4 as [|? ? _ G5]; subst. cbn [visit_cexpr]. apply over_map; [|eauto].
      pose proof (over_both ts1 (ts2 ++ ts3) _ _ (IH1 G1) (over_both _ _ _ _ (IH2 G3) (IH3 G5))) as O. revert O. more.
    - intros name o c Kn Ko Kc G. cbn [visit_cexpr over]. repeat constructor; apply no_literal_fits; eapply nl; eauto; repeat split; discriminate.
    - intros name o args ts c Kn Ko T IH Kc G. inversion G as [|? ? _ G1]; subst. inversion G1 as [|? ? _ G2]; subst. apply Forall_app in G2. destruct G2 as [G2 _]. specialize (IH G2).
      cbn [visit_cexpr]. destruct args as [|a args]; [inversion T|]. apply over_map; [|eauto]. revert IH. more.
    - intros name o idx ts c Kn Ko T IH Kc G. inversion G as [|? ? _ G1]; subst. inversion G1 as [|? ? _ G2]; subst. apply Forall_app in G2. destruct G2 as [G2 _]. specialize (IH G2).
      cbn [visit_cexpr]. apply over_map; [|eauto]. revert IH. more.
    - intros t K G. cbn. repeat constructor. apply no_literal_fits. eapply nl; eauto; repeat split; discriminate.
    - intros t K G. cbn. repeat constructor. apply no_literal_fits. eapply nl; eauto; repeat split; discriminate.
    - intros t K G. cbn [visit_cexpr]. apply over_map; [|eauto]. inversion G; subst. now apply over_int.
    - intros t K G. cbn [visit_cexpr]. apply over_map; [|eauto]. now apply over_float.
    - intros e ts T IH G. specialize (IH G). cbn [mapM]. replace ts with (ts ++ [])%list by apply app_nil_r. apply over_bind; [exact IH|]. intros a _. cbn. constructor.
    - intros e ts comma es ts' T IH K Ts IHs G. apply Forall_app in G. destruct G as [G1 G2]. inversion G2 as [|? ? _ G3]; subst. cbn [mapM].
      assert (O : over (ts ++ ts')%list (let! b := visit_cexpr file rtl e in let! bs := mapM (visit_cexpr file rtl) es in Ok (b :: bs))).
      { apply over_bind; [auto|]. intros b _. apply over_map; [auto|eauto]. }
      revert O. more.
    - intros e ts T IH G. cbn [visit_centry]. apply over_map; [auto|eauto].
    - intros e1 e2 ts1 colon ts2 T1 IH1 K T2 IH2 G. apply Forall_app in G. destruct G as [G1 G2]. inversion G2 as [|? ? _ G3]; subst. cbn [visit_centry]. apply over_map; [|eauto].
      pose proof (over_both ts1 ts2 _ _ (IH1 G1) (IH2 G3)) as O. revert O. more.
    - intros i ts T IH G. specialize (IH G). cbn [mapM]. replace ts with (ts ++ [])%list by apply app_nil_r. apply over_bind; [exact IH|]. intros a _. cbn. constructor.
    - intros e ts comma es ts' T IH K Ts IHs G. apply Forall_app in G. destruct G as [G1 G2]. inversion G2 as [|? ? _ G3]; subst. cbn [mapM].
      assert (O : over (ts ++ ts')%list (let! b := visit_centry file rtl e in let! bs := mapM (visit_centry file rtl) es in Ok (b :: bs))).
      { apply over_bind; [auto|]. intros b _. apply over_map; [auto|eauto]. }
      revert O. more.
  Qed.
  Lemma params_over ps u : params_tokens ps u -> Forall good_token u -> over u (visit_cparams file rtl ps).
  Proof.
    intros T G. inversion T as [|o es ts c Ko Te Kc]; subst; [cbn; constructor|]. inversion G as [|? ? _ G1]; subst. apply Forall_app in G1. destruct G1 as [G1 _].
    pose proof (proj1 (proj2 visit_over) _ _ Te G1) as O. cbn [visit_cparams]. unfold visit_cexprs. revert O. more.
  Qed.
  Lemma gate_over g u : gate_tokens g u -> Forall good_token u -> over u (visit_cgate file rtl g).
  Proof.
    induction 1 as [t dot g ts K1 K2 T IH|t o e ts c dot g ts' K1 K2 Te K3 K4 T IH|t dot g ts K1 K2 T IH|t ps ts K T]; intros G; cbn [visit_cgate].
    - inversion G as [|? ? _ G1]; subst. inversion G1 as [|? ? _ G2]; subst. apply over_map; [|eauto]. specialize (IH G2). revert IH. more.
    - inversion G as [|? ? _ G1]; subst. inversion G1 as [|? ? _ G2]; subst. apply Forall_app in G2. destruct G2 as [G2 G3]. inversion G3 as [|? ? _ G4]; subst. inversion G4 as [|? ? _ G5]; subst.
      assert (O : over (ts' ++ ts)%list (let! i := visit_cgate file rtl g in let! e' := visit_cexpr file rtl e in Ok (Gate (token_loc file t) "pow" (Some i) [e'] []))).
      { apply over_bind; [auto|]. intros i _. apply over_map; [now apply (proj1 visit_over)|eauto]. }
      revert O. more.
    - inversion G as [|? ? _ G1]; subst. inversion G1 as [|? ? _ G2]; subst. apply over_map; [|eauto]. specialize (IH G2). revert IH. more.
    - inversion G as [|? ? _ G1]; subst. apply over_map; [|eauto]. pose proof (params_over _ _ T G1) as O. revert O. more.
  Qed.
  Lemma type_nl : Forall no_literal [T_QUBIT_TYPE; T_BIT_TYPE].
  Proof. repeat constructor; discriminate. Qed.
  Lemma type_over ty u : type_tokens ty u -> Forall good_token u -> over u (visit_ctype file ty).
  Proof.
    intros T G. inversion T as [t K|t o i c K Ko Ki Kc]; subst; unfold visit_ctype; cbn [ct_keyword ct_size].
    - cbn. repeat constructor. apply no_literal_fits. exact (nl_one_of _ _ K type_nl).
    - apply over_map; [|eauto]. assert (Gi : good_token i) by (rewrite Forall_forall in G; apply G; cbn; auto). pose proof (over_int i Ki Gi) as O. revert O. pose proof (nl_one_of _ _ K type_nl). more.
  Qed.
  Lemma form_raw_text m s : form m T_RAW_TEXT_STRING s -> exists b, s = "'''" ++ b ++ "'''" /\ closes_first b "'''".
  Proof.
    destruct m; cbn; intros F.
    - remember T_RAW_TEXT_STRING as k eqn:K. destruct F; subst; try discriminate K; try (exists s; split; [reflexivity|assumption]); exfalso; repeat (destruct H as [H|H]; [discriminate|]); destruct H.
    - inversion F.
  Qed.
  Lemma statement_over s u : statement_tokens s u -> Forall good_token u -> over u (visit_cstatement file rtl s).
  Proof.
    intros T G. inversion T as [ty ts name Tt Kn|g ts es ts' Tg Te|e1 ts1 eq t ps ts2 e2 ts3 T1 Ke Kt Tp T2|t e ts Kt Te|t e ts Kt Te|t e ts Kt Te|t o p ts c e ts' Kt Ko Tp Kc Te|t o name c code Kt Ko Kn Kc Kcode]; subst; cbn [visit_cstatement].
    - apply Forall_app in G. destruct G as [G1 _]. apply over_map; [|eauto]. pose proof (type_over _ _ Tt G1) as O. revert O. more.
    - apply Forall_app in G. destruct G as [G1 G2]. apply over_bind; [now apply gate_over|]. intros g' _. apply over_map; [|eauto]. now apply (proj1 (proj2 visit_over)).
    - apply Forall_app in G. destruct G as [G1 G2]. inversion G2 as [|? ? _ G3]; subst. inversion G3 as [|? ? _ G4]; subst. apply Forall_app in G4. destruct G4 as [G4 G5].
      assert (O : over (ts2 ++ ts1 ++ ts3)%list (let! pes := visit_cparams file rtl ps in let! e0 := visit_cexpr file rtl e1 in let! e1 := visit_cexpr file rtl e2 in Ok (SNonGate (token_loc file t) "measure" [e0; e1] pes []))).
      { apply over_bind; [now apply params_over|]. intros pes _. apply over_bind; [now apply (proj1 visit_over)|]. intros e0 _. apply over_map; [now apply (proj1 visit_over)|eauto]. }
      revert O. more.
    - inversion G as [|? ? _ G1]; subst. apply over_map; [|eauto]. pose proof (proj1 visit_over _ _ Te G1) as O. revert O. more.
    - inversion G as [|? ? _ G1]; subst. apply over_map; [|eauto]. pose proof (proj1 visit_over _ _ Te G1) as O. revert O. more.
    - inversion G as [|? ? _ G1]; subst. apply over_map; [|eauto]. pose proof (proj1 visit_over _ _ Te G1) as O. revert O. more.
    - inversion G as [|? ? _ G1]; subst. inversion G1 as [|? ? _ G2]; subst. apply Forall_app in G2. destruct G2 as [G2 G3]. inversion G3 as [|? ? _ G4]; subst.
      assert (O : over (ts ++ ts')%list (let! p' := visit_cexpr file rtl p in let! e' := visit_cexpr file rtl e in Ok (SNonGate (token_loc file t) "wait" [e'] [p'] []))).
      { apply over_bind; [now apply (proj1 visit_over)|]. intros p' _. apply over_map; [now apply (proj1 visit_over)|eauto]. }
      revert O. more.
    - assert (Gc : good_token code) by (rewrite Forall_forall in G; apply G; cbn; auto 6). destruct Gc as [m F]. unfold is in Kcode. rewrite Kcode in F.
      apply form_raw_text in F. destruct F as (b & -> & _). rewrite remove_triple_quotes_wrapped. cbn.
      repeat constructor; apply no_literal_fits; first [eapply nl; [eassumption|]|rewrite Kcode]; repeat split; discriminate.
  Qed.
  Lemma split_version_dot a b : digits a -> split_version (a ++ "." ++ b) = (a, Some b).
  Proof.
    induction a as [|c a IH]; intros D; [reflexivity|]. destruct D as [Dc D]. cbn [String.append split_version].
    destruct (Ascii.eqb_spec c ".") as [->|_]; [unfold digit, code_between in Dc; cbn in Dc; lia|]. cbn [String.append] in IH. now rewrite IH.
  Qed.
  Lemma split_version_plain a : digits a -> split_version a = (a, None).
  Proof.
    induction a as [|c a IH]; intros D; [reflexivity|]. destruct D as [Dc D]. cbn [String.append split_version].
    destruct (Ascii.eqb_spec c ".") as [->|_]; [unfold digit, code_between in Dc; cbn in Dc; lia|]. now rewrite IH.
  Qed.
  Lemma digits_no_dot a b : ~ digits (a ++ "." ++ b).
  Proof.
    intros D. induction a as [|c a IH]; [destruct D as [D _]; unfold digit, code_between in D; cbn in D; lia|]. destruct D as [_ D]. auto.
  Qed.
  Lemma dot_unique a b a' b' : digits a -> digits a' -> a ++ "." ++ b = a' ++ "." ++ b' -> a = a' /\ b = b'.
  Proof. intros D D' E. pose proof (split_version_dot a b D) as S. rewrite E, split_version_dot in S by exact D'. injection S as -> ->. auto. Qed.
  Lemma form_version m s : form m T_VERSION_NUMBER s -> (s <> "" /\ digits s) \/ exists a b, s = a ++ "." ++ b /\ a <> "" /\ digits a /\ b <> "" /\ digits b.
  Proof.
    destruct m; cbn; intros F.
    - exfalso. remember T_VERSION_NUMBER as k eqn:K. destruct F; subst; try discriminate K; repeat (destruct H as [H|H]; [discriminate|]); destruct H.
    - inversion F; subst; [left; auto|right]. exists a, b. auto.
  Qed.
  Lemma version_over t : is T_VERSION_NUMBER t -> good_token t -> over [t] (visit_cversion file t).
  Proof.
    intros K [m G]. unfold is in K. rewrite K in G. unfold visit_cversion. apply form_version in G. destruct G as [[N D]|(a & b & E & Na & Da & Nb & Db)].
    - rewrite split_version_plain by exact D. unfold get_int_value. rewrite stoll_decimal by exact D. destruct (Z.leb_spec (decimal (tk_text t)) max_int) as [L|L]; cbn [bind over].
      + constructor; [|constructor]. intros k s col Li. inversion Li; subst; try congruence; try exact L; (exfalso; match goal with E : tk_text _ = ?a ++ "." ++ ?b |- _ => rewrite E in D; exact (digits_no_dot a b D) end).
      + exists t. split; [now left|]. exists T_INTEGER_LITERAL, (tk_text t), (tk_col t). split; [now constructor|]. split; [intros X; cbn [literal_fits] in X; lia|reflexivity].
    - rewrite E, split_version_dot by exact Da. unfold get_int_value. rewrite (stoll_decimal a) by exact Da. destruct (Z.leb_spec (decimal a) max_int) as [L|L]; cbn [bind over].
      + rewrite (stoll_decimal b) by exact Db. destruct (Z.leb_spec (decimal b) max_int) as [L'|L']; cbn [bind over].
        * constructor; [|constructor]. intros k s col Li. inversion Li as [| |_ D|a' b' _ E' Da' Db'|a' b' _ E' Da' Db']; subst; try congruence.
          -- exfalso. rewrite E in D. exact (digits_no_dot _ _ D).
          -- rewrite E in E'. apply dot_unique in E'; auto. destruct E' as [-> _]. exact L.
          -- rewrite E in E'. apply dot_unique in E'; auto. destruct E' as [_ ->]. exact L'.
        * exists t. split; [now left|]. exists T_INTEGER_LITERAL, b, (tk_col t + N.of_nat (String.length a) + 1)%N. split; [now apply (lit_minor t a b)|]. split; [intros X; cbn [literal_fits] in X; lia|reflexivity].
      + exists t. split; [now left|]. exists T_INTEGER_LITERAL, a, (tk_col t). split; [now apply (lit_major t a b)|]. split; [intros X; cbn [literal_fits] in X; lia|reflexivity].
  Qed.
  Lemma separator_nl : Forall no_literal [T_NEW_LINE; T_SEMICOLON].
  Proof. repeat constructor; discriminate. Qed.
  Lemma separators_nl seps t : Forall separator seps -> In t seps -> no_literal (tk_kind t).
  Proof. rewrite Forall_forall. intros F H. exact (nl_one_of _ _ (F t H) separator_nl). Qed.
  Lemma inner_plain u : Forall inner u -> Forall plain u.
  Proof. apply Forall_impl. intros t (E & _ & N). split; [intros K; rewrite K in E; discriminate|exact N]. Qed.
  Lemma statement_plain s u : statement_tokens s u -> Forall plain u.
  Proof.
    intros T. inversion T as [ty ts name Tt Kn|g ts es ts' Tg Te|e1 ts1 eq t ps ts2 e2 ts3 T1 Ke Kt Tp T2|t e ts Kt Te|t e ts Kt Te|t e ts Kt Te|t o p ts c e ts' Kt Ko Tp Kc Te|t o name c code Kt Ko Kn Kc Kcode]; subst; unfold is in *;
      repeat match goal with
      | H : type_tokens _ _ |- _ => inversion H; subst; clear H
      | |- Forall _ (_ ++ _) => apply Forall_app; split
      | |- Forall _ (_ :: _) => constructor; [try (split; congruence)|]
      | |- Forall _ [] => constructor
      | H : expr_tokens _ ?u |- Forall _ ?u => apply inner_plain; exact (proj1 expr_inner _ _ H)
      | H : exprs_tokens _ ?u |- Forall _ ?u => apply inner_plain; exact (proj1 (proj2 expr_inner) _ _ H)
      | H : params_tokens _ ?u |- Forall _ ?u => apply inner_plain; exact (params_inner _ _ H)
      | H : gate_tokens _ ?u |- Forall _ ?u => apply inner_plain; exact (gate_inner _ _ H)
      | H : one_of _ ?t |- plain ?t => unfold one_of in H; cbn in H; destruct H as [H|[H|[]]]; split; rewrite <- H; discriminate
      end.
  Qed.
  Definition good_or_eof (t : token) : Prop := good_token t \/ tk_kind t = T_EOF.
  Lemma plain_good u : Forall plain u -> Forall good_or_eof u -> Forall good_token u.
  Proof. intros I G. rewrite Forall_forall in *. intros t Ht. destruct (G t Ht) as [X|X]; [exact X|]. destruct (proj1 (I t Ht) X). Qed.
  Lemma block_over ss u : block_tokens ss u -> Forall good_or_eof u -> over u (mapM (visit_cstatement file rtl) ss).
  Proof.
    induction 1 as [seps eof F Ke|seps s ts ss ts' F Ne Ts Tb IH]; intros G; cbn [mapM].
    - cbn [over]. apply Forall_app. split; [rewrite Forall_forall; intros t Ht; apply no_literal_fits; exact (separators_nl _ _ F Ht)|]. constructor; [|constructor].
      apply no_literal_fits, (nl _ _ Ke). repeat split; discriminate.
    - apply Forall_app in G. destruct G as [_ G]. apply Forall_app in G. destruct G as [G1 G2].
      assert (O : over (ts ++ ts')%list (let! b := visit_cstatement file rtl s in let! bs := mapM (visit_cstatement file rtl) ss in Ok (b :: bs))).
      { apply over_bind; [apply statement_over; [exact Ts|]; apply plain_good; [exact (statement_plain _ _ Ts)|exact G1]|]. intros b _. apply over_map; [auto|eauto]. }
      revert O. pose proof (separators_nl seps) as SN. apply over_more; [intros t; rewrite !in_app_iff; tauto|]. intros t Ht. rewrite !in_app_iff in *. destruct Ht as [Ht|Ht]; [right; auto|tauto].
  Qed.
  Lemma program_over p u : program_tokens p u -> Forall good_or_eof u -> over u (visit_cprogram file rtl p).
  Proof.
    intros T G. destruct T as [seps v n ss ts F Kv Kn Tb]. apply Forall_app in G. destruct G as [_ G]. inversion G as [|? ? _ G1]; subst. inversion G1 as [|? ? Gn G2]; subst.
    unfold visit_cprogram. cbn [cp_version cp_statements].
    assert (Gn' : good_token n) by (destruct Gn as [X|X]; [exact X|unfold is in Kn; congruence]).
    assert (O : over ([n] ++ ts)%list (let! v := visit_cversion file n in let! ss := mapM (visit_cstatement file rtl) ss in Ok (mkProgram v (token_loc file n) ss None))).
    { apply over_bind; [now apply version_over|]. intros x _. apply over_map; [now apply block_over|eauto]. }
    revert O. pose proof (separators_nl seps) as SN. apply over_more; [intros t; rewrite !in_app_iff; cbn [In]; tauto|]. intros t Ht. cbn [app In] in *. rewrite in_app_iff in Ht. cbn [In] in Ht.
    destruct Ht as [Ht|[<-|Ht]]; [right; auto|right; apply (nl _ _ Kv); repeat split; discriminate|tauto].
  Qed.
End Visitor.

(** ** Parsing a text *)
Lemma strip_bom_text data : text_of data (strip_bom data).
Proof.
  unfold strip_bom, text_of. destruct (starts_with utf8_bom data) eqn:E.
  - apply starts_with_iff in E. destruct E as [r ->]. left. change (drop 3 (utf8_bom ++ r)) with (drop (String.length utf8_bom) (utf8_bom ++ r)). now rewrite drop_append.
  - right. split; [reflexivity|]. intros [r ->]. assert (X : starts_with utf8_bom (byte_order_mark ++ r) = true) by (apply starts_with_iff; now exists r). congruence.
Qed.
Lemma text_of_unique data s s' : text_of data s -> text_of data s' -> s = s'.
Proof.
  intros [->|[-> N]] [E|[E N']]; try congruence.
  - now apply append_inj_l in E.
  - destruct N'. now exists s.
  - destruct N. now exists s'.
Qed.
Lemma separators_plain seps : Forall separator seps -> Forall plain seps.
Proof. apply Forall_impl. intros t H. unfold separator, one_of in H. cbn in H. destruct H as [H|[H|[]]]; split; rewrite <- H; discriminate. Qed.
Lemma program_plain p w : program_tokens p w -> exists u x, w = (u ++ [x])%list /\ Forall plain u /\ tk_kind x = T_EOF.
Proof.
  intros T. destruct T as [seps v n ss ts F Kv Kn Tb].
  assert (exists u x, ts = (u ++ [x])%list /\ Forall plain u /\ tk_kind x = T_EOF) as (u & x & -> & P & K).
  { induction Tb as [seps' eof F' Ke|seps' s ts ss ts' F' Ne Ts Tb (u & x & -> & P & K)].
    - exists seps', eof. split; [reflexivity|]. split; [now apply separators_plain|exact Ke].
    - exists (seps' ++ ts ++ u)%list, x. split; [now rewrite <- !app_assoc|]. split; [|exact K]. apply Forall_app. split; [now apply separators_plain|]. apply Forall_app. split; [eapply statement_plain; eauto|exact P]. }
  exists (seps ++ v :: n :: u)%list, x. split; [now rewrite <- app_assoc|]. split; [|exact K]. unfold is in *. apply Forall_app. split; [now apply separators_plain|].
  constructor; [split; congruence|]. constructor; [split; congruence|exact P].
Qed.
(** The parser reads a text to its end. *)
Lemma parse_body body eof p r : Forall good_token body -> ~ plain eof -> parse_program (body ++ [eof]) = POk p r ->
  r = [eof] /\ tk_kind eof = T_EOF /\ program_tokens p (body ++ [eof]) /\ binds_program p.
Proof.
  intros G N H. apply program_sound in H. destruct H as (u & Eu & K & B & Tp).
  assert (R : r = [eof] /\ tk_kind eof = T_EOF).
  { destruct r as [|x r'].
    - rewrite app_nil_r in Eu. exfalso. specialize (Tp (mkToken T_EOF "" 0 0) eq_refl). apply program_plain in Tp. destruct Tp as (w & x & Ew & Pw & _). apply app_inj_tail in Ew. destruct Ew as [<- _].
      rewrite <- Eu in Pw. apply Forall_app in Pw. destruct Pw as [_ Pw]. now inversion Pw.
    - cbn in K. destruct (exists_last (l := x :: r') ltac:(discriminate)) as (r2 & y & Er). rewrite Er in Eu. rewrite app_assoc in Eu. apply app_inj_tail in Eu. destruct Eu as [Eb <-].
      destruct r2 as [|z r2]; [injection Er as -> ->; auto|]. exfalso. injection Er as <- _. rewrite Forall_forall in G.
      assert (Hz : In x body) by (rewrite Eb; apply in_or_app; right; now left). apply G, good_token_kind in Hz. destruct Hz; contradiction. }
  destruct R as [-> Ke]. apply app_inj_tail in Eu. destruct Eu as [-> _]. auto.
Qed.

(** The three outcomes of the parser on a text that is UTF-8 *)
Lemma end_not_plain rest line col : ~ plain (end_token rest line col).
Proof. intros [H1 H2]. destruct rest; cbn in *; auto. Qed.
Lemma scan_cases file rtl data s : text_of data s -> valid_utf8 s = true ->
  (exists ts p, tokens_of s ts /\ sentence ts /\ Forall literals_fit ts /\ scan file rtl data = Ok p) \/
  (exists ts t e, tokens_of s ts /\ sentence ts /\ In t ts /\ range_error file t e /\ scan file rtl data = Err e) \/
  ((forall ts, tokens_of s ts -> ~ sentence ts) /\ exists e, scan file rtl data = Err e).
Proof.
  intros T V. pose proof (text_of_unique _ _ _ (strip_bom_text data) T) as E. unfold scan. rewrite E, V. cbn [negb].
  destruct (tokenize_spec s) as (ls & rest & body & line & col & L & Ta & G & Et & P). rewrite Et.
  assert (Tk : forall ts, tokens_of s ts -> ts = (body ++ [end_token rest line col])%list).
  { intros ts H. apply tokenize_tokens_of in H. destruct H as [H _]. congruence. }
  destruct (parse_program (body ++ [end_token rest line col])) as [p r|r|] eqn:Pp; [| |destruct (program_fuel _ Pp)].
  - apply parse_body in Pp; [|exact G|apply end_not_plain]. destruct Pp as (-> & Ke & Tp & B).
    assert (To : tokens_of s (body ++ [end_token rest line col])) by (apply tokenize_tokens_of; split; [exact Et|]; eauto).
    assert (Ge : Forall good_or_eof (body ++ [end_token rest line col])).
    { apply Forall_app. split; [apply Forall_impl with (2 := G); intros t H; now left|]. constructor; [now right|constructor]. }
    pose proof (program_over file rtl p _ Tp Ge) as O. destruct (visit_cprogram file rtl p) as [q|e| |]; cbn in O; try contradiction.
    + left. exists (body ++ [end_token rest line col])%list, q. split; [exact To|]. split; [now exists p|]. auto.
    + right; left. destruct O as (t & Ht & R). exists (body ++ [end_token rest line col])%list, t, e. split; [exact To|]. split; [now exists p|]. auto.
  - right; right. split; [|eauto]. intros ts H [p Hp]. rewrite (Tk ts H) in Hp. destruct (program_arrange _ _ Hp) as (p' & Hp' & B). destruct (program_complete _ _ Hp' B) as (eof & _ & X). congruence.
Qed.
