(** Every sentence of the grammar is parsed (C63). *)
From Coq Require Import ZifyBool ZifyN ZifyNat.
From Verif Require Import Base ModelLexer ModelParser SpecParser ProofsParser ProofsParser2 ProofsParser3 ProofsParser4.

(** Rearrange [c1 o c2], both sides arranged already. *)
Lemma tight_or c : (exists t a b, c = CBinary t a b) \/ (exists t a e b, c = CTernary t a e b) \/ forall p, binds p c -> binds 13 c.
Proof.
  destruct c; try (right; right; intros p B; inversion B; subst; now constructor).
  - left. eauto.
  - right; left. eauto.
Qed.
Lemma combine c2 : forall t2, expr_tokens c2 t2 -> forall p2, binds p2 c2 -> forall o, good_operator o -> forall c1 t1, expr_tokens c1 t1 -> binds 0 c1 ->
  exists c, expr_tokens c (t1 ++ op_tokens o ++ t2) /\ binds 0 c.
Proof.
  assert (Ins : forall c2 t2, expr_tokens c2 t2 -> binds 13 c2 -> forall o, good_operator o -> forall c1 t1, expr_tokens c1 t1 -> binds 0 c1 ->
    exists c, expr_tokens c (t1 ++ op_tokens o ++ t2) /\ binds 0 c).
  { clear c2. intros c2 t2 T2 B2 o G c1 t1 T1 B1. exists (insert o c1 c2). split; [now apply insert_tokens|]. apply insert_binds; auto; lia. }
  intros t2 T2. induction T2 as [o' e ts c Ko T _ Kc|t e ts Kt T _|t e1 e2 ts1 ts2 Kt T1 IH1 T2 IH2|t colon e1 e2 e3 ts1 ts2 ts3 Kt Kc T1 IH1 T2 IH2 T3 IH3|name o' c Kn|name o' args ts c Kn|name o' idx ts c Kn|t Kt|t Kt|t Kt|t Kt];
    intros p2 B2 o G c1 t1 U1 B1;
    try (match type of B2 with binds _ ?c => eapply (Ins c) end; [econstructor; eassumption|inversion B2; subst; constructor; auto; lia|exact G|exact U1|exact B1]).
  - assert (exists q1, binds q1 e1) as [q1 Q1] by (inversion B2; subst; eauto). assert (exists q2, binds q2 e2) as [q2 Q2] by (inversion B2; subst; eauto).
    destruct (IH1 _ Q1 o G c1 t1 U1 B1) as (c & Tc & Bc). destruct (IH2 _ Q2 (binary_operator t) (binary_operator_good t Kt) c _ Tc Bc) as (c' & Tc' & Bc').
    exists c'. split; [|exact Bc']. cbn [binary_operator op_tokens] in Tc'. now rewrite <- !app_assoc in Tc'.
  - inversion B2 as [? ? ? ? Q1 Q2 Q3| | | | | | | | | |]; subst.
    destruct (IH1 _ Q1 o G c1 t1 U1 B1) as (c & Tc & Bc). destruct (IH3 _ Q3 _ (ternary_operator_good t colon e2 ts2 Kt Kc T2 Q2) c _ Tc Bc) as (c' & Tc' & Bc').
    exists c'. split; [|exact Bc']. cbn [ternary_operator op_tokens] in Tc'. rewrite <- !app_assoc in Tc'. cbn [app] in Tc'. rewrite <- !app_assoc in Tc'. exact Tc'.
Qed.
(** A prefix operator before an arranged expression. *)
Fixpoint prefix (t : token) (c : cexpr) : cexpr :=
  match c with
  | CBinary t' a b => CBinary t' (prefix t a) b
  | CTernary t' a e b => CTernary t' (prefix t a) e b
  | _ => CUnary t c
  end.
Lemma prefix_tokens t c u : one_of prefix_operators t -> expr_tokens c u -> expr_tokens (prefix t c) (t :: u).
Proof.
  intros K T. induction T as [o' e ts c Ko T _ Kc|t' e ts Kt T _|t' e1 e2 ts1 ts2 Kt T1 IH1 T2 IH2|t' colon e1 e2 e3 ts1 ts2 ts3 Kt Kc T1 IH1 T2 IH2 T3 IH3|name o' c Kn|name o' args ts c Kn|name o' idx ts c Kn|t' Kt|t' Kt|t' Kt|t' Kt];
    cbn [prefix]; try (apply et_unary; [exact K|econstructor; eassumption]).
  - rewrite app_comm_cons. now apply et_binary.
  - rewrite app_comm_cons. now apply et_ternary.
Qed.
Lemma prefix_binds t p c : binds p c -> binds p (prefix t c).
Proof.
  induction 1; cbn [prefix]; try (apply b_unary; [assumption|constructor; auto]); try (now constructor).
  - now apply (b_power _ n).
  - now apply (b_binary _ n).
Qed.
Lemma arrange :
  (forall e u, expr_tokens e u -> exists e', expr_tokens e' u /\ binds 0 e') /\
  (forall es u, exprs_tokens es u -> exists es', exprs_tokens es' u /\ binds_all es') /\
  (forall i u, entry_tokens i u -> exists i', entry_tokens i' u /\ binds_entries [i']) /\
  (forall l u, entries_tokens l u -> exists l', entries_tokens l' u /\ binds_entries l').
Proof.
  apply expr_tokens_mutind.
  - intros o e ts c Ko T (e' & T' & B') Kc. exists (CParens e'). split; [now constructor|constructor; [lia|exact B']].
  - intros t e ts K T (e' & T' & B'). exists (prefix t e'). split; [now apply prefix_tokens|now apply prefix_binds].
  - intros t e1 e2 ts1 ts2 K T1 (e1' & T1' & B1') T2 (e2' & T2' & B2').
    exact (combine _ _ T2' _ B2' (binary_operator t) (binary_operator_good _ K) _ _ T1' B1').
  - intros t colon e1 e2 e3 ts1 ts2 ts3 Kt Kc T1 (e1' & T1' & B1') T2 (e2' & T2' & B2') T3 (e3' & T3' & B3').
    destruct (combine _ _ T3' _ B3' _ (ternary_operator_good t colon _ _ Kt Kc T2' B2') _ _ T1' B1') as (c & T & B). exists c. split; [|exact B].
    cbn [ternary_operator op_tokens app] in T. rewrite <- app_assoc in T. exact T.
  - intros name o c Kn Ko Kc. exists (CCall name []). split; [now constructor|repeat constructor].
  - intros name o args ts c Kn Ko T (es & T' & B') Kc. exists (CCall name es). split; [now constructor|constructor; [lia|exact B']].
  - intros name o idx ts c Kn Ko T (es & T' & B') Kc. exists (CIndex name es). split; [now constructor|constructor; [lia|exact B']].
  - intros t K. exists (CIdent t). split; [now constructor|constructor; lia].
  - intros t K. exists (CBool t). split; [now constructor|constructor; lia].
  - intros t K. exists (CInt t). split; [now constructor|constructor; lia].
  - intros t K. exists (CFloat t). split; [now constructor|constructor; lia].
  - intros e ts T (e' & T' & B'). exists [e']. split; [now constructor|repeat constructor; exact B'].
  - intros e ts comma es ts' T (e' & T' & B') K Ts (es' & Ts' & Bs'). exists (e' :: es'). split; [now constructor|now constructor].
  - intros e ts T (e' & T' & B'). exists (CItem e'). split; [now constructor|now repeat constructor].
  - intros e1 e2 ts1 colon ts2 T1 (e1' & T1' & B1') K T2 (e2' & T2' & B2'). exists (CRange e1' e2'). split; [now constructor|now repeat constructor].
  - intros i ts T (i' & T' & B'). exists [i']. split; [now constructor|exact B'].
  - intros i ts comma es ts' T (i' & T' & B') K Ts (es' & Ts' & Bs'). exists (i' :: es'). split; [now constructor|]. inversion B'; subst; now constructor.
Qed.

(** An operand that begins with a parenthesised expression followed by + or -. *)
Lemma split_params e u : expr_tokens e u -> starts_like_params e ->
  exists o x ux c e' u', u = o :: ux ++ c :: u' /\ is T_OPEN_PARENS o /\ expr_tokens x ux /\ is T_CLOSE_PARENS c /\ expr_tokens e' u'.
Proof.
  intros T. induction T as [o' e ts c Ko T _ Kc|t' e ts Kt T _|t' e1 e2 ts1 ts2 Kt T1 IH1 T2 IH2|t' colon e1 e2 e3 ts1 ts2 ts3 Kt Kc T1 IH1 T2 IH2 T3 IH3|name o' c Kn|name o' args ts c Kn|name o' idx ts c Kn|t' Kt|t' Kt|t' Kt|t' Kt];
    intros S; try contradiction S.
  - assert (Case : (exists x, e1 = CParens x) \/ starts_like_params e1) by (destruct e1; cbn in S; eauto).
    destruct Case as [[x ->]|S'].
    + inversion T1 as [o x' ux c Ko Tx Kc| | | | | | | | | |]; subst. cbn in S. exists o, x, ux, c, (CUnary t' e2), (t' :: ts2).
      split; [cbn; now rewrite <- app_assoc|]. repeat (split; [assumption|]). apply et_unary; [|exact T2].
      unfold one_of in *. cbn in S. destruct S as [<-|[<-|[]]]; cbn; auto.
    + destruct (IH1 S') as (o & x & ux & c & e' & u' & -> & Ko & Tx & Kc & Te). exists o, x, ux, c, (CBinary t' e' e2), (u' ++ t' :: ts2).
      split; [cbn; now rewrite <- app_assoc|]. repeat (split; [assumption|]). now apply et_binary.
  - destruct (IH1 S) as (o & x & ux & c & e' & u' & -> & Ko & Tx & Kc2 & Te). exists o, x, ux, c, (CTernary t' e' e2 e3), (u' ++ t' :: ts2 ++ colon :: ts3).
    split; [cbn; now rewrite <- app_assoc|]. repeat (split; [assumption|]). now apply et_ternary.
Qed.
Lemma starts_like_params_dec e : {starts_like_params e} + {~ starts_like_params e}.
Proof.
  assert (D : forall ks t, {one_of ks t} + {~ one_of ks t}) by (intros ks t; apply in_dec; decide equality).
  induction e; cbn [starts_like_params]; auto. destruct e1; auto; apply D.
Qed.
Lemma without_params_dec g : {without_params g} + {~ without_params g}.
Proof. induction g as [| | |t [es|]]; cbn; auto. right; discriminate. Qed.
Fixpoint with_params (g : cgate) (es : list cexpr) : cgate :=
  match g with
  | CInv t g => CInv t (with_params g es)
  | CCtrl t g => CCtrl t (with_params g es)
  | CPow t e g => CPow t e (with_params g es)
  | CNamed t _ => CNamed t (Some es)
  end.
Lemma with_params_tokens g u es v : gate_tokens g u -> without_params g -> params_tokens (Some es) v -> gate_tokens (with_params g es) (u ++ v).
Proof.
  intros T W V. induction T as [t dot g ts K1 K2 T IH|t o e ts c dot g ts' K1 K2 Te K3 K4 T IH|t dot g ts K1 K2 T IH|t ps ts K T]; cbn [with_params without_params app] in *.
  - now constructor; auto.
  - rewrite <- app_assoc. cbn [app]. now constructor; auto.
  - now constructor; auto.
  - subst ps. inversion T; subst. now constructor.
Qed.
Lemma with_params_binds g es : binds_gate g -> binds_all es -> binds_gate (with_params g es).
Proof. induction g; cbn; tauto. Qed.
Lemma with_params_not g es : ~ without_params (with_params g es).
Proof. induction g; cbn; auto. discriminate. Qed.
Lemma params_arrange ps u : params_tokens ps u -> exists ps', params_tokens ps' u /\ binds_params ps' /\ (ps' = None <-> ps = None).
Proof.
  intros T. inversion T as [|o es ts c Ko Te Kc]; subst.
  - exists None. repeat split; auto.
  - destruct (proj1 (proj2 arrange) _ _ Te) as (es' & T' & B'). exists (Some es'). split; [now constructor|]. split; [exact B'|split; discriminate].
Qed.
Lemma gate_arrange g u : gate_tokens g u -> exists g', gate_tokens g' u /\ binds_gate g'.
Proof.
  induction 1 as [t dot g ts K1 K2 T (g' & T' & B')|t o e ts c dot g ts' K1 K2 Te K3 K4 T (g' & T' & B')|t dot g ts K1 K2 T (g' & T' & B')|t ps ts K T].
  - exists (CInv t g'). split; [now constructor|exact B'].
  - destruct (proj1 arrange _ _ Te) as (e' & Te' & Be'). exists (CPow t e' g'). split; [now constructor|split; assumption].
  - exists (CCtrl t g'). split; [now constructor|exact B'].
  - destruct (params_arrange _ _ T) as (ps' & T' & B' & _). exists (CNamed t ps'). split; [now constructor|exact B'].
Qed.
Lemma statement_arrange s u : statement_tokens s u -> exists s', statement_tokens s' u /\ binds_statement s'.
Proof.
  intros T. inversion T as [ty ts name Tt Kn|g ts es ts' Tg Te|e1 ts1 eq t ps ts2 e2 ts3 T1 Ke Kt Tp T2|t e ts Kt Te|t e ts Kt Te|t e ts Kt Te|t o p ts c e ts' Kt Ko Tp Kc Te|t o name c code Kt Ko Kn Kc Kcode]; subst.
  - eexists. split; [exact T|exact I].
  - destruct (gate_arrange _ _ Tg) as (g' & Tg' & Bg'). destruct (proj1 (proj2 arrange) _ _ Te) as (es' & Te' & Be').
    destruct (without_params_dec g') as [W|W]; [|exists (CGateInstr g' es'); split; [now constructor|cbn; tauto]].
    assert (Plain : match es' with e :: _ => ~ starts_like_params e | [] => True end -> exists s', statement_tokens s' (ts ++ ts') /\ binds_statement s').
    { intros X. exists (CGateInstr g' es'). split; [now constructor|cbn; tauto]. }
    destruct es' as [|e es']; [now apply Plain|]. destruct (starts_like_params_dec e) as [S|S]; [|now apply Plain]. clear Plain.
    assert (Out : forall v w tl, expr_tokens e v -> ts' = v ++ w -> (forall e' v', expr_tokens e' v' -> binds 0 e' -> exprs_tokens (e' :: tl) (v' ++ w)) -> binds_all tl -> exists s', statement_tokens s' (ts ++ ts') /\ binds_statement s').
    { intros v w tl Tv -> Tl Bl. destruct (split_params _ _ Tv S) as (o & x & ux & c & e' & u' & -> & Ko & Tx & Kc & Te'').
      destruct (proj1 arrange _ _ Tx) as (x' & Tx' & Bx'). destruct (proj1 arrange _ _ Te'') as (e2 & Te2 & Be2).
      exists (CGateInstr (with_params g' [x']) (e2 :: tl)). split.
      - replace (ts ++ (o :: ux ++ c :: u') ++ w) with ((ts ++ o :: ux ++ [c]) ++ (u' ++ w)) by (rewrite <- !app_assoc; cbn; rewrite <- !app_assoc; reflexivity).
        constructor; [apply with_params_tokens; auto; constructor; auto; now constructor|now apply Tl].
      - cbn. split; [apply with_params_binds; auto; repeat constructor; auto|]. split; [now constructor|]. intros X. destruct (with_params_not _ _ X). }
    inversion Be' as [|? ? Be Bes]; subst. inversion Te' as [? ? Te1|? ? comma ? w Te1 Kcomma Tes]; subst.
    + apply (Out ts' [] [] Te1); [now rewrite app_nil_r|intros; rewrite app_nil_r; now constructor|constructor].
    + eapply (Out _ (comma :: w) es' Te1); [reflexivity|intros; now constructor|exact Bes].
  - destruct (proj1 arrange _ _ T1) as (e1' & T1' & B1'). destruct (proj1 arrange _ _ T2) as (e2' & T2' & B2'). destruct (params_arrange _ _ Tp) as (ps' & Tp' & Bp' & _).
    assert (Plain : (ps' = None -> ~ starts_like_params e2') -> exists s', statement_tokens s' (ts1 ++ eq :: t :: ts2 ++ ts3) /\ binds_statement s').
    { intros X. exists (CMeasure t e1' ps' e2'). split; [now constructor|cbn; tauto]. }
    destruct ps' as [es|]; [apply Plain; discriminate|]. destruct (starts_like_params_dec e2') as [S|S]; [|now apply Plain].
    inversion Tp'; subst. destruct (split_params _ _ T2' S) as (o & x & ux & c & e' & u' & -> & Ko & Tx & Kc & Te'').
    destruct (proj1 arrange _ _ Tx) as (x' & Tx' & Bx'). destruct (proj1 arrange _ _ Te'') as (e3 & Te3 & Be3).
    exists (CMeasure t e1' (Some [x']) e3). split.
    + replace ([] ++ o :: ux ++ c :: u') with ((o :: ux ++ [c]) ++ u') by (cbn; rewrite <- app_assoc; reflexivity). constructor; auto. constructor; auto. now constructor.
    + cbn. split; [exact B1'|]. split; [now repeat constructor|]. split; [exact Be3|discriminate].
  - destruct (proj1 arrange _ _ Te) as (e' & T' & B'). exists (CReset t e'). split; [now constructor|exact B'].
  - destruct (proj1 arrange _ _ Te) as (e' & T' & B'). exists (CInit t e'). split; [now constructor|exact B'].
  - destruct (proj1 arrange _ _ Te) as (e' & T' & B'). exists (CBarrier t e'). split; [now constructor|exact B'].
  - destruct (proj1 arrange _ _ Te) as (e' & T' & B'). destruct (proj1 arrange _ _ Tp) as (p' & Tp' & Bp'). exists (CWait t p' e'). split; [now constructor|split; assumption].
  - eexists. split; [exact T|exact I].
Qed.
Lemma program_arrange p u : program_tokens p u -> exists p', program_tokens p' u /\ binds_program p'.
Proof.
  intros T. destruct T as [seps v n ss ts F Kv Kn Tb].
  assert (exists ss', block_tokens ss' ts /\ Forall binds_statement ss') as (ss' & Tb' & B).
  { induction Tb as [seps' eof F' Ke|seps' s ts ss ts' F' Ne Ts Tb (ss' & Tb' & B')]; [exists []; split; [now constructor|constructor]|].
    destruct (statement_arrange _ _ Ts) as (s' & Ts' & Bs'). exists (s' :: ss'). split; [now constructor|now constructor]. }
  exists (mkCProgram n ss'). split; [now constructor|exact B].
Qed.

(** The sentences of the grammar are those the parser accepts, and the tree is the one by precedence. *)
Theorem parse_program_iff ts p eof : is T_EOF eof ->
  (exists body, ts = body ++ [eof] /\ Forall (fun t => tk_kind t <> T_EOF) body) ->
  (parse_program ts = POk p [eof] <-> program_tokens p ts /\ binds_program p).
Proof.
  intros Ke (body & -> & N). split.
  - intros H. apply program_sound in H. destruct H as (u & E & K & B & T). apply app_inj_tail in E. destruct E as [-> _]. split; [now apply T|exact B].
  - intros [T B]. destruct (program_complete _ _ T B) as (eof' & Ke' & P). rewrite P. apply program_sound in P. destruct P as (u & E & _). apply app_inj_tail in E. now destruct E as [_ ->].
Qed.
