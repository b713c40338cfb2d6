(** Tokens of a text whose layout is changed: replacing layout (C47, C54). *)
From Coq Require Import ZifyBool ZifyN ZifyNat.
From Verif Require Import Base ModelUtils ModelLexer SpecUtils SpecLexer SpecLayout ProofsUtils ProofsLexer ProofsLexer2 ProofsLexer3 ProofsTree ProofsLayout3 ProofsLayout4.
Local Open Scope string_scope.

(** ** Sequences of lexemes *)
Lemma spelled_cons l ls : spelled (l :: ls) = lx_text l ++ spelled ls.
Proof. unfold spelled. destruct ls as [|l' ls]; cbn; [now rewrite append_nil_r|reflexivity]. Qed.
Lemma spelled_app a b : spelled (a ++ b)%list = spelled a ++ spelled b.
Proof. induction a as [|l a IH]; cbn [app]; [reflexivity|]. now rewrite !spelled_cons, IH, append_assoc. Qed.
Definition modes (m : lex_mode) (ls : list lexeme) : lex_mode := fold_left (fun m l => mode_after m (lx_kind l)) ls m.
Lemma tokenisation_text m s ls rest : tokenisation m s ls rest -> s = spelled ls ++ rest.
Proof. exact (tokenisation_lossless m s ls rest). Qed.
Lemma tokenisation_app a : forall m s b rest, tokenisation m s (a ++ b)%list rest -> exists t, s = spelled a ++ t /\ tokenisation (modes m a) t b rest.
Proof.
  induction a as [|l a IH]; intros m s b rest H; cbn [app] in H; [exists s; auto|]. inversion H as [| |? k u v ls ? F M R T]; subst. destruct (IH _ _ _ _ T) as (t & -> & T'). exists t.
  split; [now rewrite spelled_cons, append_assoc|exact T'].
Qed.
Lemma star_first m k s : form m k (String "*" s) -> In k [T_PRODUCT_OP; T_POWER_OP].
Proof.
  destruct m; cbn [form]; intros H.
  - inversion H as [k' s' I|k' s' I|s' N B|s' B|s' C| | |s' N D|a b e Da Db N He|c' s' Lc B|s' C]; subst.
    + sign_cases I; cbn; auto.
    + sign_cases I.
    + exfalso. destruct B as [[B|B] _]; discriminate B.
    + exfalso. destruct D as [D _]. unfold digit, code_between in D. cbn in D. lia.
    + exfalso. match goal with E : _ = String _ s |- _ => apply float_first in E; [|exact Da]; destruct E as [E|E]; [unfold digit, code_between in E; cbn in E; lia|discriminate E] end.
    + exfalso. unfold letter, code_between in Lc. cbn in Lc. intuition (lia || discriminate).
  - inversion H as [s' N B|s' N D|a b Na Da Nb Db]; subst.
    + exfalso. destruct B as [[B|B] _]; discriminate B.
    + exfalso. destruct D as [D _]. unfold digit, code_between in D. cbn in D. lia.
    + exfalso. destruct a as [|x a]; [now destruct Na|]. match goal with E : _ = String _ s |- _ => injection E as -> _ end. destruct Da as [D _]. unfold digit, code_between in D. cbn in D. lia.
Qed.
(** A layout lexeme starts with a character that stops tokens. *)
Lemma layout_first l : layout l -> exists c s, lx_text l = String c s /\ stopb c = true /\ c <> "*"%char /\
  (blank c -> lx_kind l = T_WHITE_SPACE) /\ (c = "/"%char -> In (lx_kind l) comment_kinds) /\ (lx_kind l = T_NEW_LINE -> line_end c).
Proof.
  destruct l as [k u]. intros [K F]. cbn [lx_kind lx_text] in *. inversion F as [k' s' I|k' s' I|s' N B|s' B|s' C| | |s' N D|a b e Da Db N He|c' s' Lc B|s' C]; subst;
    try (exfalso; cbn in K; intuition discriminate).
  - assert (Ek : k = T_SEMICOLON) by (clear F; cbn in I; repeat (destruct I as [I|I]; [injection I as <- <-; try reflexivity; exfalso; cbn in K; intuition discriminate|]); contradiction).
    subst k. assert (u = ";") as -> by (clear F; cbn in I; repeat (destruct I as [I|I]; [try discriminate I; now injection I|]); contradiction). exists ";"%char, "". split; [reflexivity|]. split; [reflexivity|]. split; [discriminate|]. split; [intros [H|H]; discriminate H|]. split; [discriminate|discriminate].
  - exfalso. clear F. cbn in I. repeat (destruct I as [I|I]; [injection I as <- <-; cbn in K; intuition discriminate|]). contradiction.
  - destruct u as [|c s]; [congruence|]. destruct B as [B _]. exists c, s. split; [reflexivity|]. split; [unfold stopb; now rewrite (blank_head c B)|].
    split; [intros ->; destruct B as [B|B]; discriminate B|]. split; [reflexivity|]. split; [intros ->; destruct B as [B|B]; discriminate B|discriminate].
  - exists "/"%char, ("/" ++ s'). split; [reflexivity|]. split; [reflexivity|]. split; [discriminate|]. split; [intros [H|H]; discriminate H|]. split; [cbn; auto|discriminate].
  - exists "/"%char, ("*" ++ s' ++ "*/"). split; [reflexivity|]. split; [reflexivity|]. split; [discriminate|]. split; [intros [H|H]; discriminate H|]. split; [cbn; auto|discriminate].
  - exists (ascii_of_N 10), "". split; [reflexivity|]. split; [reflexivity|]. split; [discriminate|]. split; [intros [H|H]; discriminate H|]. split; [discriminate|now left].
  - exists (ascii_of_N 13), LF. split; [reflexivity|]. split; [reflexivity|]. split; [discriminate|]. split; [intros [H|H]; discriminate H|]. split; [discriminate|now right].
Qed.
Lemma layout_stops l : layout l -> ~ unstopped (lx_text l).
Proof. intros H. destruct (layout_first l H) as (c & s & -> & S & _). intros [U _]. congruence. Qed.

(** What follows the lexeme [l] directly *)
Lemma follows_ok m l x ls : form m (lx_kind l) (lx_text l) -> mode_after m (lx_kind l) = DefaultMode -> tokenisation DefaultMode x ls "" ->
  (forall z b, ls = z :: b -> ~ runs_into l z) -> (forall z b, ls = z :: b -> layout l \/ layout z) ->
  (In (lx_kind l) [T_WHITE_SPACE; T_VERSION_WHITE_SPACE] -> forall c r, x = String c r -> ~ blank c) /\
  (lx_kind l = T_SINGLE_LINE_COMMENT -> forall c r, x = String c r -> line_end c) /\
  (lx_kind l = T_DIVISION_OP -> forall c r, x = String c r -> c <> "/"%char /\ c <> "*"%char).
Proof.
  intros F Md T P L. destruct ls as [|z b].
  - apply tokenisation_text in T. cbn in T. subst x. split; [|split]; discriminate.
  - specialize (P z b eq_refl). specialize (L z b eq_refl). inversion T as [| |? k u v ? ? Fz Mz Rz Tz]; subst. cbn [lx_kind lx_text] in *.
    pose proof (form_nonempty _ _ _ Fz) as Nu. destruct u as [|c0 u]; [congruence|]. split; [|split].
    + intros K c r E B. injection E as -> E. destruct (blank_first _ _ _ _ B Fz) as [Kz _]. assert (k = T_WHITE_SPACE) by (destruct Kz as [<-|[<-|[]]]; [reflexivity|exfalso; cbn [form] in Fz; inversion Fz as [? ? I|? ? I| | | | | | | | |]; sign_cases I]). subst k.
      destruct K as [K|[K|[]]].
      * apply P. left. cbn. auto.
      * rewrite <- K in Md. destruct m; [cbn [form] in F; rewrite <- K in F; inversion F as [? ? I|? ? I| | | | | | | | |]; sign_cases I|discriminate Md].
    + intros K c r E. injection E as -> E. destruct (token_kind_eq_dec k T_NEW_LINE) as [->|N]; [|exfalso; apply P; right; left; cbn; auto].
      cbn [form] in Fz. inversion Fz as [? ? I|? ? I| | | | | | | | |]; subst; [sign_cases I|sign_cases I|now left|now right].
    + intros K c r E. injection E as -> E. destruct L as [[L _]|L]; [exfalso; rewrite K in L; cbn in L; intuition discriminate|].
      destruct (layout_first _ L) as (c' & s' & Ez & _ & Ns & _ & Hs & _). cbn [lx_text lx_kind] in *. injection Ez as <- <-. split; [|exact Ns]. intros ->. apply P. right; right. cbn [lx_kind]. auto.
Qed.

Lemma splice ls1 : forall m x lsx x' lsx', tokenisation m (spelled ls1 ++ x) (ls1 ++ lsx)%list "" -> modes m ls1 = DefaultMode -> tokenisation DefaultMode x' lsx' "" ->
  Forall (fun l => lx_kind l <> T_TRIPLE_QUOTE) ls1 ->
  (forall a y z b, (ls1 ++ lsx' = a ++ y :: z :: b)%list -> ~ runs_into y z) ->
  (forall a y z b, (ls1 = a ++ y :: z :: b)%list -> lx_kind y = T_DIVISION_OP -> ~ In (lx_kind z) [T_PRODUCT_OP; T_POWER_OP]) ->
  ls1 = [] \/ lsx' = [] \/ (exists a y, ls1 = (a ++ [y])%list /\ layout y) \/ (exists y b, lsx' = y :: b /\ layout y) ->
  tokenisation m (spelled ls1 ++ x') (ls1 ++ lsx')%list "".
Proof.
  induction ls1 as [|l ls1 IH]; intros m x lsx x' lsx' T Md T' Q P Sr B.
  - cbn [modes fold_left] in Md. subst m. exact T'.
  - cbn [app] in *. inversion T as [| |? k u v ? ? F M R Tv]; subst.
    match goal with E : _ ++ v = _ |- _ => rename E into Ev end. rewrite spelled_cons in *. cbn [lx_text] in *. rewrite append_assoc in Ev. apply append_inj_l in Ev. subst v.
    cbn [modes fold_left lx_kind] in Md. inversion Q as [|? ? Ql Qr]; subst. cbn [lx_kind] in Ql.
    rewrite append_assoc. apply tok_next; [exact F| |exact R|].
    + apply (stays m k u (spelled ls1) x x' F M Ql).
      * destruct B as [B|[->|[(a & y & E & Hy)|(y & b & -> & Hy)]]]; [discriminate B| | |].
        -- left. apply tokenisation_text in T'. exact T'.
        -- destruct a as [|l' a]; cbn [app] in E; injection E as E1 E2.
           ++ subst ls1. right; right; right. split; [reflexivity|]. apply layout_stops in Hy. subst y. exact Hy.
           ++ subst ls1. right; right; left. rewrite spelled_app. intros U. apply unstopped_append in U. apply (layout_stops y Hy). rewrite spelled_cons in U. destruct U as [_ U]. apply unstopped_append in U. apply U.
        -- right; left. apply tokenisation_text in T'. rewrite spelled_cons, append_nil_r in T'. destruct (layout_first y Hy) as (c & s & Ey & S & _). rewrite Ey in T'. cbn [append] in T'. eauto.
      * intros E. assert (ls1 = []) as ->.
        { destruct ls1 as [|l' ls1]; [reflexivity|]. exfalso. inversion Tv as [| |? k' u' v' ? ? F']; subst. rewrite spelled_cons in E. apply form_nonempty in F'. cbn [lx_text] in E. destruct u'; [congruence|discriminate E]. }
        cbn [app] in *. apply (follows_ok m (mkLexeme k u) x' lsx'); auto.
        -- intros z b ->. apply (P [] (mkLexeme k u) z b). reflexivity.
        -- intros z b ->. destruct B as [B|[B|[(a & y & E' & Hy)|(y & b' & E' & Hy)]]]; [discriminate B|discriminate B| |injection E' as <- <-; auto].
           destruct a as [|? [|]]; cbn in E'; try discriminate E'. injection E' as <-. auto.
      * intros -> r E. destruct ls1 as [|z ls1]; [discriminate E|]. cbn [app] in Tv. inversion Tv as [| |? k' u' v' ? ? F']; subst. rewrite spelled_cons in E. pose proof (form_nonempty _ _ _ F') as N. cbn [lx_text] in E.
        destruct u' as [|c u']; [congruence|]. injection E as -> _. apply (Sr [] _ _ ls1 eq_refl eq_refl). cbn [lx_kind]. eapply star_first. exact F'.
    + apply (IH _ x lsx); auto.
      * intros a y z b E. apply (P (mkLexeme k u :: a) y z b). now rewrite E.
      * intros a y z b E. apply (Sr (mkLexeme k u :: a) y z b). now rewrite E.
      * destruct B as [B|[B|[(a & y & E' & Hy)|B]]]; [discriminate B|auto| |auto]. destruct a as [|l' a]; cbn [app] in E'; injection E' as E1 E2; subst; [now left|]. right; right; left. eauto.
Qed.
Lemma layout_reads g : forall ls, tokenisation DefaultMode (spelled ls) ls "" -> Forall layout g ->
  (forall a y z b, (g ++ ls = a ++ y :: z :: b)%list -> ~ runs_into y z) -> tokenisation DefaultMode (spelled (g ++ ls)%list) (g ++ ls)%list "".
Proof.
  induction g as [|l g IH]; intros ls T Hg P; [exact T|]. inversion Hg as [|? ? Hl Hg']; subst. cbn [app] in *. rewrite spelled_cons. destruct l as [k u]. destruct Hl as [K F]. cbn [lx_kind lx_text] in *.
  assert (T2 : tokenisation DefaultMode (spelled (g ++ ls)%list) (g ++ ls)%list "").
  { apply IH; auto. intros a y z b E. apply (P (mkLexeme k u :: a) y z b). now rewrite E. }
  assert (Md : mode_after DefaultMode k = DefaultMode) by (cbn in K; destruct K as [<-|[<-|[<-|[<-|[<-|[]]]]]]; reflexivity).
  apply tok_next; [exact F| | |].
  - change (spelled (g ++ ls)%list) with ("" ++ spelled (g ++ ls)%list). apply (stays DefaultMode k u "" ""); [exact F| | | | |].
    + apply maximal_iff. intros k' e w E Ne. destruct e; [congruence|discriminate E].
    + intros ->. cbn in K. intuition discriminate.
    + right; right; right. split; [reflexivity|]. apply (layout_stops (mkLexeme k u)). now split.
    + intros _. apply (follows_ok DefaultMode (mkLexeme k u) _ (g ++ ls)%list); auto.
      * intros z b E. apply (P [] (mkLexeme k u) z b). cbn. now rewrite E.
      * intros z b E. left. now split.
    + discriminate.
  - intros ->. cbn in K. intuition discriminate.
  - rewrite Md. exact T2.
Qed.
Lemma layout_modes m g : Forall layout g -> modes m g = m.
Proof.
  revert m. induction g as [|[k u] g IH]; intros m H; [reflexivity|]. inversion H as [|? ? [K F] Hg]; subst. cbn [modes fold_left lx_kind] in *. rewrite <- (IH m Hg) at 2. unfold modes. f_equal.
  cbn in K. destruct K as [<-|[<-|[<-|[<-|[<-|[]]]]]]; reflexivity.
Qed.
