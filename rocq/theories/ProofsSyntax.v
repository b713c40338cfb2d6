(** Tokens of a text and their positions. *)
From Coq Require Import ZifyBool ZifyN ZifyNat.
From Verif Require Import Base ModelUtils ModelVersion ModelError ModelAst ModelLexer ModelParser ModelSyntactic SpecUtils SpecLexer SpecParser SpecSyntax
  ProofsUtils ProofsLexer ProofsLexer2 ProofsLexer3 ProofsParser ProofsParser2 ProofsParser3 ProofsParser4 ProofsParser5.
Local Open Scope string_scope.

(** ** Positions *)
Lemma is_lf_newline c : is_lf c = Ascii.eqb c newline.
Proof. unfold is_lf. destruct (Ascii.eqb_spec c newline) as [->|N]; [reflexivity|]. apply N.eqb_neq. intros E. apply N. rewrite <- (ascii_N_embedding c), E. reflexivity. Qed.
Lemma continues_model c : continues c = is_continuation c.
Proof. unfold continues, is_continuation, byte_val. lia. Qed.
Lemma line_feeds_append a b : (line_feeds (a ++ b) = line_feeds a + line_feeds b)%N.
Proof. induction a as [|c a IH]; cbn [String.append line_feeds]; [reflexivity|]. rewrite IH. lia. Qed.
Lemma characters_append a b : (characters (a ++ b) = characters a + characters b)%N.
Proof. induction a as [|c a IH]; cbn [String.append characters]; [reflexivity|]. rewrite IH. lia. Qed.
Lemma last_line_none s : line_feeds s = 0%N -> last_line s = s.
Proof. destruct s; [reflexivity|]. intros E. cbn [last_line]. now rewrite E. Qed.
Lemma last_line_append a b : last_line (a ++ b) = if (line_feeds b =? 0)%N then last_line a ++ b else last_line b.
Proof.
  induction a as [|c a IH]; cbn [String.append].
  - destruct (N.eqb_spec (line_feeds b) 0) as [E|E]; [rewrite last_line_none by exact E; reflexivity|reflexivity].
  - cbn [last_line]. change (String c (a ++ b)) with (String c a ++ b). rewrite line_feeds_append.
    destruct (N.eqb_spec (line_feeds (String c a)) 0) as [E1|E1].
    + rewrite E1. cbn [N.add]. destruct (N.eqb_spec (line_feeds b) 0) as [E|E]; [reflexivity|]. rewrite IH. destruct (N.eqb_spec (line_feeds b) 0); [lia|reflexivity].
    + destruct (N.eqb_spec (line_feeds (String c a) + line_feeds b) 0); [lia|]. exact IH.
Qed.
Lemma advance_spec s : forall before line col, line = line_of before -> column_of before = (col + 1)%N ->
  advance s line col = (line_of (before ++ s), (column_of (before ++ s) - 1)%N).
Proof.
  induction s as [|c s IH]; intros before line col E1 E2; cbn [advance].
  - rewrite append_nil_r. subst. f_equal. lia.
  - replace (before ++ String c s) with ((before ++ String c "") ++ s) by (rewrite append_assoc; reflexivity).
    assert (Ll : line_of (before ++ String c "") = (line + if is_lf c then 1 else 0)%N) by (unfold line_of in *; rewrite line_feeds_append; cbn [line_feeds]; destruct (is_lf c); lia).
    assert (Lc : column_of (before ++ String c "") = (if is_lf c then 1 else column_of before + if continues c then 0 else 1)%N).
    { unfold column_of in *. rewrite last_line_append. cbn [line_feeds]. destruct (is_lf c) eqn:E.
      - cbn [N.add N.eqb last_line line_feeds]. rewrite E. reflexivity.
      - change (0 + 0 =? 0)%N with true. cbv iota. rewrite characters_append. cbn [characters]. destruct (continues c); lia. }
    rewrite <- is_lf_newline, <- continues_model. destruct (is_lf c) eqn:E.
    + apply IH; lia.
    + destruct (continues c); apply IH; lia.
Qed.

(** ** Tokens *)
Lemma is_skipped_iff k : is_skipped k = true <-> insignificant k.
Proof. unfold insignificant. destruct k; cbn; split; intros H; try discriminate; try tauto; intuition discriminate. Qed.
Definition end_token (rest : string) (line col : N) : token := mkToken (match rest with EmptyString => T_EOF | _ => T_ERROR end) "" line col.
Lemma place_spec ls rest : forall before line col, line = line_of before -> column_of before = (col + 1)%N ->
  exists body line' col', place ls rest line col = (body ++ [end_token rest line' col'])%list /\ tokens_at before ls body /\
    line' = line_of (before ++ String.concat "" (map lx_text ls)) /\ column_of (before ++ String.concat "" (map lx_text ls)) = (col' + 1)%N.
Proof.
  assert (CC : forall l ls, String.concat "" (map lx_text (l :: ls)) = lx_text l ++ String.concat "" (map lx_text ls)).
  { intros l ls'. cbn [map String.concat]. destruct (map lx_text ls') eqn:E; [cbn; now rewrite append_nil_r|]. reflexivity. }
  induction ls as [|l ls IH]; intros before line col E1 E2; cbn [place].
  - exists [], line, col. cbn [map String.concat]. rewrite append_nil_r. split; [reflexivity|]. split; [constructor|auto].
  - rewrite (advance_spec _ _ _ _ E1 E2). rewrite CC, <- append_assoc.
    assert (P : exists c, column_of (before ++ lx_text l) = (c + 1)%N) by (exists (column_of (before ++ lx_text l) - 1)%N; unfold column_of; lia).
    destruct P as [c P]. destruct (IH (before ++ lx_text l) _ c eq_refl P) as (body & line' & col' & Ep & T & F).
    rewrite P. replace (c + 1 - 1)%N with c by lia. destruct (is_skipped (lx_kind l)) eqn:S.
    + exists body, line', col'. split; [exact Ep|]. split; [|exact F]. apply ta_skip; [now apply is_skipped_iff|exact T].
    + exists (mkToken (lx_kind l) (lx_text l) line col :: body), line', col'. split; [cbn [app]; now rewrite <- Ep|]. split; [|exact F].
      apply ta_token; auto. intros I. apply is_skipped_iff in I. congruence.
Qed.
Lemma tokens_at_unique before ls ts : tokens_at before ls ts -> forall ts', tokens_at before ls ts' -> ts = ts'.
Proof.
  induction 1 as [|before l ls ts I T IH|before l ls ts line col I E1 E2 T IH]; intros ts' H; inversion H; subst; auto; try contradiction.
  f_equal; auto. f_equal. lia.
Qed.
(** The lexemes of a text have the form of their kind. *)
Definition well_formed (l : lexeme) : Prop := exists m, form m (lx_kind l) (lx_text l).
Lemma tokenisation_forms m s ls rest : tokenisation m s ls rest -> Forall well_formed ls.
Proof. induction 1; constructor; auto. now exists m. Qed.
Lemma form_kind m k s : form m k s -> k <> T_EOF /\ k <> T_ERROR.
Proof.
  destruct m; cbn; intros F; destruct F; try (split; discriminate).
  - destruct k; try (split; discriminate); cbn in H; intuition discriminate.
  - destruct k; try (split; discriminate); cbn in H; intuition discriminate.
Qed.
(** Tokens of a text: kind and text go together. *)
Definition good_token (t : token) : Prop := exists m, form m (tk_kind t) (tk_text t).
Lemma tokens_at_good before ls ts : tokens_at before ls ts -> Forall well_formed ls -> Forall good_token ts.
Proof. induction 1; intros F; inversion F; subst; auto. Qed.
Lemma good_token_kind t : good_token t -> tk_kind t <> T_EOF /\ tk_kind t <> T_ERROR.
Proof. intros [m F]. eapply form_kind; eauto. Qed.

Lemma tokenize_spec s : exists ls rest body line col,
  tokenisation DefaultMode s ls rest /\ tokens_at "" ls body /\ Forall good_token body /\
  tokenize s = Some (body ++ [end_token rest line col])%list /\
  line = line_of (String.concat "" (map lx_text ls)) /\ column_of (String.concat "" (map lx_text ls)) = (col + 1)%N.
Proof.
  destruct (lex_total s) as (ls & rest & L). unfold tokenize. rewrite L. apply lex_iff in L.
  destruct (place_spec ls rest "" 1 0 eq_refl eq_refl) as (body & line & col & E & T & P1 & P2).
  exists ls, rest, body, line, col. split; [exact L|]. split; [exact T|]. split; [|rewrite E; auto].
  eapply tokens_at_good; eauto. eapply tokenisation_forms; eauto.
Qed.
Lemma tokenize_tokens_of s ts : tokens_of s ts <-> tokenize s = Some ts /\ exists body eof, ts = (body ++ [eof])%list /\ Forall good_token body /\ tk_kind eof = T_EOF.
Proof.
  destruct (tokenize_spec s) as (ls & rest & body & line & col & L & T & G & E & P1 & P2). rewrite E. split.
  - intros (ls' & body' & line' & col' & L' & T' & P1' & P2' & ->). destruct (tokenisation_unique _ _ _ _ L _ _ L') as [-> ->].
    pose proof (tokens_at_unique _ _ _ T _ T') as ->. pose proof (tokenisation_lossless _ _ _ _ L) as S. rewrite append_nil_r in S. rewrite <- S in P1, P2. split.
    + f_equal. f_equal. f_equal. unfold end_token. f_equal; congruence || lia.
    + eexists; eexists; split; [reflexivity|]. split; [exact G|reflexivity].
  - intros (Es & body' & eof & -> & G' & K). injection Es as Es. apply app_inj_tail in Es. destruct Es as [-> <-].
    destruct rest; [|discriminate]. pose proof (tokenisation_lossless _ _ _ _ L) as S. rewrite append_nil_r in S. rewrite <- S in P1, P2.
    exists ls, body', line, col. auto.
Qed.

(** ** Sentences end with their only end of file *)
Definition plain (t : token) : Prop := tk_kind t <> T_EOF /\ tk_kind t <> T_ERROR.
