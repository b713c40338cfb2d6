(** The rules of the lexer and the forms of tokens (C45, C46). *)
From Coq Require Import ZifyBool ZifyN ZifyNat.
From Verif Require Import Base ModelUtils ModelLexer SpecUtils SpecLexer ProofsUtils ProofsLexer.
Local Open Scope string_scope.

(** ** Characters *)
Lemma all_bytes_impl (P Q : ascii -> Prop) s : (forall c, P c -> Q c) -> all_bytes P s -> all_bytes Q s.
Proof. intros H. induction s as [|c s IH]; cbn; [auto|]. intros [H1 H2]. auto. Qed.
Lemma all_bytes_append (P : ascii -> Prop) s t : all_bytes P (s ++ t) <-> all_bytes P s /\ all_bytes P t.
Proof. induction s as [|c s IH]; cbn; [intuition|]. rewrite IH. intuition. Qed.
Lemma is_digit_iff c : is_digit c = true <-> digit c.
Proof. unfold is_digit, digit, code_between, byte_val. lia. Qed.
Lemma is_letter_iff c : is_letter c = true <-> letter c.
Proof.
  unfold is_letter, is_lower, is_upper, letter, code_between, byte_val. rewrite !orb_true_iff, Ascii.eqb_eq. split.
  - intros [[H|H]|H]; [left; lia|right; left; lia|auto].
  - intros [H|[H|H]]; [left; left; lia|left; right; lia|auto].
Qed.
Lemma char_val c n : (n < 256)%N -> (N_of_ascii c = n <-> c = ascii_of_N n).
Proof.
  intros L. split; [intros <-; now rewrite ascii_N_embedding|intros ->; now rewrite N_ascii_embedding].
Qed.
Lemma is_blank_iff c : is_blank c = true <-> blank c.
Proof.
  unfold is_blank, blank, tab. rewrite orb_true_iff, !Ascii.eqb_eq, (char_val c 9) by lia. reflexivity.
Qed.
Lemma line_end_iff c : (Ascii.eqb c carriage_return || Ascii.eqb c newline) = true <-> line_end c.
Proof.
  unfold line_end, carriage_return, newline. rewrite orb_true_iff, !Ascii.eqb_eq, (char_val c 10), (char_val c 13) by lia. 
  change (ascii_of_nat 13) with (ascii_of_N 13). change (ascii_of_nat 10) with (ascii_of_N 10). tauto.
Qed.

(** ** Languages of the building blocks *)
Lemma class_iff p s : matches (RClass p) s <-> exists c, p c = true /\ s = String c "".
Proof. split; [intros H; inversion H; subst; eauto|intros (c & H & ->); now constructor]. Qed.
Lemma seq_iff a b s : matches (RSeq a b) s <-> exists u v, s = u ++ v /\ matches a u /\ matches b v.
Proof. split; [intros H; inversion H; subst; eauto|intros (u & v & -> & H1 & H2); now constructor]. Qed.
Lemma alt_iff a b s : matches (RAlt a b) s <-> matches a s \/ matches b s.
Proof. split; [intros H; inversion H; subst; eauto|intros [H|H]; [now apply m_alt_l|now apply m_alt_r]]. Qed.
Lemma eps_iff s : matches REps s <-> s = "".
Proof. split; [intros H; inversion H; reflexivity|intros ->; constructor]. Qed.
Lemma opt_iff a s : matches (opt_ a) s <-> s = "" \/ matches a s.
Proof. unfold opt_. rewrite alt_iff, eps_iff. tauto. Qed.
Lemma lit_iff w s : matches (lit w) s <-> s = w.
Proof.
  revert s. induction w as [|c w IH]; intros s; [apply eps_iff|]. destruct w as [|d w].
  - cbn [lit]. rewrite class_iff. split; [intros (x & E & ->); apply Ascii.eqb_eq in E; now subst|intros ->; exists c; now rewrite Ascii.eqb_refl].
  - change (lit (String c (String d w))) with (RSeq (RClass (Ascii.eqb c)) (lit (String d w))). rewrite seq_iff. split.
    + intros (u & v & -> & H1 & H2). apply IH in H2. apply class_iff in H1. destruct H1 as (x & E & ->). apply Ascii.eqb_eq in E. now subst.
    + intros ->. exists (String c ""), (String d w). split; [reflexivity|]. split; [constructor; apply Ascii.eqb_refl|now apply IH].
Qed.
Lemma star_class_iff p s : matches (RStar (RClass p)) s <-> all_bytes (fun c => p c = true) s.
Proof.
  split.
  - revert s. induction s as [|c s IH]; intros H; cbn; [auto|]. apply star_cons_inv in H. destruct H as (u & v & -> & H1 & H2).
    apply class_iff in H1. destruct H1 as (x & E & Ex). injection Ex as -> ->. cbn [append] in *. auto.
  - induction s as [|c s IH]; cbn; intros H; [constructor|]. destruct H as [H1 H2].
    exact (m_star_cons _ (String c "") s (m_class _ _ H1) (IH H2)).
Qed.
Lemma plus_class_iff p s : matches (plus_ (RClass p)) s <-> s <> "" /\ all_bytes (fun c => p c = true) s.
Proof.
  unfold plus_. rewrite seq_iff. split.
  - intros (u & v & -> & H1 & H2). apply class_iff in H1. destruct H1 as (c & E & ->). apply star_class_iff in H2. cbn. split; [discriminate|auto].
  - intros [N H]. destruct s as [|c s]; [congruence|]. destruct H as [H1 H2]. exists (String c ""), s.
    split; [reflexivity|]. split; [now constructor|now apply star_class_iff].
Qed.
Lemma digits_iff s : matches (plus_ Digit) s <-> s <> "" /\ digits s.
Proof.
  unfold Digit. rewrite plus_class_iff. unfold digits. split; intros [N H]; (split; [exact N|]); revert H; apply all_bytes_impl; intros c; apply is_digit_iff.
Qed.
Lemma blanks_iff s : matches (plus_ (RClass is_blank)) s <-> s <> "" /\ all_bytes blank s.
Proof.
  rewrite plus_class_iff. split; intros [N H]; (split; [exact N|]); revert H; apply all_bytes_impl; intros c; apply is_blank_iff.
Qed.
Lemma letters_iff s : matches (RStar (RAlt Letter Digit)) s <-> all_bytes (fun c => letter c \/ digit c) s.
Proof.
  split.
  - revert s. induction s as [|c s IH]; intros H; cbn; [auto|]. apply star_cons_inv in H. destruct H as (u & v & -> & H1 & H2).
    apply alt_iff in H1. unfold Letter, Digit in H1. rewrite !class_iff in H1. destruct H1 as [(x & E & Ex)|(x & E & Ex)]; injection Ex as -> ->; cbn [append] in *.
    + split; [left; now apply is_letter_iff|auto].
    + split; [right; now apply is_digit_iff|auto].
  - induction s as [|c s IH]; cbn; intros H; [constructor|]. destruct H as [H1 H2].
    refine (m_star_cons _ (String c "") s _ (IH H2)). apply alt_iff. destruct H1 as [H1|H1].
    + left. constructor. now apply is_letter_iff.
    + right. constructor. now apply is_digit_iff.
Qed.
Lemma exponent_iff s : matches (opt_ Exponent) s <-> exponent s.
Proof.
  rewrite opt_iff. unfold Exponent. split.
  - intros [->|H]; [constructor|]. apply seq_iff in H. destruct H as (e & r & -> & H1 & H2). apply class_iff in H1. destruct H1 as (x & E & ->).
    apply seq_iff in H2. destruct H2 as (sg & d & -> & H2 & H3). apply digits_iff in H3. destruct H3 as [N D].
    apply opt_iff in H2. apply orb_true_iff in E. rewrite !Ascii.eqb_eq in E.
    apply exp_some; auto.
    + destruct E as [->| ->]; auto.
    + destruct H2 as [->|H2]; [auto|]. apply class_iff in H2. destruct H2 as (y & Ey & ->). apply orb_true_iff in Ey. rewrite !Ascii.eqb_eq in Ey.
      destruct Ey as [->| ->]; auto.
  - intros H. inversion H as [|e sg d He Hs D N]; subst; [auto|]. right. apply seq_iff. exists e, (sg ++ d). split; [reflexivity|].
    split; [destruct He as [->| ->]; constructor; reflexivity|]. apply seq_iff. exists sg, d. split; [reflexivity|]. split; [|apply digits_iff; auto].
    apply opt_iff. destruct Hs as [->|[->| ->]]; [auto| |]; right; constructor; reflexivity.
Qed.
Lemma float_iff s :
  matches (RAlt (RSeq (plus_ Digit) (RSeq DOT (RSeq (plus_ Digit) (opt_ Exponent))))
             (RAlt (RSeq (plus_ Digit) (RSeq DOT (opt_ Exponent)))
                   (RSeq DOT (RSeq (plus_ Digit) (opt_ Exponent))))) s <->
  exists a b e, s = a ++ "." ++ b ++ e /\ digits a /\ digits b /\ (a <> "" \/ b <> "") /\ exponent e.
Proof.
  rewrite !alt_iff. split.
  - intros [H|[H|H]].
    + apply seq_iff in H. destruct H as (a & r & -> & Ha & H). apply seq_iff in H. destruct H as (d & r' & -> & Hd & H).
      apply seq_iff in H. destruct H as (b & e & -> & Hb & He). apply digits_iff in Ha, Hb. apply lit_iff in Hd. subst d. apply exponent_iff in He.
      exists a, b, e. tauto.
    + apply seq_iff in H. destruct H as (a & r & -> & Ha & H). apply seq_iff in H. destruct H as (d & e & -> & Hd & He).
      apply digits_iff in Ha. apply lit_iff in Hd. subst d. apply exponent_iff in He.
      exists a, "", e. cbn. tauto.
    + apply seq_iff in H. destruct H as (d & r & -> & Hd & H).
      apply seq_iff in H. destruct H as (b & e & -> & Hb & He). apply digits_iff in Hb. apply lit_iff in Hd. subst d. apply exponent_iff in He.
      exists "", b, e. cbn. tauto.
  - intros (a & b & e & -> & Da & Db & N & He).
    assert (Hdot : matches DOT ".") by (now apply lit_iff). apply exponent_iff in He.
    destruct a as [|ca a].
    + right. right. apply (m_seq _ _ "." (b ++ e)); [exact Hdot|]. apply m_seq; [|exact He]. apply digits_iff. split; [destruct N; congruence|exact Db].
    + assert (Ha : matches (plus_ Digit) (String ca a)) by (apply digits_iff; split; [discriminate|exact Da]).
      destruct b as [|cb b].
      * right. left. apply m_seq; [exact Ha|]. exact (m_seq _ _ "." _ Hdot He).
      * left. apply m_seq; [exact Ha|]. apply (m_seq _ _ "."); [exact Hdot|]. apply m_seq; [|exact He]. apply digits_iff. split; [discriminate|exact Db].
Qed.
Lemma line_comment_iff s :
  matches (RSeq (lit "//") (RStar (RClass (fun c => negb (Ascii.eqb c carriage_return || Ascii.eqb c newline))))) s <->
  exists t, s = "//" ++ t /\ all_bytes (fun c => ~ line_end c) t.
Proof.
  rewrite seq_iff. split.
  - intros (u & v & -> & H1 & H2). apply lit_iff in H1. subst u. exists v. split; [reflexivity|]. apply star_class_iff in H2. revert H2.
    apply all_bytes_impl. intros c H. rewrite <- line_end_iff. destruct (_ || _); [discriminate|congruence].
  - intros (t & -> & H). exists "//", t. split; [reflexivity|]. split; [now apply lit_iff|]. apply star_class_iff. revert H.
    apply all_bytes_impl. intros c H. rewrite <- line_end_iff in H. destruct (_ || _); [now destruct H|reflexivity].
Qed.
Lemma newline_iff s :
  matches (RSeq (opt_ (RClass (Ascii.eqb carriage_return))) (RClass (Ascii.eqb newline))) s <-> s = LF \/ s = CR ++ LF.
Proof.
  rewrite seq_iff. split.
  - intros (u & v & -> & H1 & H2). apply class_iff in H2. destruct H2 as (x & E & ->). apply Ascii.eqb_eq in E. subst x.
    apply opt_iff in H1. destruct H1 as [->|H1]; [left; reflexivity|]. apply class_iff in H1. destruct H1 as (x & E & ->). apply Ascii.eqb_eq in E. subst x.
    right. reflexivity.
  - intros [->| ->].
    + exists "", LF. split; [reflexivity|]. split; [apply opt_iff; auto|apply class_iff; exists newline; auto].
    + exists CR, LF. split; [reflexivity|]. split; [apply opt_iff; right; apply class_iff; exists carriage_return; auto|apply class_iff; exists newline; auto].
Qed.

(** ** Rules and forms *)
Lemma in_rules_cons k1 r rules k s : in_rules ((k1, r) :: rules) k s <-> (k = k1 /\ language r s) \/ in_rules rules k s.
Proof.
  unfold in_rules. cbn. split.
  - intros (r' & [E|I] & L); [injection E as -> ->; auto|right; eauto].
  - intros [[-> L]|(r' & I & L)]; eauto.
Qed.
Lemma in_rules_nil k s : in_rules [] k s <-> False.
Proof. split; [intros (r & [] & _)|tauto]. Qed.

Lemma default_rules_form k s : in_rules default_rules k s <-> default_form k s.
Proof.
  unfold default_rules. rewrite !in_rules_cons, in_rules_nil. cbn [language].
  rewrite !lit_iff, line_comment_iff, newline_iff, float_iff, blanks_iff, alt_iff, !lit_iff, digits_iff.
  split.
  - intros H.
    repeat match type of H with
    | (_ /\ _) \/ _ => destruct H as [[-> H]|H]
    end; try contradiction;
    try (subst s; apply form_sign; cbn; tauto); try (subst s; apply form_word; cbn; tauto).
    + destruct H. now apply form_blank.
    + destruct H as (t & -> & H). now apply form_line_comment.
    + destruct H as (b & -> & C). now apply form_comment.
    + destruct H as [->| ->]; [apply form_newline|apply form_newline2].
    + destruct H as [->| ->]; apply form_word; cbn; tauto.
    + destruct H. now apply form_int.
    + destruct H as (a & b & e & -> & H1 & H2 & H3 & H4). now apply form_float.
    + apply seq_iff in H. destruct H as (u & v & -> & H1 & H2). apply class_iff in H1. destruct H1 as (c & E & ->).
      cbn [append]. apply form_identifier; [now apply is_letter_iff|now apply letters_iff].
    + destruct H as (b & -> & C). now apply form_raw.
  - intros H. inversion H as [k' s' I|k' s' I|s' N B|s' B|s' C| | |s' N D|a b e Da Db N He|c s' L B|s' C]; subst.
    + cbn in I. repeat (destruct I as [I|I]; [injection I as <- <-; tauto|]). contradiction.
    + cbn in I. repeat (destruct I as [I|I]; [injection I as <- <-; tauto|]). contradiction.
    + tauto.
    + assert (exists t, ("//" ++ s')%string = "//" ++ t /\ all_bytes (fun c => ~ line_end c) t) by eauto. tauto.
    + assert (delimited "/*" "*/" ("/*" ++ s' ++ "*/")) by (exists s'; auto). tauto.
    + tauto.
    + tauto.
    + tauto.
    + assert (exists a' b' e', a ++ "." ++ b ++ e = a' ++ "." ++ b' ++ e' /\ digits a' /\ digits b' /\ (a' <> "" \/ b' <> "") /\ exponent e') by (exists a, b, e; auto). tauto.
    + assert (matches (RSeq Letter (RStar (RAlt Letter Digit))) (String c s')).
      { apply seq_iff. exists (String c ""), s'. split; [reflexivity|]. split; [constructor; now apply is_letter_iff|now apply letters_iff]. }
      tauto.
    + assert (delimited "'''" "'''" ("'''" ++ s' ++ "'''")) by (exists s'; auto). tauto.
Qed.
Lemma version_rules_form k s : in_rules version_rules k s <-> version_form k s.
Proof.
  unfold version_rules. rewrite !in_rules_cons, in_rules_nil. cbn [language]. rewrite blanks_iff. split.
  - intros [[-> [N B]]|[[-> H]|[]]]; [now constructor|]. apply seq_iff in H. destruct H as (a & r & -> & Ha & H). apply digits_iff in Ha. destruct Ha as [Na Da].
    apply opt_iff in H. destruct H as [->|H]; [rewrite append_nil_r; now constructor|].
    apply seq_iff in H. destruct H as (d & b & -> & Hd & Hb). apply lit_iff in Hd. subst d. apply digits_iff in Hb. destruct Hb. now constructor.
  - intros H. inversion H as [s' N B|s' N D|a b Na Da Nb Db]; subst.
    + auto.
    + right. left. split; [reflexivity|]. rewrite <- (append_nil_r s). apply m_seq; [now apply digits_iff|]. apply opt_iff. auto.
    + right. left. split; [reflexivity|]. apply m_seq; [now apply digits_iff|]. apply opt_iff. right. apply m_seq; [now apply lit_iff|now apply digits_iff].
Qed.
Lemma mode_rules_form m k s : in_rules (mode_rules m) k s <-> form m k s.
Proof. destruct m; [apply default_rules_form|apply version_rules_form]. Qed.
Lemma mode_rules_fine m : Forall (fun e => rule_fine (snd e)) (mode_rules m).
Proof. destruct m; repeat constructor; discriminate. Qed.

(** A rule that comes first, for an identifier, is not preceded by a rule for a reserved word. *)
Lemma first_rule_app l1 l2 k s : first_rule (l1 ++ l2)%list k s -> ~ In k (map fst l1) -> forall k' r, In (k', r) l1 -> ~ language r s.
Proof.
  induction l1 as [|[k1 r1] l1 IH]; cbn; [contradiction|]. intros [[-> _]|[NL H]] Nk k' r I; [tauto|].
  destruct I as [I|I]; [injection I as <- <-; exact NL|]. exact (IH H ltac:(tauto) k' r I).
Qed.
Lemma first_rule_not_reserved m s : first_rule (mode_rules m) T_IDENTIFIER s -> ~ reserved s.
Proof.
  destruct m; cbn [mode_rules].
  - intros H R. change default_rules with (firstn 52 default_rules ++ skipn 52 default_rules)%list in H.
    assert (Nk : ~ In T_IDENTIFIER (map fst (firstn 52 default_rules))) by (cbn; intuition discriminate).
    pose proof (first_rule_app _ _ _ _ H Nk) as X. clear H.
    assert (Y : exists k, k <> T_IDENTIFIER /\ In (k, s) words).
    { cbn in R. repeat (destruct R as [<-|R]; [eexists; split; [|cbn; intuition reflexivity]; discriminate|]). contradiction. }
    destruct Y as (k & Nid & I). assert (F : in_rules default_rules k s) by (now apply default_rules_form, form_word).
    destruct F as (r & Ir & L). change default_rules with (firstn 52 default_rules ++ skipn 52 default_rules)%list in Ir.
    apply in_app_or in Ir. destruct Ir as [Ir|Ir]; [exact (X k r Ir L)|].
    cbn in Ir. destruct Ir as [Ir|[Ir|[]]]; injection Ir as <- <-; [congruence|].
    cbn in I. intuition discriminate.
  - cbn. intros [[H _]|[_ [[H _]|[_ []]]]]; discriminate.
Qed.
