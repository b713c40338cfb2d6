(** Tokenisation (C45, C46). *)
From Coq Require Import ZifyBool ZifyN ZifyNat.
From Verif Require Import Base ModelUtils ModelLexer SpecUtils SpecLexer ProofsUtils ProofsLexer ProofsLexer2.
Local Open Scope string_scope.

(** ** The kind of a token is determined by its text *)
Lemma form_nonempty m k s : form m k s -> s <> "".
Proof.
  destruct m; cbn [form]; intros H.
  - inversion H as [k' s' I|k' s' I|s' N B|s' B|s' C| | |s' N D|a b e Da Db N He|c s' L B|s' C]; subst; try discriminate; auto.
    + cbn in I. intros ->. intuition discriminate.
    + cbn in I. intros ->. intuition discriminate.
    + destruct a; discriminate.
  - inversion H; subst; auto. destruct a; [congruence|discriminate].
Qed.
(** A function of the text that gives the kind. *)
Fixpoint has_dot (s : string) : bool := match s with EmptyString => false | String c s' => Ascii.eqb c "." || has_dot s' end.
Definition lookup (s : string) (l : list (token_kind * string)) : option token_kind :=
  option_map fst (find (fun e => String.eqb (snd e) s) l).
Definition kind_of (s : string) : option token_kind :=
  match lookup s (signs ++ words)%list with
  | Some k => Some k
  | None =>
    match s with
    | EmptyString => None
    | String c s' =>
        if is_blank c then Some T_WHITE_SPACE
        else if (Ascii.eqb c newline || Ascii.eqb c carriage_return)%bool then Some T_NEW_LINE
        else if Ascii.eqb c "/" then (if starts_with "/" s' then Some T_SINGLE_LINE_COMMENT else Some T_MULTI_LINE_COMMENT)
        else if Ascii.eqb c "'" then Some T_RAW_TEXT_STRING
        else if is_letter c then Some T_IDENTIFIER
        else if has_dot s then Some T_FLOAT_LITERAL else Some T_INTEGER_LITERAL
    end
  end.
Lemma lookup_in s l k : lookup s l = Some k -> In (k, s) l.
Proof.
  unfold lookup. destruct (find _ l) as [[k' s']|] eqn:F; [|discriminate]. intros E. injection E as <-. apply find_some in F. destruct F as [I E].
  apply String.eqb_eq in E. cbn in E. now subst.
Qed.
Lemma lookup_none s l : ~ In s (map snd l) -> lookup s l = None.
Proof.
  unfold lookup. destruct (find _ l) as [[k' s']|] eqn:F; [|reflexivity]. apply find_some in F. destruct F as [I E]. apply String.eqb_eq in E. cbn in E. subst s'.
  intros N. destruct N. change s with (snd (k', s)). now apply in_map.
Qed.
Lemma has_dot_digits s : digits s -> has_dot s = false.
Proof.
  unfold digits. induction s as [|c s IH]; cbn; [reflexivity|]. intros [H1 H2]. rewrite IH by exact H2. destruct (Ascii.eqb_spec c "."); [|reflexivity].
  subst c. unfold digit, code_between in H1. cbn in H1. lia.
Qed.
Lemma has_dot_append s t : has_dot (s ++ "." ++ t) = true.
Proof.
  induction s as [|c s IH]; [reflexivity|]. change (has_dot (String c s ++ "." ++ t)) with (Ascii.eqb c "." || has_dot (s ++ "." ++ t))%bool.
  rewrite IH. apply orb_true_r.
Qed.
(** Numbers start with a digit or a point. *)
Lemma digit_head c : digit c \/ c = "."%char ->
  is_blank c = false /\ (Ascii.eqb c newline || Ascii.eqb c carriage_return)%bool = false /\ Ascii.eqb c "/" = false /\ Ascii.eqb c "'" = false /\ is_letter c = false.
Proof.
  revert c.
  assert (X : forall c, (negb (is_digit c || Ascii.eqb c ".") || (negb (is_blank c) && negb (Ascii.eqb c newline || Ascii.eqb c carriage_return) && negb (Ascii.eqb c "/") && negb (Ascii.eqb c "'") && negb (is_letter c)))%bool = true).
  { apply ascii_sweep. vm_compute. reflexivity. }
  intros c H. specialize (X c). assert (E : (is_digit c || Ascii.eqb c ".")%bool = true).
  { apply orb_true_iff. rewrite is_digit_iff, Ascii.eqb_eq. exact H. }
  rewrite E in X. cbn [negb orb] in X. rewrite !andb_true_iff, !negb_true_iff in X. tauto.
Qed.
Lemma letter_head c : letter c ->
  is_blank c = false /\ (Ascii.eqb c newline || Ascii.eqb c carriage_return)%bool = false /\ Ascii.eqb c "/" = false /\ Ascii.eqb c "'" = false /\ is_letter c = true.
Proof.
  revert c.
  assert (X : forall c, (negb (is_letter c) || (negb (is_blank c) && negb (Ascii.eqb c newline || Ascii.eqb c carriage_return) && negb (Ascii.eqb c "/") && negb (Ascii.eqb c "'")))%bool = true).
  { apply ascii_sweep. vm_compute. reflexivity. }
  intros c H. specialize (X c). apply is_letter_iff in H. rewrite H in *. cbn [negb orb] in X. rewrite !andb_true_iff, !negb_true_iff in X. tauto.
Qed.
Lemma blank_head c : blank c -> is_blank c = true.
Proof. apply is_blank_iff. Qed.

(** Texts that are neither signs nor words *)
Ltac not_sign := cbn; intros I; repeat (destruct I as [I|I]; [try discriminate I|]); try contradiction.
Lemma first_not_fixed c s : negb (existsb (fun w => match w with String d _ => Ascii.eqb c d | _ => false end) (map snd (signs ++ words)%list)) = true ->
  lookup (String c s) (signs ++ words)%list = None.
Proof.
  intros H. apply lookup_none. intros I. apply negb_true_iff in H.
  assert (X : existsb (fun w => match w with String d _ => Ascii.eqb c d | _ => false end) (map snd (signs ++ words)%list) = true).
  { apply existsb_exists. exists (String c s). split; [exact I|apply Ascii.eqb_refl]. }
  congruence.
Qed.
Lemma digit_not_fixed c s : digit c -> lookup (String c s) (signs ++ words)%list = None.
Proof.
  intros H. apply first_not_fixed. revert c H.
  assert (X : forall c, (negb (is_digit c) || negb (existsb (fun w => match w with String d _ => Ascii.eqb c d | _ => false end) (map snd (signs ++ words)%list)))%bool = true).
  { apply ascii_sweep. vm_compute. reflexivity. }
  intros c H. specialize (X c). apply is_digit_iff in H. now rewrite H in X.
Qed.
Lemma blank_not_fixed c s : blank c -> lookup (String c s) (signs ++ words)%list = None.
Proof.
  intros H. apply first_not_fixed. revert c H.
  assert (X : forall c, (negb (is_blank c) || negb (existsb (fun w => match w with String d _ => Ascii.eqb c d | _ => false end) (map snd (signs ++ words)%list)))%bool = true).
  { apply ascii_sweep. vm_compute. reflexivity. }
  intros c H. specialize (X c). apply is_blank_iff in H. now rewrite H in X.
Qed.
Lemma letter_not_sign c s : letter c -> ~ In (String c s) (map snd signs).
Proof.
  intros H I.
  assert (X : forall c, (negb (is_letter c) || negb (existsb (fun w => match w with String d _ => Ascii.eqb c d | _ => false end) (map snd signs)))%bool = true).
  { apply ascii_sweep. vm_compute. reflexivity. }
  specialize (X c). apply is_letter_iff in H. rewrite H in X. cbn [negb orb] in X. apply negb_true_iff in X.
  assert (Y : existsb (fun w => match w with String d _ => Ascii.eqb c d | _ => false end) (map snd signs) = true).
  { apply existsb_exists. exists (String c s). split; [exact I|apply Ascii.eqb_refl]. }
  congruence.
Qed.
Lemma long_quote_not_fixed s : lookup ("'''" ++ s ++ "'''") (signs ++ words)%list = None.
Proof.
  apply lookup_none. cbn. intros I. repeat (destruct I as [I|I]; [try discriminate I; injection I as I; destruct s; discriminate I|]). contradiction.
Qed.
Lemma dot_number_not_fixed b e : b <> "" -> lookup ("." ++ b ++ e) (signs ++ words)%list = None.
Proof.
  intros N. apply lookup_none. destruct b as [|c b]; [congruence|]. cbn. intros I. repeat (destruct I as [I|I]; [discriminate I|]). contradiction.
Qed.
Lemma default_form_kind k s : default_form k s -> (k = T_IDENTIFIER -> ~ reserved s) -> kind_of s = Some k.
Proof.
  intros H Nr. inversion H as [k' s' I|k' s' I|s' N B|s' B|s' C| | |s' N D|a b e Da Db N He|c s' L B|s' C]; subst; unfold kind_of.
  - cbn in I. repeat (destruct I as [I|I]; [injection I as <- <-; reflexivity|]). contradiction.
  - cbn in I. repeat (destruct I as [I|I]; [injection I as <- <-; reflexivity|]). contradiction.
  - destruct s as [|c s]; [congruence|]. destruct B as [B _]. rewrite blank_not_fixed by exact B. now rewrite (blank_head c B).
  - reflexivity.
  - reflexivity.
  - reflexivity.
  - reflexivity.
  - destruct s as [|c s]; [congruence|]. pose proof D as [D1 _]. rewrite digit_not_fixed by exact D1.
    destruct (digit_head c (or_introl D1)) as (-> & -> & -> & -> & ->). now rewrite (has_dot_digits _ D).
  - assert (F : exists c s', a ++ "." ++ b ++ e = String c s' /\ (digit c \/ c = "."%char) /\ lookup (String c s') (signs ++ words)%list = None).
    { destruct a as [|c a].
      - exists "."%char, (b ++ e). split; [reflexivity|]. split; [auto|]. apply dot_number_not_fixed. destruct N; congruence.
      - exists c, (a ++ "." ++ b ++ e). split; [reflexivity|]. destruct Da as [D1 _]. split; [auto|]. now apply digit_not_fixed. }
    pose proof (has_dot_append a (b ++ e)) as HD. destruct F as (c & s' & E & Hc & L). rewrite E in *. rewrite L.
    destruct (digit_head c Hc) as (-> & -> & -> & -> & ->). now rewrite HD.
  - specialize (Nr eq_refl). rewrite lookup_none.
    + destruct (letter_head c L) as (-> & -> & -> & -> & ->). reflexivity.
    + rewrite map_app. intros I. apply in_app_or in I. destruct I as [I|I]; [exact (letter_not_sign c s' L I)|exact (Nr I)].
  - rewrite long_quote_not_fixed. reflexivity.
Qed.
Lemma form_kind_unique m k k' s :
  form m k s -> form m k' s -> (k = T_IDENTIFIER -> ~ reserved s) -> (k' = T_IDENTIFIER -> ~ reserved s) -> k = k'.
Proof.
  destruct m; cbn [form]; intros H H' N N'.
  - apply default_form_kind in H, H'; auto. congruence.
  - assert (X : forall k, version_form k s -> match s with String c _ => if is_blank c then k = T_VERSION_WHITE_SPACE else k = T_VERSION_NUMBER | _ => False end).
    { intros q F. inversion F as [s' Ns B|s' Ns D|a b Na Da Nb Db]; subst.
      - destruct s as [|c s]; [congruence|]. destruct B as [B _]. now rewrite (blank_head c B).
      - destruct s as [|c s]; [congruence|]. destruct D as [D _]. now rewrite (proj1 (digit_head c (or_introl D))).
      - destruct a as [|c a]; [congruence|]. destruct Da as [D _]. cbn [append]. now rewrite (proj1 (digit_head c (or_introl D))). }
    apply X in H, H'. destruct s as [|c s]; [contradiction|]. destruct (is_blank c); congruence.
Qed.

(** ** The lexer tokenises *)
Lemma best_match_form m s :
  match best_match (mode_rules m) s with
  | Some (k, n) => exists u v, s = u ++ v /\ String.length u = n /\ form m k u /\ (k = T_IDENTIFIER -> ~ reserved u) /\
      forall k' u' v', s = u' ++ v' -> form m k' u' -> (String.length u' <= n)%nat
  | None => forall k u v, s = u ++ v -> ~ form m k u
  end.
Proof.
  pose proof (best_match_ok (mode_rules m) s (mode_rules_fine m)) as B. destruct (best_match (mode_rules m) s) as [[k n]|].
  - destruct B as (u & v & -> & L & F & Mx). exists u, v. split; [reflexivity|]. split; [exact L|].
    split; [apply mode_rules_form; now apply first_rule_in|]. split; [intros ->; now apply first_rule_not_reserved with m|].
    intros k' u' v' E F'. apply (Mx k' u' v' E). now apply mode_rules_form.
  - intros k u v E F. apply (B k u v E). now apply mode_rules_form.
Qed.
Lemma lex_from_tokenises fuel : forall m s, (String.length s < fuel)%nat ->
  exists ls rest, lex_from fuel m s = Some (ls, rest) /\ tokenisation m s ls rest.
Proof.
  induction fuel as [|fuel IH]; intros m s L; [lia|]. cbn [lex_from]. destruct s as [|c s]; [exists [], ""; split; [reflexivity|constructor]|].
  pose proof (best_match_form m (String c s)) as B. destruct (best_match (mode_rules m) (String c s)) as [[k n]|].
  - destruct B as (u & v & E & Ln & F & Nr & Mx). rewrite E in *. subst n. rewrite take_append, drop_append.
    assert (Lv : (String.length v < fuel)%nat).
    { rewrite length_append in L. pose proof (form_nonempty m k u F) as Ne. destruct u; [congruence|cbn in L; lia]. }
    destruct (IH (next_mode m k) v Lv) as (ls & rest & EL & T). rewrite EL. exists (mkLexeme k u :: ls), rest. split; [reflexivity|].
    apply tok_next; auto.
  - exists [], (String c s). split; [reflexivity|]. apply tok_stuck; [discriminate|exact B].
Qed.
Lemma tokenisation_unique m s ls rest : tokenisation m s ls rest -> forall ls' rest', tokenisation m s ls' rest' -> ls = ls' /\ rest = rest'.
Proof.
  induction 1 as [m|m s N St|m k u v ls rest F Mx Nr T IH]; intros ls' rest' T'.
  - inversion T' as [|? ? N' _|? k' u' v' ? ? F' _ _ _ E]; subst; [auto|congruence|].
    apply form_nonempty in F'. destruct u'; [congruence|discriminate].
  - inversion T' as [|? ? N' _|? k' u' v' ? ? F' _ _ _ E]; subst; [congruence|auto|].
    destruct (St k' u' v' eq_refl F').
  - remember (u ++ v) as s0 eqn:E0. destruct T' as [m|m s0 N' St'|m k' u' v' ls2 rest2 F' Mx' Nr' T2].
    + apply form_nonempty in F. destruct u; [congruence|]. discriminate.
    + destruct (St' k u v E0 F).
    + assert (EU : u' = u /\ v' = v).
      { apply append_same_length; [exact E0|]. pose proof (Mx k' u' v' eq_refl F') as L1. pose proof (Mx' k u v E0 F) as L2. lia. }
      destruct EU as [-> ->]. rewrite (form_kind_unique m k' k u F' F Nr' Nr) in *.
      destruct (IH ls2 rest2 T2) as [-> ->]. auto.
Qed.
Theorem lex_iff s ls rest : lex s = Some (ls, rest) <-> tokenisation DefaultMode s ls rest.
Proof.
  unfold lex. destruct (lex_from_tokenises (S (String.length s)) DefaultMode s ltac:(lia)) as (ls' & rest' & E & T). rewrite E. split.
  - intros X. injection X as <- <-. exact T.
  - intros X. destruct (tokenisation_unique _ _ _ _ T _ _ X) as [-> ->]. reflexivity.
Qed.
Lemma lex_total s : exists ls rest, lex s = Some (ls, rest).
Proof. destruct (lex_from_tokenises (S (String.length s)) DefaultMode s ltac:(lia)) as (ls & rest & E & _). eauto. Qed.

(** ** Consequences *)
Lemma tokenisation_lossless m s ls rest : tokenisation m s ls rest -> s = String.concat "" (map lx_text ls) ++ rest.
Proof.
  induction 1 as [m|m s N St|m k u v ls rest F Mx Nr T IH]; [reflexivity|reflexivity|]. rewrite IH. cbn [map lx_text].
  destruct ls as [|l ls]; cbn [map String.concat]; [reflexivity|]. now rewrite append_assoc.
Qed.
Lemma tokenisation_nonempty m s ls rest : tokenisation m s ls rest -> Forall (fun l => lx_text l <> "") ls.
Proof.
  induction 1 as [m|m s N St|m k u v ls rest F Mx Nr T IH]; constructor; [|exact IH]. cbn. exact (form_nonempty m k u F).
Qed.
