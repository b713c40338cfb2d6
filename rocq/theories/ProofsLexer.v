(** Regular expressions and longest matches (C45, C46). *)
From Coq Require Import ZifyBool ZifyN ZifyNat.
From Verif Require Import Base ModelUtils ModelLexer SpecUtils SpecLexer ProofsUtils.
Local Open Scope string_scope.

(** ** Regular languages *)
Inductive matches : regex -> string -> Prop :=
| m_eps : matches REps ""
| m_class (p : ascii -> bool) c : p c = true -> matches (RClass p) (String c "")
| m_seq a b s t : matches a s -> matches b t -> matches (RSeq a b) (s ++ t)
| m_alt_l a b s : matches a s -> matches (RAlt a b) s
| m_alt_r a b s : matches b s -> matches (RAlt a b) s
| m_star_nil a : matches (RStar a) ""
| m_star_cons a s t : matches a s -> matches (RStar a) t -> matches (RStar a) (s ++ t).

Lemma seq_matches a b s : matches (seq_ a b) s <-> matches (RSeq a b) s.
Proof.
  assert (E1 : forall b s, matches b s -> matches (RSeq REps b) s) by (intros b' s' H; exact (m_seq _ _ "" s' m_eps H)).
  assert (E2 : forall a s, matches a s -> matches (RSeq a REps) s).
  { intros a' s' H. rewrite <- (append_nil_r s'). now apply m_seq; [|apply m_eps]. }
  assert (N1 : forall s, ~ matches REmpty s) by (intros ? H; inversion H).
  split.
  - destruct a, b; cbn; intros H; try (exfalso; eapply N1, H); auto.
  - intros H. inversion H as [| |? ? s1 t1 H1 H2| | | |]; subst.
    assert (Z : forall t, matches REps t -> t = "") by (intros t X; inversion X; reflexivity).
    destruct a; try (exfalso; eapply N1, H1); [apply Z in H1; subst s1; cbn [append]; destruct b; cbn; auto| | | |];
      (destruct b; cbn; try (exfalso; eapply N1, H2); try (now apply m_seq); apply Z in H2; subst t1; now rewrite append_nil_r).
Qed.
Lemma alt_matches a b s : matches (alt_ a b) s <-> matches (RAlt a b) s.
Proof.
  assert (N1 : forall s, ~ matches REmpty s) by (intros ? H; inversion H).
  split.
  - destruct a, b; cbn; intros H; auto; try (now apply m_alt_r); now apply m_alt_l.
  - intros H. inversion H; subst; destruct a, b; cbn; auto; try (exfalso; eapply N1; eassumption); try (now apply m_alt_r); now apply m_alt_l.
Qed.
Lemma nullable_matches r : nullable r = true <-> matches r "".
Proof.
  induction r; cbn.
  - split; [discriminate|]. intros H; inversion H.
  - split; [intros _; constructor|auto].
  - split; [discriminate|]. intros H; inversion H.
  - rewrite andb_true_iff, IHr1, IHr2. split.
    + intros [H1 H2]. exact (m_seq _ _ "" "" H1 H2).
    + intros H. inversion H as [| |? ? s t H1 H2 E1 E2| | | |]; subst. destruct s, t; try discriminate. auto.
  - rewrite orb_true_iff, IHr1, IHr2. split; [intros [H|H]; [now apply m_alt_l|now apply m_alt_r]|]. intros H; inversion H; auto.
  - split; [intros _; constructor|auto].
Qed.
Lemma star_cons_inv a c s : matches (RStar a) (String c s) -> exists u v, s = u ++ v /\ matches a (String c u) /\ matches (RStar a) v.
Proof.
  intros H. remember (RStar a) as r eqn:Er. remember (String c s) as w eqn:Ew. revert a s Er Ew.
  induction H as [| | | | | |a u v H1 IH1 H2 IH2]; intros a0 s0 Er Ew; try discriminate. injection Er as <-.
  destruct u as [|d u]; [exact (IH2 a s0 eq_refl Ew)|]. cbn in Ew. injection Ew as -> <-. eauto.
Qed.
Lemma deriv_matches r : forall c s, matches (deriv c r) s <-> matches r (String c s).
Proof.
  induction r as [| |p|a IHa b IHb|a IHa b IHb|a IHa]; intros c s; cbn [deriv].
  - split; intros H; inversion H.
  - split; intros H; inversion H.
  - destruct (p c) eqn:E; split; intros H; inversion H; subst; try (now constructor); congruence.
  - assert (S : matches (seq_ (deriv c a) b) s <-> exists u v, s = u ++ v /\ matches a (String c u) /\ matches b v).
    { rewrite seq_matches. split.
      - intros H. inversion H as [| |? ? u v H1 H2| | | |]; subst. exists u, v. rewrite <- IHa. auto.
      - intros (u & v & -> & H1 & H2). apply m_seq; [now apply IHa|exact H2]. }
    destruct (nullable a) eqn:N.
    + rewrite alt_matches. apply nullable_matches in N. split.
      * intros H. inversion H as [| | |? ? ? H'|? ? ? H'| |]; subst.
        -- apply S in H'. destruct H' as (u & v & -> & H1 & H2). exact (m_seq _ _ _ _ H1 H2).
        -- apply IHb in H'. exact (m_seq _ _ "" _ N H').
      * intros H. inversion H as [| |? ? u v H1 H2 E1 E2| | | |]; subst. destruct u as [|d u]; cbn in E2.
        -- subst v. apply m_alt_r. now apply IHb.
        -- injection E2 as -> <-. apply m_alt_l, S. eauto.
    + rewrite S. split.
      * intros (u & v & -> & H1 & H2). exact (m_seq _ _ _ _ H1 H2).
      * intros H. inversion H as [| |? ? u v H1 H2 E1 E2| | | |]; subst. destruct u as [|d u]; cbn in E2.
        -- apply nullable_matches in H1. congruence.
        -- injection E2 as -> <-. eauto.
  - rewrite alt_matches. split; intros H; inversion H; subst;
      first [apply m_alt_l; now apply IHa | apply m_alt_r; now apply IHb].
  - rewrite seq_matches. split.
    + intros H. inversion H as [| |? ? u v H1 H2| | | |]; subst. apply IHa in H1. exact (m_star_cons _ _ _ H1 H2).
    + intros H. apply star_cons_inv in H. destruct H as (u & v & -> & H1 & H2). apply m_seq; [now apply IHa|exact H2].
Qed.

(** ** Prefixes *)
Lemma take_drop n s : take n s ++ drop n s = s.
Proof. revert s. induction n as [|n IH]; intros [|c s]; cbn; try reflexivity. now rewrite IH. Qed.
Lemma take_length n s : (n <= String.length s)%nat -> String.length (take n s) = n.
Proof. revert s. induction n as [|n IH]; intros [|c s] H; cbn in *; try lia. rewrite IH; lia. Qed.
Lemma take_append u v : take (String.length u) (u ++ v) = u.
Proof. induction u as [|c u IH]; cbn; [now destruct v|now rewrite IH]. Qed.
Lemma drop_append u v : drop (String.length u) (u ++ v) = v.
Proof. induction u as [|c u IH]; cbn; [now destruct v|exact IH]. Qed.
Lemma append_same_length a b c d : a ++ b = c ++ d -> String.length a = String.length c -> a = c /\ b = d.
Proof.
  revert c. induction a as [|x a IH]; intros [|y c] E L; cbn in *; try discriminate; [auto|].
  injection E as -> E. injection L as L. destruct (IH c E L) as [-> ->]. auto.
Qed.
(** Of two prefixes of the same text, the shorter one is a prefix of the longer. *)
Lemma append_prefix a b c d : a ++ b = c ++ d -> (String.length a <= String.length c)%nat -> exists e, c = a ++ e /\ b = e ++ d.
Proof.
  revert c. induction a as [|x a IH]; intros c E L; cbn in *; [eauto|]. destruct c as [|y c]; cbn in *; [lia|].
  injection E as -> E. destruct (IH c E ltac:(lia)) as (e & -> & ->). eauto.
Qed.

(** [n] is the length of the longest prefix of [s] in the language [L]. *)
Definition longest_in (L : string -> Prop) (s : string) (o : option nat) : Prop :=
  match o with
  | Some n => exists u v, s = u ++ v /\ String.length u = n /\ L u /\
                forall u' v', s = u' ++ v' -> L u' -> (String.length u' <= n)%nat
  | None => forall u v, s = u ++ v -> ~ L u
  end.
Lemma longest_spec r s n best :
  match longest r s n best with
  | Some m => (exists i, m = (n + i)%nat /\ longest_in (matches r) s (Some i)) \/ (longest_in (matches r) s None /\ best = Some m)
  | None => longest_in (matches r) s None /\ best = None
  end.
Proof.
  revert r n best. induction s as [|c s IH]; intros r n best; cbn [longest].
  - destruct (nullable r) eqn:N.
    + left. exists 0%nat. split; [lia|]. apply nullable_matches in N. exists "", "". split; [reflexivity|]. split; [reflexivity|]. split; [exact N|].
      intros u v E _. destruct u; [cbn; lia|discriminate].
    + assert (X : longest_in (matches r) "" None).
      { intros u v E M. destruct u; [|discriminate]. apply nullable_matches in M. congruence. }
      destruct best; auto.
  - assert (B : forall best', (if nullable r then Some n else best) = best' ->
       longest_in (matches (deriv c r)) s None ->
       match best' with
       | Some m => (exists i, m = (n + i)%nat /\ longest_in (matches r) (String c s) (Some i)) \/ (longest_in (matches r) (String c s) None /\ best = Some m)
       | None => longest_in (matches r) (String c s) None /\ best = None
       end).
    { intros best' <- X. destruct (nullable r) eqn:N.
      - left. exists 0%nat. split; [lia|]. apply nullable_matches in N. exists "", (String c s). split; [reflexivity|]. split; [reflexivity|]. split; [exact N|].
        intros u v E M. destruct u as [|d u]; [cbn; lia|]. cbn in E. injection E as <- ->. apply deriv_matches in M. destruct (X u v eq_refl M).
      - assert (Y : longest_in (matches r) (String c s) None).
        { intros u v E M. destruct u as [|d u]; [apply nullable_matches in M; congruence|]. cbn in E. injection E as <- ->.
          apply deriv_matches in M. exact (X u v eq_refl M). }
        destruct best; auto. }
    destruct (is_REmpty (deriv c r)) eqn:Em.
    + assert (X : longest_in (matches (deriv c r)) s None).
      { intros u v _ M. destruct (deriv c r); try discriminate. inversion M. }
      exact (B _ eq_refl X).
    + specialize (IH (deriv c r) (S n) (if nullable r then Some n else best)).
      destruct (longest (deriv c r) s (S n) _) as [m|].
      * destruct IH as [(i & -> & u & v & -> & Li & M & Mx)|[X E]].
        -- left. exists (S i). split; [lia|]. exists (String c u), v. split; [reflexivity|]. split; [cbn; lia|]. split; [now apply deriv_matches|].
           intros u' v' E M'. destruct u' as [|d u']; [cbn; lia|]. cbn in E. injection E as <- E. apply deriv_matches in M'. cbn.
           specialize (Mx u' v' E M'). lia.
        -- exact (B _ E X).
      * destruct IH as [X E]. exact (B _ E X).
Qed.
Lemma longest_ok r s : longest_in (matches r) s (longest r s 0 None).
Proof.
  pose proof (longest_spec r s 0 None) as H. destruct (longest r s 0 None) as [m|]; [|exact (proj1 H)].
  destruct H as [(i & -> & H)|[_ H]]; [exact H|discriminate].
Qed.

(** ** Delimited rules *)
Definition delimited (o c : string) (s : string) : Prop := exists b, s = o ++ b ++ c /\ closes_first b c.
Lemma starts_with_iff p s : starts_with p s = true <-> exists t, s = p ++ t.
Proof.
  revert s. induction p as [|a p IH]; intros s; cbn; [split; [eauto|auto]|].
  destruct s as [|b s]; [split; [discriminate|intros [t E]; discriminate]|].
  rewrite andb_true_iff, Ascii.eqb_eq, IH. split.
  - intros [-> [t ->]]. eauto.
  - intros [t E]. injection E as -> ->. eauto.
Qed.
Lemma find_close_spec c s n : c <> "" ->
  match find_close c s n with
  | Some m => exists b v, s = b ++ c ++ v /\ closes_first b c /\ m = (n + String.length b + String.length c)%nat
  | None => forall a b, s <> a ++ c ++ b
  end.
Proof.
  intros Nc. revert n. induction s as [|x s IH]; intros n; cbn [find_close].
  - destruct (starts_with c "") eqn:SW; [apply starts_with_iff in SW; destruct SW as [t E]; destruct c; [congruence|discriminate]|].
    intros a b E. destruct a; [|discriminate]. destruct c; [congruence|discriminate].
  - destruct (starts_with c (String x s)) eqn:SW.
    + apply starts_with_iff in SW. destruct SW as [t E]. exists "", t. split; [exact E|]. split; [|cbn; lia].
      intros a b E'. cbn [append] in E'. apply (f_equal String.length) in E'. rewrite !length_append in E'.
      destruct b; [reflexivity|cbn in E'; lia].
    + assert (NS : forall t, String x s <> c ++ t) by (intros t E; rewrite E in SW; assert (starts_with c (c ++ t) = true) by (apply starts_with_iff; eauto); congruence).
      specialize (IH (S n)). destruct (find_close c s (S n)) as [m|].
      * destruct IH as (b & v & -> & C & ->). exists (String x b), v. split; [reflexivity|]. split; [|cbn; lia].
        intros a' b' E. destruct a' as [|y a']; cbn [append] in E.
        -- exfalso. apply (NS (b' ++ v)). transitivity (String x (b ++ c) ++ v); [cbn [append]; now rewrite append_assoc|].
           cbn [append] in E. rewrite E. now rewrite append_assoc.
        -- injection E as <- E. exact (C a' b' E).
      * intros a b E. destruct a as [|y a]; cbn [append] in E; [exact (NS b E)|]. injection E as <- E. exact (IH a b E).
Qed.
(** At most one prefix of a text is a delimited token. *)
Lemma delimited_unique o c s u v u' v' : s = u ++ v -> delimited o c u -> s = u' ++ v' -> delimited o c u' -> u = u'.
Proof.
  assert (W : forall b b' v v', b ++ c ++ v = b' ++ c ++ v' -> (String.length b <= String.length b')%nat -> closes_first b' c -> b = b').
  { intros b b' w w' E L C. rewrite <- !append_assoc in E. destruct (append_prefix (b ++ c) w (b' ++ c) w') as (e & E1 & _).
    - exact E. - rewrite !length_append. lia.
    - rewrite append_assoc in E1. specialize (C b e E1). subst e. rewrite append_nil_r in E1.
      assert (L2 : String.length b = String.length b') by (apply (f_equal String.length) in E1; rewrite !length_append in E1; lia).
      symmetry. exact (proj1 (append_same_length _ _ _ _ E1 (eq_sym L2))). }
  intros -> (b & -> & C) E (b' & -> & C'). rewrite !append_assoc in E. apply append_inj_l in E.
  destruct (Nat.le_ge_cases (String.length b) (String.length b')) as [L|L].
  - now rewrite (W b b' _ _ E L C').
  - now rewrite (W b' b _ _ (eq_sym E) L C).
Qed.
Definition language (r : lex_rule) : string -> Prop :=
  match r with Greedy e => matches e | Delimited o c => delimited o c end.
Definition rule_fine (r : lex_rule) : Prop := match r with Greedy _ => True | Delimited _ c => c <> "" end.
Lemma match_rule_ok r s : rule_fine r -> longest_in (language r) s (match_rule r s).
Proof.
  destruct r as [e|o c]; intros Hf; cbn [match_rule language]; [apply longest_ok|].
  destruct (starts_with o s) eqn:S.
  - apply starts_with_iff in S. destruct S as [t ->]. rewrite drop_append. pose proof (find_close_spec c t (String.length o) Hf) as F.
    destruct (find_close c t (String.length o)) as [m|].
    + destruct F as (b & v & -> & C & ->). exists (o ++ b ++ c), v.
      assert (D : delimited o c (o ++ b ++ c)) by (exists b; auto).
      split; [now rewrite !append_assoc|]. split; [rewrite !length_append; lia|]. split; [exact D|].
      intros u' v' E D'. rewrite (delimited_unique o c _ u' v' (o ++ b ++ c) v E D' ltac:(now rewrite !append_assoc) D). rewrite !length_append. lia.
    + intros u v E (b & -> & _). rewrite !append_assoc in E. apply append_inj_l in E. exact (F b v E).
  - intros u v E (b & -> & _). rewrite !append_assoc in E. rewrite E in S.
    assert (starts_with o (o ++ b ++ c ++ v) = true) by (apply starts_with_iff; eauto). congruence.
Qed.

(** ** Rules together *)
Definition in_rules (rules : list (token_kind * lex_rule)) (k : token_kind) (s : string) : Prop :=
  exists r, In (k, r) rules /\ language r s.
(** The first rule for a text. *)
Fixpoint first_rule (rules : list (token_kind * lex_rule)) (k : token_kind) (s : string) : Prop :=
  match rules with
  | [] => False
  | (k1, r) :: rules' => (k = k1 /\ language r s) \/ (~ language r s /\ first_rule rules' k s)
  end.
Lemma first_rule_in rules k s : first_rule rules k s -> in_rules rules k s.
Proof.
  induction rules as [|[k1 r] rules IH]; cbn; [contradiction|]. intros [[-> H]|[_ H]]; [exists r; cbn; auto|].
  destruct (IH H) as (r' & I & L). exists r'. cbn. auto.
Qed.
Lemma best_match_ok rules s : Forall (fun e => rule_fine (snd e)) rules ->
  match best_match rules s with
  | Some (k, n) => exists u v, s = u ++ v /\ String.length u = n /\ first_rule rules k u /\
      forall k' u' v', s = u' ++ v' -> in_rules rules k' u' -> (String.length u' <= n)%nat
  | None => forall k u v, s = u ++ v -> ~ in_rules rules k u
  end.
Proof.
  induction rules as [|[k1 r] rules IH]; intros Hf; cbn [best_match].
  - intros k u v _ (r & [] & _).
  - inversion Hf as [|? ? F1 F2]; subst. specialize (IH F2). pose proof (match_rule_ok r s F1) as M.
    destruct (match_rule r s) as [n|].
    + destruct M as (u & v & -> & Lu & M & Mx). destruct (best_match rules (u ++ v)) as [[k' n']|].
      * destruct IH as (u2 & v2 & E2 & L2 & R2 & Mx2). destruct (Nat.ltb n n') eqn:Lt.
        -- apply Nat.ltb_lt in Lt. exists u2, v2. split; [exact E2|]. split; [exact L2|]. split.
           ++ right. split; [|exact R2]. intros X. specialize (Mx u2 v2 E2 X). lia.
           ++ intros k3 u3 v3 E3 (r3 & [I3|I3] & L3); [injection I3 as <- <-; specialize (Mx u3 v3 E3 L3); lia|].
              apply (Mx2 k3 u3 v3 E3). exists r3. auto.
        -- apply Nat.ltb_ge in Lt. exists u, v. split; [reflexivity|]. split; [exact Lu|]. split; [left; auto|].
           intros k3 u3 v3 E3 (r3 & [I3|I3] & L3); [injection I3 as <- <-; exact (Mx u3 v3 E3 L3)|].
           assert (X : (String.length u3 <= n')%nat) by (apply (Mx2 k3 u3 v3 E3); exists r3; auto). lia.
      * exists u, v. split; [reflexivity|]. split; [exact Lu|]. split; [left; auto|].
        intros k3 u3 v3 E3 (r3 & [I3|I3] & L3); [injection I3 as <- <-; exact (Mx u3 v3 E3 L3)|].
        exfalso. apply (IH k3 u3 v3 E3). exists r3. auto.
    + destruct (best_match rules s) as [[k' n']|].
      * destruct IH as (u2 & v2 & -> & L2 & R2 & Mx2). exists u2, v2. split; [reflexivity|]. split; [exact L2|]. split.
        -- right. split; [|exact R2]. intros X. exact (M u2 v2 eq_refl X).
        -- intros k3 u3 v3 E3 (r3 & [I3|I3] & L3); [injection I3 as <- <-; destruct (M u3 v3 E3 L3)|].
           apply (Mx2 k3 u3 v3 E3). exists r3. auto.
      * intros k3 u3 v3 E3 (r3 & [I3|I3] & L3); [injection I3 as <- <-; exact (M u3 v3 E3 L3)|].
        apply (IH k3 u3 v3 E3). exists r3. auto.
Qed.
