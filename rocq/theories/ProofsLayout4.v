(** Tokens of a text whose layout is changed, continued (C47, C54). *)
From Coq Require Import ZifyBool ZifyN ZifyNat.
From Verif Require Import Base ModelUtils ModelLexer SpecUtils SpecLexer SpecLayout ProofsUtils ProofsLexer ProofsLexer2 ProofsLexer3 ProofsLayout3.
Local Open Scope string_scope.

Definition maximal (m : lex_mode) (u v : string) : Prop :=
  forall k' u' v', u ++ v = u' ++ v' -> form m k' u' -> (String.length u' <= String.length u)%nat.
Lemma maximal_iff m u v : maximal m u v <-> forall k e w, v = e ++ w -> e <> "" -> ~ form m k (u ++ e).
Proof.
  split.
  - intros H k e w -> Ne F. specialize (H k (u ++ e) w ltac:(now rewrite append_assoc) F). rewrite length_append in H. destruct e; [congruence|cbn in H; lia].
  - intros H k u' v' E F. destruct (Nat.le_gt_cases (String.length u') (String.length u)) as [L|L]; [exact L|exfalso].
    destruct (append_prefix u v u' v' E ltac:(lia)) as (e & -> & ->). apply (H k e v' eq_refl); [|exact F]. intros ->. rewrite append_nil_r in L. lia.
Qed.
Lemma append_split (a x e w : string) : a ++ x = e ++ w -> (exists a2, a = e ++ a2) \/ (exists c e2, e = a ++ String c e2 /\ x = String c e2 ++ w).
Proof.
  intros E. destruct (Nat.le_gt_cases (String.length e) (String.length a)) as [L|L].
  - left. destruct (append_prefix e w a x (eq_sym E) L) as (e' & -> & _). eauto.
  - right. destruct (append_prefix a x e w E ltac:(lia)) as (e' & -> & ->). destruct e' as [|c e2]; [rewrite append_nil_r in L; lia|]. eauto.
Qed.
(** The first character behind [u] *)
Lemma first_char (a x : string) d e w : a ++ x = String d e ++ w -> (a = "" /\ x = String d e ++ w) \/ exists a', a = String d a'.
Proof. destruct a as [|c a]; cbn; [auto|]. intros [= -> _]. right. eauto. Qed.

Lemma stays m k u a x x' : form m k u -> maximal m u (a ++ x) -> k <> T_TRIPLE_QUOTE ->
  (x' = "" \/ (exists c r, x' = String c r /\ stopb c = true) \/ ~ unstopped a \/ (a = "" /\ ~ unstopped u)) ->
  (a = "" -> (In k [T_WHITE_SPACE; T_VERSION_WHITE_SPACE] -> forall c r, x' = String c r -> ~ blank c) /\
             (k = T_SINGLE_LINE_COMMENT -> forall c r, x' = String c r -> line_end c) /\
             (k = T_DIVISION_OP -> forall c r, x' = String c r -> c <> "/"%char /\ c <> "*"%char)) ->
  (k = T_DIVISION_OP -> forall r, a <> "*" ++ r) ->
  maximal m u (a ++ x').
Proof.
  intros F M Nt Stop Next Star. pose proof (form_nonempty _ _ _ F) as Nu. rewrite maximal_iff in M. apply maximal_iff. intros k' e w E Ne F'.
  assert (L : (1 < String.length (u ++ e))%nat) by (rewrite length_append; destruct u; [congruence|]; destruct e; [congruence|]; cbn; lia).
  destruct e as [|d e]; [congruence|]. pose proof (first_char _ _ _ _ _ E) as Fc.
  destruct u as [|c u]; [congruence|].
  destruct (form_cases m k' _ F' L) as [U|[[K B]|[[-> (s & Es & Hs)]|[[-> D]|[[-> Es]|[-> D]]]]]].
  - apply unstopped_append in U. destruct U as [U1 U2]. apply append_split in E. destruct E as [(a2 & ->)|(c2 & e2 & Ee & Ex)].
    + apply (M k' (String d e) (a2 ++ x)); [now rewrite append_assoc|discriminate|exact F'].
    + rewrite Ee in U2. apply unstopped_append in U2. destruct U2 as [Ua [Uc _]]. destruct Stop as [->|[(c3 & r & -> & S)|[S|[_ S]]]]; [discriminate Ex| |exact (S Ua)|exact (S U1)].
      injection Ex as -> _. congruence.
  - apply all_bytes_append in B. destruct B as [[Bc Bu] [Bd _]]. destruct (blank_first m k c u Bc F) as [Kk Bk]. destruct Fc as [[-> Ex]|[a' ->]].
    + destruct (Next eq_refl) as [W _]. exact (W Kk d (e ++ w) Ex Bd).
    + apply (M k (String d "") (a' ++ x)); [reflexivity|discriminate|].
      assert (B2 : all_bytes blank (String c u ++ String d "")) by (apply all_bytes_append; split; [exact Bk|now split]).
      destruct m; cbn [form] in *; destruct Kk as [<-|[<-|[]]].
      * apply form_blank; [discriminate|exact B2]. * exfalso. inversion F as [? ? I|? ? I| | | | | | | | |]; sign_cases I.
      * exfalso. inversion F. * apply form_version_blank; [discriminate|exact B2].
  - cbn [append] in Es. injection Es as -> Es. destruct m; [|cbn [form] in F'; inversion F']. destruct (slash_first DefaultMode k u F) as [[-> ->]|[[-> (t & -> & Ht)]|[-> D]]].
    + cbn [append] in Es. injection Es as -> _. destruct Fc as [[-> Ex]|[a' ->]].
      * destruct (Next eq_refl) as (_ & _ & W). exact (proj1 (W eq_refl _ _ Ex) eq_refl).
      * apply (M T_SINGLE_LINE_COMMENT "/" (a' ++ x)); [reflexivity|discriminate|]. exact (form_line_comment "" I).
    + cbn [append] in Es. injection Es as Es. rewrite <- Es in Hs. apply all_bytes_append in Hs. destruct Hs as [_ [Hd _]]. destruct Fc as [[-> Ex]|[a' ->]].
      * destruct (Next eq_refl) as (_ & W & _). exact (Hd (W eq_refl _ _ Ex)).
      * apply (M T_SINGLE_LINE_COMMENT (String d "") (a' ++ x)); [reflexivity|discriminate|]. change (String "/" ("/" ++ t) ++ String d "") with ("//" ++ (t ++ String d "")). apply form_line_comment.
        apply all_bytes_append. split; [exact Ht|now split].
    + destruct D as (b & Eb & _). cbn [append] in Eb. injection Eb as ->. discriminate Es.
  - destruct D as (b & Es & Cb). cbn [append] in Es. injection Es as -> Es. destruct (slash_first m k u F) as [[-> ->]|[[-> (t & -> & Ht)]|[-> D]]].
    + cbn [append] in Es. injection Es as -> _. destruct Fc as [[-> Ex]|[a' ->]].
      * destruct (Next eq_refl) as (_ & _ & W). exact (proj2 (W eq_refl _ _ Ex) eq_refl).
      * exact (Star eq_refl a' eq_refl).
    + discriminate Es.
    + assert (D2 : delimited "/*" "*/" (String "/" u ++ String d e)) by (exists b; split; [cbn [append]; now rewrite Es|exact Cb]).
      pose proof (delimited_unique "/*" "*/" (String "/" u ++ String d e) _ (String d e) _ "" eq_refl D ltac:(now rewrite append_nil_r) D2) as Q.
      apply (f_equal String.length) in Q. rewrite length_append in Q. cbn in Q. lia.
  - unfold CR, LF in Es. cbn [append] in Es. injection Es as -> Es. change (ascii_of_N 13) with carriage_return in F. destruct (return_first m k u F) as [_ ->]. apply (f_equal String.length) in Es. rewrite length_append in Es. cbn in Es. lia.
  - pose proof D as (b & Es & Cb). cbn [append] in Es. injection Es as -> Es. destruct (quote_first m k u F) as [K|D2]; [contradiction|].
    pose proof (delimited_unique "'''" "'''" (String "'" u ++ String d e) _ (String d e) _ "" eq_refl D2 ltac:(now rewrite append_nil_r) D) as Q.
    apply (f_equal String.length) in Q. rewrite length_append in Q. cbn in Q. lia.
Qed.
