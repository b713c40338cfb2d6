(** Tokens of a text whose layout is changed (C47, C54). *)
From Coq Require Import ZifyBool ZifyN ZifyNat.
From Verif Require Import Base ModelUtils ModelLexer SpecUtils SpecLexer SpecLayout ProofsUtils ProofsLexer ProofsLexer2 ProofsLexer3.
Local Open Scope string_scope.

(** ** Characters that occur in no longer token *)
Definition stopb (c : ascii) : bool := is_blank c || Ascii.eqb c newline || Ascii.eqb c carriage_return || Ascii.eqb c "/" || Ascii.eqb c ";".
Definition unstopped (s : string) : Prop := all_bytes (fun c => stopb c = false) s.
Fixpoint unstoppedb (s : string) : bool := match s with EmptyString => true | String c s' => negb (stopb c) && unstoppedb s' end.
Lemma unstoppedb_iff s : unstoppedb s = true <-> unstopped s.
Proof. induction s as [|c s IH]; cbn; [tauto|]. rewrite andb_true_iff, IH, negb_true_iff. tauto. Qed.
Lemma digit_unstopped c : digit c -> stopb c = false.
Proof. unfold digit, code_between. intros H. destruct c as [[] [] [] [] [] [] [] []]; cbn in H; solve [reflexivity|lia]. Qed.
Lemma letter_unstopped c : letter c -> stopb c = false.
Proof. unfold letter, code_between. intros H. destruct c as [[] [] [] [] [] [] [] []]; cbn in H; solve [reflexivity|intuition (lia || discriminate)]. Qed.
Lemma digits_unstopped s : digits s -> unstopped s.
Proof. apply all_bytes_impl, digit_unstopped. Qed.
Lemma unstopped_append a b : unstopped (a ++ b) <-> unstopped a /\ unstopped b.
Proof. apply all_bytes_append. Qed.
Lemma exponent_unstopped e : exponent e -> unstopped e.
Proof.
  intros [|e' sign d He Hs Hd _]; [exact I|]. apply unstopped_append. split; [destruct He as [->| ->]; repeat split|].
  apply unstopped_append. split; [destruct Hs as [->|[->| ->]]; repeat split|now apply digits_unstopped].
Qed.

(** The forms other than blanks, comments, line ends and raw strings *)
Lemma form_cases m k u : form m k u -> (1 < String.length u)%nat ->
  unstopped u \/
  (In k [T_WHITE_SPACE; T_VERSION_WHITE_SPACE] /\ all_bytes blank u) \/
  (k = T_SINGLE_LINE_COMMENT /\ exists s, u = "//" ++ s /\ all_bytes (fun c => ~ line_end c) s) \/
  (k = T_MULTI_LINE_COMMENT /\ delimited "/*" "*/" u) \/
  (k = T_NEW_LINE /\ u = CR ++ LF) \/
  (k = T_RAW_TEXT_STRING /\ delimited "'''" "'''" u).
Proof.
  destruct m; cbn [form]; intros H L.
  - inversion H as [k' s' I|k' s' I|s' N B|s' B|s' C| | |s' N D|a b e Da Db N He|c s' Lc B|s' C]; subst.
    + left. assert (F : forallb (fun e => (String.length (snd e) <=? 1)%nat || unstoppedb (snd e)) signs = true) by reflexivity.
      rewrite forallb_forall in F. specialize (F (k, u) I). cbn [snd] in F. apply unstoppedb_iff. destruct (unstoppedb u); [reflexivity|lia].
    + left. assert (F : forallb (fun e => unstoppedb (snd e)) words = true) by reflexivity. rewrite forallb_forall in F. exact (proj1 (unstoppedb_iff u) (F (k, u) I)).
    + right; left. cbn. auto.
    + right; right; left. eauto.
    + do 3 right; left. split; [reflexivity|]. now exists s'.
    + cbn in L. lia.
    + do 4 right; left. auto.
    + left. now apply digits_unstopped.
    + left. apply unstopped_append. split; [now apply digits_unstopped|]. apply unstopped_append. split; [repeat split|]. apply unstopped_append. split; [now apply digits_unstopped|now apply exponent_unstopped].
    + left. split; [now apply letter_unstopped|]. eapply all_bytes_impl; [|exact B]. intros d [Hd|Hd]; [now apply letter_unstopped|now apply digit_unstopped].
    + do 5 right. split; [reflexivity|]. now exists s'.
  - inversion H as [s' N B|s' N D|a b Na Da Nb Db]; subst.
    + right; left. cbn. auto.
    + left. now apply digits_unstopped.
    + left. apply unstopped_append. split; [now apply digits_unstopped|]. apply unstopped_append. split; [repeat split|now apply digits_unstopped].
Qed.

(** ** What the first character tells *)
Ltac sign_cases I := cbn in I; repeat (destruct I as [I|I]; [try discriminate I; injection I as <- <-|]); try contradiction.
Lemma digit_char_not c d : digit c -> c = d -> digit d. Proof. now intros ? <-. Qed.
Lemma append_first a b c s : a ++ b = String c s -> (a = "" /\ b = String c s) \/ exists a', a = String c a' /\ s = a' ++ b.
Proof. destruct a as [|x a']; cbn; [auto|]. intros [= -> <-]. right. eauto. Qed.
Lemma float_first a b e c s : digits a -> a ++ "." ++ b ++ e = String c s -> digit c \/ c = "."%char.
Proof. intros Da E. apply append_first in E. destruct E as [[-> E]|(a' & -> & _)]; [injection E as <- _; auto|left; apply Da]. Qed.
Lemma blank_first m k c s : blank c -> form m k (String c s) -> In k [T_WHITE_SPACE; T_VERSION_WHITE_SPACE] /\ all_bytes blank (String c s).
Proof.
  intros Bc. assert (Hd : ~ digit c) by (intros D; unfold digit, code_between, blank in *; destruct Bc as [->|Bc]; [cbn in D|]; lia).
  assert (Hl : ~ letter c) by (intros D; unfold letter, code_between, blank in *; destruct Bc as [->|Bc]; [cbn in D; intuition (lia || discriminate)|]; destruct D as [D|[D| ->]]; [lia|lia|discriminate Bc]).
  assert (Hdot : c <> "."%char) by (intros ->; destruct Bc as [Bc|Bc]; discriminate Bc).
  destruct m; cbn [form]; intros H.
  - inversion H as [k' s' I|k' s' I|s' N B|s' B|s' C| | |s' N D|a b e Da Db N He|c' s' Lc B|s' C]; subst.
    + exfalso. destruct Bc as [->|Bc]; sign_cases I; discriminate Bc.
    + exfalso. destruct Bc as [->|Bc]; sign_cases I; discriminate Bc.
    + split; [cbn; auto|exact B].
    + exfalso. destruct Bc as [Bc|Bc]; discriminate Bc.
    + exfalso. destruct Bc as [Bc|Bc]; discriminate Bc.
    + exfalso. destruct Bc as [Bc|Bc]; discriminate Bc.
    + exfalso. destruct Bc as [Bc|Bc]; discriminate Bc.
    + exfalso. apply Hd, D.
    + exfalso. match goal with E : _ = String c s |- _ => apply float_first in E; [|exact Da]; destruct E; contradiction end.
    + exfalso. contradiction.
    + exfalso. destruct Bc as [Bc|Bc]; discriminate Bc.
  - inversion H as [s' N B|s' N D|a b Na Da Nb Db]; subst.
    + split; [cbn; auto|exact B].
    + exfalso. apply Hd, D.
    + exfalso. destruct a as [|x a]; [now destruct Na|]. match goal with E : _ = String c s |- _ => injection E as -> _ end. apply Hd, Da.
Qed.
Lemma slash_first m k s : form m k (String "/" s) ->
  (k = T_DIVISION_OP /\ s = "") \/
  (k = T_SINGLE_LINE_COMMENT /\ exists t, s = "/" ++ t /\ all_bytes (fun c => ~ line_end c) t) \/
  (k = T_MULTI_LINE_COMMENT /\ delimited "/*" "*/" (String "/" s)).
Proof.
  destruct m; cbn [form]; intros H.
  - inversion H as [k' s' I|k' s' I|s' N B|s' B|s' C| | |s' N D|a b e Da Db N He|c' s' Lc B|s' C]; subst.
    + sign_cases I. auto.
    + sign_cases I.
    + exfalso. destruct B as [[B|B] _]; discriminate B.
    + right; left. split; [reflexivity|]. exists s'. auto.
    + right; right. split; [reflexivity|]. now exists s'.
    + exfalso. destruct D as [D _]. unfold digit, code_between in D. cbn in D. lia.
    + exfalso. match goal with E : _ = String _ s |- _ => apply float_first in E; [|exact Da]; destruct E as [E|E]; [unfold digit, code_between in E; cbn in E; lia|discriminate E] end.
    + exfalso. unfold letter, code_between in Lc. cbn in Lc. intuition (lia || discriminate).
  - inversion H as [s' N B|s' N D|a b Na Da Nb Db]; subst.
    + exfalso. destruct B as [[B|B] _]; discriminate B.
    + exfalso. destruct D as [D _]. unfold digit, code_between in D. cbn in D. lia.
    + exfalso. destruct a as [|x a]; [now destruct Na|]. match goal with E : _ = String _ s |- _ => injection E as -> _ end. destruct Da as [D _]. unfold digit, code_between in D. cbn in D. lia.
Qed.
Lemma quote_first m k s : form m k (String "'" s) -> k = T_TRIPLE_QUOTE \/ delimited "'''" "'''" (String "'" s).
Proof.
  destruct m; cbn [form]; intros H.
  - inversion H as [k' s' I|k' s' I|s' N B|s' B|s' C| | |s' N D|a b e Da Db N He|c' s' Lc B|s' C]; subst.
    + sign_cases I. auto.
    + sign_cases I.
    + exfalso. destruct B as [[B|B] _]; discriminate B.
    + exfalso. destruct D as [D _]. unfold digit, code_between in D. cbn in D. lia.
    + exfalso. match goal with E : _ = String _ s |- _ => apply float_first in E; [|exact Da]; destruct E as [E|E]; [unfold digit, code_between in E; cbn in E; lia|discriminate E] end.
    + exfalso. unfold letter, code_between in Lc. cbn in Lc. intuition (lia || discriminate).
    + right. now exists s'.
  - inversion H as [s' N B|s' N D|a b Na Da Nb Db]; subst.
    + exfalso. destruct B as [[B|B] _]; discriminate B.
    + exfalso. destruct D as [D _]. unfold digit, code_between in D. cbn in D. lia.
    + exfalso. destruct a as [|x a]; [now destruct Na|]. match goal with E : _ = String _ s |- _ => injection E as -> _ end. destruct Da as [D _]. unfold digit, code_between in D. cbn in D. lia.
Qed.
Lemma return_first m k s : form m k (String carriage_return s) -> k = T_NEW_LINE /\ s = LF.
Proof.
  change carriage_return with (ascii_of_N 13). destruct m; cbn [form]; intros H.
  - inversion H as [k' s' I|k' s' I|s' N B|s' B|s' C| | |s' N D|a b e Da Db N He|c' s' Lc B|s' C]; subst.
    + sign_cases I.
    + sign_cases I.
    + exfalso. destruct B as [[B|B] _]; discriminate B.
    + auto.
    + exfalso. destruct D as [D _]. unfold digit, code_between in D. cbn in D. lia.
    + exfalso. match goal with E : _ = String _ s |- _ => apply float_first in E; [|exact Da]; destruct E as [E|E]; [unfold digit, code_between in E; cbn in E; lia|discriminate E] end.
    + exfalso. unfold letter, code_between in Lc. cbn in Lc. intuition (lia || discriminate).
  - inversion H as [s' N B|s' N D|a b Na Da Nb Db]; subst.
    + exfalso. destruct B as [[B|B] _]; discriminate B.
    + exfalso. destruct D as [D _]. unfold digit, code_between in D. cbn in D. lia.
    + exfalso. destruct a as [|x a]; [now destruct Na|]. match goal with E : _ = String _ s |- _ => injection E as -> _ end. destruct Da as [D _]. unfold digit, code_between in D. cbn in D. lia.
Qed.
