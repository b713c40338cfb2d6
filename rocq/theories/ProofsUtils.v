(** Lemmas about strings and the utilities (C01-C06). *)
From Verif Require Import Base ModelUtils SpecUtils.
From Coq Require Import Nnat ZifyBool ZifyNat ZifyN Decimal DecimalFacts DecimalString DecimalN DecimalPos DecimalZ.
Local Open Scope string_scope.

(** ** General facts about strings *)

Lemma append_assoc (a b c : string) : (a ++ b) ++ c = a ++ (b ++ c).
Proof. induction a; cbn; congruence. Qed.

Lemma append_nil_r (a : string) : a ++ "" = a.
Proof. induction a; cbn; congruence. Qed.

Lemma length_append (a b : string) : String.length (a ++ b) = String.length a + String.length b.
Proof. induction a; cbn; congruence. Qed.

Lemma append_inj_l (a b c : string) : a ++ b = a ++ c -> b = c.
Proof. induction a; cbn; [easy | intros [= H]; auto]. Qed.

Lemma substring_0_length (s : string) : substring 0 (String.length s) s = s.
Proof. induction s; cbn; congruence. Qed.

Lemma substring_append_r (a b : string) (n : nat) :
  substring (String.length a) n (a ++ b) = substring 0 n b.
Proof. induction a; cbn; auto. Qed.

Lemma substring_append_l (a b : string) : substring 0 (String.length a) (a ++ b) = a.
Proof. induction a; cbn; [destruct b; auto | congruence]. Qed.

Lemma ascii_of_N_inj (a b : N) : (a < 256)%N -> (b < 256)%N -> ascii_of_N a = ascii_of_N b -> a = b.
Proof. intros Ha Hb H. rewrite <- (N_ascii_embedding a Ha), <- (N_ascii_embedding b Hb). congruence. Qed.

Lemma byte_val_bounded (c : ascii) : (byte_val c < 256)%N.
Proof. unfold byte_val. apply N_ascii_bounded. Qed.

Lemma byte_val_inj (c d : ascii) : byte_val c = byte_val d -> c = d.
Proof. unfold byte_val. intros H. rewrite <- (ascii_N_embedding c), <- (ascii_N_embedding d). congruence. Qed.

(** Sweep over all 256 bytes. *)
Definition all_ascii : list ascii := map ascii_of_nat (seq 0 256).

Lemma ascii_sweep (P : ascii -> bool) : forallb P all_ascii = true -> forall c, P c = true.
Proof.
  intros H c. rewrite forallb_forall in H. apply H. unfold all_ascii.
  rewrite <- (ascii_nat_embedding c). apply in_map, in_seq.
  pose proof (nat_ascii_bounded c). lia.
Qed.

Ltac sweep_byte c := destruct c as [[|] [|] [|] [|] [|] [|] [|] [|]].

(** ** json_encode *)

Lemma prepend_app a b r : prepend a (prepend b r) = prepend (a ++ b) r.
Proof. destruct r as [[d t]|]; cbn; [now rewrite append_assoc | easy]. Qed.

Lemma json_chars_encode_char signed c rest :
  (signed = false \/ byte_below 128 c) ->
  json_chars (json_encode_char signed c ++ rest) = prepend (char_string c) (json_chars rest).
Proof.
  intros H. destruct signed.
  - destruct H as [H|H]; [discriminate|]. unfold byte_below in H.
    sweep_byte c; first [reflexivity | exfalso; vm_compute in H; discriminate H].
  - clear H. sweep_byte c; reflexivity.
Qed.

Lemma json_chars_encode signed s rest :
  (signed = false \/ ascii_text s) ->
  json_chars (json_encode signed s ++ String """" rest) = Some (s, rest).
Proof.
  intros H. unfold json_encode. induction s as [|c s IH].
  - reflexivity.
  - cbn [concat_map]. rewrite append_assoc, json_chars_encode_char.
    + rewrite IH; [reflexivity|]. destruct H as [H|H]; [now left | right; apply H].
    + destruct H as [H|H]; [now left | right; apply H].
Qed.

Lemma json_string_reads signed s :
  (signed = false \/ ascii_text s) ->
  reads_as_json ("""" ++ json_encode signed s ++ """") (JStr s).
Proof.
  intros H. exists 1%nat, "". split; [|reflexivity].
  change ("""" ++ json_encode signed s ++ """") with (String """" (json_encode signed s ++ """")).
  cbn [json_value json_skip]. change (N_of_ascii """") with 34%N. cbn [N.eqb Pos.eqb orb Ascii.eqb Bool.eqb andb].
  change """" with (String """" "") at 1. now rewrite json_chars_encode.
Qed.

(** Signed char: a byte from 0x80 on makes the body illegal. *)
Lemma json_chars_encode_signed_bad s rest :
  ~ ascii_text s -> json_chars (json_encode true s ++ rest) = None.
Proof.
  unfold json_encode, ascii_text. induction s as [|c s IH]; intros H; [cbn in H; tauto|].
  cbn [concat_map]. rewrite append_assoc.
  destruct (N.ltb_spec (N_of_ascii c) 128) as [Hc|Hc].
  - rewrite json_chars_encode_char by (right; exact Hc).
    rewrite IH; [reflexivity|]. intros Hs. apply H. split; assumption.
  - clear IH H. sweep_byte c; first [reflexivity | exfalso; vm_compute in Hc; apply Hc; reflexivity].
Qed.

Lemma ascii_text_dec s : {ascii_text s} + {~ ascii_text s}.
Proof.
  unfold ascii_text. induction s as [|c s IH]; cbn [all_bytes]; [now left|].
  destruct (N_of_ascii c <? 128)%N eqn:Hc.
  - destruct IH; [left; split; [unfold byte_below; lia|assumption]|right; tauto].
  - right. unfold byte_below. lia.
Qed.

Lemma json_encode_legal_iff signed s :
  (exists v, reads_as_json ("""" ++ json_encode signed s ++ """") v) <-> (signed = false \/ ascii_text s).
Proof.
  split.
  - intros (v & n & rest & H & _). destruct signed; [|now left]. right.
    destruct (ascii_text_dec s) as [Hs|Hs]; [exact Hs|exfalso].
    destruct n as [|n]; [discriminate|]. cbn [append] in H.
    cbn [json_value json_skip] in H. change (N_of_ascii """") with 34%N in H. cbn [N.eqb Pos.eqb orb] in H.
    change (("""" =? """")%char) with true in H. cbv iota in H.
    now rewrite json_chars_encode_signed_bad in H.
  - intros H. eexists. now apply json_string_reads.
Qed.

(** ** url_encode *)

Lemma hex_digit_value (n : N) : (n < 16)%N -> json_hex_value (hex_digit n) = Some n.
Proof.
  intros H.
  assert (Hs : forallb (fun n => match json_hex_value (hex_digit n) with Some m => N.eqb m n | None => false end)
            (map N.of_nat (seq 0 16)) = true) by reflexivity.
  rewrite forallb_forall in Hs.
  specialize (Hs n). destruct (json_hex_value (hex_digit n)) eqn:E.
  - f_equal. apply N.eqb_eq, Hs. rewrite <- (N2Nat.id n). apply in_map, in_seq. lia.
  - discriminate Hs. rewrite <- (N2Nat.id n). apply in_map, in_seq. lia.
Qed.

Ltac Zify.zify_post_hook ::= Z.div_mod_to_equations.

Lemma url_encode_denotes s : url_denotes (url_encode s) s.
Proof.
  unfold url_encode. induction s as [|c s IH]; [constructor|].
  cbn [concat_map]. unfold url_encode_char.
  match goal with |- context [if ?b then _ else _] => destruct b eqn:E end.
  - cbn. constructor; [|exact IH].
    unfold url_unreserved, isalnum, is_digit, is_upper, is_lower, byte_val in *.
    destruct (Ascii.eqb_spec c "-"); [tauto|]. destruct (Ascii.eqb_spec c "_"); [tauto|].
    destruct (Ascii.eqb_spec c "."); [tauto|]. destruct (Ascii.eqb_spec c "~"); [tauto|].
    lia.
  - cbn. pose proof (byte_val_bounded c) as Hb.
    rewrite <- (ascii_N_embedding c) at 3.
    replace (N_of_ascii c) with (16 * (byte_val c / 16) + byte_val c mod 16)%N
      by (unfold byte_val; lia).
    constructor; [apply hex_digit_value; lia | apply hex_digit_value; lia | exact IH].
Qed.

Lemma hex_digit_upper (n : N) : (n < 16)%N -> upper_hex_digit (hex_digit n).
Proof.
  intros H. assert (Hs : forallb (fun n => let m := N_of_ascii (hex_digit n) in ((48 <=? m) && (m <=? 57) || (65 <=? m) && (m <=? 70))%N)
            (map N.of_nat (seq 0 16)) = true) by reflexivity.
  rewrite forallb_forall in Hs. specialize (Hs n). cbv zeta in Hs. unfold upper_hex_digit.
  assert (I : In n (map N.of_nat (seq 0 16))) by (rewrite <- (N2Nat.id n); apply in_map, in_seq; lia).
  specialize (Hs I). lia.
Qed.
Lemma url_encode_normal s : url_normal (url_encode s) s.
Proof.
  unfold url_encode. induction s as [|c s IH]; [constructor|].
  cbn [concat_map]. unfold url_encode_char.
  match goal with |- context [if ?b then _ else _] => destruct b eqn:E end.
  - cbn. constructor; [|exact IH].
    unfold url_unreserved, isalnum, is_digit, is_upper, is_lower, byte_val in *.
    destruct (Ascii.eqb_spec c "-"); [tauto|]. destruct (Ascii.eqb_spec c "_"); [tauto|].
    destruct (Ascii.eqb_spec c "."); [tauto|]. destruct (Ascii.eqb_spec c "~"); [tauto|].
    lia.
  - cbn. pose proof (byte_val_bounded c) as Hb.
    rewrite <- (ascii_N_embedding c) at 3.
    replace (N_of_ascii c) with (16 * (byte_val c / 16) + byte_val c mod 16)%N
      by (unfold byte_val; lia).
    constructor; try (apply hex_digit_value; lia); try (apply hex_digit_upper; lia); [|exact IH].
    replace (16 * (byte_val c / 16) + byte_val c mod 16)%N with (N_of_ascii c) by (unfold byte_val; lia).
    rewrite ascii_N_embedding. unfold url_unreserved, isalnum, is_digit, is_upper, is_lower, byte_val in *.
    intros U. destruct U as [U|[U|[U|[U|[U|[U|U]]]]]]; try (subst c; discriminate E); lia.
Qed.

Lemma unreserved_not_percent : ~ url_unreserved "%".
Proof. unfold url_unreserved. cbn. intros [H|[H|[H|[H|[H|[H|H]]]]]]; try discriminate H; lia. Qed.

(** Percent-decoding is a function. *)
Lemma url_denotes_functional s t u : url_denotes s t -> url_denotes s u -> t = u.
Proof.
  intros H. revert u. induction H as [|c s t Hc H IH|h l vh vl s t Hh Hl H IH]; intros u Hu.
  - now inversion Hu.
  - inversion Hu; subst; [f_equal; auto|]. now apply unreserved_not_percent in Hc.
  - inversion Hu; subst; [now exfalso; apply unreserved_not_percent|].
    replace vh0 with vh by congruence. replace vl0 with vl by congruence. f_equal; auto.
Qed.

Lemma url_encode_inj s t : url_encode s = url_encode t -> s = t.
Proof.
  intros H. pose proof (url_encode_denotes s) as Hs. pose proof (url_encode_denotes t) as Ht.
  rewrite H in Hs. eapply url_denotes_functional; eauto.
Qed.

Lemma url_encode_ascii s : ascii_text (url_encode s).
Proof.
  unfold ascii_text. pose proof (url_encode_denotes s) as H.
  induction H as [|c s' t Hc H IH|h l vh vl s' t Hh Hl H IH]; cbn; auto.
  - split; [|exact IH]. unfold url_unreserved, byte_below in *.
    destruct Hc as [Hc|[Hc|[Hc|[Hc|[Hc|[Hc|Hc]]]]]]; try (subst; cbn; lia); lia.
  - unfold byte_below, json_hex_value in *.
    split; [cbn; lia|split; [|split; [|exact IH]]]; clear IH H;
    repeat match goal with H : context [if ?b then _ else _] |- _ => destruct b eqn:? end; try discriminate; lia.
Qed.

(** Unreserved characters and percent signs need no JSON escape. *)
Lemma json_chars_plain s rest :
  all_bytes (fun c => (32 <= N_of_ascii c)%N /\ c <> """"%char /\ c <> "\"%char) s ->
  json_chars (s ++ String """" rest) = Some (s, rest).
Proof.
  induction s as [|c s IH]; [reflexivity|].
  cbn [all_bytes append]. intros [[H1 [H2 H3]] H4].
  cbn [json_chars].
  destruct (Ascii.eqb_spec c """"); [easy|]. destruct (Ascii.eqb_spec c "\"); [easy|].
  destruct (N.ltb_spec (N_of_ascii c) 32); [lia|].
  rewrite IH by exact H4. reflexivity.
Qed.

Lemma url_encode_plain s :
  all_bytes (fun c => (32 <= N_of_ascii c)%N /\ c <> """"%char /\ c <> "\"%char) (url_encode s).
Proof.
  pose proof (url_encode_denotes s) as H.
  assert (Hh : forall h v, json_hex_value h = Some v -> (32 <= N_of_ascii h)%N /\ h <> """"%char /\ h <> "\"%char).
  { intros h v. unfold json_hex_value. intros Hv. repeat split; try (intros ->; cbn in Hv; discriminate).
    repeat match goal with H : context [if ?b then _ else _] |- _ => destruct b eqn:? end; try discriminate; lia. }
  induction H as [|c s' t Hc H IH|h l vh vl s' t Hh' Hl H IH]; cbn [all_bytes]; auto.
  - split; [|exact IH]. unfold url_unreserved in Hc.
    repeat split; [| intros -> | intros ->].
    + destruct Hc as [Hc|[Hc|[Hc|[Hc|[Hc|[Hc|Hc]]]]]]; try (subst; cbn; lia); lia.
    + cbn in Hc. destruct Hc as [Hc|[Hc|[Hc|[Hc|[Hc|[Hc|Hc]]]]]]; try discriminate; lia.
    + cbn in Hc. destruct Hc as [Hc|[Hc|[Hc|[Hc|[Hc|[Hc|Hc]]]]]]; try discriminate; lia.
  - split; [|split; [eauto|split; [eauto|exact IH]]]. split; [cbn; lia | split; discriminate].
Qed.

(** ** Case *)

Lemma tolower_spec c : lower_of c (tolower c).
Proof.
  unfold lower_of, upper_letter, tolower, is_upper, byte_val. pose proof (N_ascii_bounded c).
  destruct ((65 <=? N_of_ascii c) && (N_of_ascii c <=? 90))%N eqn:E.
  - left. split; [lia|]. rewrite N_ascii_embedding by lia. reflexivity.
  - right. split; [lia|reflexivity].
Qed.

Lemma tolower_idempotent c : tolower (tolower c) = tolower c.
Proof. sweep_byte c; reflexivity. Qed.

Lemma to_lowercase_spec s : bytewise lower_of s (to_lowercase s).
Proof. induction s; cbn; constructor; auto using tolower_spec. Qed.

Lemma to_lowercase_idempotent s : to_lowercase (to_lowercase s) = to_lowercase s.
Proof. unfold to_lowercase. induction s; cbn; [easy|]. now rewrite tolower_idempotent, IHs. Qed.

Lemma to_lowercase_length s : String.length (to_lowercase s) = String.length s.
Proof. unfold to_lowercase. induction s; cbn; congruence. Qed.

Lemma equal_case_insensitive_iff a b :
  equal_case_insensitive a b = true <-> to_lowercase a = to_lowercase b.
Proof.
  revert b. unfold to_lowercase. induction a as [|c a IH]; intros [|d b]; cbn; try easy.
  rewrite andb_true_iff, IH, Ascii.eqb_eq. split; [intros [-> ->]; easy | now intros [= -> ->]].
Qed.

(** ** remove_triple_quotes *)

Lemma last_bytes_append (n : nat) (a b : string) :
  String.length b = n -> last_bytes n (a ++ b) = b.
Proof.
  intros <-. unfold last_bytes. rewrite length_append.
  replace (String.length a + String.length b - String.length b) with (String.length a) by lia.
  now rewrite substring_append_r, substring_0_length.
Qed.

Lemma remove_triple_quotes_wrapped {E} (t : string) :
  @remove_triple_quotes E ("'''" ++ t ++ "'''") = Ok t.
Proof.
  unfold remove_triple_quotes.
  change (starts_with "'''" ("'''" ++ t ++ "'''")) with true. cbn [negb].
  rewrite <- append_assoc, last_bytes_append by reflexivity.
  change (negb ("'''" =? "'''")) with false. cbv iota.
  rewrite append_assoc. f_equal.
  assert (L : String.length ("'''" ++ t ++ "'''") = 6 + String.length t).
  { rewrite !length_append. cbn. lia. }
  rewrite L. change (Nat.ltb (6 + String.length t) 6) with (Nat.leb (7 + String.length t) 6).
  cbn [Nat.add Nat.leb Nat.sub]. rewrite Nat.sub_0_r.
  change 3 with (String.length "'''") at 1. rewrite substring_append_r.
  apply substring_append_l.
Qed.

(** ** StringBuilder *)

Lemma escape_text_meaning e : escape_text e = escape_meaning e.
Proof.
  unfold escape_text, escape_meaning, known_escapes. cbn [assoc].
  repeat match goal with |- context [e =? ?x] => destruct (e =? x); [reflexivity|] end.
  reflexivity.
Qed.

Definition call_meaning (c : sb_call) : string :=
  match c with PushString s => s | PushEscape e => escape_meaning e end.

Lemma sb_fold calls : forall buf,
  fold_left sb_step calls buf = buf ++ String.concat "" (map call_meaning calls).
Proof.
  induction calls as [|c calls IH]; intros buf; cbn [fold_left map].
  - cbn. now rewrite append_nil_r.
  - rewrite IH.
    assert (H : String.concat "" (call_meaning c :: map call_meaning calls) =
                call_meaning c ++ String.concat "" (map call_meaning calls)).
    { cbn. destruct (map call_meaning calls); cbn; [now rewrite append_nil_r|reflexivity]. }
    rewrite H. destruct c; cbn [sb_step call_meaning]; rewrite ?escape_text_meaning; apply append_assoc.
Qed.

Lemma sb_run_spec calls : sb_run calls = String.concat "" (map call_meaning calls).
Proof. unfold sb_run. now rewrite sb_fold. Qed.

(** ** Decimal printing *)

Lemma dec_N_value (n : N) : NilZero.uint_of_string (dec_N n) = Some (N.to_uint n).
Proof. unfold dec_N. apply NilZero.usu. destruct n; [discriminate|]. cbn. apply Unsigned.to_uint_nonnil. Qed.

Lemma dec_N_inj (a b : N) : dec_N a = dec_N b -> a = b.
Proof.
  intros H. pose proof (dec_N_value a) as Ha. rewrite H, dec_N_value in Ha.
  injection Ha as Ha. now apply DecimalN.Unsigned.to_uint_inj.
Qed.

Definition digit_char (c : ascii) : Prop := (48 <= N_of_ascii c <= 57)%N.

Lemma string_of_uint_digits u : all_bytes digit_char (NilEmpty.string_of_uint u).
Proof. induction u; cbn; auto; split; auto; unfold digit_char; cbn; lia. Qed.

Lemma dec_N_digits n : all_bytes digit_char (dec_N n).
Proof.
  unfold dec_N, NilZero.string_of_uint. destruct (N.to_uint n); try apply string_of_uint_digits.
  cbn. unfold digit_char. cbn. lia.
Qed.

Lemma dec_N_nonempty n : dec_N n <> "".
Proof. unfold dec_N, NilZero.string_of_uint. destruct (N.to_uint n); discriminate. Qed.

(** Starts with a non-digit (or is empty). *)
Definition no_digit_head (s : string) : Prop :=
  match s with String c _ => ~ digit_char c | EmptyString => True end.

Lemma digits_split (a b s t : string) :
  all_bytes digit_char a -> all_bytes digit_char b -> no_digit_head s -> no_digit_head t ->
  a ++ s = b ++ t -> a = b /\ s = t.
Proof.
  revert b. induction a as [|c a IH]; intros [|d b] Ha Hb Hs Ht H; cbn in *.
  - auto.
  - subst. cbn in Hs. tauto.
  - subst. cbn in Ht. tauto.
  - injection H as -> H. destruct (IH b) as [-> ->]; tauto.
Qed.

Lemma dec_N_split (a b : N) (s t : string) :
  no_digit_head s -> no_digit_head t -> dec_N a ++ s = dec_N b ++ t -> a = b /\ s = t.
Proof.
  intros Hs Ht H. destruct (digits_split _ _ _ _ (dec_N_digits a) (dec_N_digits b) Hs Ht H) as [H1 H2].
  split; [now apply dec_N_inj | exact H2].
Qed.
