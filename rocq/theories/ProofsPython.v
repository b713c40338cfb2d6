(** Proofs for C100: bytes and texts on their way through Python. *)
From Coq Require Import ZArith Lia ZifyBool ZifyN ZifyNat.
From Verif Require Import Base ModelUtils ModelError ModelFunctions ModelAst ModelAnalyzer ModelLexer ModelSemantic ModelApi ModelPython
  SpecReading SpecSyntax ProofsUtils ProofsUtf8 SpecPython.
Local Open Scope string_scope.

Lemma add_encoding n s : add_bytes (utf8_bytes n) s = encoding n ++ s.
Proof.
  unfold utf8_bytes, encoding, sextet. destruct (n <? 128)%N; [reflexivity|]. destruct (n <? 2048)%N; [reflexivity|]. destruct (n <? 65536)%N; reflexivity.
Qed.
Lemma encode_scalar n t s : scalar_value n -> to_utf8 t = Ok s -> to_utf8 (n :: t) = Ok (encoding n ++ s).
Proof.
  intros Sc E. cbn [to_utf8]. rewrite E. cbn [bind]. unfold scalar_value in Sc. unfold is_surrogate.
  replace ((56448 <=? n) && (n <=? 56575))%N with false by lia. replace ((55296 <=? n) && (n <=? 57343))%N with false by lia. now rewrite add_encoding.
Qed.
Lemma encode_escape a t s : (128 <= byte_val a)%N -> to_utf8 t = Ok s -> to_utf8 ((56320 + byte_val a)%N :: t) = Ok (String a s).
Proof.
  intros L E. pose proof (byte_bound a). cbn [to_utf8]. rewrite E. cbn [bind]. replace ((56448 <=? 56320 + byte_val a) && (56320 + byte_val a <=? 56575))%N with true by lia.
  replace (56320 + byte_val a - 56320)%N with (byte_val a) by lia. now rewrite (ascii_byte a).
Qed.
Lemma encode_known n t s u : scalar_value n /\ encoding n = u -> to_utf8 t = Ok s -> to_utf8 (n :: t) = Ok (u ++ s).
Proof. intros [Sc <-]. now apply encode_scalar. Qed.

Lemma bytes_kept s : to_utf8 (of_utf8 s) = Ok s.
Proof.
  assert (X : forall k s, (String.length s <= k)%nat -> to_utf8 (of_utf8 s) = Ok s); [|apply (X (String.length s)); lia].
  clear s. induction k as [|k IH]; intros s L; (destruct s as [|a s]; [reflexivity|cbn [String.length] in L]); [lia|].
  cbn [of_utf8]. destruct (in_range 0 127 a) eqn:A; unfold in_range in A.
  { apply (encode_known (byte_val a) _ s (String a "")); [split; [left; lia|apply encode1; lia]|apply IH; lia]. }
  assert (Es : to_utf8 ((56320 + byte_val a)%N :: of_utf8 s) = Ok (String a s)) by (apply encode_escape; [lia|apply IH; lia]).
  destruct s as [|b s]; [exact Es|cbn [String.length] in L]. destruct (in_range 194 223 a && is_continuation b) eqn:A2.
  { unfold in_range, is_continuation in A2. apply (encode_known _ _ s (String a (String b "")) (encode2 a b ltac:(lia) ltac:(lia))). apply IH; lia. }
  destruct s as [|c s]; [exact Es|cbn [String.length] in L].
  match goal with |- context [if ?x then _ else _] => destruct x eqn:A3 end.
  { unfold in_range, is_continuation in A3.
    assert (R : (224 <= byte_val a <= 239 /\ 128 <= byte_val b <= 191 /\ 128 <= byte_val c <= 191 /\ (byte_val a = 224 -> 160 <= byte_val b) /\ (byte_val a = 237 -> byte_val b <= 159))%N).
    { destruct ((224 <=? byte_val a) && (byte_val a <=? 224))%N eqn:?; [lia|]. destruct ((237 <=? byte_val a) && (byte_val a <=? 237))%N eqn:?; lia. }
    destruct R as (R0 & R1 & R2 & R3 & R4). apply (encode_known _ _ s (String a (String b (String c ""))) (encode3 a b c R0 R1 R2 R3 R4)). apply IH; lia. }
  destruct s as [|d s]; [exact Es|cbn [String.length] in L].
  match goal with |- context [if ?x then _ else _] => destruct x eqn:A4 end; [|exact Es].
  unfold in_range, is_continuation in A4.
  assert (R : (240 <= byte_val a <= 244 /\ 128 <= byte_val b <= 191 /\ 128 <= byte_val c <= 191 /\ 128 <= byte_val d <= 191 /\ (byte_val a = 240 -> 144 <= byte_val b) /\ (byte_val a = 244 -> byte_val b <= 143))%N).
  { destruct ((240 <=? byte_val a) && (byte_val a <=? 240))%N eqn:?; [lia|]. destruct ((244 <=? byte_val a) && (byte_val a <=? 244))%N eqn:?; lia. }
  destruct R as (R0 & R1 & R2 & R3 & R4 & R5). apply (encode_known _ _ s (String a (String b (String c (String d "")))) (encode4 a b c d R0 R1 R2 R3 R4 R5)). apply IH; lia.
Qed.

Ltac bools := repeat match goal with |- context [if ?b then _ else _] => first [replace b with true by lia | replace b with false by lia] end.
Lemma decode_step n s : scalar_value n -> of_utf8 (encoding n ++ s) = n :: of_utf8 s.
Proof.
  intros Sc. unfold encoding, scalar_value in *.
  destruct (N.ltb_spec n 128); [|destruct (N.ltb_spec n 2048); [|destruct (N.ltb_spec n 65536)]]; cbn [bytes fold_right String.append of_utf8]; unfold in_range, is_continuation, sextet.
  - rewrite byte_ascii by lia. replace ((0 <=? n) && (n <=? 127))%N with true by lia. reflexivity.
  - dm n 64%N. assert (n / 64 < 32)%N by (apply N.div_lt_upper_bound; lia). assert (2 <= n / 64)%N by (apply N.div_le_lower_bound; lia).
    rewrite !byte_ascii by lia. bools. f_equal. lia.
  - dm n 64%N. dm (n / 64)%N 64%N. assert (D : (n / 64 / 64 = n / 4096)%N) by (rewrite N.div_div by discriminate; reflexivity). rewrite D in *.
    assert (n / 4096 < 16)%N by (apply N.div_lt_upper_bound; lia). rewrite !byte_ascii by lia.
    destruct (N.eq_dec (n / 4096) 0); [|destruct (N.eq_dec (n / 4096) 13)]; bools; f_equal; lia.
  - dm n 64%N. dm (n / 64)%N 64%N. assert (D : (n / 64 / 64 = n / 4096)%N) by (rewrite N.div_div by discriminate; reflexivity). rewrite D in *.
    dm (n / 4096)%N 64%N. assert (D' : (n / 4096 / 64 = n / 262144)%N) by (rewrite N.div_div by discriminate; reflexivity). rewrite D' in *.
    assert (n / 262144 < 5)%N by (apply N.div_lt_upper_bound; lia). rewrite !byte_ascii by lia.
    destruct (N.eq_dec (n / 262144) 0); [|destruct (N.eq_dec (n / 262144) 4)]; bools; f_equal; lia.
Qed.
Lemma text_decoded t : is_text t -> of_utf8 (encoded t) = t.
Proof. induction 1 as [|n t Sc _ IH]; [reflexivity|]. cbn [encoded fold_right]. rewrite decode_step by exact Sc. now f_equal. Qed.
Lemma text_encoded t : is_text t -> to_utf8 t = Ok (encoded t).
Proof. induction 1 as [|n t Sc _ IH]; [reflexivity|]. cbn [encoded fold_right]. now apply encode_scalar. Qed.
Lemma text_argument t : is_text t -> py_argument t = Ok (encoded t).
Proof.
  induction 1 as [|n t Sc _ IH]; [reflexivity|]. cbn [encoded fold_right py_argument]. unfold scalar_value in Sc. unfold is_surrogate. replace ((55296 <=? n) && (n <=? 57343))%N with false by lia.
  rewrite IH. cbn [bind]. now rewrite add_encoding.
Qed.
Lemma text_utf8 t : is_text t -> utf8 (encoded t).
Proof. induction 1; cbn [encoded fold_right]; [constructor|]. now constructor. Qed.
Lemma utf8_text s : utf8 s -> exists t, is_text t /\ s = encoded t.
Proof. induction 1 as [|n s Sc _ (t & T & ->)]; [exists []; split; [constructor|reflexivity]|]. exists (n :: t). split; [now constructor|reflexivity]. Qed.
Lemma argument_refused t : is_str t -> ~ is_text t -> exists w, py_argument t = Throw w.
Proof.
  induction 1 as [|n t L _ IH]; intros N; [destruct N; constructor|]. cbn [py_argument]. destruct (is_surrogate n) eqn:S; [eauto|]. unfold is_surrogate in S.
  destruct IH as [w E]. { intros T. apply N. constructor; [unfold scalar_value; lia|exact T]. } rewrite E. cbn. eauto.
Qed.
(** A text without its byte order mark *)
Lemma mark_scalar : scalar_value 65279 /\ encoding 65279 = byte_order_mark.
Proof. split; [unfold scalar_value; lia|reflexivity]. Qed.
Lemma text_of_utf8 data s : utf8 data -> text_of data s -> utf8 s.
Proof.
  intros U [->|[-> _]]; [|exact U]. destruct (utf8_text _ U) as (t & T & E). pose proof (text_decoded _ T) as D. rewrite <- E in D.
  destruct mark_scalar as [M1 M2]. rewrite <- M2, decode_step in D by exact M1. subst t. inversion T as [|? ? _ T']; subst. pose proof (text_encoded _ T') as X. rewrite bytes_kept in X. injection X as ->. now apply text_utf8.
Qed.

Lemma return_strings {R} (read : string -> R) ret : py_return read (map of_utf8 ret) = Ok (match py_unpack read ret with inl x => inl x | inr ms => inr (map of_utf8 ms) end).
Proof. destruct ret as [|s [|s' ret]]; try reflexivity. cbn [map py_return py_unpack]. rewrite bytes_kept. reflexivity. Qed.
