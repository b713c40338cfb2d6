(** The check for UTF-8 accepts exactly the encodings of Unicode texts (C52). *)
From Coq Require Import ZArith Lia ZifyBool ZifyN ZifyNat.
From Verif Require Import Base ModelUtils ModelLexer SpecReading.
Local Open Scope string_scope.

(** ** UTF-8 *)
Lemma byte_ascii n : (n < 256)%N -> byte_val (ascii_of_N n) = n.
Proof. intros H. unfold byte_val. now apply N_ascii_embedding. Qed.
Lemma ascii_byte c n : byte_val c = n -> ascii_of_N n = c.
Proof. intros <-. unfold byte_val. apply ascii_N_embedding. Qed.
Lemma byte_bound c : (byte_val c < 256)%N.
Proof. unfold byte_val. apply N_ascii_bounded. Qed.
Ltac dm n d := let q := fresh "q" in let r := fresh "r" in let E := fresh "E" in let L := fresh "L" in
  pose proof (N.div_mod n d ltac:(discriminate)) as E; pose proof (N.mod_lt n d ltac:(discriminate)) as L.

Lemma valid_step n s : scalar_value n -> valid_utf8 s = true -> valid_utf8 (encoding n ++ s) = true.
Proof.
  intros Sc V. unfold encoding, scalar_value in *.
  destruct (N.ltb_spec n 128); [|destruct (N.ltb_spec n 2048); [|destruct (N.ltb_spec n 65536)]]; cbn [bytes fold_right String.append valid_utf8]; unfold ModelLexer.in_range, is_continuation, sextet.
  - rewrite byte_ascii by lia. replace ((0 <=? n) && (n <=? 127))%N with true by lia. exact V.
  - dm n 64%N. assert (n / 64 < 32)%N by (apply N.div_lt_upper_bound; lia). assert (2 <= n / 64)%N by (apply N.div_le_lower_bound; lia).
    rewrite !byte_ascii by lia. rewrite V.
    repeat match goal with |- context [if ?b then _ else _] => first [replace b with true by lia | replace b with false by lia] end. lia.
  - dm n 64%N. dm (n / 64)%N 64%N. assert (D : (n / 64 / 64 = n / 4096)%N) by (rewrite N.div_div by discriminate; reflexivity). rewrite D in *.
    assert (n / 4096 < 16)%N by (apply N.div_lt_upper_bound; lia).
    rewrite !byte_ascii by lia. rewrite V.
    destruct (N.eq_dec (n / 4096) 0); [|destruct (N.eq_dec (n / 4096) 13)];
    repeat match goal with |- context [if ?b then _ else _] => first [replace b with true by lia | replace b with false by lia] end; try lia.
  - dm n 64%N. dm (n / 64)%N 64%N. assert (D : (n / 64 / 64 = n / 4096)%N) by (rewrite N.div_div by discriminate; reflexivity). rewrite D in *.
    dm (n / 4096)%N 64%N. assert (D' : (n / 4096 / 64 = n / 262144)%N) by (rewrite N.div_div by discriminate; reflexivity). rewrite D' in *.
    assert (n / 262144 < 5)%N by (apply N.div_lt_upper_bound; lia).
    rewrite !byte_ascii by lia. rewrite V.
    destruct (N.eq_dec (n / 262144) 0); [|destruct (N.eq_dec (n / 262144) 4)];
    repeat match goal with |- context [if ?b then _ else _] => first [replace b with true by lia | replace b with false by lia] end; try lia.
Qed.
Lemma encode1 a : (byte_val a <= 127)%N -> encoding (byte_val a) = String a "".
Proof. intros H. unfold encoding. replace (byte_val a <? 128)%N with true by lia. cbn [bytes fold_right]. now rewrite (ascii_byte a). Qed.
Lemma encode2 a b : (194 <= byte_val a <= 223)%N -> (128 <= byte_val b <= 191)%N ->
  let n := ((byte_val a - 192) * 64 + (byte_val b - 128))%N in scalar_value n /\ encoding n = String a (String b "").
Proof.
  intros A B n. assert (E : (n / 64 = byte_val a - 192)%N) by (symmetry; apply (N.div_unique n 64 _ (byte_val b - 128)); unfold n; lia).
  assert (M : (n mod 64 = byte_val b - 128)%N) by (symmetry; apply (N.mod_unique n 64 (byte_val a - 192)); unfold n; lia).
  split; [left; unfold n; lia|]. unfold encoding, sextet. rewrite E, M.
  replace (n <? 128)%N with false by (unfold n; lia). replace (n <? 2048)%N with true by (unfold n; lia). cbn [bytes fold_right]. rewrite (ascii_byte a), (ascii_byte b) by lia. reflexivity.
Qed.
Lemma encode3 a b c : (224 <= byte_val a <= 239)%N -> (128 <= byte_val b <= 191)%N -> (128 <= byte_val c <= 191)%N ->
  (byte_val a = 224 -> 160 <= byte_val b)%N -> (byte_val a = 237 -> byte_val b <= 159)%N ->
  let n := ((byte_val a - 224) * 4096 + (byte_val b - 128) * 64 + (byte_val c - 128))%N in scalar_value n /\ encoding n = String a (String b (String c "")).
Proof.
  intros A B C H1 H2 n. assert (E : (n / 64 = (byte_val a - 224) * 64 + (byte_val b - 128))%N) by (symmetry; apply (N.div_unique n 64 _ (byte_val c - 128)); unfold n; lia).
  assert (M : (n mod 64 = byte_val c - 128)%N) by (symmetry; apply (N.mod_unique n 64 ((byte_val a - 224) * 64 + (byte_val b - 128))); unfold n; lia).
  assert (E2 : (n / 4096 = byte_val a - 224)%N) by (symmetry; apply (N.div_unique n 4096 _ ((byte_val b - 128) * 64 + (byte_val c - 128))); unfold n; lia).
  assert (M2 : ((n / 64) mod 64 = byte_val b - 128)%N) by (rewrite E; symmetry; apply (N.mod_unique _ 64 (byte_val a - 224)); lia).
  split; [unfold scalar_value, n; lia|]. unfold encoding, sextet. rewrite M, M2, E2.
  replace (n <? 128)%N with false by (unfold n; lia). replace (n <? 2048)%N with false by (unfold n; lia). replace (n <? 65536)%N with true by (unfold n; lia).
  cbn [bytes fold_right]. rewrite (ascii_byte a), (ascii_byte b), (ascii_byte c) by lia. reflexivity.
Qed.
Lemma encode4 a b c d : (240 <= byte_val a <= 244)%N -> (128 <= byte_val b <= 191)%N -> (128 <= byte_val c <= 191)%N -> (128 <= byte_val d <= 191)%N ->
  (byte_val a = 240 -> 144 <= byte_val b)%N -> (byte_val a = 244 -> byte_val b <= 143)%N ->
  let n := ((byte_val a - 240) * 262144 + (byte_val b - 128) * 4096 + (byte_val c - 128) * 64 + (byte_val d - 128))%N in scalar_value n /\ encoding n = String a (String b (String c (String d ""))).
Proof.
  intros A B C D H1 H2 n. assert (E : (n / 64 = (byte_val a - 240) * 4096 + (byte_val b - 128) * 64 + (byte_val c - 128))%N) by (symmetry; apply (N.div_unique n 64 _ (byte_val d - 128)); unfold n; lia).
  assert (M : (n mod 64 = byte_val d - 128)%N) by (symmetry; apply (N.mod_unique n 64 ((byte_val a - 240) * 4096 + (byte_val b - 128) * 64 + (byte_val c - 128))); unfold n; lia).
  assert (E2 : (n / 4096 = (byte_val a - 240) * 64 + (byte_val b - 128))%N) by (symmetry; apply (N.div_unique n 4096 _ ((byte_val c - 128) * 64 + (byte_val d - 128))); unfold n; lia).
  assert (M2 : ((n / 64) mod 64 = byte_val c - 128)%N) by (rewrite E; symmetry; apply (N.mod_unique _ 64 ((byte_val a - 240) * 64 + (byte_val b - 128))); lia).
  assert (E3 : (n / 262144 = byte_val a - 240)%N) by (symmetry; apply (N.div_unique n 262144 _ ((byte_val b - 128) * 4096 + (byte_val c - 128) * 64 + (byte_val d - 128))); unfold n; lia).
  assert (M3 : ((n / 4096) mod 64 = byte_val b - 128)%N) by (rewrite E2; symmetry; apply (N.mod_unique _ 64 (byte_val a - 240)); lia).
  split; [unfold scalar_value, n; lia|]. unfold encoding, sextet. rewrite M, M2, M3, E3.
  replace (n <? 128)%N with false by (unfold n; lia). replace (n <? 2048)%N with false by (unfold n; lia). replace (n <? 65536)%N with false by (unfold n; lia).
  cbn [bytes fold_right]. rewrite (ascii_byte a), (ascii_byte b), (ascii_byte c), (ascii_byte d) by lia. reflexivity.
Qed.
Lemma utf8_step n t s : scalar_value n /\ encoding n = t -> utf8 s -> utf8 (t ++ s).
Proof. intros [Sc <-] U. now constructor. Qed.
Theorem valid_utf8_iff s : valid_utf8 s = true <-> utf8 s.
Proof.
  split; [|induction 1; [reflexivity|now apply valid_step]].
  assert (X : forall k s, (String.length s <= k)%nat -> valid_utf8 s = true -> utf8 s); [|apply (X (String.length s)); lia].
  clear s. induction k as [|k IH]; intros s L V; (destruct s as [|a s]; [constructor|cbn [String.length] in L]); [lia|].
  cbn [valid_utf8] in V. destruct (ModelLexer.in_range 0 127 a) eqn:A; unfold ModelLexer.in_range in A.
  - apply (utf8_step (byte_val a) (String a "")); [split; [left; lia|apply encode1; lia]|apply IH; [lia|exact V]].
  - destruct s as [|b s]; [discriminate|cbn [String.length] in L]. destruct (ModelLexer.in_range 194 223 a) eqn:A2; unfold ModelLexer.in_range in A2.
    + apply andb_true_iff in V. destruct V as [B V]. unfold is_continuation in B. apply (utf8_step _ (String a (String b "")) s (encode2 a b ltac:(lia) ltac:(lia))). apply IH; [lia|exact V].
    + destruct s as [|c s]; [discriminate|cbn [String.length] in L]. destruct (ModelLexer.in_range 224 239 a) eqn:A3; unfold ModelLexer.in_range in A3.
      * apply andb_true_iff in V. destruct V as [B V]. apply andb_true_iff in B. destruct B as [B C]. unfold is_continuation, ModelLexer.in_range in B, C.
        assert (R : (128 <= byte_val b <= 191 /\ (byte_val a = 224 -> 160 <= byte_val b) /\ (byte_val a = 237 -> byte_val b <= 159))%N).
        { destruct ((224 <=? byte_val a) && (byte_val a <=? 224))%N eqn:?; [lia|]. destruct ((237 <=? byte_val a) && (byte_val a <=? 237))%N eqn:?; lia. }
        destruct R as (R1 & R2 & R3). apply (utf8_step _ (String a (String b (String c ""))) s (encode3 a b c ltac:(lia) R1 ltac:(lia) R2 R3)). apply IH; [lia|exact V].
      * destruct s as [|d s]; [discriminate|cbn [String.length] in L]. destruct (ModelLexer.in_range 240 244 a) eqn:A4; [|discriminate]. unfold ModelLexer.in_range in A4.
        apply andb_true_iff in V. destruct V as [B V]. apply andb_true_iff in B. destruct B as [B D]. apply andb_true_iff in B. destruct B as [B C]. unfold is_continuation, ModelLexer.in_range in B, C, D.
        assert (R : (128 <= byte_val b <= 191 /\ (byte_val a = 240 -> 144 <= byte_val b) /\ (byte_val a = 244 -> byte_val b <= 143))%N).
        { destruct ((240 <=? byte_val a) && (byte_val a <=? 240))%N eqn:?; [lia|]. destruct ((244 <=? byte_val a) && (byte_val a <=? 244))%N eqn:?; lia. }
        destruct R as (R1 & R2 & R3). apply (utf8_step _ (String a (String b (String c (String d "")))) s (encode4 a b c d ltac:(lia) R1 ltac:(lia) ltac:(lia) R2 R3)). apply IH; [lia|exact V].
Qed.
