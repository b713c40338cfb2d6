(** Lemmas about locations, errors and results (C09-C13). *)
From Verif Require Import Base ModelUtils ModelError SpecUtils SpecError ProofsUtils ProofsVersion.
From Coq Require Import Nnat ZifyBool ZifyNat ZifyN Decimal DecimalFacts DecimalString DecimalN DecimalPos Permutation.
Local Open Scope string_scope.

(** ** Ranges *)

Lemma index_eq (a b : index) : line a = line b -> column a = column b -> a = b.
Proof. destruct a, b; cbn; congruence. Qed.

Ltac ix := unfold least_enclosing, ordered, encloses, covers, at_or_before, index_max, index_min, index_ltb in *.

Lemma mk_range_ordered f l : ordered (mk_range f l).
Proof.
  unfold mk_range. ix. cbn.
  destruct ((line l <? line f) || (line l =? line f) && (column l <? column f))%N eqn:E; lia.
Qed.

Lemma mk_range_ends f l : at_or_before f l -> mk_range f l = mkRawRange f l.
Proof.
  unfold mk_range. ix. intros H. f_equal.
  destruct ((line l <? line f) || (line l =? line f) && (column l <? column f))%N eqn:E; [lia|reflexivity].
Qed.

Lemma index_max_spec a b :
  at_or_before a (index_max a b) /\ at_or_before b (index_max a b) /\
  (index_max a b = a \/ index_max a b = b).
Proof.
  ix. destruct ((line a <? line b) || (line a =? line b) && (column a <? column b))%N eqn:E;
  repeat split; auto; lia.
Qed.
Lemma index_min_spec a b :
  at_or_before (index_min a b) a /\ at_or_before (index_min a b) b /\
  (index_min a b = a \/ index_min a b = b).
Proof.
  ix. destruct ((line b <? line a) || (line b =? line a) && (column b <? column a))%N eqn:E;
  repeat split; auto; lia.
Qed.
Lemma before_refl a : at_or_before a a.
Proof. ix. lia. Qed.
Lemma before_trans_ix a b c : at_or_before a b -> at_or_before b c -> at_or_before a c.
Proof. ix. lia. Qed.
Lemma before_antisym a b : at_or_before a b -> at_or_before b a -> a = b.
Proof. ix. intros. apply index_eq; lia. Qed.

Definition expand_range_by (r : range) (p : index) : range :=
  mkRawRange (index_min (first r) p) (index_max (last r) p).

Lemma expand_is_range l p : loc_range (expand_to_include l p) = expand_range_by (loc_range l) p.
Proof. reflexivity. Qed.

Lemma expand_least r p : ordered r -> least_enclosing (expand_range_by r p) r [p].
Proof.
  intros Ho. unfold expand_range_by.
  pose proof (index_min_spec (first r) p) as (A1 & A2 & A3).
  pose proof (index_max_spec (last r) p) as (B1 & B2 & B3).
  unfold least_enclosing, ordered, encloses, covers in *. cbn [first last].
  split; [|split; [|split]].
  - eapply before_trans_ix; [exact A2|exact B2].
  - auto.
  - intros q [<-|[]]. auto.
  - intros r' Hr' [H1 H2] H3. destruct (H3 p) as [H4 H5]; [now left|].
    split; [destruct A3 as [->| ->] | destruct B3 as [->| ->]]; assumption.
Qed.

Lemma encloses_trans a b c : encloses a b -> encloses b c -> encloses a c.
Proof. unfold encloses. intros [] []. split; eapply before_trans_ix; eauto. Qed.
Lemma encloses_covers a b p : encloses a b -> covers b p -> covers a p.
Proof. unfold encloses, covers. intros [] []. split; eapply before_trans_ix; eauto. Qed.
Lemma encloses_refl a : encloses a a.
Proof. split; apply before_refl. Qed.

Lemma expand_many_range l ps :
  loc_range (fold_left expand_to_include ps l) = fold_left expand_range_by ps (loc_range l).
Proof. revert l. induction ps; intros l; cbn; [reflexivity|]. now rewrite IHps. Qed.
Lemma expand_many_file l ps : file_name (fold_left expand_to_include ps l) = file_name l.
Proof. revert l. induction ps; intros l; cbn; [reflexivity|]. now rewrite IHps. Qed.

Lemma expand_many_least ps : forall r, ordered r -> least_enclosing (fold_left expand_range_by ps r) r ps.
Proof.
  induction ps as [|p ps IH]; intros r Ho; cbn [fold_left].
  - split; [exact Ho|]. split; [apply encloses_refl|]. split; [easy|]. auto.
  - destruct (expand_least r p Ho) as (O1 & E1 & C1 & L1).
    destruct (IH _ O1) as (O2 & E2 & C2 & L2).
    split; [exact O2|]. split; [eapply encloses_trans; eauto|]. split.
    + intros q [<-|Hq]; [|auto]. eapply encloses_covers; [exact E2|]. apply C1. now left.
    + intros r' Hr' He Hc. apply L2; auto; [|intros; apply Hc; now right].
      apply L1; auto. intros q [<-|[]]. apply Hc. now left.
Qed.

Lemma least_enclosing_unique a b r ps : least_enclosing a r ps -> least_enclosing b r ps -> a = b.
Proof.
  intros (A1 & A2 & A3 & A4) (B1 & B2 & B3 & B4).
  destruct (A4 b B1 B2 B3) as [H1 H2]. destruct (B4 a A1 A2 A3) as [H3 H4].
  destruct a as [fa la], b as [fb lb]; cbn in *. f_equal; apply before_antisym; assumption.
Qed.

Lemma least_enclosing_perm a r ps qs : Permutation ps qs -> least_enclosing a r ps -> least_enclosing a r qs.
Proof.
  intros P (A1 & A2 & A3 & A4). split; [exact A1|]. split; [exact A2|]. split.
  - intros p Hp. apply A3. eapply Permutation_in; [apply Permutation_sym|]; eauto.
  - intros r' H1 H2 H3. apply A4; auto. intros p Hp. apply H3. eapply Permutation_in; eauto.
Qed.

Lemma expand_order_irrelevant l ps qs :
  ordered (loc_range l) -> Permutation ps qs ->
  fold_left expand_to_include ps l = fold_left expand_to_include qs l.
Proof.
  intros Ho P.
  assert (H : loc_range (fold_left expand_to_include ps l) = loc_range (fold_left expand_to_include qs l)).
  { rewrite !expand_many_range. eapply least_enclosing_unique.
    - eapply least_enclosing_perm; [exact P|]. now apply expand_many_least.
    - now apply expand_many_least. }
  pose proof (expand_many_file l ps) as F1. pose proof (expand_many_file l qs) as F2.
  destruct (fold_left expand_to_include ps l), (fold_left expand_to_include qs l); cbn in *. congruence.
Qed.

(** ** Printed locations *)

Lemma range_to_string_inj a b :
  one_based a -> one_based b -> ordered a -> ordered b ->
  range_to_string a = range_to_string b -> a = b.
Proof.
  destruct a as [[la ca] [ma da]], b as [[lb cb] [mb db]].
  unfold one_based, ordered, at_or_before, range_to_string. cbn [first last line column].
  intros (A1 & A2 & A3 & A4) (B1 & B2 & B3 & B4) OA OB.
  destruct (N.eqb_spec la 0); [lia|]. destruct (N.eqb_spec lb 0); [lia|].
  destruct (N.eqb_spec ca 0); [lia|]. destruct (N.eqb_spec cb 0); [lia|].
  cbn [append]. intros [= H].
  assert (Hd : forall c s, c = ":"%char \/ c = "."%char -> no_digit_head (String c s)).
  { intros c s [->| ->]; cbn; unfold digit_char; cbn; lia. }
  apply dec_N_split in H; [|apply Hd; auto|apply Hd; auto]. destruct H as [<- H]. injection H as H.
  set (ta := if (ma =? la)%N then _ else _) in H. set (tb := if (mb =? la)%N then _ else _) in H.
  assert (Hta : no_digit_head ta).
  { unfold ta. destruct (ma =? la)%N; [destruct (ca <? da)%N|destruct (la <? ma)%N]; first [exact I|apply Hd; auto]. }
  assert (Htb : no_digit_head tb).
  { unfold tb. destruct (mb =? la)%N; [destruct (cb <? db)%N|destruct (la <? mb)%N]; first [exact I|apply Hd; auto]. }
  apply dec_N_split in H; [|exact Hta|exact Htb]. destruct H as [<- H].
  unfold ta, tb in H.
  destruct (N.eqb_spec ma la), (N.eqb_spec mb la).
  - destruct (N.ltb_spec ca da), (N.ltb_spec ca db); try discriminate.
    + injection H as H. apply dec_N_inj in H. subst. reflexivity.
    + f_equal. f_equal; lia.
  - destruct (N.ltb_spec ca da), (N.ltb_spec la mb); try discriminate; try lia.
    injection H as H. rewrite <- (append_nil_r (dec_N da)) in H.
    apply dec_N_split in H; [|exact I|apply Hd; auto]. destruct H as [_ H]. discriminate.
  - destruct (N.ltb_spec ca db), (N.ltb_spec la ma); try discriminate; try lia.
    injection H as H. rewrite <- (append_nil_r (dec_N db)) in H.
    apply dec_N_split in H; [|apply Hd; auto|exact I]. destruct H as [_ H]. discriminate.
  - destruct (N.ltb_spec la ma), (N.ltb_spec la mb); try discriminate; try lia.
    injection H as H. apply dec_N_split in H; [|apply Hd; auto|apply Hd; auto]. destruct H as [<- H].
    injection H as H. apply dec_N_inj in H. subst. reflexivity.
Qed.

Lemma location_to_string_inj a b :
  file_name a = file_name b ->
  one_based (loc_range a) -> one_based (loc_range b) -> ordered (loc_range a) -> ordered (loc_range b) ->
  location_to_string a = location_to_string b -> loc_range a = loc_range b.
Proof.
  unfold location_to_string. intros Hf A1 B1 A2 B2. rewrite Hf. intros H.
  apply append_inj_l in H. now apply range_to_string_inj.
Qed.

(** ** Context *)

Lemma context_fold nodes : forall e,
  fold_left (fun e n => error_context n e) nodes e =
  mkRawError (message e) (first_some (location e :: nodes)).
Proof.
  induction nodes as [|n nodes IH]; intros e; cbn [fold_left].
  - destruct e as [m [l|]]; reflexivity.
  - rewrite IH. destruct e as [m [l|]]; reflexivity.
Qed.

Lemma non_empty_message_ok m : non_empty_message m <> "".
Proof. unfold non_empty_message. destruct (String.eqb_spec m ""); [discriminate|assumption]. Qed.
Lemma mk_error_at_message m n : message (mk_error_at m n) <> "".
Proof. apply non_empty_message_ok. Qed.
Lemma mk_error_range_message m f r : message (mk_error_range m f r) <> "".
Proof. apply non_empty_message_ok. Qed.

(** ** JSON *)

(** More fuel never changes an answer of the reader. *)
Lemma json_value_mono n :
  (forall s r m, json_value n s = Some r -> (n <= m)%nat -> json_value m s = Some r) /\
  (forall s r m, json_elements n s = Some r -> (n <= m)%nat -> json_elements m s = Some r) /\
  (forall s r m, json_members n s = Some r -> (n <= m)%nat -> json_members m s = Some r).
Proof.
  induction n as [|n (IHv & IHe & IHm)]; [repeat split; discriminate|].
  repeat split; intros s r [|m] H Hm; try lia; assert (Hm' : (n <= m)%nat) by lia.
  - cbn [json_value] in *. destruct (json_skip s); [discriminate|].
    destruct (a =? """")%char; [assumption|]. destruct (a =? "[")%char.
    + destruct (json_expect "]" s0); [assumption|].
      destruct (json_elements n s0) as [[l t]|] eqn:E; [|discriminate].
      now rewrite (IHe _ _ m E Hm').
    + destruct (a =? "{")%char; [|assumption]. destruct (json_expect "}" s0); [assumption|].
      destruct (json_members n s0) as [[l t]|] eqn:E; [|discriminate].
      now rewrite (IHm _ _ m E Hm').
  - cbn [json_elements] in *. destruct (json_value n s) as [[v t]|] eqn:E; [|discriminate].
    rewrite (IHv _ _ m E Hm'). destruct (json_expect "]" t); [assumption|].
    destruct (json_expect "," t); [|assumption].
    destruct (json_elements n s0) as [[l t']|] eqn:E'; [|discriminate].
    now rewrite (IHe _ _ m E' Hm').
  - cbn [json_members] in *. destruct (json_expect """" s); [|discriminate].
    destruct (json_chars s0) as [[k s1]|]; [|discriminate].
    destruct (json_expect ":" s1); [|discriminate].
    destruct (json_value n s2) as [[v t]|] eqn:E; [|discriminate].
    rewrite (IHv _ _ m E Hm'). destruct (json_expect "}" t); [assumption|].
    destruct (json_expect "," t); [|assumption].
    destruct (json_members n s3) as [[l t']|] eqn:E'; [|discriminate].
    now rewrite (IHm _ _ m E' Hm').
Qed.

(** The reader is a function: a text denotes at most one value. *)
Lemma reads_as_json_unique s v w : reads_as_json s v -> reads_as_json s w -> v = w.
Proof.
  intros (n & r & H & _) (m & t & H' & _).
  apply (proj1 (json_value_mono n) _ _ (n + m)%nat) in H; [|lia].
  apply (proj1 (json_value_mono m) _ _ (n + m)%nat) in H'; [|lia].
  congruence.
Qed.

(** [s] is a text for [v] in any context that does not extend a number. *)
Definition renders (s : string) (v : json) : Prop :=
  exists n, forall fuel rest, (n <= fuel)%nat -> no_digit_head rest ->
    json_value fuel (s ++ rest) = Some (v, rest).

Lemma renders_reads s v : renders s v -> reads_as_json s v.
Proof.
  intros (n & H). exists n, "". split; [|reflexivity].
  rewrite <- (append_nil_r s). now apply H.
Qed.

Lemma json_digits_uint u acc rest : no_digit_head rest ->
  json_digits (Npos acc) (NilEmpty.string_of_uint u ++ rest) = (Npos (Pos.of_uint_acc u acc), rest).
Proof.
  intros Hr. revert acc. induction u; intros acc;
  cbn [NilEmpty.string_of_uint Pos.of_uint_acc append].
  { destruct rest as [|c rest]; [reflexivity|]. cbn in Hr. unfold digit_char in Hr.
    cbn [json_digits]. unfold json_digit.
    destruct ((48 <=? N_of_ascii c) && (N_of_ascii c <=? 57))%N eqn:E; [lia|reflexivity]. }
  all: cbn [json_digits];
   (match goal with |- context [json_digit ?c] =>
     let v := eval vm_compute in (json_digit c) in change (json_digit c) with v end);
   cbv iota;
   (match goal with |- json_digits ?a _ = (Npos (Pos.of_uint_acc _ ?b), _) =>
     replace a with (Npos b) by lia end);
   apply IHu.
Qed.

Lemma to_uint_no_leading_zero n u : N.to_uint n = D0 u -> n = 0%N /\ u = Nil.
Proof.
  intros H.
  assert (Hn : unorm (N.to_uint n) = N.to_uint n).
  { now rewrite <- DecimalN.Unsigned.to_of, DecimalN.Unsigned.of_to. }
  rewrite H in Hn. unfold unorm in Hn.
  destruct (nzhead (D0 u)) eqn:E; try discriminate.
  - cbn in Hn. injection Hn as <-. split; [|reflexivity].
    rewrite <- (DecimalN.Unsigned.of_to n), H. reflexivity.
  - exfalso. eapply nzhead_nonzero; eauto.
Qed.

Lemma json_number_dec n rest : no_digit_head rest -> json_number (dec_N n ++ rest) = Some (n, rest).
Proof.
  intros Hr. rewrite dec_N_empty_form.
  pose proof (DecimalN.Unsigned.of_to n) as Hof.
  pose proof (to_uint_nonnil n) as Hnn.
  pose proof (to_uint_no_leading_zero n) as Hz.
  destruct (N.to_uint n) as [|u|u|u|u|u|u|u|u|u|u]; [easy|..];
  cbn [NilEmpty.string_of_uint append json_number];
  (match goal with |- context [json_digit ?c] =>
     let v := eval vm_compute in (json_digit c) in change (json_digit c) with v end);
  cbv iota.
  { destruct (Hz u eq_refl) as [-> ->]. reflexivity. }
  all: rewrite json_digits_uint by exact Hr; cbn in Hof; now rewrite Hof.
Qed.

Lemma renders_num n : renders (dec_N n) (JNum n).
Proof.
  exists 1%nat. intros [|fuel] rest Hf Hr; [lia|].
  pose proof (dec_N_digits n) as Hd. pose proof (dec_N_nonempty n) as Hne.
  pose proof (json_number_dec n rest Hr) as Hj.
  destruct (dec_N n) as [|c s]; [easy|]. destruct Hd as [Hd _]. unfold digit_char in Hd.
  cbn [append] in *. cbn [json_value json_skip].
  destruct ((N_of_ascii c =? 32) || (N_of_ascii c =? 9) || (N_of_ascii c =? 10) || (N_of_ascii c =? 13))%N eqn:E; [lia|].
  destruct (Ascii.eqb_spec c """"); [subst; cbn in Hd; lia|].
  destruct (Ascii.eqb_spec c "["); [subst; cbn in Hd; lia|].
  destruct (Ascii.eqb_spec c "{"); [subst; cbn in Hd; lia|].
  now rewrite Hj.
Qed.

(** The body [b] of a string literal means [s]. *)
Definition body (b s : string) : Prop := forall rest, json_chars (b ++ String """" rest) = Some (s, rest).

Lemma renders_str b s : body b s -> renders ("""" ++ b ++ """") (JStr s).
Proof.
  intros H. exists 1%nat. intros [|fuel] rest Hf Hr; [lia|].
  rewrite !append_assoc. cbn [append].
  cbn [json_value json_skip]. change (N_of_ascii """") with 34%N.
  cbn [N.eqb Pos.eqb orb]. change (("""" =? """")%char) with true. cbv iota.
  now rewrite H.
Qed.

Lemma json_expect_here c s :
  ((N_of_ascii c =? 32) || (N_of_ascii c =? 9) || (N_of_ascii c =? 10) || (N_of_ascii c =? 13))%N = false ->
  json_expect c (String c s) = Some s.
Proof. intros H. unfold json_expect. cbn [json_skip]. rewrite H. now rewrite Ascii.eqb_refl. Qed.

Lemma json_expect_other c d s :
  ((N_of_ascii d =? 32) || (N_of_ascii d =? 9) || (N_of_ascii d =? 10) || (N_of_ascii d =? 13))%N = false ->
  Ascii.eqb c d = false -> json_expect c (String d s) = None.
Proof. intros H H'. unfold json_expect. cbn [json_skip]. rewrite H. now rewrite H'. Qed.

(** A member list "k1":t1,"k2":t2,... *)
Definition member_text (m : string * string) : string := """" ++ fst m ++ """:" ++ snd m.

Definition member_ok (m : string * string) (kv : string * json) : Prop :=
  body (fst m) (fst kv) /\ renders (snd m) (snd kv).

Lemma renders_members ms kvs : ms <> [] -> Forall2 member_ok ms kvs ->
  exists n, forall fuel rest, (n <= fuel)%nat ->
    json_members fuel (join "," (map member_text ms) ++ String "}" rest) = Some (kvs, rest).
Proof.
  intros Hne H. induction H as [|m kv ms kvs [Hk (n & Hv)] H IH]; [easy|].
  destruct kv as [k v]. cbn [fst snd] in *. clear Hne.
  destruct ms as [|m' ms].
  - inversion H; subst. exists (S n). intros [|fuel] rest Hf; [lia|].
    cbn [map join]. unfold member_text. rewrite !append_assoc. cbn [append].
    cbn [json_members]. rewrite json_expect_here by reflexivity.
    rewrite Hk. rewrite json_expect_here by reflexivity.
    rewrite Hv; [|lia|cbn; unfold digit_char; cbn; lia].
    now rewrite json_expect_here by reflexivity.
  - destruct IH as (n' & IH); [discriminate|]. exists (S (n + n')). intros [|fuel] rest Hf; [lia|].
    change (map member_text (m :: m' :: ms)) with (member_text m :: member_text m' :: map member_text ms).
    cbn [join]. change (match map member_text ms with [] => member_text m' | _ :: _ => member_text m' ++ "," ++ join "," (map member_text ms) end)
      with (join "," (map member_text (m' :: ms))).
    rewrite !append_assoc. unfold member_text at 1. cbn [append]. rewrite !append_assoc. cbn [append].
    cbn [json_members]. rewrite json_expect_here by reflexivity.
    rewrite Hk. rewrite json_expect_here by reflexivity.
    rewrite Hv; [|lia|cbn; unfold digit_char; cbn; lia].
    rewrite json_expect_other by reflexivity. rewrite json_expect_here by reflexivity.
    rewrite IH by lia. reflexivity.
Qed.

Lemma renders_obj ms kvs : ms <> [] -> Forall2 member_ok ms kvs ->
  renders ("{" ++ join "," (map member_text ms) ++ "}") (JObj kvs).
Proof.
  intros Hne H. destruct (renders_members ms kvs Hne H) as (n & Hm).
  exists (S n). intros [|fuel] rest Hf Hr; [lia|].
  rewrite !append_assoc. cbn [append].
  cbn [json_value json_skip]. change (N_of_ascii "{") with 123%N.
  cbn [N.eqb Pos.eqb orb]. change (("{" =? """")%char) with false. change (("{" =? "[")%char) with false.
  change (("{" =? "{")%char) with true. cbv iota.
  assert (Hx : json_expect "}" (join "," (map member_text ms) ++ String "}" rest) = None).
  { destruct ms as [|m ms]; [easy|]. cbn [map]. unfold member_text at 1. cbn [append].
    destruct (map member_text ms); cbn [join append]; apply json_expect_other; reflexivity. }
  rewrite Hx. now rewrite Hm by lia.
Qed.

Lemma json_value_not_bracket n s v r : json_value n s = Some (v, r) -> json_expect "]" s = None.
Proof.
  destruct n as [|n]; [discriminate|]. cbn [json_value]. unfold json_expect.
  destruct (json_skip s) as [|c t]; [discriminate|]. destruct (Ascii.eqb_spec "]" c); [|reflexivity].
  subst c. discriminate.
Qed.

Lemma renders_elements ts vs : ts <> [] -> Forall2 renders ts vs ->
  exists n, forall fuel rest, (n <= fuel)%nat ->
    json_elements fuel (join "," ts ++ String "]" rest) = Some (vs, rest).
Proof.
  intros Hne H. induction H as [|t v ts vs (n & Hv) H IH]; [easy|]. clear Hne.
  destruct ts as [|t' ts].
  - inversion H; subst. exists (S n). intros [|fuel] rest Hf; [lia|].
    cbn [join json_elements]. rewrite Hv; [|lia|cbn; unfold digit_char; cbn; lia].
    now rewrite json_expect_here by reflexivity.
  - destruct IH as (n' & IH); [discriminate|]. exists (S (n + n')). intros [|fuel] rest Hf; [lia|].
    change (join "," (t :: t' :: ts)) with (t ++ "," ++ join "," (t' :: ts)).
    rewrite !append_assoc. cbn [append]. cbn [json_elements].
    rewrite Hv; [|lia|cbn; unfold digit_char; cbn; lia].
    rewrite json_expect_other by reflexivity. rewrite json_expect_here by reflexivity.
    rewrite IH by lia. reflexivity.
Qed.

Lemma renders_arr ts vs : ts <> [] -> Forall2 renders ts vs ->
  renders ("[" ++ join "," ts ++ "]") (JArr vs).
Proof.
  intros Hne H. destruct (renders_elements ts vs Hne H) as (n & Hm).
  exists (S n). intros [|fuel] rest Hf Hr; [lia|].
  rewrite !append_assoc. cbn [append].
  cbn [json_value json_skip]. change (N_of_ascii "[") with 91%N.
  cbn [N.eqb Pos.eqb orb]. change (("[" =? """")%char) with false. change (("[" =? "[")%char) with true.
  cbv iota.
  assert (Hx : json_expect "]" (join "," ts ++ String "]" rest) = None).
  { inversion H as [|t v ts' vs' (n' & Hv) H' E1 E2]; subst; [easy|].
    destruct ts' as [|t' ts'].
    - cbn [join]. eapply json_value_not_bracket. apply (Hv n'); [lia|cbn; unfold digit_char; cbn; lia].
    - change (join "," (t :: t' :: ts')) with (t ++ "," ++ join "," (t' :: ts')).
      rewrite append_assoc. eapply json_value_not_bracket. apply (Hv n'); [lia|cbn; unfold digit_char; cbn; lia]. }
  rewrite Hx. now rewrite Hm by lia.
Qed.

(** *** Error::to_json *)

Lemma body_plain s : (forall rest, json_chars (s ++ String """" rest) = Some (s, rest)) -> body s s.
Proof. easy. Qed.

Ltac key := intros rest; reflexivity.

Lemma renders_position l c : renders (json_position l c) (lsp_position (mkIndex l c)).
Proof.
  pose proof (renders_obj [("line", dec_N l); ("character", dec_N c)]
                [("line", JNum l); ("character", JNum c)]) as H.
  assert (E : json_position l c =
    "{" ++ join "," (map member_text [("line", dec_N l); ("character", dec_N c)]) ++ "}").
  { unfold json_position, member_text. cbn [map join fst snd append]. rewrite !append_assoc. cbn [append].
    rewrite ?append_assoc. reflexivity. }
  rewrite E. apply H; [discriminate|].
  repeat constructor; cbn [fst snd]; try apply renders_num; key.
Qed.

Lemma renders_range f l :
  renders ("{""start"":" ++ json_position (line f) (column f) ++ ",""end"":" ++ json_position (line l) (column l) ++ "}")
          (lsp_range (mkRawRange f l)).
Proof.
  pose proof (renders_obj [("start", json_position (line f) (column f)); ("end", json_position (line l) (column l))]
                [("start", lsp_position f); ("end", lsp_position l)]) as H.
  match goal with |- renders ?s _ => replace s with
    ("{" ++ join "," (map member_text [("start", json_position (line f) (column f));
                                       ("end", json_position (line l) (column l))]) ++ "}") end.
  - apply H; [discriminate|]. destruct f, l. repeat constructor; cbn [fst snd]; try apply renders_position; key.
  - unfold member_text. cbn [map join fst snd append]. rewrite !append_assoc. cbn [append].
    rewrite ?append_assoc. reflexivity.
Qed.

Lemma body_encode signed m : (signed = false \/ ascii_text m) -> body (json_encode signed m) m.
Proof. intros H rest. now apply json_chars_encode. Qed.

Lemma body_uri f : body ("file:///" ++ url_encode f) ("file:///" ++ url_encode f).
Proof.
  intros rest. apply json_chars_plain. cbn [append all_bytes].
  repeat (split; [split; [cbn; lia|split; discriminate]|]). apply url_encode_plain.
Qed.

Definition error_range (e : error) : range :=
  match location e with Some l => loc_range l | None => null_range end.
Definition error_file (e : error) : option string :=
  match location e with Some l => file_name l | None => None end.

Definition related_text (signed : bool) (f : string) : string :=
  "[{""location"":{""uri"":""file:///" ++ url_encode f ++
  """,""range"":{""start"":{""line"":0,""character"":0},""end"":{""line"":0,""character"":0}}}" ++
  ",""message"":""" ++ json_encode signed unknown_error_message ++ """}]".

Lemma renders_related signed f :
  renders (related_text signed f)
    (JArr [JObj [("location", JObj [("uri", JStr ("file:///" ++ url_encode f)); ("range", lsp_range null_range)]);
                 ("message", JStr "<unknown error message>")]]).
Proof.
  set (uri := "file:///" ++ url_encode f).
  set (rng := "{""start"":" ++ json_position 0 0 ++ ",""end"":" ++ json_position 0 0 ++ "}").
  set (loc := "{" ++ join "," (map member_text [("uri", """" ++ uri ++ """"); ("range", rng)]) ++ "}").
  set (obj := "{" ++ join "," (map member_text
         [("location", loc); ("message", """" ++ json_encode signed unknown_error_message ++ """")]) ++ "}").
  assert (E : related_text signed f = "[" ++ join "," [obj] ++ "]").
  { unfold related_text, obj, loc, rng, uri, member_text, json_position.
    cbn [map join fst snd append]. rewrite !append_assoc. cbn [append]. rewrite ?append_assoc. cbn [append].
    rewrite ?append_assoc. reflexivity. }
  rewrite E. apply renders_arr; [discriminate|]. constructor; [|constructor].
  unfold obj. apply renders_obj; [discriminate|].
  constructor; [split; cbn [fst snd]; [key|]|constructor; [split; cbn [fst snd]; [key|]|constructor]].
  - unfold loc. apply renders_obj; [discriminate|].
    constructor; [split; cbn [fst snd]; [key|]|constructor; [split; cbn [fst snd]; [key|]|constructor]].
    + apply renders_str. apply body_uri.
    + apply (renders_range null_index null_index).
  - apply renders_str. intros rest. destruct signed; reflexivity.
Qed.

Lemma error_to_json_renders signed e :
  (signed = false \/ ascii_text (message e)) ->
  renders (error_to_json signed e)
    (lsp_diagnostic (error_range e) (message e)
       (match error_file e with Some f => Some ("file:///" ++ url_encode f) | None => None end)).
Proof.
  intros Hm.
  set (r := error_range e).
  set (rng := "{""start"":" ++ json_position (line (first r)) (column (first r)) ++
              ",""end"":" ++ json_position (line (last r)) (column (last r)) ++ "}").
  set (ms := List.app [("range", rng); ("message", """" ++ json_encode signed (message e) ++ """"); ("severity", dec_N 1)]
             (match error_file e with Some f => [("relatedInformation", related_text signed f)] | None => [] end)).
  assert (E : error_to_json signed e = "{" ++ join "," (map member_text ms) ++ "}").
  { unfold error_to_json, ms, rng, r, error_range, error_file, related_information.
    destruct (location e) as [[[f|] [a b]]|]; unfold related_text, member_text; cbn [file_name loc_range first last];
    cbn [List.app map join fst snd append]; change (dec_N 1) with "1";
    repeat progress (rewrite ?append_assoc; cbn [append]); reflexivity. }
  rewrite E. unfold lsp_diagnostic.
  assert (Hr : renders rng (lsp_range r)) by (unfold rng; destruct r; apply renders_range).
  apply renders_obj; [discriminate|].
  unfold ms. cbn [List.app].
  constructor; [split; [key|exact Hr]|].
  constructor; [split; [key|apply renders_str, body_encode, Hm]|].
  constructor; [split; [key|apply renders_num]|].
  destruct (error_file e) as [f|]; [|constructor].
  constructor; [split; [key|apply renders_related]|constructor].
Qed.

Lemma errors_to_json_reads signed es :
  es <> [] -> Forall (fun e => signed = false \/ ascii_text (message e)) es ->
  reads_as_json (errors_to_json signed es)
    (JObj [("errors", JArr (map (fun e => lsp_diagnostic (error_range e) (message e)
        (match error_file e with Some f => Some ("file:///" ++ url_encode f) | None => None end)) es))]).
Proof.
  intros Hne H. apply renders_reads.
  assert (E : errors_to_json signed es =
    "{" ++ join "," (map member_text [("errors", "[" ++ join "," (map (error_to_json signed) es) ++ "]")]) ++ "}").
  { unfold errors_to_json, member_text. cbn [map join fst snd append]. rewrite ?append_assoc. cbn [append].
    rewrite ?append_assoc. reflexivity. }
  rewrite E. apply renders_obj; [discriminate|]. constructor; [|constructor]. split; cbn [fst snd]; [key|].
  apply renders_arr; [destruct es; easy|].
  clear - H. induction H; cbn [map]; constructor; [now apply error_to_json_renders|assumption].
Qed.

(** ** Results *)

Lemma to_strings_no_errors {R} (ser : option R -> string) r :
  res_errors r = [] -> to_strings ser r = [ser (res_root r)].
Proof. unfold to_strings. now intros ->. Qed.

Lemma to_strings_errors {R} (ser : option R -> string) r :
  res_errors r <> [] -> to_strings ser r = "" :: map what (res_errors r).
Proof. unfold to_strings. now destruct (res_errors r). Qed.

(** The text of an error, seen through [const char*], is never empty. *)
Lemma what_prefix e : exists t, what e = "Error" ++ t.
Proof.
  unfold what, what_message.
  match goal with |- context [c_str ("Error" ++ ?x)] => exists (c_str x) end.
  reflexivity.
Qed.

Lemma join_concat sep l : join sep l = String.concat sep l.
Proof. induction l as [|x l IH]; [reflexivity|]. cbn [join String.concat]. destruct l; [reflexivity|]. now rewrite IH. Qed.

Lemma unwrap_spec {R} (r : result R) :
  unwrap r = match res_errors r with
             | [] => ("", Ok (res_root r))
             | es => (String.concat (String (ascii_of_nat 10) "") (map what es), Throw "AnalysisFailed")
             end.
Proof. unfold unwrap. destruct (res_errors r); [reflexivity|]. now rewrite join_concat. Qed.

Lemma to_strings_length {R} (ser : option R -> string) r :
  List.length (to_strings ser r) = 1%nat <-> res_errors r = [].
Proof.
  unfold to_strings. destruct (res_errors r) as [|e es]; cbn; [tauto|]. split; [|discriminate].
  now rewrite map_length.
Qed.
