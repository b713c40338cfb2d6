(** Lemmas about versions (C07, C08). *)
From Verif Require Import Base ModelUtils ModelVersion SpecUtils ProofsUtils.
From Coq Require Import Nnat ZifyBool ZifyNat ZifyN Decimal DecimalFacts DecimalString DecimalN DecimalPos DecimalZ.
Local Open Scope Z_scope.

Lemma component_cons x l i : component (x :: l) (S i) = component l i.
Proof. reflexivity. Qed.
Lemma component_nil i : component [] i = 0.
Proof. destruct i; reflexivity. Qed.

(** Zero-padded versions seen as head and tail. *)
Definition vtail (l : version) : version := match l with [] => [] | _ :: t => t end.
Lemma component_tail l i : component l (S i) = component (vtail l) i.
Proof. destruct l; [now rewrite !component_nil|reflexivity]. Qed.

Lemma compare_unfold l r :
  (l <> [] \/ r <> []) ->
  version_compare l r = compare_step (component l 0) (component r 0) (version_compare (vtail l) (vtail r)).
Proof. destruct l as [|x l], r as [|y r]; cbn; intros [H|H]; try easy. Qed.

Inductive compare_spec (l r : version) : Z -> Prop :=
| compare_eq : version_same l r -> compare_spec l r 0
| compare_lt : version_before l r -> compare_spec l r (-1)
| compare_gt : version_before r l -> compare_spec l r 1.

Lemma before_0 l r : component l 0 < component r 0 -> version_before l r.
Proof. intros H. exists 0%nat. split; [lia|exact H]. Qed.
Lemma before_S l r : component l 0 = component r 0 -> version_before (vtail l) (vtail r) -> version_before l r.
Proof.
  intros H0 (k & Hk & Hlt). exists (S k). rewrite !component_tail. split; [|exact Hlt].
  intros [|i] Hi; [exact H0|]. rewrite !component_tail. apply Hk. lia.
Qed.
Lemma same_S l r : component l 0 = component r 0 -> version_same (vtail l) (vtail r) -> version_same l r.
Proof. intros H0 H [|i]; [exact H0|]. rewrite !component_tail. apply H. Qed.

Lemma compare_step_ok l r :
  compare_spec (vtail l) (vtail r) (version_compare (vtail l) (vtail r)) ->
  compare_spec l r (compare_step (component l 0) (component r 0) (version_compare (vtail l) (vtail r))).
Proof.
  intros Hs. unfold compare_step. rewrite Z.gtb_ltb.
  destruct (Z.ltb_spec (component r 0) (component l 0)) as [H|H].
  - apply compare_gt, before_0, H.
  - destruct (Z.ltb_spec (component l 0) (component r 0)) as [H'|H'].
    + apply compare_lt, before_0, H'.
    + destruct Hs as [Hs|Hs|Hs].
      * apply compare_eq, same_S; [lia|exact Hs].
      * apply compare_lt, before_S; [lia|exact Hs].
      * apply compare_gt, before_S; [lia|exact Hs].
Qed.

Lemma compare_ok n : forall l r, (length l + length r <= n)%nat -> compare_spec l r (version_compare l r).
Proof.
  induction n as [|n IH]; intros l r Hn.
  - destruct l, r; cbn in Hn; try lia. apply compare_eq. now intros i.
  - destruct l as [|x l], r as [|y r].
    + apply compare_eq. now intros i.
    + rewrite compare_unfold by now right. apply compare_step_ok, IH. cbn in *. lia.
    + rewrite compare_unfold by now left. apply compare_step_ok, IH. cbn in *. lia.
    + rewrite compare_unfold by now left. apply compare_step_ok, IH. cbn in *. lia.
Qed.

Lemma version_compare_spec l r : compare_spec l r (version_compare l r).
Proof. now apply (compare_ok (length l + length r)). Qed.

Lemma before_irrefl_same l r : version_same l r -> ~ version_before l r.
Proof. intros H (k & _ & Hk). rewrite H in Hk. lia. Qed.
Lemma same_sym l r : version_same l r -> version_same r l.
Proof. intros H i. now rewrite H. Qed.
Lemma before_trans a b c : version_before a b -> version_before b c -> version_before a c.
Proof.
  intros (k & Hk & Hlt) (m & Hm & Hmt).
  destruct (Nat.lt_trichotomy k m) as [H|[H|H]].
  - exists k. split; [|rewrite <- (Hm k H); exact Hlt].
    intros i Hi. rewrite Hk by lia. apply Hm. lia.
  - subst m. exists k. split; [|lia]. intros i Hi. rewrite Hk by lia. apply Hm. lia.
  - exists m. split; [|rewrite (Hk m H); exact Hmt].
    intros i Hi. rewrite Hk by lia. apply Hm. lia.
Qed.
Lemma before_asym a b : version_before a b -> ~ version_before b a.
Proof. intros H H'. eapply before_irrefl_same; [|eapply before_trans; eauto]. now intros i. Qed.
Lemma before_same_l a b c : version_same a b -> version_before b c -> version_before a c.
Proof. intros H (k & Hk & Hlt). exists k. rewrite H. split; [|exact Hlt]. intros i Hi. now rewrite H, Hk. Qed.
Lemma before_same_r a b c : version_before a b -> version_same b c -> version_before a c.
Proof. intros (k & Hk & Hlt) H. exists k. rewrite <- H. split; [|exact Hlt]. intros i Hi. now rewrite <- H, Hk. Qed.

Lemma version_compare_eq l r : version_compare l r = 0 <-> version_same l r.
Proof.
  split; intros H.
  - pose proof (version_compare_spec l r) as Hs. rewrite H in Hs. now inversion Hs.
  - destruct (version_compare_spec l r); [easy| |]; exfalso.
    + eapply before_irrefl_same; eauto.
    + eapply before_irrefl_same; [apply same_sym, H|eauto].
Qed.
Lemma version_compare_lt l r : version_compare l r = -1 <-> version_before l r.
Proof.
  split; intros H.
  - pose proof (version_compare_spec l r) as Hs. rewrite H in Hs. now inversion Hs.
  - destruct (version_compare_spec l r); [| easy |]; exfalso.
    + eapply before_irrefl_same; eauto.
    + eapply before_asym; eauto.
Qed.
Lemma version_compare_gt l r : version_compare l r = 1 <-> version_before r l.
Proof.
  split; intros H.
  - pose proof (version_compare_spec l r) as Hs. rewrite H in Hs. now inversion Hs.
  - destruct (version_compare_spec l r); [| |easy]; exfalso.
    + eapply before_irrefl_same; [apply same_sym|]; eauto.
    + eapply before_asym; eauto.
Qed.

Lemma version_eqb_iff l r : version_eqb l r = true <-> version_same l r.
Proof. unfold version_eqb. rewrite Z.eqb_eq. apply version_compare_eq. Qed.
Lemma version_ltb_iff l r : version_ltb l r = true <-> version_before l r.
Proof.
  unfold version_ltb. rewrite <- version_compare_lt.
  destruct (version_compare_spec l r); cbn; split; intros; lia || easy.
Qed.
Lemma version_leb_iff l r : version_leb l r = true <-> version_before l r \/ version_same l r.
Proof.
  unfold version_leb. rewrite <- version_compare_lt, <- version_compare_eq.
  destruct (version_compare_spec l r); cbn; split; intros; lia || easy.
Qed.

Lemma version_leb_refl v : version_leb v v = true.
Proof. apply version_leb_iff. right. now intros i. Qed.
Lemma version_leb_antisym a b : version_leb a b = true -> version_leb b a = true -> version_same a b.
Proof.
  rewrite !version_leb_iff. intros [H|H] [H'|H']; auto using same_sym.
  exfalso. eapply before_asym; eauto.
Qed.
Lemma version_leb_trans a b c : version_leb a b = true -> version_leb b c = true -> version_leb a c = true.
Proof.
  rewrite !version_leb_iff. intros [H|H] [H'|H'].
  - left. eapply before_trans; eauto.
  - left. eapply before_same_r; eauto.
  - left. eapply before_same_l; eauto.
  - right. intros i. now rewrite H, H'.
Qed.
Lemma version_leb_total a b : version_leb a b = true \/ version_leb b a = true.
Proof.
  rewrite !version_leb_iff. destruct (version_compare_spec a b); auto.
Qed.

(** ** Printing and parsing *)

Lemma read_digits_uint u acc any :
  read_digits (Z.pos acc) any (NilEmpty.string_of_uint u) =
  (Z.pos (Pos.of_uint_acc u acc), match u with Nil => any | _ => true end).
Proof.
  revert acc any. induction u; intros acc any; cbn [NilEmpty.string_of_uint Pos.of_uint_acc];
  [reflexivity|..];
  (unfold read_digits at 1; fold read_digits;
   match goal with |- context [is_digit ?c] => change (is_digit c) with true end; cbv iota;
   match goal with |- context [digit_val ?c] =>
     let v := eval vm_compute in (digit_val c) in change (digit_val c) with v end;
   match goal with |- read_digits ?a _ _ = (Z.pos (Pos.of_uint_acc _ ?b), _) =>
     replace a with (Z.pos b) by lia end;
   rewrite IHu; destruct u; reflexivity).
Qed.

Lemma read_digits_uint0 u any :
  read_digits 0 any (NilEmpty.string_of_uint u) =
  (Z.of_N (N.of_uint u), match u with Nil => any | _ => true end).
Proof.
  revert any. induction u; intros any; [reflexivity|..];
  (cbn [NilEmpty.string_of_uint];
   unfold read_digits; fold read_digits;
   match goal with |- context [is_digit ?c] => change (is_digit c) with true end; cbv iota;
   match goal with |- context [digit_val ?c] =>
     let v := eval vm_compute in (digit_val c) in change (digit_val c) with v end;
   cbn [Z.mul Z.add Pos.mul Pos.add]).
  - rewrite IHu. destruct u; reflexivity.
  - rewrite read_digits_uint; destruct u; reflexivity.
  - rewrite read_digits_uint; destruct u; reflexivity.
  - rewrite read_digits_uint; destruct u; reflexivity.
  - rewrite read_digits_uint; destruct u; reflexivity.
  - rewrite read_digits_uint; destruct u; reflexivity.
  - rewrite read_digits_uint; destruct u; reflexivity.
  - rewrite read_digits_uint; destruct u; reflexivity.
  - rewrite read_digits_uint; destruct u; reflexivity.
  - rewrite read_digits_uint; destruct u; reflexivity.
Qed.

Lemma to_uint_nonnil n : N.to_uint n <> Nil.
Proof. destruct n; [discriminate|]. cbn. apply Unsigned.to_uint_nonnil. Qed.

Lemma dec_N_empty_form n : dec_N n = NilEmpty.string_of_uint (N.to_uint n).
Proof.
  unfold dec_N, NilZero.string_of_uint. pose proof (to_uint_nonnil n).
  destruct (N.to_uint n); easy.
Qed.

Lemma read_digits_dec_N n : read_digits 0 false (dec_N n) = (Z.of_N n, true).
Proof.
  rewrite dec_N_empty_form, read_digits_uint0, DecimalN.Unsigned.of_to.
  pose proof (to_uint_nonnil n). destruct (N.to_uint n); easy.
Qed.

Lemma dec_Z_nonneg z : 0 <= z -> dec_Z z = dec_N (Z.to_N z).
Proof. intros H. destruct z; [reflexivity..|lia]. Qed.

Local Open Scope string_scope.

Lemma digit_head_no_space s : s <> "" -> all_bytes digit_char s ->
  skip_spaces s = s /\ exists c s', s = String c s' /\ (c =? "-")%char = false /\ (c =? "+")%char = false.
Proof.
  intros Hn H. destruct s as [|c s]; [easy|]. destruct H as [H _]. unfold digit_char in H. split.
  - cbn. unfold is_space, byte_val.
    destruct ((N_of_ascii c =? 32) || (9 <=? N_of_ascii c) && (N_of_ascii c <=? 13))%N eqn:E; [lia|reflexivity].
  - exists c, s. repeat split.
    + destruct (Ascii.eqb_spec c "-"); [subst; cbn in H; lia|reflexivity].
    + destruct (Ascii.eqb_spec c "+"); [subst; cbn in H; lia|reflexivity].
Qed.

Lemma stoi_dec {E} z : 0 <= z <= 2 ^ 31 - 1 -> @stoi E (dec_Z z) = Ok z.
Proof.
  intros [H1 H2]. rewrite dec_Z_nonneg by exact H1.
  destruct (digit_head_no_space (dec_N (Z.to_N z)) (dec_N_nonempty _) (dec_N_digits _))
    as (Hs & c & s' & He & Hm & Hp).
  unfold stoi. rewrite Hs. rewrite He. rewrite Hm, Hp. rewrite <- He.
  rewrite read_digits_dec_N. cbn [negb]. rewrite Z2N.id by exact H1.
  unfold int_min, int_max.
  destruct ((- 2 ^ 31 <=? z) && (z <=? 2 ^ 31 - 1))%Z eqn:E'; [reflexivity|lia].
Qed.

Definition no_dot (s : string) : Prop := all_bytes (fun c => c <> "."%char) s.

Lemma digits_no_dot s : all_bytes digit_char s -> no_dot s.
Proof.
  unfold no_dot. induction s as [|c s IH]; cbn; [easy|]. intros [H1 H2]. split; [|auto].
  intros ->. unfold digit_char in H1. cbn in H1. lia.
Qed.

Lemma split_dots_plain cur s rest : no_dot s ->
  split_dots cur (s ++ rest) = split_dots (cur ++ s) rest.
Proof.
  revert cur. induction s as [|c s IH]; intros cur H; cbn [append].
  - now rewrite append_nil_r.
  - destruct H as [H1 H2]. cbn [split_dots].
    destruct (Ascii.eqb_spec c "."); [easy|]. rewrite IH by exact H2.
    unfold char_string. rewrite append_assoc. reflexivity.
Qed.

Lemma split_dots_join l : Forall no_dot l -> l <> [] -> split_dots "" (join "." l) = l.
Proof.
  induction l as [|x l IH]; [easy|]. intros H _. inversion H; subst. destruct l as [|y l].
  - cbn. rewrite <- (append_nil_r x) at 1. now rewrite split_dots_plain.
  - cbn [join]. rewrite split_dots_plain by assumption.
    cbn [append split_dots Ascii.eqb Bool.eqb]. f_equal. apply IH; [assumption|discriminate].
Qed.

Lemma version_round_trip {E} (v : version) :
  v <> [] -> Forall (fun c => 0 <= c <= 2 ^ 31 - 1) v ->
  @version_of_string E (version_to_string v) = Ok v.
Proof.
  intros Hn H. unfold version_of_string, version_to_string.
  assert (Hne : join "." (map dec_Z v) <> "").
  { destruct v as [|x v]; [easy|]. inversion H; subst. cbn. rewrite dec_Z_nonneg by lia.
    pose proof (dec_N_nonempty (Z.to_N x)).
    destruct (map dec_Z v); [assumption|]. destruct (dec_N (Z.to_N x)); [easy|discriminate]. }
  destruct (String.eqb_spec (join "." (map dec_Z v)) ""); [easy|].
  rewrite split_dots_join.
  - assert (Hm : mapM (@stoi E) (map dec_Z v) = Ok v).
    { clear Hn Hne n. induction H as [|x v Hx H IH]; [reflexivity|]. cbn [map mapM].
      rewrite stoi_dec by exact Hx. cbn [bind]. rewrite IH. reflexivity. }
    rewrite Hm. cbn [bind].
    replace (existsb (fun c : Z => (c <? 0)%Z) v) with false; [reflexivity|].
    symmetry. clear - H. induction H as [|x v Hx H IH]; [reflexivity|]. cbn. rewrite IH. lia.
  - rewrite Forall_map. eapply Forall_impl; [|exact H]. cbn. intros z Hz.
    rewrite dec_Z_nonneg by lia. apply digits_no_dot, dec_N_digits.
  - destruct v; [easy|discriminate].
Qed.

(** Whatever the string, accepted components are between 0 and INT_MAX. *)
Lemma stoi_range {E} s z : @stoi E s = Ok z -> - 2 ^ 31 <= z <= 2 ^ 31 - 1.
Proof.
  unfold stoi, int_min, int_max. intros H.
  repeat match type of H with context [let '(_, _) := ?x in _] => destruct x end.
  destruct (negb b0); [discriminate|].
  match type of H with (if ?b then _ else _) = _ => destruct b eqn:E' end; [|discriminate].
  injection H as <-. lia.
Qed.

Lemma version_of_string_range {E} s v :
  @version_of_string E s = Ok v -> Forall (fun c => 0 <= c <= 2 ^ 31 - 1) v.
Proof.
  unfold version_of_string. destruct (s =? ""); [intros [= <-]; constructor|].
  assert (Hm : forall l v, mapM (@stoi E) l = Ok v -> Forall (fun c => - 2 ^ 31 <= c <= 2 ^ 31 - 1) v).
  { induction l as [|x l IH]; cbn [mapM]; [intros w [= <-]; constructor|]. intros w.
    destruct (stoi x) eqn:Ex; try discriminate. cbn [bind]. destruct (mapM stoi l); try discriminate.
    cbn [bind]. intros [= <-]. constructor; [eapply stoi_range; eauto | auto]. }
  destruct (mapM stoi (split_dots "" s)) as [comps| | |] eqn:Ec; try discriminate. cbn [bind].
  apply Hm in Ec. destruct (existsb _ comps) eqn:Ee; [discriminate|]. intros [= <-].
  rewrite Forall_forall in *. intros x Hx. split; [|now apply Ec].
  destruct (Z.ltb_spec x 0); [|assumption]. exfalso.
  assert (existsb (fun c : Z => (c <? 0)%Z) comps = true); [|congruence].
  apply existsb_exists. exists x. split; [exact Hx|lia].
Qed.
