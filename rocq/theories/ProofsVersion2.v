(** Which texts are versions. *)
From Coq Require Import ZArith Lia.
From Verif Require Import Base ModelUtils ModelVersion SpecUtils SpecLexer SpecSyntax SpecVersion ProofsUtils ProofsVersion.
Local Open Scope string_scope.

Lemma digit_is c : digit c <-> is_digit c = true.
Proof. unfold digit, code_between, is_digit, byte_val. lia. Qed.
Lemma space_is c : space c <-> is_space c = true.
Proof. unfold space, is_space, byte_val. lia. Qed.
Lemma read_end rest acc any : (forall c r, rest = String c r -> ~ digit c) -> read_digits acc any rest = (acc, any).
Proof.
  intros H. destruct rest as [|c r]; [reflexivity|]. cbn [read_digits]. destruct (is_digit c) eqn:D; [|reflexivity].
  apply digit_is in D. destruct (H c r eq_refl D).
Qed.
Lemma read_all d rest : digits d -> (forall c r, rest = String c r -> ~ digit c) -> forall acc any,
  read_digits acc any (d ++ rest) = ((acc * 10 ^ Z.of_nat (String.length d) + decimal d)%Z, match d with "" => any | _ => true end).
Proof.
  intros D N. induction d as [|c d IH]; intros acc any.
  - cbn [append String.length decimal]. rewrite read_end by exact N. f_equal. cbn. lia.
  - destruct D as [C D]. cbn [append read_digits]. pose proof C as C'. apply digit_is in C'. rewrite C'. rewrite (IH D).
    replace (match d with "" => true | _ => true end) with true by now destruct d. f_equal. cbn [String.length decimal]. unfold digit_val, byte_val.
    rewrite Nat2Z.inj_succ, Z.pow_succ_r by lia. ring.
Qed.
Lemma digit_run s : exists d rest, s = d ++ rest /\ digits d /\ (forall c r, rest = String c r -> ~ digit c).
Proof.
  induction s as [|c s (d & rest & -> & D & N)].
  - exists "", "". split; [reflexivity|]. split; [exact I|]. discriminate.
  - destruct (is_digit c) eqn:C.
    + exists (String c d), rest. split; [reflexivity|]. split; [|exact N]. split; [now apply digit_is|exact D].
    + exists "", (String c (d ++ rest)). split; [reflexivity|]. split; [exact I|]. intros c0 r [= <- <-] Q. apply digit_is in Q. congruence.
Qed.
Lemma space_run s : exists w, s = w ++ skip_spaces s /\ all_bytes space w.
Proof.
  induction s as [|c s (w & E & W)]; [exists ""; split; [reflexivity|exact I]|]. cbn [skip_spaces]. destruct (is_space c) eqn:C.
  - exists (String c w). cbn [append]. split; [now rewrite <- E|]. split; [now apply space_is|exact W].
  - exists "". split; [reflexivity|exact I].
Qed.
Lemma skip_run w s : all_bytes space w -> (forall c r, s = String c r -> ~ space c) -> skip_spaces (w ++ s) = s.
Proof.
  intros W N. induction w as [|c w IH].
  - destruct s as [|c s]; [reflexivity|]. cbn [append skip_spaces]. destruct (is_space c) eqn:C; [|reflexivity]. apply space_is in C. destruct (N c s eq_refl C).
  - destruct W as [C W]. cbn [append skip_spaces]. apply space_is in C. rewrite C. now apply IH.
Qed.
Lemma digit_no_space c : digit c -> ~ space c /\ c <> "-"%char /\ c <> "+"%char.
Proof. intros D. unfold digit, code_between, space in *. split; [lia|]. split; intros ->; cbn in D; lia. Qed.

Lemma stoi_front {E} s z : integer_at_front s z -> @stoi E s = if ((int_min <=? z) && (z <=? int_max))%Z then Ok z else Throw "std::out_of_range: stoi".
Proof.
  intros H. destruct H as [w sign d rest W S D N R|w d rest W D N R].
  - assert (T : skip_spaces (w ++ sign ++ d ++ rest) = sign ++ d ++ rest).
    { apply skip_run; [exact W|]. intros c r Q. destruct S as [-> | ->].
      - destruct d as [|c' d]; [congruence|]. injection Q as <- _. apply digit_no_space, D.
      - injection Q as <- _. unfold space. cbn. lia. }
    unfold stoi. rewrite T.
    assert (Q : match sign ++ d ++ rest with
                | String c s' => if Ascii.eqb c "-" then (true, s') else if Ascii.eqb c "+" then (false, s') else (false, sign ++ d ++ rest)
                | "" => (false, sign ++ d ++ rest) end = (false, d ++ rest)).
    { destruct S as [-> | ->]; [|reflexivity]. destruct d as [|c d]; [congruence|]. destruct D as [C D]. cbn [append].
      destruct (digit_no_space c C) as (_ & M & P). apply Ascii.eqb_neq in M, P. now rewrite M, P. }
    rewrite Q, (read_all d rest D R). destruct d as [|c d]; [congruence|]. cbn [negb]. replace (0 * _ + decimal (String c d))%Z with (decimal (String c d)) by lia. reflexivity.
  - assert (T : skip_spaces (w ++ "-" ++ d ++ rest) = "-" ++ d ++ rest).
    { apply skip_run; [exact W|]. intros c r Q. injection Q as <- _. unfold space. cbn. lia. }
    unfold stoi. rewrite T. cbn [append]. change (Ascii.eqb "-" "-") with true. cbv iota.
    rewrite (read_all d rest D R). destruct d as [|c d]; [congruence|]. cbn [negb]. replace (0 * _ + decimal (String c d))%Z with (decimal (String c d)) by lia. reflexivity.
Qed.
Lemma stoi_some {E} s : (exists z, integer_at_front s z) \/ exists w, @stoi E s = Throw w.
Proof.
  unfold stoi. destruct (space_run s) as (w & E1 & W). remember (skip_spaces s) as s1. clear Heqs1. subst s.
  assert (Q : exists sign s2, s1 = sign ++ s2 /\ (sign = "" \/ sign = "+" \/ sign = "-") /\ exists neg,
    match s1 with
    | String c s' => if Ascii.eqb c "-" then (true, s') else if Ascii.eqb c "+" then (false, s') else (false, s1)
    | "" => (false, s1) end = (neg, s2)).
  { destruct s1 as [|c s1]; [exists "", ""; repeat split; auto; now exists false|].
    destruct (Ascii.eqb_spec c "-") as [->|]; [exists "-", s1; repeat split; auto; now exists true|].
    destruct (Ascii.eqb_spec c "+") as [->|]; [exists "+", s1; repeat split; auto; now exists false|].
    exists "", (String c s1). repeat split; auto. now exists false. }
  destruct Q as (sign & s2 & -> & S & neg & ->). destruct (digit_run s2) as (d & rest & -> & D & R).
  rewrite (read_all d rest D R). destruct d as [|c d]; [right; eexists; reflexivity|]. left.
  destruct S as [S|[S|S]]; subst sign.
  - exists (decimal (String c d)). apply (front_plain w "" (String c d) rest); auto. discriminate.
  - exists (decimal (String c d)). apply (front_plain w "+" (String c d) rest); auto. discriminate.
  - exists (- decimal (String c d))%Z. apply (front_minus w (String c d) rest); auto. discriminate.
Qed.
Lemma dotted_join ps : dotted ps = join "." ps.
Proof. induction ps as [|p [|q ps] IH]; [reflexivity..|]. cbn [dotted join] in *. now rewrite IH. Qed.
Lemma split_parts s : forall cur, without_dot cur -> exists ps, split_dots cur s = ps /\ ps <> [] /\ Forall without_dot ps /\ dotted ps = cur ++ s.
Proof.
  induction s as [|c s IH]; intros cur C; cbn [split_dots].
  - exists [cur]. split; [reflexivity|]. split; [discriminate|]. split; [auto|]. cbn [dotted]. now rewrite append_nil_r.
  - destruct (Ascii.eqb_spec c ".") as [->|N].
    + destruct (IH "" I) as (ps & E & NE & F & J). exists (cur :: ps). rewrite E. split; [reflexivity|]. split; [discriminate|]. split; [now constructor|].
      destruct ps as [|p ps]; [congruence|]. change (dotted (cur :: p :: ps)) with (cur ++ "." ++ dotted (p :: ps)). now rewrite J.
    + destruct (IH (cur ++ char_string c)) as (ps & E & NE & F & J).
      { clear - C N. induction cur as [|x cur IHc]; cbn; [tauto|]. destruct C as [Cx C]. split; [exact Cx|now apply IHc]. }
      exists ps. split; [exact E|]. split; [exact NE|]. split; [exact F|]. rewrite J, append_assoc. reflexivity.
Qed.
Lemma stois {E} ps : (exists v, Forall2 integer_at_front ps v /\ Forall (fun z => int_min <= z <= int_max)%Z v /\ mapM (@stoi E) ps = Ok v) \/
  ((forall v, ~ (Forall2 integer_at_front ps v /\ Forall (fun z => int_min <= z <= int_max)%Z v)) /\ exists w, mapM (@stoi E) ps = Throw w).
Proof.
  induction ps as [|p ps IH]; [left; exists []; auto|]. cbn [mapM].
  destruct (@stoi_some E p) as [[z F]|[w X]].
  - rewrite (stoi_front p z F). destruct ((int_min <=? z) && (z <=? int_max))%Z eqn:B; cbn [bind].
    + destruct IH as [(v & F2 & R & ->)|(N & w & ->)]; cbn [bind].
      * left. exists (z :: v). split; [now constructor|]. split; [constructor; [lia|exact R]|reflexivity].
      * right. split; [|eauto]. intros v [F2 R]. inversion F2; subst. inversion R; subst. now apply (N l').
    + right. split; [|eauto]. intros v [F2 R]. inversion F2; subst. inversion R; subst.
      pose proof (@stoi_front E p y H1) as S1. rewrite (stoi_front p z F), B in S1. destruct ((int_min <=? y) && (y <=? int_max))%Z eqn:B'; [discriminate|lia].
  - rewrite X. cbn [bind]. right. split; [|eauto]. intros v [F2 R]. inversion F2; subst. inversion R; subst.
    rewrite (stoi_front p y H1) in X. destruct ((int_min <=? y) && (y <=? int_max))%Z eqn:B'; [discriminate|lia].
Qed.
Lemma version_text_reads {E} s v : @version_of_string E s = Ok v <-> version_text s v /\ Forall (fun c => 0 <= c <= 2 ^ 31 - 1)%Z v.
Proof.
  unfold version_of_string. destruct (String.eqb_spec s "") as [->|NE].
  - split; [intros [= <-]; split; constructor|]. intros [V _]. inversion V; [reflexivity|congruence].
  - destruct (split_parts s "" I) as (ps & -> & NP & WD & J). cbn [append] in J.
    assert (U : forall ps', ps' <> [] -> Forall without_dot ps' -> dotted ps' = s -> ps' = ps).
    { intros ps' N' W' J'. rewrite <- (split_dots_join ps' W' N'), <- (split_dots_join ps WD NP), <- !dotted_join. congruence. }
    destruct (@stois E ps) as [(cs & F & R & ->)|(N & w & ->)]; cbn [bind].
    + split.
      * destruct (existsb _ cs) eqn:X; [discriminate|]. intros [= <-]. split; [rewrite <- J; constructor; auto; congruence|].
        rewrite Forall_forall in *. intros z Z. specialize (R z Z). unfold int_max in R. split; [|lia].
        destruct (Z.ltb_spec z 0); [|assumption]. exfalso. assert (existsb (fun c => (c <? 0)%Z) cs = true) by (apply existsb_exists; exists z; split; [exact Z|lia]). congruence.
      * intros [V P]. inversion V as [Q|ps' v' D' N' W' F' E']; subst; [congruence|].
        assert (ps' = ps) as -> by (apply U; auto). 
        assert (v = cs) as ->.
        { clear - F F' R P. revert v F' P. induction F as [|p z ps cs Fp F IH]; intros v F' P; inversion F'; subst; [reflexivity|].
          inversion R; subst. inversion P; subst. f_equal; [|now apply IH].
          pose proof (@stoi_front unit p z Fp) as S1. rewrite (stoi_front p y H1) in S1. unfold int_min, int_max in *.
          destruct ((- 2 ^ 31 <=? z) && (z <=? 2 ^ 31 - 1))%Z eqn:B1, ((- 2 ^ 31 <=? y) && (y <=? 2 ^ 31 - 1))%Z eqn:B2; try lia. now injection S1. }
        replace (existsb (fun c => (c <? 0)%Z) cs) with false; [reflexivity|]. symmetry. apply not_true_iff_false. intros X. apply existsb_exists in X.
        destruct X as (z & Z & L). rewrite Forall_forall in P. specialize (P z Z). lia.
    + split; [discriminate|]. intros [V P]. exfalso. inversion V as [Q|ps' v' D' N' W' F' E']; subst; [congruence|].
      assert (ps' = ps) as -> by (apply U; auto). apply (N v). split; [exact F'|]. eapply Forall_impl; [|exact P]. unfold int_min, int_max. cbn. lia.
Qed.
Lemma version_else_throws {E} s : (exists v, @version_of_string E s = Ok v) \/ exists w, @version_of_string E s = Throw w.
Proof.
  unfold version_of_string. destruct (s =? ""); [eauto|]. destruct (@stois E (split_dots "" s)) as [(cs & _ & _ & ->)|(_ & w & ->)]; cbn [bind]; [|eauto].
  destruct (existsb _ _); eauto.
Qed.
