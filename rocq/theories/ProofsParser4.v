(** The parser on programs; it accepts the whole language of the grammar
    (C52, C54, C63). *)
From Coq Require Import ZifyBool ZifyN ZifyNat.
From Verif Require Import Base ModelLexer ModelParser SpecParser ProofsParser ProofsParser2 ProofsParser3.

(** ** Blocks and programs *)
Lemma separator_iff t : is_separator (tk_kind t) = true <-> separator t.
Proof. unfold separator, one_of. destruct (tk_kind t); cbn; split; intros H; try discriminate; try tauto; intuition discriminate. Qed.
Lemma skip_separators_app seps ts : Forall separator seps -> is_separator (next_kind ts) = false -> skip_separators (seps ++ ts) = ts.
Proof.
  intros F N. induction F as [|t seps H F IH]; cbn [app skip_separators].
  - destruct ts as [|t ts]; [reflexivity|]. cbn [skip_separators]. cbn in N. now rewrite N.
  - apply separator_iff in H. now rewrite H.
Qed.
Lemma skip_separators_split ts : exists seps, ts = seps ++ skip_separators ts /\ Forall separator seps /\ is_separator (next_kind (skip_separators ts)) = false.
Proof.
  induction ts as [|t ts IH]; [exists []; auto|]. cbn [skip_separators]. destruct (is_separator (tk_kind t)) eqn:E.
  - destruct IH as (seps & E1 & F & N). exists (t :: seps). split; [cbn; now rewrite <- E1|]. split; [constructor; [now apply separator_iff|exact F]|exact N].
  - exists []. split; [reflexivity|]. split; [constructor|exact E].
Qed.
(** The first token of a statement. *)
Definition starts_statement (k : token_kind) : bool :=
  starts_expression k || match k with
  | T_QUBIT_TYPE | T_BIT_TYPE | T_INV | T_POW | T_CTRL | T_RESET | T_INIT | T_BARRIER | T_WAIT | T_ASM => true
  | _ => false
  end.
Lemma statement_starts s u r : statement_tokens s u -> starts_statement (next_kind (u ++ r)) = true.
Proof.
  intros T. unfold starts_statement.
  inversion T as [ty ts name Tt Kn|g ts es ts' Tg Te|e1 ts1 eq t ps ts2 e2 ts3 T1 Ke Kt Tp T2|t e ts Kt Te|t e ts Kt Te|t e ts Kt Te|t o p ts c e ts' Kt Ko Tp Kc Te|t o name c code Kt Ko Kn Kc Kcode]; subst; unfold is in *;
    cbn [app next_kind]; try (rewrite Kt; reflexivity).
  - inversion Tt as [t Kt|t o i c Kt Ko Ki Kc]; subst; cbn [app next_kind]; unfold one_of in Kt; cbn in Kt; destruct Kt as [<-|[<-|[]]]; reflexivity.
  - inversion Tg as [t dot g' w Kt|t o e w c dot g' w' Kt|t dot g' w Kt|t ps w Kt]; subst; cbn [app next_kind]; unfold is in Kt; rewrite Kt; reflexivity.
  - rewrite <- app_assoc. now rewrite (proj1 expr_starts e1 ts1 T1).
Qed.
Lemma starts_statement_not k : starts_statement k = true -> is_separator k = false /\ k <> T_EOF.
Proof. destruct k; cbn; try discriminate; auto; split; auto; discriminate. Qed.
Lemma block_starts ss u : block_tokens ss u -> ends_statement (next_kind u) = true.
Proof.
  intros H. inversion H as [seps eof F Ke|seps s ts ss' ts' F Ne Ts Tb]; subst.
  - destruct F as [|t seps S F]; cbn [app next_kind]; [now rewrite Ke|]. apply separator_iff in S. destruct (tk_kind t); try discriminate S; reflexivity.
  - destruct F as [|t seps S F]; [congruence|]. cbn [app next_kind]. apply separator_iff in S. destruct (tk_kind t); try discriminate S; reflexivity.
Qed.
Lemma statements_sound n : forall ts ss r, (4 * List.length ts + 1 <= n)%nat -> parse_statements n ts = POk ss r ->
  exists u, ts = u ++ r /\ next_kind r = T_EOF /\ Forall binds_statement ss /\ forall eof, is T_EOF eof -> block_tokens ss (u ++ [eof]).
Proof.
  induction n as [|n IH]; intros ts ss r L H; [discriminate|]. cbn [parse_statements] in H.
  assert (Sep : is_separator (next_kind ts) = true ->
    (match next_kind (skip_separators ts) with T_EOF => POk [] (skip_separators ts) | _ => let? (s, r) := parse_statement n (skip_separators ts) in let? (ss, r') := parse_statements n r in POk (s :: ss) r' end) = POk ss r ->
    exists u, ts = u ++ r /\ next_kind r = T_EOF /\ Forall binds_statement ss /\ forall eof, is T_EOF eof -> block_tokens ss (u ++ [eof])).
  { clear H. intros S H. destruct (skip_separators_split ts) as (seps & E & F & N). remember (skip_separators ts) as ts' eqn:Ets. clear Ets. subst ts.
    assert (Ne : seps <> []) by (intros ->; cbn in S; congruence).
    assert (Lt : (4 * List.length ts' + 4 <= n)%nat) by (rewrite app_length in L; destruct seps; [congruence|cbn in L; lia]).
    assert (St : (let? (s, r) := parse_statement n ts' in let? (ss, r') := parse_statements n r in POk (s :: ss) r') = POk ss r ->
       exists u, seps ++ ts' = u ++ r /\ next_kind r = T_EOF /\ Forall binds_statement ss /\ forall eof, is T_EOF eof -> block_tokens ss (u ++ [eof])).
    { clear H. intros H. ok_inv H s r1 E1. ok_inv H ss' r2 E2. injection H as <- <-. apply statement_sound in E1; [|lia]. destruct E1 as (u1 & -> & T1 & B1).
      rewrite app_length in Lt. apply IH in E2; [|lia]. destruct E2 as (u2 & -> & K2 & B2 & T2). exists (seps ++ u1 ++ u2). split; [now rewrite <- !app_assoc|]. split; [exact K2|].
      split; [now constructor|]. intros eof Ke. replace ((seps ++ u1 ++ u2) ++ [eof]) with (seps ++ u1 ++ (u2 ++ [eof])) by (now rewrite <- !app_assoc). apply bt_statement; auto. }
    destruct (next_kind ts') eqn:K; try exact (St H). injection H as <- <-. exists seps. split; [reflexivity|]. split; [exact K|]. split; [constructor|]. intros eof Ke. now constructor. }
  destruct (next_kind ts) eqn:K; try discriminate H; try (apply Sep; [reflexivity|exact H]).
  injection H as <- <-. exists []. split; [reflexivity|]. split; [exact K|]. split; [constructor|]. intros eof Ke. exact (bt_end [] eof (Forall_nil _) Ke).
Qed.
Lemma statements_complete ss u : block_tokens ss u -> forall n, Forall binds_statement ss -> (4 * List.length u + 1 <= n)%nat ->
  exists eof, is T_EOF eof /\ parse_statements n u = POk ss [eof].
Proof.
  induction 1 as [seps eof F Ke|seps s ts ss ts' F Ne Ts Tb IH]; intros n B L; unfold is in *.
  - exists eof. split; [exact Ke|]. destruct n as [|n]; [lia|]. cbn [parse_statements].
    assert (Sk : skip_separators (seps ++ [eof]) = [eof]) by (apply skip_separators_app; [exact F|cbn; now rewrite Ke]).
    destruct F as [|t seps S F]; cbn [app next_kind]; [rewrite Ke; reflexivity|].
    apply separator_iff in S. cbn [app] in Sk. rewrite Sk. cbn [next_kind]. rewrite Ke. destruct (tk_kind t); try discriminate S; reflexivity.
  - inversion B as [|? ? B1 B2]; subst. destruct n as [|n]; [lia|].
    assert (Lt : (4 * List.length (ts ++ ts') + 4 <= n)%nat) by (rewrite app_length in L; destruct seps; [congruence|cbn in L; lia]).
    destruct (IH n B2) as (eof & Ke & P); [rewrite app_length in Lt; lia|]. exists eof. split; [exact Ke|]. cbn [parse_statements].
    pose proof (statement_starts s ts ts' Ts) as St. apply starts_statement_not in St. destruct St as [N1 N2].
    assert (Sk : skip_separators (seps ++ ts ++ ts') = ts ++ ts') by (apply skip_separators_app; auto).
    assert (Q : parse_statement n (ts ++ ts') = POk s ts') by (apply statement_complete; auto; [eapply block_starts; eauto|lia]).
    rewrite Sk, Q. cbn [pbind]. rewrite P. cbn [pbind].
    destruct F as [|t seps S F]; [congruence|]. cbn [app next_kind]. apply separator_iff in S.
    destruct (tk_kind t); try discriminate S; (destruct (next_kind (ts ++ ts')); try reflexivity; congruence).
Qed.
Lemma statements_fuel n : forall ts, (4 * List.length ts + 1 <= n)%nat -> parse_statements n ts <> PFuel.
Proof.
  induction n as [|n IH]; intros ts L; [lia|]. cbn [parse_statements].
  assert (Sep : is_separator (next_kind ts) = true ->
    (match next_kind (skip_separators ts) with T_EOF => POk [] (skip_separators ts) | _ => let? (s, r) := parse_statement n (skip_separators ts) in let? (ss, r') := parse_statements n r in POk (s :: ss) r' end) <> PFuel).
  { intros S. destruct (skip_separators_split ts) as (seps & E & F & N). remember (skip_separators ts) as ts' eqn:Ets. clear Ets. subst ts.
    assert (Ne : seps <> []) by (intros ->; cbn in S; congruence).
    assert (Lt : (4 * List.length ts' + 4 <= n)%nat) by (rewrite app_length in L; destruct seps; [congruence|cbn in L; lia]).
    assert (St : (let? (s, r) := parse_statement n ts' in let? (ss, r') := parse_statements n r in POk (s :: ss) r') <> PFuel).
    { fuel_bind s r E; [apply statement_fuel; lia|]. apply statement_sound in E; [|lia]. destruct E as (u & -> & _). rewrite app_length in Lt. fuel_bind ss r2 E2; [apply IH; lia|discriminate]. }
    destruct (next_kind ts'); try exact St. discriminate. }
  destruct (next_kind ts); try discriminate; apply Sep; reflexivity.
Qed.

Lemma program_sound ts p r : parse_program ts = POk p r ->
  exists u, ts = u ++ r /\ next_kind r = T_EOF /\ binds_program p /\ forall eof, is T_EOF eof -> program_tokens p (u ++ [eof]).
Proof.
  unfold parse_program. intros H. destruct (skip_separators_split ts) as (seps & E & F & N). remember (skip_separators ts) as ts' eqn:Ets. clear Ets.
  ok_inv H v r1 E1. ok_inv H nb r2 E2. ok_inv H ss r3 E3. injection H as <- <-. apply expect_ok in E1, E2. destruct E1 as [-> K1], E2 as [-> K2].
  apply statements_sound in E3; [|unfold parse_fuel; rewrite E, app_length; cbn; lia]. destruct E3 as (u & -> & K3 & B & T).
  exists (seps ++ v :: nb :: u). split; [rewrite E; now rewrite <- app_assoc|]. split; [exact K3|]. split; [exact B|].
  intros eof Ke. replace ((seps ++ v :: nb :: u) ++ [eof]) with (seps ++ v :: nb :: (u ++ [eof])) by (now rewrite <- app_assoc). constructor; auto.
Qed.
Lemma program_complete p ts : program_tokens p ts -> binds_program p -> exists eof, is T_EOF eof /\ parse_program ts = POk p [eof].
Proof.
  intros T B. destruct T as [seps v nb ss ts F Kv Kn Tb]. unfold parse_program, is in *.
  destruct (statements_complete ss ts Tb (parse_fuel (seps ++ v :: nb :: ts)) B) as (eof & Ke & P); [unfold parse_fuel; rewrite app_length; cbn; lia|].
  exists eof. split; [exact Ke|]. rewrite skip_separators_app; [|exact F|cbn; now rewrite Kv]. cbn [expect]. rewrite Kv, kind_eqb_refl. cbn [pbind expect]. rewrite Kn, kind_eqb_refl. cbn [pbind]. rewrite P. reflexivity.
Qed.
Lemma program_fuel ts : parse_program ts <> PFuel.
Proof.
  unfold parse_program. destruct (skip_separators_split ts) as (seps & E & F & N). remember (skip_separators ts) as ts' eqn:Ets. clear Ets.
  fuel_bind v r E1; [apply expect_fuel|]. apply expect_ok in E1. destruct E1 as [-> _]. fuel_bind nb r2 E2; [apply expect_fuel|]. apply expect_ok in E2. destruct E2 as [-> _].
  fuel_bind ss r3 E3; [apply statements_fuel; unfold parse_fuel; rewrite E, app_length; cbn; lia|discriminate].
Qed.

(** ** Every derivation of the grammar can be rearranged by precedence *)

(** An operator between two expressions: its tree, tokens, level, associativity. *)
Record operator := mkOperator { op_make : cexpr -> cexpr -> cexpr; op_tokens : list token; op_level : nat; op_right : bool }.
Definition good_operator (o : operator) : Prop :=
  (forall a b ta tb, expr_tokens a ta -> expr_tokens b tb -> expr_tokens (op_make o a b) (ta ++ op_tokens o ++ tb)) /\
  (forall p a b, (p <= op_level o)%nat -> binds (if op_right o then S (op_level o) else op_level o) a -> binds (if op_right o then op_level o else S (op_level o)) b -> binds p (op_make o a b)) /\
  (op_level o <= 12)%nat /\ (op_level o = 12 -> op_right o = true) /\ (op_right o = true -> op_level o = 0 \/ op_level o = 12).
Definition binary_level (t : token) : nat := match binary_prec (tk_kind t) with Some q => (q - 7)%nat | None => 13 end.
Definition binary_operator (t : token) : operator := mkOperator (CBinary t) [t] (binary_level t) (right_assoc (tk_kind t)).
Definition ternary_operator (t : token) (e : cexpr) (ts : list token) : operator := mkOperator (fun a b => CTernary t a e b) ts 0 true.
Lemma binary_operator_good t : one_of (concat binary_operators) t -> good_operator (binary_operator t).
Proof.
  intros K. pose proof (proj1 (binary_prec_concat _) K) as [q Eq]. pose proof (binary_prec_range _ _ Eq) as R. pose proof (power_prec _ _ Eq) as Pw.
  unfold good_operator. cbn. unfold binary_level. rewrite Eq. split; [|split; [|split; [lia|split]]].
  - intros a b ta tb Ta Tb. now apply et_binary.
  - intros p a b L Ba Bb. pose proof (proj1 (binary_prec_row _ _) Eq) as (n & Rn & ->). destruct (right_assoc (tk_kind t)) eqn:RA.
    + pose proof (proj1 (right_assoc_iff _) RA) as K'. apply (b_power _ n); [exact K'|now rewrite <- K'|lia|apply (binds_le _ _ _ Ba); lia|apply (binds_le _ _ _ Bb); lia].
    + apply (b_binary _ n); [intros X; apply right_assoc_iff in X; congruence|exact Rn|lia|apply (binds_le _ _ _ Ba); lia|apply (binds_le _ _ _ Bb); lia].
  - intros X. apply right_assoc_iff. apply Pw. lia.
  - intros X. apply right_assoc_iff in X. right. apply Pw in X. lia.
Qed.
Lemma ternary_operator_good t colon e ts : is T_TERNARY_CONDITIONAL_OP t -> is T_COLON colon -> expr_tokens e ts -> binds 0 e -> good_operator (ternary_operator t e (t :: ts ++ [colon])).
Proof.
  intros Kt Kc T B. unfold good_operator. cbn. split; [|split; [|split; [lia|split; [discriminate|auto]]]].
  - intros a b ta tb Ta Tb. rewrite <- app_assoc. cbn. now apply et_ternary.
  - intros p a b L Ba Bb. replace p with 0 by lia. now constructor.
Qed.
(** Put an operator and a tight operand to the right of an expression. *)
Fixpoint insert (o : operator) (c u : cexpr) : cexpr :=
  match c with
  | CBinary t a b => if Nat.ltb (binary_level t) (op_level o) || (Nat.eqb (binary_level t) (op_level o) && op_right o) then CBinary t a (insert o b u) else op_make o c u
  | CTernary t a e b => CTernary t a e (insert o b u)
  | _ => op_make o c u
  end.
Lemma insert_tokens o u tu : good_operator o -> expr_tokens u tu -> forall c tc, expr_tokens c tc -> expr_tokens (insert o c u) (tc ++ op_tokens o ++ tu).
Proof.
  intros (G & _) Tu c tc T. induction T as [o' e ts c Ko T _ Kc|t e ts Kt T _|t e1 e2 ts1 ts2 Kt T1 IH1 T2 IH2|t colon e1 e2 e3 ts1 ts2 ts3 Kt Kc T1 IH1 T2 IH2 T3 IH3|name o' c Kn|name o' args ts c Kn|name o' idx ts c Kn|t Kt|t Kt|t Kt|t Kt];
    try (cbn [insert]; apply G; [now constructor|exact Tu]).
  - cbn [insert]. destruct (_ || _); [|apply G; [now constructor|exact Tu]]. rewrite <- app_assoc. cbn [app]. now apply et_binary.
  - cbn [insert]. rewrite <- app_assoc. cbn [app]. rewrite <- app_assoc. cbn [app]. now apply et_ternary.
Qed.
Lemma insert_binds o u : good_operator o -> binds 13 u -> forall p c, binds p c -> (p <= op_level o)%nat -> binds p (insert o c u).
Proof.
  intros (_ & G & L12 & R12 & R0) Bu.
  assert (Tight : forall p c, binds 13 c -> (p <= op_level o)%nat -> binds p (op_make o c u)).
  { intros p c B L. apply G; [exact L| |]; [destruct (op_right o); apply (binds_le _ _ _ B); lia|destruct (op_right o); apply (binds_le _ _ _ Bu); lia]. }
  intros p c B. 
  induction B; intros L; auto; cbn [insert]; try (apply Tight; [constructor; auto|exact L]).
  - constructor; auto.
  - (* power *)
    assert (Eq : binary_prec (tk_kind t) = Some (n + 8)%nat) by (apply binary_prec_row; exists n; unfold is in *; rewrite H; auto).
    assert (Lv : binary_level t = S n) by (unfold binary_level; rewrite Eq; lia). pose proof (binary_prec_range _ _ Eq). pose proof (power_prec _ _ Eq) as Pw. unfold is in *. rewrite Lv.
    assert (n = 11) by (assert ((n + 8)%nat = 19) by tauto; lia). subst n.
    destruct (Nat.ltb 12 (op_level o) || (Nat.eqb 12 (op_level o) && op_right o)) eqn:D.
    + apply (b_power _ 11); auto. apply IHB2. rewrite orb_true_iff, andb_true_iff, Nat.ltb_lt, Nat.eqb_eq in D. lia.
    + assert (C : binds 12 (CBinary t e1 e2)) by (apply (b_power _ 11); auto). rewrite orb_false_iff, andb_false_iff, Nat.ltb_ge, Nat.eqb_neq in D.
      apply G; [exact L| |destruct (op_right o); apply (binds_le _ _ _ Bu); lia].
      assert (op_level o <> 12) by (intros X; specialize (R12 X); destruct D as [_ [D|D]]; [lia|congruence]).
      destruct (op_right o); apply (binds_le _ _ _ C); lia.
  - assert (Eq : binary_prec (tk_kind t) = Some (n + 8)%nat) by (apply binary_prec_row; exists n; auto).
    assert (Lv : binary_level t = S n) by (unfold binary_level; rewrite Eq; lia). pose proof (binary_prec_range _ _ Eq). pose proof (power_prec _ _ Eq) as Pw. unfold is in *. rewrite Lv.
    assert (n <> 11) by (intros ->; destruct H; apply Pw; reflexivity).
    destruct (Nat.ltb (S n) (op_level o) || (Nat.eqb (S n) (op_level o) && op_right o)) eqn:D.
    + rewrite orb_true_iff, andb_true_iff, Nat.ltb_lt, Nat.eqb_eq in D. apply (b_binary _ n); auto. apply IHB2.
      destruct D as [D|[D1 D2]]; [lia|]. destruct (R0 D2); lia.
    + assert (C : binds (S n) (CBinary t e1 e2)) by (apply (b_binary _ n); auto). rewrite orb_false_iff, andb_false_iff, Nat.ltb_ge, Nat.eqb_neq in D.
      apply G; [exact L| |destruct (op_right o); apply (binds_le _ _ _ Bu); lia].
      destruct (op_right o) eqn:OR; apply (binds_le _ _ _ C); destruct D as [D1 [D2|D2]]; try lia; discriminate.
Qed.
