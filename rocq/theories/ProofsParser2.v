(** The parser never runs out of fuel, and it reads every tree of the grammar
    that respects precedence (C48, C49, C52, C63). *)
From Coq Require Import ZifyBool ZifyN ZifyNat.
From Verif Require Import Base ModelLexer ModelParser SpecParser ProofsParser.

Lemma expr_tokens_nonempty :
  (forall c u, expr_tokens c u -> u <> []) /\ (forall c u, exprs_tokens c u -> u <> []) /\
  (forall c u, entry_tokens c u -> u <> []) /\ (forall c u, entries_tokens c u -> u <> []).
Proof. apply expr_tokens_mutind; intros; try discriminate; auto; match goal with |- ?l ++ _ <> [] => destruct l; discriminate end. Qed.

(** ** Fuel *)
Lemma pbind_fuel {A B} (m : presult A) (f : A -> list token -> presult B) :
  m <> PFuel -> (forall a r, m = POk a r -> f a r <> PFuel) -> pbind m f <> PFuel.
Proof. destruct m; cbn; auto; discriminate. Qed.
Ltac fuel_bind a r E := apply pbind_fuel; [|intros a r E].

Definition shorter (r ts : list token) : Prop := (List.length r < List.length ts)%nat.
Lemma parse_expr_shorter n p ts c r : (p <= 22)%nat -> parse_expr n p ts = POk c r -> shorter r ts.
Proof.
  intros L H. destruct (parser_sound n) as (S & _). destruct (S p ts c r L H) as (u & -> & T & _). apply (proj1 expr_tokens_nonempty) in T.
  unfold shorter. rewrite app_length. destruct u; [congruence|cbn; lia].
Qed.
Lemma parse_primary_shorter n ts c r : parse_primary n ts = POk c r -> shorter r ts.
Proof.
  intros H. destruct (parser_sound n) as (_ & _ & S & _). destruct (S ts c r H) as (u & -> & T & _). apply (proj1 expr_tokens_nonempty) in T.
  unfold shorter. rewrite app_length. destruct u; [congruence|cbn; lia].
Qed.
Lemma parse_exprs_shorter n ts c r : parse_exprs n ts = POk c r -> shorter r ts.
Proof.
  intros H. destruct (parser_sound n) as (_ & _ & _ & S & _). destruct (S ts c r H) as (u & -> & T & _). apply (proj1 (proj2 expr_tokens_nonempty)) in T.
  unfold shorter. rewrite app_length. destruct u; [congruence|cbn; lia].
Qed.
Lemma parse_entries_shorter n ts c r : parse_entries n ts = POk c r -> shorter r ts.
Proof.
  intros H. destruct (parser_sound n) as (_ & _ & _ & _ & S). destruct (S ts c r H) as (u & -> & T & _). apply (proj2 (proj2 (proj2 expr_tokens_nonempty))) in T.
  unfold shorter. rewrite app_length. destruct u; [congruence|cbn; lia].
Qed.
Lemma tl_length {A} (l : list A) : (List.length (tl l) <= List.length l)%nat.
Proof. destruct l; cbn; lia. Qed.
Lemma next_prec_range k q : binary_prec k = Some q -> (next_prec k q <= 22)%nat.
Proof. intros H. apply binary_prec_range in H. unfold next_prec. destruct (right_assoc k); lia. Qed.

Definition no_fuel (n : nat) : Prop :=
  (forall p ts, (p <= 22)%nat -> (4 * List.length ts + 2 <= n)%nat -> parse_expr n p ts <> PFuel) /\
  (forall p e ts, (p <= 22)%nat -> (4 * List.length ts + 1 <= n)%nat -> parse_loop n p e ts <> PFuel) /\
  (forall ts, (4 * List.length ts + 1 <= n)%nat -> parse_primary n ts <> PFuel) /\
  (forall ts, (4 * List.length ts + 3 <= n)%nat -> parse_exprs n ts <> PFuel) /\
  (forall ts, (4 * List.length ts + 3 <= n)%nat -> parse_entries n ts <> PFuel).
Lemma parser_fuel n : no_fuel n.
Proof.
  induction n as [|n (IHe & IHl & IHp & IHes & IHis)].
  { split; [|split; [|split; [|split]]]; intros; lia. }
  split; [|split; [|split; [|split]]].
  - intros p ts Lp Ln. cbn [parse_expr]. fuel_bind c r E; [apply IHp; lia|]. apply IHl; [lia|]. apply parse_primary_shorter in E. unfold shorter in E. lia.
  - intros p e ts Lp Ln. cbn [parse_loop]. destruct ts as [|t ts]; [discriminate|]. cbn [List.length] in Ln.
    destruct (binary_prec (tk_kind t)) as [q|] eqn:Eq.
    + destruct (Nat.leb p q); [|discriminate]. pose proof (next_prec_range _ _ Eq) as Lq. fuel_bind c r E; [apply IHe; lia|].
      apply IHl; [lia|]. apply parse_expr_shorter in E; [|lia]. unfold shorter in E. lia.
    + destruct (_ && _); [|discriminate]. fuel_bind e1 r1 E1; [apply IHe; lia|]. apply parse_expr_shorter in E1; [|lia]. unfold shorter in E1.
      fuel_bind cl r2 E2; [apply expect_fuel|]. apply expect_ok in E2. destruct E2 as [-> _]. cbn [List.length] in E1.
      fuel_bind e2 r3 E3; [apply IHe; unfold ternary_prec; lia|]. apply parse_expr_shorter in E3; [|unfold ternary_prec; lia]. unfold shorter in E3. apply IHl; lia.
  - intros ts Ln. cbn [parse_primary]. destruct ts as [|t ts]; [discriminate|]. cbn [List.length] in Ln. pose proof (tl_length ts) as Lt.
    destruct (prefix_prec (tk_kind t)) as [q|] eqn:Eq.
    + pose proof (prefix_prec_range _ _ Eq). fuel_bind e r E; [apply IHe; lia|discriminate].
    + destruct (tk_kind t); try discriminate.
      * fuel_bind e r E; [apply IHe; lia|]. fuel_bind cl r2 E2; [apply expect_fuel|discriminate].
      * destruct (next_kind ts); try discriminate.
        -- fuel_bind e r E; [apply IHis; lia|]. fuel_bind cl r2 E2; [apply expect_fuel|discriminate].
        -- destruct (next_kind (tl ts)); try discriminate; (fuel_bind e r E; [apply IHes; lia|]; fuel_bind cl r2 E2; [apply expect_fuel|discriminate]).
  - intros ts Ln. cbn [parse_exprs]. fuel_bind e r E; [apply IHe; lia|]. apply parse_expr_shorter in E; [|lia]. unfold shorter in E. pose proof (tl_length r) as Lt.
    destruct (next_kind r); try discriminate. fuel_bind es r2 E2; [apply IHes; lia|discriminate].
  - intros ts Ln. cbn [parse_entries]. fuel_bind e r E; [apply IHe; lia|]. apply parse_expr_shorter in E; [|lia]. unfold shorter in E. pose proof (tl_length r) as Lt.
    fuel_bind i r1 E1.
    + destruct (next_kind r); try discriminate. fuel_bind e2 r2 E2; [apply IHe; lia|discriminate].
    + assert (Lr : (List.length r1 <= List.length r)%nat).
      { assert (Item : POk (CItem e) r = POk i r1 -> (List.length r1 <= List.length r)%nat) by (intros X; injection X as <- <-; lia).
        destruct (next_kind r); try exact (Item E1). ok_inv E1 e2 r2 E2. injection E1 as <- <-. apply parse_expr_shorter in E2; [|lia]. unfold shorter in E2. lia. }
      pose proof (tl_length r1) as Lt1. destruct (next_kind r1); try discriminate. fuel_bind es r2 E2; [apply IHis; lia|discriminate].
Qed.

(** ** Completeness *)
Lemma stops_left_of p e r : stops p r -> binds (lev p) e -> left_of e r.
Proof.
  unfold stops, left_of. destruct (binary_prec (next_kind r)) as [q|] eqn:E; intros S B.
  - pose proof (binary_prec_range _ _ E). destruct (right_assoc (next_kind r)); apply (binds_le _ _ _ B); unfold lev; lia.
  - intros K. specialize (S K). apply (binds_le _ _ _ B). unfold lev. lia.
Qed.
Lemma stops_loop n p e r : (1 <= n)%nat -> stops p r -> parse_loop n p e r = POk e r.
Proof.
  intros L S. destruct n as [|n]; [lia|]. cbn [parse_loop]. unfold stops in S. destruct r as [|t r]; [reflexivity|]. cbn [next_kind] in S.
  destruct (binary_prec (tk_kind t)) as [q|]; [replace (Nat.leb p q) with false by (symmetry; apply Nat.leb_gt; lia); reflexivity|].
  destruct (token_kind_beq (tk_kind t) T_TERNARY_CONDITIONAL_OP) eqn:K; [|reflexivity]. apply kind_eqb in K. specialize (S K).
  cbn [andb]. replace (Nat.leb p ternary_prec) with false by (symmetry; apply Nat.leb_gt; unfold ternary_prec; lia). reflexivity.
Qed.
(** The precedence of the operator of a tree. *)
Lemma binds_binary_inv p t e1 e2 : binds p (CBinary t e1 e2) ->
  exists q, binary_prec (tk_kind t) = Some q /\ (p <= q - 7)%nat /\
    binds (if right_assoc (tk_kind t) then S (q - 7) else q - 7) e1 /\ binds (lev (next_prec (tk_kind t) q)) e2.
Proof.
  intros H. inversion H as [|? n ? ? ? K R L B1 B2|? n ? ? ? K R L B1 B2| | | | | | | |]; subst.
  - assert (Eq : binary_prec (tk_kind t) = Some (n + 8)%nat) by (apply binary_prec_row; exists n; rewrite K; auto).
    exists (n + 8)%nat. split; [exact Eq|]. split; [lia|]. assert (RA : right_assoc (tk_kind t) = true) by (now apply right_assoc_iff). rewrite RA. unfold next_prec. rewrite RA.
    split; [apply (binds_le _ _ _ B1); lia|apply (binds_le _ _ _ B2); unfold lev; lia].
  - assert (Eq : binary_prec (tk_kind t) = Some (n + 8)%nat) by (apply binary_prec_row; exists n; auto).
    exists (n + 8)%nat. split; [exact Eq|]. split; [lia|].
    assert (RA : right_assoc (tk_kind t) = false). { destruct (right_assoc (tk_kind t)) eqn:X; [|reflexivity]. apply right_assoc_iff in X. destruct (K X). }
    rewrite RA. unfold next_prec. rewrite RA.
    split; [apply (binds_le _ _ _ B1); lia|apply (binds_le _ _ _ B2); unfold lev; lia].
Qed.
Lemma binary_stops t e1 e2 q r : binary_prec (tk_kind t) = Some q -> left_of (CBinary t e1 e2) r -> stops (next_prec (tk_kind t) q) r.
Proof.
  intros Eq L. unfold left_of in L. unfold stops. pose proof (binary_prec_range _ _ Eq) as Rq. pose proof (power_prec _ _ Eq) as Pq. rewrite <- right_assoc_iff in Pq. unfold next_prec.
  destruct (binary_prec (next_kind r)) as [q'|] eqn:E'.
  - pose proof (binary_prec_range _ _ E') as Rq'. pose proof (power_prec _ _ E') as Pq'. rewrite <- right_assoc_iff in Pq'.
    apply binds_binary_inv in L. destruct L as (q2 & E2 & L & _). assert (q2 = q) by congruence. subst q2.
    destruct (right_assoc (next_kind r)); destruct (right_assoc (tk_kind t)); lia.
  - intros K. specialize (L K). apply binds_binary_inv in L. destruct (right_assoc (tk_kind t)); lia.
Qed.
Lemma ternary_stops t e1 e2 e3 r : left_of (CTernary t e1 e2 e3) r -> stops 7 r.
Proof.
  unfold left_of, stops. destruct (binary_prec (next_kind r)) as [q|] eqn:E.
  - pose proof (binary_prec_range _ _ E). destruct (right_assoc (next_kind r)); intros B; inversion B; subst; lia.
  - intros L K. specialize (L K). inversion L.
Qed.

Definition no_suffix (r : list token) : Prop := next_kind r <> T_OPEN_PARENS /\ next_kind r <> T_OPEN_BRACKET.
Definition complete_expr (c : cexpr) (u : list token) : Prop := forall p r n,
  (p <= 22)%nat -> binds (lev p) c -> left_of c r -> no_suffix r -> (4 * List.length (u ++ r) + 2 <= n)%nat ->
  exists n', (4 * List.length r + 1 <= n')%nat /\ parse_expr n p (u ++ r) = parse_loop n' p c r.
Definition complete_exprs (es : list cexpr) (u : list token) : Prop := forall r n,
  binds_all es -> next_kind r = T_CLOSE_PARENS \/ ends_statement (next_kind r) = true -> (4 * List.length (u ++ r) + 3 <= n)%nat -> parse_exprs n (u ++ r) = POk es r.
Definition complete_entry (i : centry) (u : list token) : Prop := forall r n,
  binds_entries [i] -> next_kind r = T_COMMA \/ next_kind r = T_CLOSE_BRACKET -> (4 * List.length (u ++ r) + 2 <= n)%nat ->
  (let? (e, r0) := parse_expr n 0 (u ++ r) in
      match next_kind r0 with
                       | T_COLON => let? (e2, r2) := parse_expr n 0 (tl r0) in POk (CRange e e2) r2
                       | _ => POk (CItem e) r0
                       end) = POk i r.
Definition complete_entries (es : list centry) (u : list token) : Prop := forall r n,
  binds_entries es -> next_kind r = T_CLOSE_BRACKET -> (4 * List.length (u ++ r) + 3 <= n)%nat -> parse_entries n (u ++ r) = POk es r.

(** A sub-expression whose context ends it. *)
Lemma complete_at c u p r n : complete_expr c u -> (p <= 22)%nat -> binds (lev p) c -> stops p r -> no_suffix r -> (4 * List.length (u ++ r) + 2 <= n)%nat ->
  parse_expr n p (u ++ r) = POk c r.
Proof.
  intros H Lp B S N L. destruct (H p r n Lp B (stops_left_of p c r S B) N L) as (n' & L' & ->). apply stops_loop; [lia|exact S].
Qed.
Lemma stop_kind p r k : next_kind r = k -> binary_prec k = None -> k <> T_TERNARY_CONDITIONAL_OP -> stops p r.
Proof. intros E B N. unfold stops. rewrite E, B. intros X. destruct (N X). Qed.
Lemma suffix_kind r k : next_kind r = k -> k <> T_OPEN_PARENS -> k <> T_OPEN_BRACKET -> no_suffix r.
Proof. intros E A B. split; rewrite E; assumption. Qed.
(** Tokens that end an expression. *)
Definition ends_expr (k : token_kind) : bool :=
  match k with
  | T_CLOSE_PARENS | T_CLOSE_BRACKET | T_COMMA | T_COLON | T_EQUALS | T_NEW_LINE | T_SEMICOLON | T_EOF => true
  | _ => false
  end.
Lemma ends_stop p r : ends_expr (next_kind r) = true -> stops p r /\ no_suffix r.
Proof.
  intros H. unfold stops, no_suffix. destruct (next_kind r); try discriminate H; (split; [cbn; discriminate|split; discriminate]).
Qed.
Lemma prefix_stops q r : (20 <= q)%nat -> stops q r.
Proof.
  intros L. unfold stops. destruct (binary_prec (next_kind r)) eqn:E; [pose proof (binary_prec_range _ _ E); lia|intros _; lia].
Qed.
(** The first token of an expression list is not a closing parenthesis. *)
Lemma expr_starts :
  (forall c u, expr_tokens c u -> forall r, starts_expression (next_kind (u ++ r)) = true) /\
  (forall c u, exprs_tokens c u -> forall r, starts_expression (next_kind (u ++ r)) = true) /\
  (forall c u, entry_tokens c u -> forall r, starts_expression (next_kind (u ++ r)) = true) /\
  (forall c u, entries_tokens c u -> forall r, starts_expression (next_kind (u ++ r)) = true).
Proof.
  apply expr_tokens_mutind; intros; rewrite <- ?app_assoc; cbn [app next_kind]; unfold is in *;
    repeat match goal with H : tk_kind ?t = _ |- context [tk_kind ?t] => rewrite H end; auto.
  unfold one_of in H. cbn in H. destruct H as [<-|[<-|[<-|[<-|[]]]]]; reflexivity.
Qed.
Lemma length_shift (a b : list token) x : (List.length (a ++ x :: b) = S (List.length (a ++ b)))%nat.
Proof. rewrite !app_length. cbn. lia. Qed.

Lemma parser_complete :
  (forall c u, expr_tokens c u -> complete_expr c u) /\ (forall c u, exprs_tokens c u -> complete_exprs c u) /\
  (forall c u, entry_tokens c u -> complete_entry c u) /\ (forall c u, entries_tokens c u -> complete_entries c u).
Proof.
  assert (Prim : forall c u, (forall r n, binds 13 c -> no_suffix r -> (4 * List.length (u ++ r) + 1 <= n)%nat -> parse_primary n (u ++ r) = POk c r) ->
     (forall p, binds p c -> binds 13 c) -> u <> [] -> complete_expr c u).
  { intros c u H Hb Nu p r n Lp B Lo Ns Ln. destruct n as [|n]; [lia|]. exists n. split; [rewrite app_length in Ln; lia|].
    cbn [parse_expr]. rewrite (H r n (Hb _ B) Ns) by lia. reflexivity. }
  assert (B13 : forall p t e, binds p (CUnary t e) -> binds 13 (CUnary t e)) by (intros p t e B; inversion B; subst; constructor; auto).
  apply expr_tokens_mutind.
  - intros o e ts c Ko _ IH Kc. unfold is in *. apply Prim; [| |discriminate].
    + intros r n B Ns Ln. cbn in Ln. rewrite <- app_assoc in Ln. destruct n as [|n]; [lia|]. cbn [app parse_primary]. rewrite Ko. cbn [prefix_prec]. rewrite <- app_assoc. cbn [app].
      assert (B0 : binds 0 e) by (inversion B; assumption).
      destruct (ends_stop 0 (c :: r)) as [S0 N0]; [cbn; now rewrite Kc|].
      rewrite (complete_at e ts 0 (c :: r) n IH) by (auto; cbn in *; lia). cbn [pbind expect]. rewrite Kc, kind_eqb_refl. reflexivity.
    + intros p B. inversion B; subst. constructor; auto.
  - intros t e ts Kt _ IH. unfold one_of in Kt. apply prefix_prec_in in Kt. destruct Kt as [q Eq]. pose proof (prefix_prec_range _ _ Eq) as Rq.
    apply Prim; [|intros p; apply B13|discriminate].
    intros r n B Ns Ln. cbn in Ln. destruct n as [|n]; [lia|]. cbn [app parse_primary]. rewrite Eq.
    assert (B0 : binds (lev q) e) by (replace (lev q) with 13 by (unfold lev; lia); inversion B; assumption).
    rewrite (complete_at e ts q r n IH) by (auto; try lia; apply prefix_stops; lia). reflexivity.
  - intros t e1 e2 ts1 ts2 Kt T1 IH1 T2 IH2 p r n Lp B Lo Ns Ln. rewrite <- app_assoc in *. cbn [app] in *.
    apply binds_binary_inv in B. destruct B as (q & Eq & Lq & B1 & B2). pose proof (binary_prec_range _ _ Eq) as Rq.
    assert (Lpq : (p <= q)%nat) by (unfold lev in Lq; lia).
    destruct (IH1 p (t :: ts2 ++ r) n Lp) as (n1 & L1 & ->).
    + apply (binds_le _ _ _ B1). unfold lev. destruct (right_assoc (tk_kind t)); lia.
    + unfold left_of. cbn [next_kind]. rewrite Eq. exact B1.
    + unfold no_suffix. cbn [next_kind]. split; intros X; rewrite X in Eq; discriminate.
    + exact Ln.
    + destruct n1 as [|n1]; [lia|]. cbn [List.length] in L1. exists n1. split; [rewrite app_length in L1; lia|]. cbn [parse_loop]. rewrite Eq.
      replace (Nat.leb p q) with true by (symmetry; apply Nat.leb_le; lia).
      rewrite (complete_at e2 ts2 (next_prec (tk_kind t) q) r n1 IH2); auto; try lia.
      * apply next_prec_range. exact Eq.
      * eapply binary_stops; eauto.
  - intros t colon e1 e2 e3 ts1 ts2 ts3 Kt Kc T1 IH1 T2 IH2 T3 IH3 p r n Lp B Lo Ns Ln. rewrite <- app_assoc in *. cbn [app] in *. rewrite <- app_assoc in *. cbn [app] in *.
    unfold is in *. assert (X : lev p = 0 /\ binds 1 e1 /\ binds 0 e2 /\ binds 0 e3) by (inversion B; auto). destruct X as (Lv & B1 & B2 & B3).
    assert (Lpq : (p <= 7)%nat) by (unfold lev in Lv; lia).
    destruct (IH1 p (t :: ts2 ++ colon :: ts3 ++ r) n Lp) as (n1 & L1 & ->).
    + rewrite Lv. apply (binds_le _ _ _ B1). lia.
    + unfold left_of. cbn [next_kind]. rewrite Kt. cbn [binary_prec]. auto.
    + unfold no_suffix. cbn [next_kind]. rewrite Kt. split; discriminate.
    + exact Ln.
    + destruct n1 as [|n1]; [lia|]. cbn [List.length] in L1. rewrite !app_length in L1. cbn [List.length] in L1. rewrite app_length in L1.
      exists n1. split; [lia|]. cbn [parse_loop]. rewrite Kt. cbn [binary_prec].
      replace (Nat.leb p ternary_prec) with true by (symmetry; apply Nat.leb_le; unfold ternary_prec; lia). rewrite kind_eqb_refl. cbn [andb].
      destruct (ends_stop 0 (colon :: ts3 ++ r)) as [S0 N0]; [cbn; now rewrite Kc|].
      rewrite (complete_at e2 ts2 0 (colon :: ts3 ++ r) n1 IH2); auto; try lia.
      2:{ rewrite !app_length. cbn [List.length]. rewrite app_length. lia. }
      cbn [pbind expect]. rewrite Kc, kind_eqb_refl. cbn [pbind].
      rewrite (complete_at e3 ts3 ternary_prec r n1 IH3); auto; try (unfold ternary_prec; lia).
      * eapply ternary_stops; eauto.
      * rewrite app_length. lia.
  - intros name o c Kn Ko Kc. unfold is in *. apply Prim; [| |discriminate].
    + intros r n B Ns Ln. destruct n as [|n]; [lia|]. cbn [app parse_primary]. rewrite Kn. cbn [prefix_prec next_kind tl]. rewrite Ko, Kc. reflexivity.
    + intros p B. inversion B; subst. constructor; auto.
  - intros name o args ts c Kn Ko T IH Kc. unfold is in *. apply Prim; [| |discriminate].
    + intros r n B Ns Ln. cbn in Ln. rewrite <- app_assoc in Ln. destruct n as [|n]; [lia|]. cbn [app parse_primary]. rewrite Kn. cbn [prefix_prec next_kind tl]. rewrite Ko, <- app_assoc. cbn [app].
      pose proof (proj1 (proj2 expr_starts) _ _ T (c :: r)) as St.
      rewrite (IH (c :: r) n); [|inversion B; assumption|left; cbn; exact Kc|cbn in *; lia].
      cbn [pbind expect]. rewrite Kc, kind_eqb_refl. cbn [pbind]. destruct (next_kind (ts ++ c :: r)); try reflexivity. discriminate St.
    + intros p B. inversion B; subst. constructor; auto.
  - intros name o idx ts c Kn Ko T IH Kc. unfold is in *. apply Prim; [| |discriminate].
    + intros r n B Ns Ln. cbn in Ln. rewrite <- app_assoc in Ln. destruct n as [|n]; [lia|]. cbn [app parse_primary]. rewrite Kn. cbn [prefix_prec next_kind tl]. rewrite Ko, <- app_assoc. cbn [app].
      rewrite (IH (c :: r) n); [|inversion B; assumption|cbn; exact Kc|cbn in *; lia].
      cbn [pbind expect]. rewrite Kc, kind_eqb_refl. reflexivity.
    + intros p B. inversion B; subst. constructor; auto.
  - intros t Kt. unfold is in *. apply Prim; [| |discriminate].
    + intros r n B [N1 N2] Ln. destruct n as [|n]; [lia|]. cbn [app parse_primary]. rewrite Kt. cbn [prefix_prec]. destruct (next_kind r); try reflexivity; congruence.
    + intros p B. inversion B; subst. constructor; auto.
  - intros t Kt. unfold is in *. apply Prim; [| |discriminate].
    + intros r n B _ Ln. destruct n as [|n]; [lia|]. cbn [app parse_primary]. rewrite Kt. reflexivity.
    + intros p B. inversion B; subst. constructor; auto.
  - intros t Kt. unfold is in *. apply Prim; [| |discriminate].
    + intros r n B _ Ln. destruct n as [|n]; [lia|]. cbn [app parse_primary]. rewrite Kt. reflexivity.
    + intros p B. inversion B; subst. constructor; auto.
  - intros t Kt. unfold is in *. apply Prim; [| |discriminate].
    + intros r n B _ Ln. destruct n as [|n]; [lia|]. cbn [app parse_primary]. rewrite Kt. reflexivity.
    + intros p B. inversion B; subst. constructor; auto.
  - intros e ts T IH r n B K Ln. destruct n as [|n]; [lia|]. cbn [parse_exprs].
    destruct (ends_stop 0 r) as [S0 N0]; [destruct (next_kind r); destruct K as [K|K]; try discriminate K; reflexivity|].
    rewrite (complete_at e ts 0 r n IH); auto; try lia; [|inversion B; assumption]. cbn [pbind].
    destruct (next_kind r); destruct K as [K|K]; try discriminate K; reflexivity.
  - intros e ts comma es ts' T IH Kc T' IH' r n B K Ln. destruct n as [|n]; [lia|]. cbn [parse_exprs]. rewrite <- app_assoc in *. cbn [app] in *. unfold is in *.
    destruct (ends_stop 0 (comma :: ts' ++ r)) as [S0 N0]; [cbn; now rewrite Kc|]. inversion B as [|? ? B1 B2]; subst.
    rewrite (complete_at e ts 0 (comma :: ts' ++ r) n IH); auto; try lia. cbn [pbind next_kind tl]. rewrite Kc.
    rewrite (IH' r n B2 K); [reflexivity|]. rewrite app_length in Ln. cbn [List.length] in Ln. lia.
  - intros e ts T IH r n B K Ln.
    destruct (ends_stop 0 r) as [S0 N0]; [destruct (next_kind r); destruct K as [K|K]; try discriminate K; reflexivity|].
    rewrite (complete_at e ts 0 r n IH); auto; try lia; [|inversion B; assumption]. cbn [pbind].
    destruct (next_kind r); destruct K as [K|K]; try discriminate K; reflexivity.
  - intros e1 e2 ts1 colon ts2 T1 IH1 Kc T2 IH2 r n B K Ln. rewrite <- app_assoc in *. cbn [app] in *. unfold is in *.
    inversion B as [| |? ? ? B1 B2 _]; subst.
    destruct (ends_stop 0 (colon :: ts2 ++ r)) as [S0 N0]; [cbn; now rewrite Kc|].
    rewrite (complete_at e1 ts1 0 (colon :: ts2 ++ r) n IH1); auto; try lia. cbn [pbind next_kind tl]. rewrite Kc.
    destruct (ends_stop 0 r) as [S1 N1]; [destruct (next_kind r); destruct K as [K|K]; try discriminate K; reflexivity|].
    rewrite (complete_at e2 ts2 0 r n IH2); auto; try lia. rewrite app_length in Ln. cbn [List.length] in Ln. lia.
  - intros i ts T IH r n B K Ln. destruct n as [|n]; [lia|]. cbn [parse_entries].
    specialize (IH r n B (or_intror K) ltac:(lia)). ok_inv IH e r0 E. rewrite E. cbn [pbind]. rewrite IH. cbn [pbind]. rewrite K. reflexivity.
  - intros i ts comma es ts' T IH Kc T' IH' r n B K Ln. destruct n as [|n]; [lia|]. cbn [parse_entries]. rewrite <- app_assoc in *. cbn [app] in *. unfold is in *.
    assert (Bi : binds_entries [i] /\ binds_entries es) by (inversion B; subst; repeat constructor; auto). destruct Bi as [Bi Bes].
    specialize (IH (comma :: ts' ++ r) n Bi (or_introl Kc) ltac:(lia)). ok_inv IH e r0 E. rewrite E. cbn [pbind]. rewrite IH. cbn [pbind next_kind tl]. rewrite Kc.
    rewrite (IH' r n Bes K); [reflexivity|]. rewrite app_length in Ln. cbn [List.length] in Ln. lia.
Qed.

(** ** More fuel does not change a successful parse *)
Definition more_fuel (n : nat) : Prop := forall m, (n <= m)%nat ->
  (forall p ts c r, parse_expr n p ts = POk c r -> parse_expr m p ts = POk c r) /\
  (forall p e ts c r, parse_loop n p e ts = POk c r -> parse_loop m p e ts = POk c r) /\
  (forall ts c r, parse_primary n ts = POk c r -> parse_primary m ts = POk c r) /\
  (forall ts c r, parse_exprs n ts = POk c r -> parse_exprs m ts = POk c r) /\
  (forall ts c r, parse_entries n ts = POk c r -> parse_entries m ts = POk c r).
Lemma pbind_more {A B} (m m' : presult A) (f f' : A -> list token -> presult B) b r :
  pbind m f = POk b r -> (forall a r', m = POk a r' -> m' = POk a r') -> (forall a r', f a r' = POk b r -> f' a r' = POk b r) -> pbind m' f' = POk b r.
Proof. intros H Hm Hf. ok_inv H a r' E. rewrite (Hm _ _ E). cbn. auto. Qed.
Ltac more H := eapply (pbind_more _ _ _ _ _ _ H); clear H; [first [assumption | intros ? ? H; first [exact H | solve [eauto]]] | intros ? ? H; cbv beta in H].
Lemma parser_more n : more_fuel n.
Proof.
  induction n as [|n IH]; intros m L.
  { split; [|split; [|split; [|split]]]; intros; discriminate. }
  destruct m as [|m]; [lia|]. destruct (IH m ltac:(lia)) as (IHe & IHl & IHp & IHes & IHis).
  split; [|split; [|split; [|split]]].
  - intros p ts c r H. cbn [parse_expr] in *. more H. auto.
  - intros p e ts c r H. cbn [parse_loop] in *. destruct ts as [|t ts]; [exact H|]. destruct (binary_prec (tk_kind t)) as [q|].
    + destruct (Nat.leb p q); [|exact H]. more H. auto.
    + destruct (_ && _); [|exact H]. more H. more H. more H. auto.
  - intros ts c r H. cbn [parse_primary] in *. destruct ts as [|t ts]; [exact H|]. destruct (prefix_prec (tk_kind t)) as [q|].
    + more H. auto.
    + destruct (tk_kind t); try exact H.
      * more H. more H. auto.
      * destruct (next_kind ts); try exact H.
        -- more H. more H. auto.
        -- destruct (next_kind (tl ts)); try exact H; (more H; more H; auto).
  - intros ts c r H. cbn [parse_exprs] in *. more H. match goal with H : context [next_kind ?x] |- _ => destruct (next_kind x); try exact H end. more H. auto.
  - intros ts c r H. cbn [parse_entries] in *. more H. eapply (pbind_more _ _ _ _ _ _ H); clear H.
    + intros ? ? H. match goal with H : context [next_kind ?x] |- _ => destruct (next_kind x); try exact H end. more H. auto.
    + intros ? ? H. match goal with H : context [next_kind ?x] |- _ => destruct (next_kind x); try exact H end. more H. auto.
Qed.
