(** Soundness of the parser: what it reads is in the grammar, with the right
    precedence (C48, C49, C63). *)
From Coq Require Import ZifyBool ZifyN ZifyNat.
From Verif Require Import Base ModelLexer ModelParser SpecParser.

Lemma kind_eqb k k' : token_kind_beq k k' = true <-> k = k'.
Proof. split; [apply internal_token_kind_dec_bl|apply internal_token_kind_dec_lb]. Qed.
Lemma kind_eqb_refl k : token_kind_beq k k = true.
Proof. now apply kind_eqb. Qed.

(** ** Tables *)
Lemma binary_prec_row k q : binary_prec k = Some q <-> (exists n, row n k /\ q = (n + 8)%nat).
Proof.
  split.
  - unfold row, binary_operators. intros H. destruct k; try discriminate H; injection H as <-;
      first [exists 0; split; [cbn; tauto|reflexivity] | exists 1; split; [cbn; tauto|reflexivity] | exists 2; split; [cbn; tauto|reflexivity]
            | exists 3; split; [cbn; tauto|reflexivity] | exists 4; split; [cbn; tauto|reflexivity] | exists 5; split; [cbn; tauto|reflexivity]
            | exists 6; split; [cbn; tauto|reflexivity] | exists 7; split; [cbn; tauto|reflexivity] | exists 8; split; [cbn; tauto|reflexivity]
            | exists 9; split; [cbn; tauto|reflexivity] | exists 10; split; [cbn; tauto|reflexivity] | exists 11; split; [cbn; tauto|reflexivity]].
  - intros (n & R & ->). unfold row, binary_operators in R.
    do 12 (destruct n as [|n]; [cbn in R; repeat (destruct R as [<-|R]; [reflexivity|]); contradiction|]).
    cbn in R. destruct n; contradiction.
Qed.
Lemma binary_prec_concat k : In k (concat binary_operators) <-> exists q, binary_prec k = Some q.
Proof.
  split.
  - cbn. intros H. repeat (destruct H as [<-|H]; [eexists; reflexivity|]). contradiction.
  - intros [q H]. destruct k; try discriminate H; cbn; tauto.
Qed.
Lemma prefix_prec_in k : In k prefix_operators <-> exists q, prefix_prec k = Some q.
Proof.
  split.
  - cbn. intros H. repeat (destruct H as [<-|H]; [eexists; reflexivity|]). contradiction.
  - intros [q H]. destruct k; try discriminate H; cbn; tauto.
Qed.
Lemma prefix_prec_range k q : prefix_prec k = Some q -> (20 <= q <= 22)%nat.
Proof. destruct k; try discriminate; intros H; injection H as <-; lia. Qed.
Lemma binary_prec_range k q : binary_prec k = Some q -> (8 <= q <= 19)%nat.
Proof. destruct k; try discriminate; intros H; injection H as <-; lia. Qed.
Lemma power_prec k q : binary_prec k = Some q -> (q = 19 <-> k = T_POWER_OP).
Proof. destruct k; try discriminate; intros H; injection H as <-; split; intros E; try reflexivity; discriminate. Qed.
Lemma right_assoc_iff k : right_assoc k = true <-> k = T_POWER_OP.
Proof. unfold right_assoc. apply kind_eqb. Qed.

(** The level of the specification for a precedence of the parser. *)
Definition lev (p : nat) : nat := Nat.min 13 (p - 7).

Lemma binds_le p p' e : binds p e -> (p' <= p)%nat -> binds p' e.
Proof.
  intros H L. inversion H; subst; try (constructor; first [lia|assumption]).
  - replace p' with 0 by lia. now constructor.
  - eapply b_power; eauto; lia.
  - eapply b_binary; eauto; lia.
Qed.

(** ** What may follow *)
Definition stops (p : nat) (r : list token) : Prop :=
  match binary_prec (next_kind r) with
  | Some q => (q < p)%nat
  | None => next_kind r = T_TERNARY_CONDITIONAL_OP -> (7 < p)%nat
  end.
Definition left_of (e : cexpr) (ts : list token) : Prop :=
  match binary_prec (next_kind ts) with
  | Some q => binds (if right_assoc (next_kind ts) then S (q - 7) else q - 7) e
  | None => next_kind ts = T_TERNARY_CONDITIONAL_OP -> binds 1 e
  end.
Lemma tight_left_of e ts : binds 13 e -> left_of e ts.
Proof.
  intros H. unfold left_of. destruct (binary_prec (next_kind ts)) as [q|] eqn:E; [|intros _; (apply (binds_le _ _ _ H); unfold lev; lia)].
  pose proof (binary_prec_range _ _ E). destruct (right_assoc (next_kind ts)); (apply (binds_le _ _ _ H); unfold lev; lia).
Qed.
(** A tree just built is a possible left operand of what stopped its right operand. *)
Lemma binary_left_of t q e1 e2 r :
  binary_prec (tk_kind t) = Some q -> stops (next_prec (tk_kind t) q) r -> binds (q - 7) (CBinary t e1 e2) ->
  left_of (CBinary t e1 e2) r.
Proof.
  intros Hq St B. unfold left_of. unfold stops in St. pose proof (binary_prec_range _ _ Hq) as Rq. pose proof (power_prec _ _ Hq) as Pq. unfold next_prec in St.
  destruct (binary_prec (next_kind r)) as [q'|] eqn:E'.
  - pose proof (binary_prec_range _ _ E') as Rq'. pose proof (power_prec _ _ E') as Pq'.
    rewrite <- right_assoc_iff in Pq, Pq'.
    destruct (right_assoc (next_kind r)); destruct (right_assoc (tk_kind t)).
    + assert (q' = 19) by tauto. assert (q = 19) by tauto. lia.
    + assert (q' = 19) by tauto. assert (q = 19) by lia. exfalso. assert (false = true) by tauto. discriminate.
    + (apply (binds_le _ _ _ B); unfold lev; lia).
    + (apply (binds_le _ _ _ B); unfold lev; lia).
  - intros E. apply (binds_le _ _ _ B). specialize (St E). lia.
Qed.
Lemma ternary_left_of t e1 e2 e3 r : stops 7 r -> left_of (CTernary t e1 e2 e3) r.
Proof.
  unfold stops, left_of. destruct (binary_prec (next_kind r)) as [q|] eqn:E; [pose proof (binary_prec_range _ _ E); lia|]. intros H E'. specialize (H E'). lia.
Qed.
Lemma stops_le p p' r : stops p r -> (p <= p')%nat -> stops p' r.
Proof. unfold stops. destruct (binary_prec (next_kind r)); [lia|]. intros H L E. specialize (H E). lia. Qed.

(** ** One step *)
Lemma expect_ok k ts t r : expect k ts = POk t r -> ts = t :: r /\ tk_kind t = k.
Proof.
  unfold expect. destruct ts as [|u ts]; [discriminate|]. destruct (token_kind_beq (tk_kind u) k) eqn:E; [|discriminate].
  intros H. injection H as <- <-. apply kind_eqb in E. auto.
Qed.
Lemma expect_fuel k ts : expect k ts <> PFuel.
Proof. unfold expect. destruct ts as [|u ts]; [discriminate|]. destruct (token_kind_beq (tk_kind u) k); discriminate. Qed.
Lemma pbind_ok {A B} (m : presult A) (f : A -> list token -> presult B) b r :
  pbind m f = POk b r -> exists a r', m = POk a r' /\ f a r' = POk b r.
Proof. destruct m; cbn; try discriminate. eauto. Qed.
Lemma next_kind_cons ts k : next_kind ts = k -> k <> T_EOF -> exists t r, ts = t :: r /\ tk_kind t = k.
Proof. destruct ts as [|t r]; cbn; [congruence|eauto]. Qed.

(** ** Soundness *)
Definition sound_expr (n : nat) : Prop := forall p ts c r, (p <= 22)%nat -> parse_expr n p ts = POk c r ->
  exists u, ts = u ++ r /\ expr_tokens c u /\ binds (lev p) c /\ stops p r.
Definition sound_loop (n : nat) : Prop := forall p e ts c r, (p <= 22)%nat -> parse_loop n p e ts = POk c r ->
  binds (lev p) e -> left_of e ts ->
  exists u, ts = u ++ r /\ (forall u0, expr_tokens e u0 -> expr_tokens c (u0 ++ u)) /\ binds (lev p) c /\ stops p r.
Definition sound_primary (n : nat) : Prop := forall ts c r, parse_primary n ts = POk c r ->
  exists u, ts = u ++ r /\ expr_tokens c u /\ binds 13 c.
Definition sound_exprs (n : nat) : Prop := forall ts es r, parse_exprs n ts = POk es r ->
  exists u, ts = u ++ r /\ exprs_tokens es u /\ binds_all es.
Definition sound_entries (n : nat) : Prop := forall ts es r, parse_entries n ts = POk es r ->
  exists u, ts = u ++ r /\ entries_tokens es u /\ binds_entries es.

Ltac ok_inv H a r E := apply pbind_ok in H; destruct H as (a & r & E & H).

Lemma parser_sound n : sound_expr n /\ sound_loop n /\ sound_primary n /\ sound_exprs n /\ sound_entries n.
Proof.
  induction n as [|n (IHe & IHl & IHp & IHes & IHis)].
  { repeat split; red; intros; discriminate. }
  repeat split.
  - intros p ts c r Lp H. cbn [parse_expr] in H. ok_inv H e r1 E. destruct (IHp _ _ _ E) as (u & -> & T & B).
    assert (B' : binds (lev p) e) by (apply (binds_le _ _ _ B); unfold lev; lia).
    destruct (IHl _ _ _ _ _ Lp H B' (tight_left_of _ _ B)) as (u2 & -> & T2 & B2 & S2).
    exists (u ++ u2). rewrite app_assoc. auto.
  - intros p e ts c r Lp H B L. cbn [parse_loop] in H.
    assert (Stop : forall ts, stops p ts -> POk e ts = POk c r -> exists u, ts = u ++ r /\ (forall u0, expr_tokens e u0 -> expr_tokens c (u0 ++ u)) /\ binds (lev p) c /\ stops p r).
    { intros ts0 S0 X. injection X as <- <-. exists []. split; [reflexivity|]. split; [intros; now rewrite app_nil_r|]. auto. }
    destruct ts as [|t ts]; [apply Stop in H; [exact H|]; unfold stops; cbn; discriminate|].
    unfold left_of in L. cbn [next_kind] in L. destruct (binary_prec (tk_kind t)) as [q|] eqn:Eq.
    + pose proof (binary_prec_range _ _ Eq) as Rq. destruct (Nat.leb p q) eqn:Lq.
      * apply Nat.leb_le in Lq. ok_inv H e2 r1 E2. 
        assert (Lp2 : (next_prec (tk_kind t) q <= 22)%nat) by (unfold next_prec; destruct (right_assoc (tk_kind t)); lia).
        destruct (IHe _ _ _ _ Lp2 E2) as (u2 & -> & T2 & B2 & S2).
        assert (BB : binds (q - 7) (CBinary t e e2)).
        { pose proof (proj1 (binary_prec_row _ _) Eq) as (m & Rm & Em). unfold next_prec in *. destruct (right_assoc (tk_kind t)) eqn:RA.
          - pose proof (proj1 (right_assoc_iff _) RA) as K. apply (b_power _ m); [exact K|now rewrite <- K|lia|apply (binds_le _ _ _ L); lia|].
            apply (binds_le _ _ _ B2). unfold lev. lia.
          - assert (NK : ~ is T_POWER_OP t) by (intros K; apply right_assoc_iff in K; congruence).
            assert (Nq : q <> 19) by (intros X; apply (power_prec _ _ Eq) in X; destruct (NK X)).
            apply (b_binary _ m); [exact NK|exact Rm|lia|apply (binds_le _ _ _ L); lia|].
            apply (binds_le _ _ _ B2). unfold lev. lia. }
        assert (BP : binds (lev p) (CBinary t e e2)) by (apply (binds_le _ _ _ BB); unfold lev; lia).
        destruct (IHl _ _ _ _ _ Lp H BP (binary_left_of _ _ _ _ _ Eq S2 BB)) as (u3 & -> & T3 & B3 & S3).
        exists (t :: u2 ++ u3). split; [cbn; now rewrite app_assoc|]. split; [|auto].
        intros u0 T0. replace (u0 ++ t :: u2 ++ u3) with ((u0 ++ t :: u2) ++ u3) by (now rewrite <- app_assoc). apply T3. apply et_binary; auto.
        unfold one_of. apply binary_prec_concat. eauto.
      * apply Nat.leb_gt in Lq. apply Stop in H; [exact H|]. unfold stops. cbn [next_kind]. now rewrite Eq.
    + destruct (token_kind_beq (tk_kind t) T_TERNARY_CONDITIONAL_OP && Nat.leb p ternary_prec) eqn:Et.
      * apply andb_true_iff in Et. destruct Et as [Et Lq]. apply kind_eqb in Et. apply Nat.leb_le in Lq. unfold ternary_prec in *.
        ok_inv H e1 r1 E1. ok_inv H cl r2 E2. ok_inv H e2 r3 E3.
        destruct (IHe 0 _ _ _ ltac:(lia) E1) as (u1 & -> & T1 & B1 & S1). apply expect_ok in E2. destruct E2 as [-> Kc].
        destruct (IHe 7 _ _ _ ltac:(lia) E3) as (u2 & -> & T2 & B2 & S2).
        assert (LV : lev p = 0) by (unfold lev; lia).
        assert (BB : binds (lev p) (CTernary t e e1 e2)).
        { rewrite LV. constructor; [exact (L Et)|(apply (binds_le _ _ _ B1); unfold lev; lia)|(apply (binds_le _ _ _ B2); unfold lev; lia)]. }
        destruct (IHl _ _ _ _ _ Lp H BB (ternary_left_of _ _ _ _ _ S2)) as (u3 & -> & T3 & B3 & S3).
        exists (t :: u1 ++ cl :: u2 ++ u3). split; [cbn; rewrite <- !app_assoc; cbn; now rewrite <- !app_assoc|]. split; [|auto].
        intros u0 T0. replace (u0 ++ t :: u1 ++ cl :: u2 ++ u3) with ((u0 ++ t :: u1 ++ cl :: u2) ++ u3) by (rewrite <- !app_assoc; cbn; now rewrite <- !app_assoc).
        apply T3. now apply et_ternary.
      * apply Stop in H; [exact H|]. unfold stops. cbn [next_kind]. rewrite Eq. intros K. apply kind_eqb in K. rewrite K in Et. cbn [andb] in Et.
        apply Nat.leb_gt in Et. exact Et.
  - intros ts c r H. cbn [parse_primary] in H. destruct ts as [|t ts]; [discriminate|].
    destruct (prefix_prec (tk_kind t)) as [q|] eqn:Eq.
    + pose proof (prefix_prec_range _ _ Eq) as Rq. ok_inv H e r1 E. injection H as <- <-. destruct (IHe q _ _ _ ltac:(lia) E) as (u & -> & T & B & _).
      exists (t :: u). split; [reflexivity|]. split.
      * apply et_unary; [|exact T]. unfold one_of. apply prefix_prec_in. eauto.
      * apply b_unary; [lia|]. apply (binds_le _ _ _ B). unfold lev. lia.
    + destruct (tk_kind t) eqn:K; try discriminate H.
      * ok_inv H e r1 E. ok_inv H cl r2 E2. injection H as <- <-. destruct (IHe 0 _ _ _ ltac:(lia) E) as (u & -> & T & B & _). apply expect_ok in E2. destruct E2 as [-> Kc].
        exists (t :: u ++ [cl]). split; [cbn; now rewrite <- app_assoc|]. split; [now apply et_parens|]. apply b_parens; [lia|]. (apply (binds_le _ _ _ B); unfold lev; lia).
      * injection H as <- <-. exists [t]. split; [reflexivity|]. split; [now constructor|constructor; lia].
      * injection H as <- <-. exists [t]. split; [reflexivity|]. split; [now constructor|constructor; lia].
      * injection H as <- <-. exists [t]. split; [reflexivity|]. split; [now constructor|constructor; lia].
      * assert (Ident : POk (CIdent t) ts = POk c r -> exists u, t :: ts = u ++ r /\ expr_tokens c u /\ binds 13 c).
        { intros X. injection X as <- <-. exists [t]. split; [reflexivity|]. split; [now apply et_ident|]. constructor; lia. }
        destruct (next_kind ts) eqn:K2; try exact (Ident H); clear Ident.
        -- apply next_kind_cons in K2; [|discriminate]. destruct K2 as (o & ts1 & -> & Ko). cbn [tl] in H.
           ok_inv H idx r1 E. ok_inv H cl r2 E2. injection H as <- <-. destruct (IHis _ _ _ E) as (u & -> & T & B). apply expect_ok in E2. destruct E2 as [-> Kc].
           exists (t :: o :: u ++ [cl]). split; [cbn; now rewrite <- app_assoc|]. split; [now apply et_index|]. constructor; [lia|exact B].
        -- apply next_kind_cons in K2; [|discriminate]. destruct K2 as (o & ts1 & -> & Ko). cbn [tl] in H.
           assert (Args : (let? (args, r) := parse_exprs n ts1 in let? (_c, r') := expect T_CLOSE_PARENS r in POk (CCall t args) r') = POk c r ->
             exists u, t :: o :: ts1 = u ++ r /\ expr_tokens c u /\ binds 13 c).
           { clear H. intros H. ok_inv H args r1 E. ok_inv H cl r2 E2. injection H as <- <-. destruct (IHes _ _ _ E) as (u & -> & T & B). apply expect_ok in E2. destruct E2 as [-> Kc].
             exists (t :: o :: u ++ [cl]). split; [cbn; now rewrite <- app_assoc|]. split; [now apply et_call|]. constructor; [lia|exact B]. }
           destruct (next_kind ts1) eqn:K3; try exact (Args H); clear Args.
           apply next_kind_cons in K3; [|discriminate]. destruct K3 as (cl & ts2 & -> & Kc). cbn [tl] in H. injection H as <- <-.
           exists [t; o; cl]. split; [reflexivity|]. split; [now apply et_call_empty|]. constructor; [lia|constructor].
  - intros ts es r H. cbn [parse_exprs] in H. ok_inv H e r1 E. destruct (IHe 0 _ _ _ ltac:(lia) E) as (u & -> & T & B & _).
    assert (B0 : binds 0 e) by (apply (binds_le _ _ _ B); unfold lev; lia).
    assert (One : POk [e] r1 = POk es r -> exists u', u ++ r1 = u' ++ r /\ exprs_tokens es u' /\ binds_all es).
    { intros X. injection X as <- <-. exists u. split; [reflexivity|]. split; [now constructor|]. now repeat constructor. }
    destruct (next_kind r1) eqn:K; try exact (One H); clear One.
    apply next_kind_cons in K; [|discriminate]. destruct K as (comma & r2 & -> & Kc). cbn [tl] in H. ok_inv H es' r3 E3. injection H as <- <-.
    destruct (IHes _ _ _ E3) as (u2 & -> & T2 & B2). exists (u ++ comma :: u2). split; [now rewrite <- app_assoc|]. split; [now constructor|now constructor].
  - intros ts es r H. cbn [parse_entries] in H. ok_inv H e r1 E. destruct (IHe 0 _ _ _ ltac:(lia) E) as (u & -> & T & B & _).
    assert (B0 : binds 0 e) by (apply (binds_le _ _ _ B); unfold lev; lia).
    ok_inv H i r2 Ei.
    assert (Entry : exists u', u ++ r1 = u' ++ r2 /\ entry_tokens i u' /\ forall l, binds_entries l -> binds_entries (i :: l)).
    { assert (Item : POk (CItem e) r1 = POk i r2 -> exists u', u ++ r1 = u' ++ r2 /\ entry_tokens i u' /\ forall l, binds_entries l -> binds_entries (i :: l)).
      { intros X. injection X as <- <-. exists u. split; [reflexivity|]. split; [now constructor|]. intros. now constructor. }
      destruct (next_kind r1) eqn:K; try exact (Item Ei); clear Item.
      apply next_kind_cons in K; [|discriminate]. destruct K as (colon & r3 & -> & Kc). cbn [tl] in Ei. ok_inv Ei e2 r4 E4. injection Ei as <- <-.
      destruct (IHe 0 _ _ _ ltac:(lia) E4) as (u2 & -> & T2 & B2 & _). exists (u ++ colon :: u2). split; [now rewrite <- app_assoc|]. split; [now constructor|].
      intros l Bl. constructor; [exact B0| |exact Bl]. (apply (binds_le _ _ _ B2); unfold lev; lia). }
    destruct Entry as (u' & Eu & Ti & Bi). rewrite Eu. clear Eu.
    assert (One : POk [i] r2 = POk es r -> exists u0, u' ++ r2 = u0 ++ r /\ entries_tokens es u0 /\ binds_entries es).
    { intros X. injection X as <- <-. exists u'. split; [reflexivity|]. split; [now constructor|]. apply Bi. constructor. }
    destruct (next_kind r2) eqn:K; try exact (One H); clear One.
    apply next_kind_cons in K; [|discriminate]. destruct K as (comma & r3 & -> & Kc). cbn [tl] in H. ok_inv H es' r4 E4. injection H as <- <-.
    destruct (IHis _ _ _ E4) as (u2 & -> & T2 & B2). exists (u' ++ comma :: u2). split; [now rewrite <- app_assoc|]. split; [now constructor|auto].
Qed.
