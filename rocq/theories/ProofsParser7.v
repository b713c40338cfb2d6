(** Where the parser reports an error: no sentence continues what it has read with
    that token (C65). *)
From Coq Require Import ZifyBool ZifyN ZifyNat.
From Verif Require Import Base ModelLexer ModelParser SpecParser ProofsParser ProofsParser2 ProofsParser3 ProofsParser4 ProofsParser5 ProofsParser6.

(** ** The parser returns a rest of its input *)
Definition rest_in {A} (ts : list token) (m : presult A) : Prop :=
  match m with POk _ r => exists u, ts = u ++ r | PErr r => exists u, ts = u ++ r | PFuel => True end.
Lemma rest_bind {A B} ts (m : presult A) (f : A -> list token -> presult B) : rest_in ts m -> (forall a r, m = POk a r -> rest_in r (f a r)) -> rest_in ts (pbind m f).
Proof.
  destruct m as [a r|r|]; cbn; auto. intros (u & ->) H. specialize (H a r eq_refl). destruct (f a r); cbn in *; auto; destruct H as (u2 & ->); exists (u ++ u2); now rewrite app_assoc.
Qed.
Lemma rest_cons {A} t ts (m : presult A) : rest_in ts m -> rest_in (t :: ts) m.
Proof. destruct m; cbn; auto; intros (u & ->); now exists (t :: u). Qed.
Lemma expect_rest k ts : rest_in ts (expect k ts).
Proof.
  destruct (expect k ts) as [t r|r|] eqn:E; cbn; auto; [apply expect_ok in E; destruct E as [-> _]; now exists [t]|apply expect_err in E; subst; now exists []].
Qed.
Lemma begun_rest {A} (F : A -> list token -> Prop) ts r : begun F ts r -> exists u, ts = u ++ r.
Proof. intros (u & E & _). eauto. Qed.
Lemma rests n : (forall p ts, (p <= 22)%nat -> rest_in ts (parse_expr n p ts)) /\ (forall p e ts, (p <= 22)%nat -> rest_in ts (parse_loop n p e ts)) /\
  (forall ts, rest_in ts (parse_primary n ts)) /\ (forall ts, rest_in ts (parse_exprs n ts)) /\ (forall ts, rest_in ts (parse_entries n ts)).
Proof.
  destruct (parser_sound n) as (Se & Sl & Sp & Ss & Si), (parser_viable n) as (Ve & Vl & Vp & Vs & Vi).
  assert (He : forall p ts, (p <= 22)%nat -> rest_in ts (parse_expr n p ts)).
  { intros p ts Lp. destruct (parse_expr n p ts) as [c r|r|] eqn:E; cbn; auto; [destruct (Se _ _ _ _ Lp E) as (u & -> & _); eauto|exact (begun_rest _ _ _ (Ve _ _ _ Lp E))]. }
  split; [exact He|]. split; [|split; [|split]].
  - clear -n. induction n as [|n IH]; intros p e ts Lp; cbn [parse_loop]; auto.
    + exact I.
    + destruct (parser_sound n) as (Se & _), (parser_viable n) as (Ve & _).
      assert (He : forall p ts, (p <= 22)%nat -> rest_in ts (parse_expr n p ts)).
      { clear -Se Ve. intros p ts Lp. destruct (parse_expr n p ts) as [c r|r|] eqn:E; cbn; auto; [destruct (Se _ _ _ _ Lp E) as (u & -> & _); eauto|exact (begun_rest _ _ _ (Ve _ _ _ Lp E))]. }
      assert (Nil : forall ts, rest_in ts (POk e ts)) by (intros x; now exists []).
      destruct ts as [|t ts]; [apply Nil|]. destruct (binary_prec (tk_kind t)) as [q|] eqn:Eq.
      * destruct (Nat.leb p q); [|apply Nil]. pose proof (binary_prec_range _ _ Eq) as Rq.
        apply rest_cons, rest_bind; [apply He; unfold next_prec; destruct (right_assoc (tk_kind t)); lia|]. intros. now apply IH.
      * destruct (_ && _); [|apply Nil]. unfold ternary_prec. apply rest_cons, rest_bind; [apply He; lia|]. intros. apply rest_bind; [apply expect_rest|]. intros. apply rest_bind; [apply He; lia|]. intros. now apply IH.
  - intros ts. destruct (parse_primary n ts) as [c r|r|] eqn:E; cbn; auto; [destruct (Sp _ _ _ E) as (u & -> & _); eauto|exact (begun_rest _ _ _ (Vp _ _ E))].
  - intros ts. destruct (parse_exprs n ts) as [c r|r|] eqn:E; cbn; auto; [destruct (Ss _ _ _ E) as (u & -> & _); eauto|exact (begun_rest _ _ _ (Vs _ _ E))].
  - intros ts. destruct (parse_entries n ts) as [c r|r|] eqn:E; cbn; auto; [destruct (Si _ _ _ E) as (u & -> & _); eauto|exact (begun_rest _ _ _ (Vi _ _ E))].
Qed.

(** ** The parser looks no further than one token behind what it has read

    [local f]: if [f] leaves at least one token of [v], it does not depend on what
    follows [v]. *)
Definition same_rest {A} (w1 w2 : list token) (m1 m2 : presult A) : Prop :=
  match m1 with
  | POk a r => forall v', v' <> [] -> r = v' ++ w1 -> m2 = POk a (v' ++ w2)
  | PErr r => forall v', v' <> [] -> r = v' ++ w1 -> m2 = PErr (v' ++ w2)
  | PFuel => True
  end.
Definition local {A} (f : list token -> presult A) : Prop := forall v w1 w2, same_rest w1 w2 (f (v ++ w1)) (f (v ++ w2)).

Lemma not_shorter (v' w x : list token) : v' <> [] -> w <> x ++ v' ++ w.
Proof. intros N E. apply (f_equal (@List.length token)) in E. rewrite !app_length in E. destruct v'; [congruence|cbn in E; lia]. Qed.
Lemma cut (v w x v' : list token) : v' <> [] -> v ++ w = x ++ v' ++ w -> v = x ++ v' /\ v <> [].
Proof.
  intros N E. rewrite app_assoc in E. apply app_inv_tail in E. subst v. split; [reflexivity|]. destruct x; [exact N|discriminate].
Qed.
Lemma local_bind {A B} (f : list token -> presult A) (g : A -> list token -> presult B) :
  local f -> (forall a, local (g a)) -> (forall a ts, rest_in ts (g a ts)) -> local (fun ts => pbind (f ts) g).
Proof.
  intros Lf Lg Rg v w1 w2. specialize (Lf v w1 w2). unfold same_rest in *. destruct (f (v ++ w1)) as [a r|r|] eqn:E; cbn [pbind]; auto.
  - pose proof (Rg a r) as R. pose proof (fun x => Lg a x w1 w2) as G. unfold same_rest in G. destruct (g a r) as [b r'|r'|] eqn:Eg; auto; cbn in R; destruct R as (x & ->); intros v' N ->;
      (rewrite (Lf (x ++ v')); [|destruct x; [exact N|discriminate]|now rewrite <- app_assoc]); cbn [pbind]; specialize (G (x ++ v')); rewrite <- app_assoc, Eg in G; exact (G v' N eq_refl).
  - intros v' N ->. rewrite (Lf v' N eq_refl). reflexivity.
Qed.
(** Looking at the next token *)
Lemma local_next {A} (f : list token -> presult A) : (forall ts, rest_in ts (f ts)) ->
  (forall t v w1 w2, same_rest w1 w2 (f (t :: v ++ w1)) (f (t :: v ++ w2))) -> local f.
Proof.
  intros R H v w1 w2. destruct v as [|t v]; [|apply H]. cbn [app]. specialize (R w1). unfold same_rest. unfold rest_in in R.
  destruct (f w1) as [a r|r|] eqn:E; auto; destruct R as (x & Ex); intros v' N ->; destruct (not_shorter v' w1 x N Ex).
Qed.
Lemma same_rest_more {A} t (f : list token -> presult A) v w1 w2 : (forall v w1 w2, same_rest w1 w2 (f (v ++ w1)) (f (v ++ w2))) -> same_rest w1 w2 (f (t :: v ++ w1)) (f (t :: v ++ w2)).
Proof. intros H. exact (H (t :: v) w1 w2). Qed.
Lemma same_ok {A} w1 w2 (a : A) v : same_rest w1 w2 (POk a (v ++ w1)) (POk a (v ++ w2)).
Proof. intros v' N E. apply app_inv_tail in E. now subst. Qed.
Lemma same_err {A} w1 w2 v : same_rest w1 w2 (@PErr A (v ++ w1)) (PErr (v ++ w2)).
Proof. intros v' N E. apply app_inv_tail in E. now subst. Qed.
Lemma local_expect k : local (expect k).
Proof.
  apply local_next; [apply expect_rest|]. intros t v w1 w2. cbn [expect]. destruct (token_kind_beq (tk_kind t) k); [apply same_ok|exact (same_err w1 w2 (t :: v))].
Qed.
Lemma local_ok {A} (a : A) : local (fun ts => POk a ts).
Proof. intros v w1 w2. apply same_ok. Qed.
Lemma rest_ok {A} (a : A) ts : rest_in ts (POk a ts).
Proof. now exists []. Qed.
Lemma rest_err {A} ts : rest_in ts (@PErr A ts).
Proof. now exists []. Qed.

(** f behind one more token *)
Lemma rest_tl {A} ts (m : presult A) : rest_in (tl ts) m -> rest_in ts m.
Proof. destruct ts as [|t ts]; [auto|]. apply rest_cons. Qed.
(** The next token decides between two continuations. *)
Definition peek {A} (f : token_kind -> list token -> presult A) : list token -> presult A := fun ts => f (next_kind ts) ts.
Lemma local_peek {A} (f : token_kind -> list token -> presult A) : (forall k ts, rest_in ts (f k ts)) -> (forall k, local (f k)) -> local (peek f).
Proof.
  intros R H. apply local_next; [intros; apply R|]. intros t v w1 w2. unfold peek. cbn [next_kind]. exact (H (tk_kind t) (t :: v) w1 w2).
Qed.
(** Behind the next token *)
Lemma local_tl {A} (f : list token -> presult A) : (forall ts, rest_in ts (f ts)) -> local f -> local (fun ts => f (tl ts)).
Proof.
  intros R H. apply local_next; [intros; apply rest_tl, R|]. intros t v w1 w2. cbn [tl]. exact (H v w1 w2).
Qed.

Lemma parser_local n :
  (forall p, (p <= 22)%nat -> local (parse_expr n p)) /\ (forall p e, (p <= 22)%nat -> local (parse_loop n p e)) /\
  local (parse_primary n) /\ local (parse_exprs n) /\ local (parse_entries n).
Proof.
  induction n as [|n (IHe & IHl & IHp & IHs & IHi)].
  { repeat split; red; intros; exact I. }
  destruct (rests n) as (Re & Rl & Rp & Rs & Ri). pose proof (rests (S n)) as (_ & RlS & RpS & _ & _).
  split; [|split; [|split; [|split]]].
  - intros p Lp. change (parse_expr (S n) p) with (fun ts => pbind (parse_primary n ts) (fun e r => parse_loop n p e r)).
    apply local_bind; [exact IHp|intros; now apply IHl|intros; now apply Rl].
  - intros p e Lp. apply local_next; [intros; now apply RlS|]. intros t v w1 w2. cbn [parse_loop].
    destruct (binary_prec (tk_kind t)) as [q|] eqn:Eq.
    + destruct (Nat.leb p q); [|exact (same_ok w1 w2 e (t :: v))]. pose proof (binary_prec_range _ _ Eq) as Rq.
      refine (local_bind (parse_expr n (next_prec (tk_kind t) q)) (fun e2 r => parse_loop n p (CBinary t e e2) r) _ _ _ v w1 w2).
      * apply IHe. unfold next_prec; destruct (right_assoc (tk_kind t)); lia.
      * intros. now apply IHl.
      * intros. now apply Rl.
    + destruct (_ && _); [|exact (same_ok w1 w2 e (t :: v))]. unfold ternary_prec.
      refine (local_bind (parse_expr n 0) _ _ _ _ v w1 w2); [apply IHe; lia| |].
      * intros e1. refine (local_bind (expect T_COLON) _ _ _ _); [apply local_expect| |].
        -- intros c. refine (local_bind (parse_expr n 7) _ _ _ _); [apply IHe; lia|intros; now apply IHl|intros; now apply Rl].
        -- intros c ts. apply rest_bind; [apply Re; lia|]. intros. now apply Rl.
      * intros e1 ts. apply rest_bind; [apply expect_rest|]. intros. apply rest_bind; [apply Re; lia|]. intros. now apply Rl.
  - apply local_next; [exact RpS|]. intros t v w1 w2. cbn [parse_primary]. destruct (prefix_prec (tk_kind t)) as [q|] eqn:Eq.
    + pose proof (prefix_prec_range _ _ Eq) as Rq.
      refine (local_bind (parse_expr n q) (fun e r => POk (CUnary t e) r) _ _ _ v w1 w2); [apply IHe; lia|intros; apply local_ok|intros; apply rest_ok].
    + destruct (tk_kind t) eqn:K; try exact (same_err w1 w2 (t :: v)); try exact (same_ok w1 w2 _ v).
      * refine (local_bind (parse_expr n 0) _ _ _ _ v w1 w2); [apply IHe; lia| |].
        -- intros e. refine (local_bind (expect T_CLOSE_PARENS) _ _ _ _); [apply local_expect|intros; apply local_ok|intros; apply rest_ok].
        -- intros e ts. apply rest_bind; [apply expect_rest|]. intros. apply rest_ok.
      * refine (local_peek (fun k ts => match k with
          | T_OPEN_PARENS => match next_kind (tl ts) with T_CLOSE_PARENS => POk (CCall t []) (tl (tl ts)) | _ => let? (args, r) := parse_exprs n (tl ts) in let? (_c, r') := expect T_CLOSE_PARENS r in POk (CCall t args) r' end
          | T_OPEN_BRACKET => let? (idx, r) := parse_entries n (tl ts) in let? (_c, r') := expect T_CLOSE_BRACKET r in POk (CIndex t idx) r'
          | _ => POk (CIdent t) ts end) _ _ v w1 w2).
        -- assert (X : forall {A} (ts : list token) (m : presult A) (f : A -> cexpr) k, rest_in ts m -> rest_in ts (let? (a, r) := m in let? (_c, r') := expect k r in POk (f a) r')).
           { intros. apply rest_bind; [assumption|]. intros. apply rest_bind; [apply expect_rest|]. intros. apply rest_ok. }
           intros k ts. destruct k; try apply rest_ok.
           ++ apply rest_tl. now apply X.
           ++ apply rest_tl. destruct (next_kind (tl ts)); try (now apply X). apply rest_tl. apply rest_ok.
        -- assert (Y : forall {A} (g : list token -> presult A) (f : A -> cexpr) k, local g -> local (fun ts => let? (a, r) := g ts in let? (_c, r') := expect k r in POk (f a) r')).
           { intros A g f k Lg. apply local_bind; [exact Lg| |].
             - intros a. apply local_bind; [apply local_expect|intros; apply local_ok|intros; apply rest_ok].
             - intros a ts. apply rest_bind; [apply expect_rest|]. intros. apply rest_ok. }
           assert (X : forall {A} (ts : list token) (m : presult A) (f : A -> cexpr) k, rest_in ts m -> rest_in ts (let? (a, r) := m in let? (_c, r') := expect k r in POk (f a) r')).
           { intros. apply rest_bind; [assumption|]. intros. apply rest_bind; [apply expect_rest|]. intros. apply rest_ok. }
           intros k. destruct k; try apply local_ok.
           ++ refine (local_tl (fun ts => let? (idx, r) := parse_entries n ts in let? (_c, r') := expect T_CLOSE_BRACKET r in POk (CIndex t idx) r') _ _); [intros; now apply X|now apply Y].
           ++ refine (local_tl (fun ts => match next_kind ts with T_CLOSE_PARENS => POk (CCall t []) (tl ts) | _ => let? (args, r) := parse_exprs n ts in let? (_c, r') := expect T_CLOSE_PARENS r in POk (CCall t args) r' end) _ _).
              ** intros ts. destruct (next_kind ts); try (now apply X). apply rest_tl, rest_ok.
              ** refine (local_peek (fun k ts => match k with T_CLOSE_PARENS => POk (CCall t []) (tl ts) | _ => let? (args, r) := parse_exprs n ts in let? (_c, r') := expect T_CLOSE_PARENS r in POk (CCall t args) r' end) _ _).
                 --- intros k ts. destruct k; try (now apply X). apply rest_tl, rest_ok.
                 --- intros k. destruct k; try (now apply Y). refine (local_tl (fun ts => POk (CCall t []) ts) _ _); [intros; apply rest_ok|apply local_ok].
  - change (parse_exprs (S n)) with (fun ts => pbind (parse_expr n 0 ts) (fun e r => match next_kind r with T_COMMA => let? (es, r') := parse_exprs n (tl r) in POk (e :: es) r' | _ => POk [e] r end)).
    assert (X : forall e ts, rest_in ts (let? (es, r') := parse_exprs n ts in POk (e :: es) r')) by (intros; apply rest_bind; [apply Rs|intros; apply rest_ok]).
    apply local_bind; [apply IHe; lia| |].
    + intros e. refine (local_peek (fun k r => match k with T_COMMA => let? (es, r') := parse_exprs n (tl r) in POk (e :: es) r' | _ => POk [e] r end) _ _).
      * intros k ts. destruct k; try apply rest_ok. apply rest_tl, X.
      * intros k. destruct k; try apply local_ok. refine (local_tl (fun r => let? (es, r') := parse_exprs n r in POk (e :: es) r') _ _); [apply X|].
        apply local_bind; [exact IHs|intros; apply local_ok|intros; apply rest_ok].
    + intros e ts. destruct (next_kind ts); try apply rest_ok. apply rest_tl, X.
  - assert (X1 : forall e ts, rest_in ts (let? (e2, r2) := parse_expr n 0 ts in POk (CRange e e2) r2)) by (intros; apply rest_bind; [apply Re; lia|intros; apply rest_ok]).
    assert (X2 : forall (i : centry) ts, rest_in ts (let? (is, r') := parse_entries n ts in POk (i :: is) r')) by (intros; apply rest_bind; [apply Ri|intros; apply rest_ok]).
    assert (X3 : forall (i : centry) ts, rest_in ts (match next_kind ts with T_COMMA => let? (is, r') := parse_entries n (tl ts) in POk (i :: is) r' | _ => POk [i] ts end))
      by (intros i ts; destruct (next_kind ts); try apply rest_ok; apply rest_tl, X2).
    assert (X4 : forall e ts, rest_in ts (match next_kind ts with T_COLON => let? (e2, r2) := parse_expr n 0 (tl ts) in POk (CRange e e2) r2 | _ => POk (CItem e) ts end))
      by (intros e ts; destruct (next_kind ts); try apply rest_ok; apply rest_tl, X1).
    change (parse_entries (S n)) with (fun ts => pbind (parse_expr n 0 ts) (fun e r =>
      pbind (match next_kind r with T_COLON => let? (e2, r2) := parse_expr n 0 (tl r) in POk (CRange e e2) r2 | _ => POk (CItem e) r end)
       (fun i r1 => match next_kind r1 with T_COMMA => let? (is, r') := parse_entries n (tl r1) in POk (i :: is) r' | _ => POk [i] r1 end))).
    apply local_bind; [apply IHe; lia| |].
    + intros e. apply local_bind; [| |exact X3].
      * refine (local_peek (fun k r => match k with T_COLON => let? (e2, r2) := parse_expr n 0 (tl r) in POk (CRange e e2) r2 | _ => POk (CItem e) r end) _ _).
        -- intros k ts. destruct k; try apply rest_ok. apply rest_tl, X1.
        -- intros k. destruct k; try apply local_ok. refine (local_tl (fun r => let? (e2, r2) := parse_expr n 0 r in POk (CRange e e2) r2) _ _); [apply X1|].
           apply local_bind; [apply IHe; lia|intros; apply local_ok|intros; apply rest_ok].
      * intros i. refine (local_peek (fun k r1 => match k with T_COMMA => let? (is, r') := parse_entries n (tl r1) in POk (i :: is) r' | _ => POk [i] r1 end) _ _).
        -- intros k ts. destruct k; try apply rest_ok. apply rest_tl, X2.
        -- intros k. destruct k; try apply local_ok. refine (local_tl (fun r => let? (is, r') := parse_entries n r in POk (i :: is) r') _ _); [apply X2|].
           apply local_bind; [exact IHi|intros; apply local_ok|intros; apply rest_ok].
    + intros e ts. apply rest_bind; [apply X4|]. intros. apply X3.
Qed.
