(** Where the parser reports an error: no sentence continues what it has read with
    that token; gates, statements and programs (C65). *)
From Coq Require Import ZifyBool ZifyN ZifyNat.
From Verif Require Import Base ModelLexer ModelParser SpecParser ProofsParser ProofsParser2 ProofsParser3 ProofsParser4 ProofsParser5 ProofsParser6 ProofsParser7.

(** ** More fuel does not change the result *)
Definition same_fuel {A} (a b : presult A) : Prop := a <> PFuel -> b = a.
Lemma bind_same {A B} (a b : presult A) (f g : A -> list token -> presult B) : same_fuel a b -> (forall x r, same_fuel (f x r) (g x r)) -> same_fuel (pbind a f) (pbind b g).
Proof.
  intros H1 H2 N. destruct a as [x r|r|]; cbn in *; try congruence; (rewrite H1 by discriminate); cbn; auto. now apply H2.
Qed.
Lemma refl_same {A} (a : presult A) : same_fuel a a.
Proof. red. auto. Qed.
Lemma parser_same n : forall m, (n <= m)%nat ->
  (forall p ts, same_fuel (parse_expr n p ts) (parse_expr m p ts)) /\ (forall p e ts, same_fuel (parse_loop n p e ts) (parse_loop m p e ts)) /\
  (forall ts, same_fuel (parse_primary n ts) (parse_primary m ts)) /\ (forall ts, same_fuel (parse_exprs n ts) (parse_exprs m ts)) /\ (forall ts, same_fuel (parse_entries n ts) (parse_entries m ts)).
Proof.
  induction n as [|n IH]; intros m L.
  { repeat split; intros; intros N; destruct (N eq_refl). }
  destruct m as [|m]; [lia|]. destruct (IH m ltac:(lia)) as (IHe & IHl & IHp & IHs & IHi).
  split; [|split; [|split; [|split]]].
  - intros p ts. cbn [parse_expr]. apply bind_same; auto.
  - intros p e ts. cbn [parse_loop]. destruct ts as [|t ts]; [apply refl_same|]. destruct (binary_prec (tk_kind t)) as [q|].
    + destruct (Nat.leb p q); [|apply refl_same]. apply bind_same; auto.
    + destruct (_ && _); [|apply refl_same]. apply bind_same; auto. intros. apply bind_same; [apply refl_same|]. intros. apply bind_same; auto.
  - intros ts. cbn [parse_primary]. destruct ts as [|t ts]; [apply refl_same|]. destruct (prefix_prec (tk_kind t)) as [q|].
    + apply bind_same; auto. intros. apply refl_same.
    + destruct (tk_kind t); try apply refl_same.
      * apply bind_same; auto. intros. apply refl_same.
      * destruct (next_kind ts); try apply refl_same.
        -- apply bind_same; auto. intros. apply refl_same.
        -- destruct (next_kind (tl ts)); try apply refl_same; (apply bind_same; auto; intros; apply refl_same).
  - intros ts. cbn [parse_exprs]. apply bind_same; auto. intros e r. destruct (next_kind r); try apply refl_same. apply bind_same; auto. intros. apply refl_same.
  - intros ts. cbn [parse_entries]. apply bind_same; auto. intros e r. apply bind_same.
    + destruct (next_kind r); try apply refl_same. apply bind_same; auto. intros. apply refl_same.
    + intros i r1. destruct (next_kind r1); try apply refl_same. apply bind_same; auto. intros. apply refl_same.
Qed.
Lemma expr_agree n m p ts : parse_expr n p ts <> PFuel -> parse_expr m p ts <> PFuel -> parse_expr n p ts = parse_expr m p ts.
Proof.
  intros N M. destruct (Nat.le_ge_cases n m) as [L|L]; [symmetry|]; apply (proj1 (parser_same _ _ L)); assumption.
Qed.

(** ** "( e )" read first as parameters *)
Lemma exprs_one n ts x c r2 : parse_exprs n ts = POk [x] (c :: r2) -> is T_CLOSE_PARENS c -> exists m, parse_expr m 0 ts = POk x (c :: r2).
Proof.
  destruct n as [|n]; [discriminate|]. cbn [parse_exprs]. intros H Kc. ok_inv H e r E.
  assert (One : POk [e] r = POk [x] (c :: r2) -> exists m, parse_expr m 0 ts = POk x (c :: r2)) by (intros X; injection X as <- ->; eauto).
  destruct (next_kind r) eqn:K; try exact (One H). clear One. ok_inv H es r' E'. injection H as _ -> _.
  apply exprs_sound in E'. destruct E' as (u & _ & T & _). inversion T.
Qed.
Lemma parens_rest n r x c r2 : next_kind r = T_OPEN_PARENS -> parse_exprs n (tl r) = POk [x] (c :: r2) -> is T_CLOSE_PARENS c ->
  (forall m p, (p <= 22)%nat -> rest_in r2 (parse_expr m p r)) /\ (forall m, rest_in r2 (parse_exprs m r)).
Proof.
  intros K P Kc. destruct (exprs_one _ _ _ _ _ P Kc) as (k & Pk). clear P. apply next_kind_cons in K; [|discriminate]. destruct K as (o & r1 & -> & Ko). cbn [tl] in Pk.
  assert (He : forall m p, (p <= 22)%nat -> rest_in r2 (parse_expr m p (o :: r1))).
  { intros m p Lp. destruct m as [|m]; [exact I|]. cbn [parse_expr]. destruct m as [|m]; [exact I|]. cbn [parse_primary]. rewrite Ko. cbn [prefix_prec].
    destruct (parse_expr m 0 r1) as [x' rx|rx|] eqn:E; [| |exact I];
      (assert (Ag : parse_expr m 0 r1 = parse_expr k 0 r1) by (apply expr_agree; congruence)); rewrite E, Pk in Ag; [|discriminate Ag].
    injection Ag as -> ->. cbn [pbind expect]. unfold is in Kc. rewrite Kc, kind_eqb_refl. cbn [pbind]. apply (proj1 (proj2 (rests (S m)))). exact Lp. }
  split; [exact He|]. intros m. destruct m as [|m]; [exact I|]. cbn [parse_exprs]. apply rest_bind; [apply He; lia|].
  intros e r _. destruct (next_kind r); try apply rest_ok. apply rest_tl, rest_bind; [apply rests|intros; apply rest_ok].
Qed.

Lemma params_rest n ts : rest_in ts (parse_params n ts).
Proof.
  destruct (parse_params n ts) as [ps r|r|] eqn:E; cbn; auto; [apply params_sound in E; destruct E as (u & -> & _); eauto|exact (begun_rest _ _ _ (params_viable _ _ _ E))].
Qed.
Lemma gate_rest n ts : rest_in ts (parse_gate n ts).
Proof.
  destruct (parse_gate n ts) as [g r|r|] eqn:E; cbn; auto; [apply gate_sound in E; destruct E as (u & -> & _); eauto|exact (begun_rest _ _ _ (gate_viable _ _ _ E))].
Qed.

(** Either the result does not depend on what follows [v], or the decision about
    parameters was taken by looking beyond [v]. *)
Definition looked (w1 r : list token) : Prop :=
  next_kind r = T_OPEN_PARENS /\ exists n x c r2, parse_exprs n (tl r) = POk [x] (c :: r2) /\ is T_CLOSE_PARENS c /\ (List.length r2 <= List.length w1)%nat.
Definition same_but {A} (w1 w2 : list token) (m1 m2 : presult A) : Prop :=
  match m1 with
  | POk a r => forall v', v' <> [] -> r = v' ++ w1 -> m2 = POk a (v' ++ w2) \/ looked w1 r
  | PErr r => forall v', v' <> [] -> r = v' ++ w1 -> m2 = PErr (v' ++ w2)
  | PFuel => True
  end.
Lemma same_same_but {A} w1 w2 (m1 m2 : presult A) : same_rest w1 w2 m1 m2 -> same_but w1 w2 m1 m2.
Proof. destruct m1; cbn; auto. Qed.
Lemma same_but_map {A B} w1 w2 (f : A -> B) (m1 m2 : presult A) : same_but w1 w2 m1 m2 -> same_but w1 w2 (let? (a, r) := m1 in POk (f a) r) (let? (a, r) := m2 in POk (f a) r).
Proof.
  destruct m1 as [a r|r|]; cbn; auto.
  - intros H v' N ->. destruct (H v' N eq_refl) as [->|L]; auto.
  - intros H v' N ->. rewrite (H v' N eq_refl). reflexivity.
Qed.
Lemma suffix_split (v1 w1 x r : list token) : v1 ++ w1 = x ++ r -> (List.length w1 < List.length r)%nat -> exists v', v' <> [] /\ r = v' ++ w1 /\ v1 = x ++ v'.
Proof.
  revert x. induction v1 as [|a v1 IH]; intros x E L; cbn [app] in E.
  - apply (f_equal (@List.length token)) in E. rewrite app_length in E. lia.
  - destruct x as [|b x]; cbn [app] in E.
    + exists (a :: v1). split; [discriminate|]. split; [now symmetry|reflexivity].
    + injection E as -> E. destruct (IH x E L) as (v' & N & -> & ->). eauto.
Qed.
Lemma params_local n v w1 w2 : same_but w1 w2 (parse_params n (v ++ w1)) (parse_params n (v ++ w2)).
Proof.
  destruct v as [|o v].
  { cbn [app]. pose proof (params_rest n w1) as R. destruct (parse_params n w1) as [a r|r|]; cbn in *; auto; destruct R as (x & Ex); intros v' N ->; destruct (not_shorter v' w1 x N Ex). }
  unfold parse_params. cbn [app next_kind]. destruct (tk_kind o) eqn:K; try (apply same_same_but; exact (same_ok w1 w2 None (o :: v))). cbn [tl].
  set (f := fun ts => let? (es, r) := parse_exprs n ts in let? (_c, r') := expect T_CLOSE_PARENS r in POk es r').
  set (g := fun ts (ts0 : list token) => let? (es, r') := f ts in if starts_expression (next_kind r') || negb (Nat.eqb (List.length es) 1) then POk (Some es) r' else POk None ts0).
  assert (G : forall ts ts0, (let? (es, r) := parse_exprs n ts in let? (_c, r') := expect T_CLOSE_PARENS r in if starts_expression (next_kind r') || negb (Nat.eqb (List.length es) 1) then POk (Some es) r' else POk None ts0) = g ts ts0).
  { intros. unfold g, f. destruct (parse_exprs n ts) as [es r|r|]; cbn; auto. destruct (expect T_CLOSE_PARENS r); reflexivity. }
  rewrite !G. clear G. unfold g.
  assert (Lf : local f).
  { apply local_bind; [apply parser_local| |]. intros es. apply local_bind; [apply local_expect|intros; apply local_ok|intros; apply rest_ok]. intros es ts. apply rest_bind; [apply expect_rest|intros; apply rest_ok]. }
  assert (Rf : rest_in (v ++ w1) (f (v ++ w1))).
  { apply rest_bind; [apply rests|]. intros. apply rest_bind; [apply expect_rest|intros; apply rest_ok]. }
  specialize (Lf v w1 w2). destruct (f (v ++ w1)) as [es r|r|] eqn:E; cbn [pbind]; [| |exact I].
  - cbn in Rf. destruct Rf as (x & Ex). destruct (Nat.le_gt_cases (List.length r) (List.length w1)) as [Ls|Ls].
    + destruct (_ || _) eqn:D.
      * intros v' N ->. rewrite app_length in Ls. destruct v'; [congruence|cbn in Ls; lia].
      * intros v' N Ev. right. apply orb_false_iff in D. destruct D as [D1 D2]. apply negb_false_iff, Nat.eqb_eq in D2.
        unfold f in E. ok_inv E es' r' E'. ok_inv E c r'' Ec. injection E as -> ->. apply expect_ok in Ec. destruct Ec as [-> Kc].
        destruct es as [|y [|]]; try discriminate D2. split; [exact K|]. exists n, y, c, r. split; [exact E'|]. split; [exact Kc|exact Ls].
    + destruct (suffix_split _ _ _ _ Ex Ls) as (v1 & N1 & -> & ->). cbn in Lf. rewrite (Lf v1 N1 eq_refl). cbn [pbind].
      replace (next_kind (v1 ++ w2)) with (next_kind (v1 ++ w1)) by (destruct v1; [congruence|reflexivity]).
      apply same_same_but. destruct (_ || _); [apply same_ok|]. exact (same_ok w1 w2 None (o :: x ++ v1)).
  - intros v' N ->. cbn in Lf. rewrite (Lf v' N eq_refl). reflexivity.
Qed.
Lemma same_but_bind {A B} (f : list token -> presult A) (g : A -> list token -> presult B) v w1 w2 :
  local f -> (forall a v, same_but w1 w2 (g a (v ++ w1)) (g a (v ++ w2))) -> (forall a ts, rest_in ts (g a ts)) ->
  same_but w1 w2 (pbind (f (v ++ w1)) g) (pbind (f (v ++ w2)) g).
Proof.
  intros Lf Lg Rg. specialize (Lf v w1 w2). unfold same_rest in Lf. destruct (f (v ++ w1)) as [a r|r|] eqn:E; cbn [pbind]; [| |exact I].
  - pose proof (Rg a r) as R. pose proof (fun x => Lg a x) as G. unfold same_but in G. unfold same_but. destruct (g a r) as [b r'|r'|] eqn:Eg; auto; cbn in R; destruct R as (x & ->); intros v' N ->;
      (rewrite (Lf (x ++ v')); [|destruct x; [exact N|discriminate]|now rewrite <- app_assoc]); cbn [pbind]; specialize (G (x ++ v')); rewrite <- app_assoc, Eg in G; exact (G v' N eq_refl).
  - intros v' N ->. rewrite (Lf v' N eq_refl). reflexivity.
Qed.
Lemma gate_local n : forall v w1 w2, same_but w1 w2 (parse_gate n (v ++ w1)) (parse_gate n (v ++ w2)).
Proof.
  induction n as [|n IH]; intros v w1 w2; [exact I|]. destruct v as [|t v].
  { cbn [app]. pose proof (gate_rest (S n) w1) as R. destruct (parse_gate (S n) w1) as [a r|r|]; unfold same_but; cbn [rest_in] in R; auto; destruct R as (x & Ex); intros v' N ->; destruct (not_shorter v' w1 x N Ex). }
  assert (Dot : forall (f : cgate -> cgate), (forall v, same_but w1 w2 (let? (_d, r) := expect T_DOT (v ++ w1) in let? (g, r') := parse_gate n r in POk (f g) r') (let? (_d, r) := expect T_DOT (v ++ w2) in let? (g, r') := parse_gate n r in POk (f g) r')) /\
    (forall ts, rest_in ts (let? (_d, r) := expect T_DOT ts in let? (g, r') := parse_gate n r in POk (f g) r'))).
  { intros f. assert (R : forall ts, rest_in ts (let? (g, r') := parse_gate n ts in POk (f g) r')) by (intros; apply rest_bind; [apply gate_rest|intros; apply rest_ok]). split.
    - intros u. apply (same_but_bind (expect T_DOT) (fun _ r => let? (g, r') := parse_gate n r in POk (f g) r') u w1 w2); [apply local_expect| |].
      + intros _ u2. apply same_but_map. apply IH.
      + intros _ ts. apply R.
    - intros ts. apply rest_bind; [apply expect_rest|]. intros. apply R. }
  cbn [app parse_gate]. destruct (tk_kind t) eqn:K; try (apply same_same_but; exact (same_err w1 w2 (t :: v))).
  - apply Dot.
  - apply (same_but_bind (expect T_OPEN_PARENS) (fun _ r => let? (e, r1) := parse_expr n 0 r in let? (_c, r2) := expect T_CLOSE_PARENS r1 in let? (_d, r3) := expect T_DOT r2 in let? (g, r4) := parse_gate n r3 in POk (CPow t e g) r4) v w1 w2); [apply local_expect| |].
    + intros _ u. apply (same_but_bind (parse_expr n 0) (fun e r1 => let? (_c, r2) := expect T_CLOSE_PARENS r1 in let? (_d, r3) := expect T_DOT r2 in let? (g, r4) := parse_gate n r3 in POk (CPow t e g) r4) u w1 w2); [apply parser_local; lia| |].
      * intros e u2. apply (same_but_bind (expect T_CLOSE_PARENS) (fun _ r2 => let? (_d, r3) := expect T_DOT r2 in let? (g, r4) := parse_gate n r3 in POk (CPow t e g) r4) u2 w1 w2); [apply local_expect| |].
        -- intros _ u3. apply (Dot (CPow t e)).
        -- intros _ ts. apply (Dot (CPow t e)).
      * intros e ts. apply rest_bind; [apply expect_rest|]. intros. apply (Dot (CPow t e)).
    + intros _ ts. apply rest_bind; [apply rests; lia|]. intros. apply rest_bind; [apply expect_rest|]. intros. apply (Dot (CPow t a)).
  - apply Dot.
  - apply same_but_map. apply params_local.
Qed.
(** ... which the operand then does as well. *)
Definition reaches {A} (m : presult A) (u : list token) : Prop := m = PErr u \/ exists a, m = POk a u.
Lemma reaches_bind {A B} (m : presult A) (f : A -> list token -> presult B) u : reaches (pbind m f) u -> (forall a r, rest_in r (f a r)) ->
  exists u' x, reaches m u' /\ u' = x ++ u.
Proof.
  intros H R. destruct m as [a r|r|]; cbn [pbind] in H.
  - specialize (R a r). exists r. destruct H as [H|[b H]]; rewrite H in R; cbn in R; destruct R as (x & E); exists x; (split; [right; eauto|exact E]).
  - exists u, []. destruct H as [H|[b H]]; [injection H as ->|discriminate]. split; [left; reflexivity|reflexivity].
  - destruct H as [H|[b H]]; discriminate.
Qed.
Lemma looked_rest w1 r u : looked w1 r -> (exists m, reaches (parse_expr m 0 r) u \/ reaches (parse_exprs m r) u) -> (List.length u <= List.length w1)%nat.
Proof.
  intros (K & n & x & c & r2 & P & Kc & L) (m & H). destruct (parens_rest n r x c r2 K P Kc) as [He Hs]. specialize (He m 0 ltac:(lia)). specialize (Hs m).
  destruct H as [[H|[e H]]|[H|[e H]]]; rewrite H in *; cbn in *; [destruct He as (y & ->)|destruct He as (y & ->)|destruct Hs as (y & ->)|destruct Hs as (y & ->)]; rewrite app_length in L; lia.
Qed.
Lemma local_after {A B} (f : list token -> presult A) (g : A -> list token -> presult B) :
  (forall v w1 w2, same_but w1 w2 (f (v ++ w1)) (f (v ++ w2))) -> (forall a, local (g a)) -> (forall a ts, rest_in ts (g a ts)) ->
  (forall a w1 r u, looked w1 r -> reaches (g a r) u -> (List.length u <= List.length w1)%nat) ->
  local (fun ts => pbind (f ts) g).
Proof.
  intros Lf Lg Rg Lo v w1 w2. specialize (Lf v w1 w2). unfold same_rest, same_but in *. destruct (f (v ++ w1)) as [a r|r|] eqn:E; cbn [pbind]; auto.
  - pose proof (Rg a r) as R. pose proof (Lo a w1 r) as Lk. pose proof (fun x => Lg a x w1 w2) as G. unfold same_rest in G. destruct (g a r) as [b r'|r'|] eqn:Eg; auto; cbn in R; destruct R as (x & ->); intros v' N ->;
      (destruct (Lf (x ++ v')) as [->|Y]; [destruct x; [exact N|discriminate]|now rewrite <- app_assoc| |]); cbn [pbind];
      try (specialize (G (x ++ v')); rewrite <- app_assoc, Eg in G; exact (G v' N eq_refl));
      (exfalso; specialize (Lk (v' ++ w1) Y); rewrite app_length in Lk; destruct v'; [congruence|]; cbn in Lk; 
       assert (X : (S (List.length v' + List.length w1) <= List.length w1)%nat); [apply Lk; unfold reaches; eauto|lia]).
  - intros v' N ->. rewrite (Lf v' N eq_refl). reflexivity.
Qed.
Lemma exprs_then n g ts : rest_in ts (let? (es, r') := parse_exprs n ts in if ends_statement (next_kind r') then POk (CGateInstr g es) r' else PErr r').
Proof. apply rest_bind; [apply rests|]. intros a r _. destruct (ends_statement (next_kind r)); [apply rest_ok|apply rest_err]. Qed.
Lemma local_err {A} : local (fun ts => @PErr A ts).
Proof. intros v w1 w2. apply same_err. Qed.
Lemma gate_instruction_local n : local (parse_gate_instruction n).
Proof.
  unfold parse_gate_instruction. apply local_after; [intros; apply gate_local| |intros; apply exprs_then|].
  - intros g. apply local_bind; [apply parser_local| |].
    + intros es. refine (local_peek (fun k r' => if ends_statement k then POk (CGateInstr g es) r' else PErr r') _ _).
      * intros k ts. destruct (ends_statement k); [apply rest_ok|apply rest_err].
      * intros k. destruct (ends_statement k); [apply local_ok|apply local_err].
    + intros es ts. destruct (ends_statement (next_kind ts)); [apply rest_ok|apply rest_err].
  - intros g w1 r u Lk H. apply reaches_bind in H; [|intros a r0; destruct (ends_statement (next_kind r0)); [apply rest_ok|apply rest_err]].
    destruct H as (u' & x & H & ->). assert (X := looked_rest w1 r (x ++ u) Lk (ex_intro _ n (or_intror H))). rewrite app_length in X. lia.
Qed.
Lemma measure_local n : local (parse_measure n).
Proof.
  assert (R1 : forall t e1 ps ts, rest_in ts (let? (rhs, r4) := parse_expr n 0 ts in POk (CMeasure t e1 ps rhs) r4)) by (intros; apply rest_bind; [apply rests; lia|intros; apply rest_ok]).
  assert (R2 : forall t e1 ts, rest_in ts (let? (ps, r3) := parse_params n ts in let? (rhs, r4) := parse_expr n 0 r3 in POk (CMeasure t e1 ps rhs) r4)) by (intros; apply rest_bind; [apply params_rest|intros; apply R1]).
  assert (R3 : forall e1 ts, rest_in ts (let? (t, r2) := expect T_MEASURE ts in let? (ps, r3) := parse_params n r2 in let? (rhs, r4) := parse_expr n 0 r3 in POk (CMeasure t e1 ps rhs) r4)) by (intros; apply rest_bind; [apply expect_rest|intros; apply R2]).
  assert (R4 : forall e1 ts, rest_in ts (let? (_e, r1) := expect T_EQUALS ts in let? (t, r2) := expect T_MEASURE r1 in let? (ps, r3) := parse_params n r2 in let? (rhs, r4) := parse_expr n 0 r3 in POk (CMeasure t e1 ps rhs) r4)) by (intros; apply rest_bind; [apply expect_rest|intros; apply R3]).
  unfold parse_measure. apply local_bind; [apply parser_local; lia| |intros; apply R4].
  intros e1. apply local_bind; [apply local_expect| |intros; apply R3]. intros _. apply local_bind; [apply local_expect| |intros; apply R2].
  intros t. apply local_after; [apply params_local| |intros; apply R1|].
  - intros ps. apply local_bind; [apply parser_local; lia|intros; apply local_ok|intros; apply rest_ok].
  - intros ps w1 r u Lk H. apply reaches_bind in H; [|intros; apply rest_ok].
    destruct H as (u' & x & H & ->). assert (X := looked_rest w1 r (x ++ u) Lk (ex_intro _ n (or_introl H))). rewrite app_length in X. lia.
Qed.
Lemma gate_instruction_rest n ts : rest_in ts (parse_gate_instruction n ts).
Proof. apply rest_bind; [apply gate_rest|]. intros. apply exprs_then. Qed.
Lemma measure_rest n ts : rest_in ts (parse_measure n ts).
Proof.
  unfold parse_measure. apply rest_bind; [apply rests; lia|]. intros. apply rest_bind; [apply expect_rest|]. intros. apply rest_bind; [apply expect_rest|]. intros. apply rest_bind; [apply params_rest|]. intros.
  apply rest_bind; [apply rests; lia|intros; apply rest_ok].
Qed.
Lemma type_rest ts : rest_in ts (parse_type ts).
Proof.
  unfold parse_type. destruct ts as [|t ts]; [apply rest_err|]. apply rest_cons. destruct (next_kind ts); try apply rest_ok.
  apply rest_tl. apply rest_bind; [apply expect_rest|]. intros. apply rest_bind; [apply expect_rest|]. intros. apply rest_ok.
Qed.
Lemma type_local : local parse_type.
Proof.
  apply local_next; [apply type_rest|]. intros t v w1 w2. cbn [parse_type].
  set (F := fun ts => let? (i, r) := expect T_INTEGER_LITERAL ts in let? (c, r') := expect T_CLOSE_BRACKET r in POk (mkCType t (Some (i, c))) r').
  assert (RF : forall ts, rest_in ts (F ts)) by (intros; apply rest_bind; [apply expect_rest|]; intros; apply rest_bind; [apply expect_rest|intros; apply rest_ok]).
  assert (LF : local F).
  { apply local_bind; [apply local_expect| |]; [intros; apply local_bind; [apply local_expect|intros; apply local_ok|intros; apply rest_ok]|intros; apply rest_bind; [apply expect_rest|intros; apply rest_ok]]. }
  refine (local_peek (fun k ts => match k with T_OPEN_BRACKET => F (tl ts) | _ => POk (mkCType t None) ts end) _ _ v w1 w2).
  - intros k ts. destruct k; try apply rest_ok. apply rest_tl, RF.
  - intros k. destruct k; try apply local_ok. apply local_tl; assumption.
Qed.
Lemma further_rest (ts r1 r2 : list token) : (exists u, ts = u ++ r1) -> (exists u, ts = u ++ r2) -> exists u, ts = u ++ further r1 r2.
Proof. intros H1 H2. unfold further. destruct (Nat.leb _ _); auto. Qed.
Lemma statement_rest n ts : rest_in ts (parse_statement n ts).
Proof.
  unfold parse_statement. destruct ts as [|t ts]; [apply rest_err|].
  destruct (tk_kind t); try apply measure_rest; try apply gate_instruction_rest;
    try (apply rest_cons; apply rest_bind; [apply rests; lia|intros; apply rest_ok]);
    try (apply rest_bind; [apply type_rest|intros; apply rest_bind; [apply expect_rest|intros; apply rest_ok]]).
  - apply rest_cons. apply rest_bind; [apply expect_rest|]. intros. apply rest_bind; [apply rests; lia|]. intros. apply rest_bind; [apply expect_rest|]. intros. apply rest_bind; [apply rests; lia|]. intros. apply rest_ok.
  - apply rest_cons. apply rest_bind; [apply expect_rest|]. intros. apply rest_bind; [apply expect_rest|]. intros. apply rest_bind; [apply expect_rest|]. intros. apply rest_bind; [apply expect_rest|]. intros. apply rest_ok.
  - pose proof (gate_instruction_rest n (t :: ts)) as G. pose proof (measure_rest n (t :: ts)) as M. destruct (parse_gate_instruction n (t :: ts)) as [s r|r|]; auto.
    destruct (parse_measure n (t :: ts)) as [s2 r2|r2|]; auto. cbn in *. now apply further_rest.
Qed.
(** Both alternatives of a statement *)
Definition two (n : nat) (ts : list token) : presult cstatement :=
  match parse_gate_instruction n ts with
  | POk s r => POk s r
  | PFuel => PFuel
  | PErr r1 => match parse_measure n ts with PErr r2 => PErr (further r1 r2) | x => x end
  end.
Lemma measure_equals n ts s r : parse_measure n ts = POk s r -> exists a q b, ts = a ++ q :: b ++ r /\ is T_EQUALS q.
Proof.
  unfold parse_measure. intros H. ok_inv H e1 r1 E1. ok_inv H q r2 E2. ok_inv H t r3 E3. ok_inv H ps r4 E4. ok_inv H e2 r5 E5. injection H as <- <-.
  apply expr_sound in E1, E5. apply expect_ok in E2, E3. apply params_sound in E4. destruct E1 as (u1 & -> & _), E2 as [-> K2], E3 as [-> K3], E4 as (u4 & -> & _), E5 as (u5 & -> & _).
  exists u1, q, (t :: u4 ++ u5). split; [cbn [app]; now rewrite <- app_assoc|exact K2].
Qed.
Lemma before_equals ts u r1 a q b r : ts = u ++ r1 -> Forall inner u -> ts = a ++ q :: b ++ r -> is T_EQUALS q -> (List.length r < List.length r1)%nat.
Proof.
  intros -> F E K. revert a E. induction u as [|x u IH]; intros a E; cbn [app] in E.
  - subst r1. rewrite app_length. cbn [List.length]. rewrite app_length. lia.
  - inversion F as [|? ? X F']; subst. destruct a as [|y a]; cbn [app] in E; injection E as -> E; [|now apply (IH F' a)].
    exfalso. destruct X as (_ & X & _). exact (X K).
Qed.
Lemma two_local n v w1 w2 : same_rest w1 w2 (two n (v ++ w1)) (two n (v ++ w2)).
Proof.
  unfold two. pose proof (gate_instruction_local n v w1 w2) as G. pose proof (measure_local n v w1 w2) as M. pose proof (gate_instruction_rest n (v ++ w1)) as Rg. pose proof (measure_rest n (v ++ w1)) as Rm. unfold same_rest in *.
  destruct (parse_gate_instruction n (v ++ w1)) as [s r|r1|] eqn:Eg; auto.
  - intros v' N E. now rewrite (G v' N E).
  - destruct (parse_measure n (v ++ w1)) as [s r|r2|] eqn:Em; auto.
    + (* the gate alternative failed before the sign = *)
      intros v' N ->. rewrite (M v' N eq_refl).
      assert (X : exists v1, v1 <> [] /\ r1 = v1 ++ w1).
      { destruct (gate_instruction_err_inner _ _ _ Eg) as (u & Eu & Fu). apply measure_equals in Em. destruct Em as (a & q & b & E2 & Kq).
        assert (Lr : (List.length (v' ++ w1) < List.length r1)%nat) by (eapply before_equals; eauto).
        destruct Rg as (x & Ex). destruct (suffix_split _ _ _ _ Ex) as (v1 & N1 & E1 & _); [rewrite app_length in Lr; lia|eauto]. }
      destruct X as (v1 & N1 & ->). now rewrite (G v1 N1 eq_refl).
    + intros v' N E. cbn in Rg, Rm. unfold further in *. destruct Rg as (xg & Exg), Rm as (xm & Exm). destruct (Nat.leb (List.length r1) (List.length r2)) eqn:Le.
      * subst r1. rewrite (G v' N eq_refl). apply Nat.leb_le in Le. rewrite app_length in Le.
        destruct (suffix_split _ _ _ _ Exm) as (v2 & N2 & -> & _); [destruct v'; [congruence|cbn in Le; lia]|]. rewrite (M v2 N2 eq_refl). rewrite !app_length in *.
        replace (Nat.leb _ _) with true; [reflexivity|]. symmetry. apply Nat.leb_le. lia.
      * subst r2. rewrite (M v' N eq_refl). apply Nat.leb_gt in Le. rewrite app_length in Le.
        destruct (suffix_split _ _ _ _ Exg) as (v2 & N2 & -> & _); [lia|]. rewrite (G v2 N2 eq_refl). rewrite !app_length in *.
        replace (Nat.leb _ _) with false; [reflexivity|]. symmetry. apply Nat.leb_gt. lia.
Qed.

Lemma statement_local n : local (parse_statement n).
Proof.
  apply local_next; [apply statement_rest|]. intros t v w1 w2. cbn [parse_statement].
  assert (One : forall f : cexpr -> cstatement, same_rest w1 w2 (let? (e, r) := parse_expr n 0 (v ++ w1) in POk (f e) r) (let? (e, r) := parse_expr n 0 (v ++ w2) in POk (f e) r)).
  { intros f. apply (local_bind (parse_expr n 0) (fun e r => POk (f e) r)); [apply parser_local; lia|intros; apply local_ok|intros; apply rest_ok]. }
  assert (Ty : same_rest w1 w2 (let? (ty, r) := parse_type (t :: v ++ w1) in let? (name, r') := expect T_IDENTIFIER r in POk (CVariable ty name) r') (let? (ty, r) := parse_type (t :: v ++ w2) in let? (name, r') := expect T_IDENTIFIER r in POk (CVariable ty name) r')).
  { apply (local_bind parse_type (fun ty r => let? (name, r') := expect T_IDENTIFIER r in POk (CVariable ty name) r') type_local) with (v := t :: v).
    - intros. apply local_bind; [apply local_expect|intros; apply local_ok|intros; apply rest_ok].
    - intros. apply rest_bind; [apply expect_rest|intros; apply rest_ok]. }
  destruct (tk_kind t) eqn:K; try exact (measure_local n (t :: v) w1 w2); try exact (gate_instruction_local n (t :: v) w1 w2); try apply One; try exact Ty.
  - assert (R1 : forall p ts, rest_in ts (let? (e, r3) := parse_expr n 0 ts in POk (CWait t p e) r3)) by (intros; apply rest_bind; [apply rests; lia|intros; apply rest_ok]).
    assert (R2 : forall p ts, rest_in ts (let? (_c, r2) := expect T_CLOSE_PARENS ts in let? (e, r3) := parse_expr n 0 r2 in POk (CWait t p e) r3)) by (intros; apply rest_bind; [apply expect_rest|intros; apply R1]).
    refine (local_bind (expect T_OPEN_PARENS) (fun _ r => let? (p, r1) := parse_expr n 0 r in let? (_c, r2) := expect T_CLOSE_PARENS r1 in let? (e, r3) := parse_expr n 0 r2 in POk (CWait t p e) r3) _ _ _ v w1 w2); [apply local_expect| |].
    + intros _. apply local_bind; [apply parser_local; lia| |intros; apply R2]. intros p. apply local_bind; [apply local_expect| |intros; apply R1]. intros _.
      apply local_bind; [apply parser_local; lia|intros; apply local_ok|intros; apply rest_ok].
    + intros _ ts. apply rest_bind; [apply rests; lia|]. intros. apply R2.
  - assert (R1 : forall nm ts, rest_in ts (let? (code, r3) := expect T_RAW_TEXT_STRING ts in POk (CAsm nm code) r3)) by (intros; apply rest_bind; [apply expect_rest|intros; apply rest_ok]).
    assert (R2 : forall nm ts, rest_in ts (let? (_c, r2) := expect T_CLOSE_PARENS ts in let? (code, r3) := expect T_RAW_TEXT_STRING r2 in POk (CAsm nm code) r3)) by (intros; apply rest_bind; [apply expect_rest|intros; apply R1]).
    refine (local_bind (expect T_OPEN_PARENS) (fun _ r => let? (name, r1) := expect T_IDENTIFIER r in let? (_c, r2) := expect T_CLOSE_PARENS r1 in let? (code, r3) := expect T_RAW_TEXT_STRING r2 in POk (CAsm name code) r3) _ _ _ v w1 w2); [apply local_expect| |].
    + intros _. apply local_bind; [apply local_expect| |intros; apply R2]. intros p. apply local_bind; [apply local_expect| |intros; apply R1]. intros _.
      apply local_bind; [apply local_expect|intros; apply local_ok|intros; apply rest_ok].
    + intros _ ts. apply rest_bind; [apply expect_rest|]. intros. apply R2.
  - exact (two_local n (t :: v) w1 w2).
Qed.

(** ** Blocks and programs *)
Lemma skip_rest {A} (f : list token -> presult A) : (forall ts, rest_in ts (f ts)) -> forall ts, rest_in ts (f (skip_separators ts)).
Proof.
  intros R ts. destruct (skip_separators_split ts) as (seps & E & _). specialize (R (skip_separators ts)). destruct (f (skip_separators ts)); cbn in *; auto; destruct R as (u & Eu); exists (seps ++ u); rewrite <- app_assoc, <- Eu; exact E.
Qed.
Lemma local_skip {A} (f : list token -> presult A) : (forall ts, rest_in ts (f ts)) -> local f -> local (fun ts => f (skip_separators ts)).
Proof.
  intros R H v. induction v as [|t v IH]; intros w1 w2.
  - cbn [app]. pose proof (skip_rest f R w1) as X. unfold same_rest. destruct (f (skip_separators w1)) as [a r|r|]; auto; cbn in X; destruct X as (x & Ex); intros v' N ->; destruct (not_shorter v' w1 x N Ex).
  - cbn [app skip_separators]. destruct (is_separator (tk_kind t)); [apply IH|exact (H (t :: v) w1 w2)].
Qed.
Definition block_step (n : nat) (ts : list token) : presult (list cstatement) :=
  match next_kind ts with
  | T_EOF => POk [] ts
  | _ => let? (s, r) := parse_statement n ts in let? (ss, r') := parse_statements n r in POk (s :: ss) r'
  end.
Lemma statements_rest n : forall ts, rest_in ts (parse_statements n ts).
Proof.
  induction n as [|n IH]; intros ts; [exact I|]. cbn [parse_statements].
  assert (R : forall ts, rest_in ts (block_step n ts)).
  { intros ts0. unfold block_step. assert (X : rest_in ts0 (let? (s, r) := parse_statement n ts0 in let? (ss, r') := parse_statements n r in POk (s :: ss) r')) by (apply rest_bind; [apply statement_rest|]; intros; apply rest_bind; [apply IH|intros; apply rest_ok]).
    destruct (next_kind ts0); try exact X. apply rest_ok. }
  destruct (next_kind ts); try apply rest_err; try apply rest_ok; exact (skip_rest (block_step n) R ts).
Qed.
Lemma statements_local n : local (parse_statements n).
Proof.
  induction n as [|n IH]; [intros v w1 w2; exact I|].
  assert (X : forall ts0, rest_in ts0 (let? (s, r) := parse_statement n ts0 in let? (ss, r') := parse_statements n r in POk (s :: ss) r')) by (intros; apply rest_bind; [apply statement_rest|]; intros; apply rest_bind; [apply statements_rest|intros; apply rest_ok]).
  assert (R : forall ts, rest_in ts (block_step n ts)) by (intros ts; unfold block_step; destruct (next_kind ts); try apply X; apply rest_ok).
  assert (L : local (block_step n)).
  { refine (local_peek (fun k ts => match k with T_EOF => POk [] ts | _ => let? (s, r) := parse_statement n ts in let? (ss, r') := parse_statements n r in POk (s :: ss) r' end) _ _).
    - intros k ts. destruct k; try apply X. apply rest_ok.
    - assert (Y : local (fun ts => let? (s, r) := parse_statement n ts in let? (ss, r') := parse_statements n r in POk (s :: ss) r')).
      { apply local_bind; [apply statement_local| |]; [intros; apply local_bind; [exact IH|intros; apply local_ok|intros; apply rest_ok]|intros; apply rest_bind; [apply statements_rest|intros; apply rest_ok]]. }
      intros k. destruct k; try exact Y. apply local_ok. }
  refine (local_peek (fun k ts => match k with T_EOF => POk [] ts | T_NEW_LINE | T_SEMICOLON => block_step n (skip_separators ts) | _ => PErr ts end) _ _).
  - intros k ts. destruct k; try apply rest_err; try apply rest_ok; exact (skip_rest (block_step n) R ts).
  - intros k. destruct k; try apply local_err; try apply local_ok; exact (local_skip (block_step n) R L).
Qed.
(** The parser with a given fuel *)
Definition parse_program_with (fuel : nat) (ts : list token) : presult cprogram :=
  let? (_v, r) := expect T_VERSION (skip_separators ts) in
  let? (v, r1) := expect T_VERSION_NUMBER r in
  let? (ss, r2) := parse_statements fuel r1 in
  POk (mkCProgram v ss) r2.
Lemma program_local fuel : local (parse_program_with fuel).
Proof.
  assert (R1 : forall v ts, rest_in ts (let? (ss, r2) := parse_statements fuel ts in POk (mkCProgram v ss) r2)) by (intros; apply rest_bind; [apply statements_rest|intros; apply rest_ok]).
  assert (R2 : forall ts, rest_in ts (let? (v, r1) := expect T_VERSION_NUMBER ts in let? (ss, r2) := parse_statements fuel r1 in POk (mkCProgram v ss) r2)) by (intros; apply rest_bind; [apply expect_rest|intros; apply R1]).
  refine (local_skip (fun ts => let? (_v, r) := expect T_VERSION ts in let? (v, r1) := expect T_VERSION_NUMBER r in let? (ss, r2) := parse_statements fuel r1 in POk (mkCProgram v ss) r2) _ _).
  - intros ts. apply rest_bind; [apply expect_rest|]. intros. apply R2.
  - apply local_bind; [apply local_expect| |intros; apply R2]. intros _. apply local_bind; [apply local_expect| |intros; apply R1]. intros v.
    apply local_bind; [apply statements_local|intros; apply local_ok|intros; apply rest_ok].
Qed.

(** More fuel *)
Lemma params_same n m ts : (n <= m)%nat -> same_fuel (parse_params n ts) (parse_params m ts).
Proof. intros L. unfold parse_params. destruct (next_kind ts); try apply refl_same. apply bind_same; [apply parser_same; exact L|]. intros. apply refl_same. Qed.
Lemma gate_same n : forall m ts, (n <= m)%nat -> same_fuel (parse_gate n ts) (parse_gate m ts).
Proof.
  induction n as [|n IH]; intros m ts L; [intros N; destruct (N eq_refl)|]. destruct m as [|m]; [lia|]. cbn [parse_gate]. destruct ts as [|t ts]; [apply refl_same|].
  assert (G : forall ts, same_fuel (parse_gate n ts) (parse_gate m ts)) by (intros; apply IH; lia).
  destruct (tk_kind t); try apply refl_same.
  - apply bind_same; [apply refl_same|]. intros. apply bind_same; [apply G|intros; apply refl_same].
  - apply bind_same; [apply refl_same|]. intros. apply bind_same; [apply parser_same; lia|]. intros. apply bind_same; [apply refl_same|]. intros. apply bind_same; [apply refl_same|]. intros. apply bind_same; [apply G|intros; apply refl_same].
  - apply bind_same; [apply refl_same|]. intros. apply bind_same; [apply G|intros; apply refl_same].
  - apply bind_same; [apply params_same; lia|intros; apply refl_same].
Qed.
Lemma gate_instruction_same n m ts : (n <= m)%nat -> same_fuel (parse_gate_instruction n ts) (parse_gate_instruction m ts).
Proof. intros L. apply bind_same; [now apply gate_same|]. intros. apply bind_same; [now apply parser_same|]. intros. apply refl_same. Qed.
Lemma measure_same n m ts : (n <= m)%nat -> same_fuel (parse_measure n ts) (parse_measure m ts).
Proof.
  intros L. apply bind_same; [now apply parser_same|]. intros. apply bind_same; [apply refl_same|]. intros. apply bind_same; [apply refl_same|]. intros. apply bind_same; [now apply params_same|].
  intros. apply bind_same; [now apply parser_same|]. intros. apply refl_same.
Qed.
Lemma statement_same n m ts : (n <= m)%nat -> same_fuel (parse_statement n ts) (parse_statement m ts).
Proof.
  intros L. unfold parse_statement. destruct ts as [|t ts]; [apply refl_same|].
  destruct (tk_kind t); try (now apply measure_same); try (now apply gate_instruction_same); try (apply bind_same; [now apply parser_same|intros; apply refl_same]); try apply refl_same.
  - apply bind_same; [apply refl_same|]. intros. apply bind_same; [now apply parser_same|]. intros. apply bind_same; [apply refl_same|]. intros. apply bind_same; [now apply parser_same|]. intros. apply refl_same.
  - intros N. pose proof (gate_instruction_same n m (t :: ts) L) as G. pose proof (measure_same n m (t :: ts) L) as M.
    destruct (parse_gate_instruction n (t :: ts)) as [s r|r|]; try congruence; (rewrite G by discriminate); [reflexivity|].
    destruct (parse_measure n (t :: ts)) as [s2 r2|r2|]; try congruence; now rewrite M by discriminate.
Qed.
Lemma statements_same n : forall m ts, (n <= m)%nat -> same_fuel (parse_statements n ts) (parse_statements m ts).
Proof.
  induction n as [|n IH]; intros m ts L; [intros N; destruct (N eq_refl)|]. destruct m as [|m]; [lia|]. cbn [parse_statements].
  assert (X : forall ts, same_fuel (let? (s, r) := parse_statement n ts in let? (ss, r') := parse_statements n r in POk (s :: ss) r') (let? (s, r) := parse_statement m ts in let? (ss, r') := parse_statements m r in POk (s :: ss) r')).
  { intros. apply bind_same; [apply statement_same; lia|]. intros. apply bind_same; [apply IH; lia|intros; apply refl_same]. }
  destruct (next_kind ts); try apply refl_same; (destruct (next_kind (skip_separators ts)); try apply X; apply refl_same).
Qed.
Lemma program_same ts m : (parse_fuel ts <= m)%nat -> parse_program_with m ts = parse_program ts.
Proof.
  intros L. pose proof (program_fuel ts) as N. change (parse_program ts) with (parse_program_with (parse_fuel ts) ts) in *.
  assert (S : same_fuel (parse_program_with (parse_fuel ts) ts) (parse_program_with m ts)); [|now apply S].
  apply bind_same; [apply refl_same|]. intros. apply bind_same; [apply refl_same|]. intros. apply bind_same; [now apply statements_same|]. intros. apply refl_same.
Qed.

(** ** The error is at the first token that cannot continue a program *)
Theorem program_dead u t w : parse_program (u ++ t :: w) = PErr (t :: w) -> ~ begins program_tokens (u ++ [t]).
Proof.
  intros H (p & z & T). rewrite <- app_assoc in T. cbn [app] in T. destruct (program_arrange _ _ T) as (p' & T' & B). destruct (program_complete _ _ T' B) as (eof & _ & P).
  set (m := (parse_fuel (u ++ t :: w) + parse_fuel (u ++ t :: z))%nat).
  rewrite <- (program_same _ m) in H by (unfold m; lia). rewrite <- (program_same _ m) in P by (unfold m; lia).
  pose proof (program_local m (u ++ [t]) w z) as L. rewrite <- !app_assoc in L. cbn [app] in L. unfold same_rest in L. rewrite H in L. specialize (L [t] ltac:(discriminate) eq_refl). cbn [app] in L. rewrite P in L. discriminate L.
Qed.
