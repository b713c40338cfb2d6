(** The parser on gates, statements and programs (C48, C49, C52, C54, C63). *)
From Coq Require Import ZifyBool ZifyN ZifyNat.
From Verif Require Import Base ModelLexer ModelParser SpecParser ProofsParser ProofsParser2.

Lemma exprs_sound n ts es r : parse_exprs n ts = POk es r -> exists u, ts = u ++ r /\ exprs_tokens es u /\ binds_all es.
Proof. apply (proj1 (proj2 (proj2 (proj2 (parser_sound n))))). Qed.
Lemma expr_sound n ts e r : parse_expr n 0 ts = POk e r -> exists u, ts = u ++ r /\ expr_tokens e u /\ binds 0 e.
Proof. intros H. destruct (proj1 (parser_sound n) 0 ts e r ltac:(lia) H) as (u & E & T & B & _). exists u. split; [exact E|]. split; [exact T|]. apply (binds_le _ _ _ B). lia. Qed.
Lemma expr_complete n e u r : expr_tokens e u -> binds 0 e -> ends_expr (next_kind r) = true -> (4 * List.length (u ++ r) + 2 <= n)%nat ->
  parse_expr n 0 (u ++ r) = POk e r.
Proof.
  intros T B E L. destruct (ends_stop 0 r E) as [S N]. apply complete_at; auto; try lia. exact (proj1 parser_complete e u T).
Qed.
Lemma exprs_complete n es u r : exprs_tokens es u -> binds_all es -> next_kind r = T_CLOSE_PARENS \/ ends_statement (next_kind r) = true ->
  (4 * List.length (u ++ r) + 3 <= n)%nat -> parse_exprs n (u ++ r) = POk es r.
Proof. intros T B E L. exact (proj1 (proj2 parser_complete) es u T r n B E L). Qed.
Lemma expr_fuel n ts : (4 * List.length ts + 2 <= n)%nat -> parse_expr n 0 ts <> PFuel.
Proof. apply (proj1 (parser_fuel n)). lia. Qed.
Lemma exprs_fuel n ts : (4 * List.length ts + 3 <= n)%nat -> parse_exprs n ts <> PFuel.
Proof. apply (proj1 (proj2 (proj2 (proj2 (parser_fuel n))))). Qed.

(** ** "( e ) ..." at the beginning of an operand *)
Lemma open_expr e u : expr_tokens e u -> forall p, binds p e -> next_kind u = T_OPEN_PARENS ->
  exists o x ux c u', u = o :: ux ++ c :: u' /\ is T_OPEN_PARENS o /\ is T_CLOSE_PARENS c /\ expr_tokens x ux /\ binds 0 x /\
    ((e = CParens x /\ u' = []) \/
     ((forall y, e <> CParens y) /\ exists t u'', u' = t :: u'' /\ (In (tk_kind t) (concat binary_operators) \/ is T_TERNARY_CONDITIONAL_OP t) /\
        (starts_like_params e <-> one_of [T_PLUS; T_MINUS] t))).
Proof.
  induction 1 as [o e ts c Ko T _ Kc|t e ts Kt|t e1 e2 ts1 ts2 Kt T1 IH1 T2 _|t colon e1 e2 e3 ts1 ts2 ts3 Kt Kc T1 IH1 T2 _ T3 _|name o c Kn|name o args ts c Kn|name o idx ts c Kn|t Kt|t Kt|t Kt|t Kt];
    intros p B N; cbn [next_kind] in N; unfold is in *; try congruence.
  - exists o, e, ts, c, []. inversion B; subst. auto 10.
  - exfalso. unfold one_of in Kt. rewrite N in Kt. cbn in Kt. intuition discriminate.
  - assert (N1 : next_kind ts1 = T_OPEN_PARENS) by (pose proof (proj1 expr_tokens_nonempty _ _ T1); destruct ts1; [congruence|exact N]).
    apply binds_binary_inv in B. destruct B as (q & Eq & _ & B1 & _).
    destruct (IH1 _ B1 N1) as (o & x & ux & c & u' & -> & Ko & Kc & Tx & Bx & D).
    exists o, x, ux, c, (u' ++ t :: ts2). split; [cbn; now rewrite <- app_assoc|]. split; [exact Ko|]. split; [exact Kc|]. split; [exact Tx|]. split; [exact Bx|]. right. split; [discriminate|].
    destruct D as [[-> ->]|[Ne (t' & u'' & -> & Kt' & S)]].
    + exists t, ts2. split; [reflexivity|]. split; [left; exact Kt|]. reflexivity.
    + exists t', (u'' ++ t :: ts2). split; [reflexivity|]. split; [exact Kt'|]. rewrite <- S. destruct e1; try reflexivity. destruct (Ne e1 eq_refl).
  - assert (N1 : next_kind ts1 = T_OPEN_PARENS) by (pose proof (proj1 expr_tokens_nonempty _ _ T1); destruct ts1; [congruence|exact N]).
    inversion B as [? ? ? ? B1 B2 B3| | | | | | | | | |]; subst.
    destruct (IH1 _ B1 N1) as (o & x & ux & c & u' & -> & Ko & Kc' & Tx & Bx & D).
    exists o, x, ux, c, (u' ++ t :: ts2 ++ colon :: ts3). split; [cbn; now rewrite <- app_assoc|]. split; [exact Ko|]. split; [exact Kc'|]. split; [exact Tx|]. split; [exact Bx|]. right. split; [discriminate|].
    destruct D as [[-> ->]|[Ne (t' & u'' & -> & Kt' & S)]].
    + exists t, (ts2 ++ colon :: ts3). split; [reflexivity|]. split; [right; exact Kt|]. cbn. split; [contradiction|]. unfold one_of. rewrite Kt. cbn. intuition discriminate.
    + exists t', (u'' ++ t :: ts2 ++ colon :: ts3). split; [reflexivity|]. split; [exact Kt'|]. exact S.
Qed.
Lemma exprs_head es u : exprs_tokens es u -> exists e es' v u', es = e :: es' /\ u = v ++ u' /\ expr_tokens e v /\ (u' = [] \/ exists comma w, u' = comma :: w /\ is T_COMMA comma).
Proof.
  intros H. inversion H as [e ts T|e ts comma es' ts' T Kc T']; subst.
  - exists e, [], u, []. split; [reflexivity|]. split; [now rewrite app_nil_r|]. auto.
  - exists e, es', ts, (comma :: ts'). split; [reflexivity|]. split; [reflexivity|]. split; [exact T|]. right. eauto.
Qed.
(** Where the parser decides against parameters. *)
Definition bare_ok (r : list token) : Prop := next_kind r = T_OPEN_PARENS ->
  exists x c r2, (forall n, (4 * List.length (tl r) + 3 <= n)%nat -> parse_exprs n (tl r) = POk [x] (c :: r2)) /\ is T_CLOSE_PARENS c /\ starts_expression (next_kind r2) = false.
Lemma operand_bare_ok e v w : expr_tokens e v -> binds 0 e -> ~ starts_like_params e -> starts_expression (next_kind w) = false -> bare_ok (v ++ w).
Proof.
  intros T B NS Sw N. assert (Nv : next_kind v = T_OPEN_PARENS) by (pose proof (proj1 expr_tokens_nonempty _ _ T); destruct v; [congruence|exact N]).
  destruct (open_expr e v T 0 B Nv) as (o & x & ux & c & u' & -> & Ko & Kc & Tx & Bx & D). exists x, c, (u' ++ w).
  split; [|split; [exact Kc|]].
  - intros n Ln. cbn [app tl] in *. rewrite <- app_assoc in *. cbn [app] in *. apply exprs_complete; [now constructor|repeat constructor; auto|left; exact Kc|exact Ln].
  - destruct D as [[_ ->]|[_ (t & u'' & -> & Kt & S)]]; [exact Sw|]. cbn [app next_kind].
    destruct (starts_expression (tk_kind t)) eqn:St; [|reflexivity]. exfalso. apply NS. apply S. unfold one_of. 
    destruct Kt as [Kt|Kt]; [|rewrite Kt in St; discriminate]. apply binary_prec_concat in Kt. destruct Kt as [q Eq]. destruct (tk_kind t); try discriminate St; try discriminate Eq; cbn; auto.
Qed.
Lemma starts_like_params_open e v : expr_tokens e v -> starts_like_params e -> next_kind v = T_OPEN_PARENS.
Proof.
  intros T S. induction T as [o e ts c Ko T _ Kc|t e ts Kt|t e1 e2 ts1 ts2 Kt T1 IH1 T2 _|t colon e1 e2 e3 ts1 ts2 ts3 Kt Kc T1 IH1 T2 _ T3 _|name o c Kn|name o args ts c Kn|name o idx ts c Kn|t Kt|t Kt|t Kt|t Kt]; try contradiction.
  - pose proof (proj1 expr_tokens_nonempty _ _ T1) as Ne.
    assert (X : next_kind ts1 = T_OPEN_PARENS). { destruct e1; try (exact (IH1 S)). inversion T1; subst. assumption. }
    destruct ts1; [congruence|exact X].
  - pose proof (proj1 expr_tokens_nonempty _ _ T1) as Ne. specialize (IH1 S). destruct ts1; [congruence|exact IH1].
Qed.
Lemma operand_not_bare n e v w es c r2 : expr_tokens e v -> binds 0 e -> starts_like_params e ->
  parse_exprs n (tl (v ++ w)) = POk es (c :: r2) -> starts_expression (next_kind r2) = true.
Proof.
  intros T B S P. pose proof (starts_like_params_open e v T S) as N.
  destruct (open_expr e v T 0 B N) as (o & x & ux & c' & u' & -> & Ko & Kc' & Tx & Bx & D).
  destruct D as [[-> ->]|[_ (t & u'' & -> & Kt & St)]]; [contradiction|].
  cbn [app tl] in *. rewrite <- app_assoc in P. cbn [app] in P.
  set (m := (n + (4 * List.length (ux ++ c' :: t :: u'' ++ w) + 3))%nat).
  assert (Q : parse_exprs m (ux ++ c' :: t :: u'' ++ w) = POk [x] (c' :: t :: u'' ++ w)).
  { apply exprs_complete; [now constructor|repeat constructor; auto|left; exact Kc'|]. unfold m. lia. }
  apply (proj1 (proj2 (proj2 (proj2 (parser_more n m ltac:(unfold m; lia)))))) in P.
  rewrite Q in P. injection P as _ _ <-. cbn [next_kind]. apply St in S. unfold one_of in S. cbn in S. destruct S as [<-|[<-|[]]]; reflexivity.
Qed.

(** ** Parameters *)
Lemma params_sound n ts ps r : parse_params n ts = POk ps r ->
  exists u, ts = u ++ r /\ params_tokens ps u /\ binds_params ps /\
    match ps with
    | Some _ => True
    | None => next_kind r = T_OPEN_PARENS -> exists es c r2, parse_exprs n (tl r) = POk es (c :: r2) /\ is T_CLOSE_PARENS c /\ starts_expression (next_kind r2) = false
    end.
Proof.
  unfold parse_params. intros H.
  assert (None_ : next_kind ts <> T_OPEN_PARENS -> POk None ts = POk ps r -> exists u, ts = u ++ r /\ params_tokens ps u /\ binds_params ps /\
    match ps with
    | Some _ => True
    | None => next_kind r = T_OPEN_PARENS -> exists es c r2, parse_exprs n (tl r) = POk es (c :: r2) /\ is T_CLOSE_PARENS c /\ starts_expression (next_kind r2) = false
    end).
  { intros N X. injection X as <- <-. exists []. split; [reflexivity|]. split; [constructor|]. split; [exact I|]. congruence. }
  destruct (next_kind ts) eqn:K; try (apply None_ in H; [exact H|discriminate]). clear None_.
  apply next_kind_cons in K; [|discriminate]. destruct K as (o & ts1 & -> & Ko). cbn [tl] in *.
  ok_inv H es r1 E. ok_inv H c r2 Ec. apply expect_ok in Ec. destruct Ec as [-> Kc]. destruct (starts_expression (next_kind r2) || _) eqn:S.
  - injection H as <- <-. apply exprs_sound in E. destruct E as (u & -> & T & B). exists (o :: u ++ [c]). split; [cbn; now rewrite <- app_assoc|].
    split; [now constructor|]. split; [exact B|exact I].
  - apply orb_false_iff in S. destruct S as [S _]. injection H as <- <-. exists []. split; [reflexivity|]. split; [constructor|]. split; [exact I|]. intros _. exists es, c, r2. auto.
Qed.
Lemma params_complete n ps u r : params_tokens ps u -> binds_params ps -> (ps = None -> bare_ok r) -> (ps <> None -> starts_expression (next_kind r) = true) ->
  (4 * List.length (u ++ r) + 3 <= n)%nat -> parse_params n (u ++ r) = POk ps r.
Proof.
  intros T B H1 H2 L. unfold parse_params. inversion T as [|o es ts c Ko Te Kc]; subst; cbn [app] in *.
  - specialize (H1 eq_refl). destruct (next_kind r) eqn:K; try reflexivity. destruct (H1 K) as (x & c & r2 & P & Kc & S).
    rewrite P by (pose proof (tl_length r); lia). cbn [pbind expect]. rewrite Kc, kind_eqb_refl. cbn [pbind]. now rewrite S.
  - cbn [next_kind tl]. unfold is in *. rewrite Ko, <- app_assoc. cbn [app]. cbn [List.length] in L. rewrite <- app_assoc in L. cbn [app] in L.
    rewrite (exprs_complete n es ts (c :: r) Te B); [|left; exact Kc|lia]. cbn [pbind expect]. rewrite Kc, kind_eqb_refl. cbn [pbind]. rewrite H2; [reflexivity|discriminate].
Qed.
Lemma params_fuel n ts : (4 * List.length ts <= n + 1)%nat -> parse_params n ts <> PFuel.
Proof.
  intros L. unfold parse_params. destruct (next_kind ts) eqn:K; try discriminate. apply next_kind_cons in K; [|discriminate]. destruct K as (o & ts1 & -> & Ko). cbn [tl List.length] in *.
  fuel_bind es r E; [apply exprs_fuel; lia|]. fuel_bind c r2 E2; [apply expect_fuel|]. destruct (starts_expression (next_kind r2) || _); discriminate.
Qed.

(** ** Gates *)
Lemma gate_sound n : forall ts g r, parse_gate n ts = POk g r ->
  exists u, ts = u ++ r /\ gate_tokens g u /\ binds_gate g /\ u <> [] /\
    (without_params g -> next_kind r = T_OPEN_PARENS -> exists es c r2 n', (n' < n)%nat /\ parse_exprs n' (tl r) = POk es (c :: r2) /\ is T_CLOSE_PARENS c /\ starts_expression (next_kind r2) = false).
Proof.
  induction n as [|n IH]; intros ts g r H; [discriminate|]. cbn [parse_gate] in H. destruct ts as [|t ts]; [discriminate|].
  assert (Wrap : forall (P : Prop) r, (P -> next_kind r = T_OPEN_PARENS -> exists es c r2 n', (n' < n)%nat /\ parse_exprs n' (tl r) = POk es (c :: r2) /\ is T_CLOSE_PARENS c /\ starts_expression (next_kind r2) = false) ->
     P -> next_kind r = T_OPEN_PARENS -> exists es c r2 n', (n' < S n)%nat /\ parse_exprs n' (tl r) = POk es (c :: r2) /\ is T_CLOSE_PARENS c /\ starts_expression (next_kind r2) = false).
  { intros P r' X HP HK. destruct (X HP HK) as (es & c & r2 & n' & L & R). exists es, c, r2, n'. split; [lia|exact R]. }
  destruct (tk_kind t) eqn:K; try discriminate H.
  - ok_inv H d r1 E1. ok_inv H g1 r2 E2. injection H as <- <-. apply expect_ok in E1. destruct E1 as [-> Kd].
    destruct (IH _ _ _ E2) as (u & -> & T & B & _ & W). exists (t :: d :: u). split; [reflexivity|]. split; [now constructor|]. split; [exact B|]. split; [discriminate|]. exact (Wrap _ _ W).
  - ok_inv H o r0 E0. ok_inv H e r1 E1. ok_inv H c r2 E2. ok_inv H d r3 E3. ok_inv H g1 r4 E4. injection H as <- <-.
    apply expect_ok in E0, E2, E3. destruct E0 as [-> Ko], E2 as [-> Kc], E3 as [-> Kd]. apply expr_sound in E1. destruct E1 as (u1 & -> & T1 & B1).
    destruct (IH _ _ _ E4) as (u & -> & T & B & _ & W). exists (t :: o :: u1 ++ c :: d :: u). split; [cbn; now rewrite <- app_assoc|].
    split; [now constructor|]. split; [split; assumption|]. split; [discriminate|]. exact (Wrap _ _ W).
  - ok_inv H d r1 E1. ok_inv H g1 r2 E2. injection H as <- <-. apply expect_ok in E1. destruct E1 as [-> Kd].
    destruct (IH _ _ _ E2) as (u & -> & T & B & _ & W). exists (t :: d :: u). split; [reflexivity|]. split; [now constructor|]. split; [exact B|]. split; [discriminate|]. exact (Wrap _ _ W).
  - ok_inv H ps r1 E1. injection H as <- <-. apply params_sound in E1. destruct E1 as (u & -> & T & B & D). exists (t :: u). split; [reflexivity|]. split; [now constructor|].
    split; [exact B|]. split; [discriminate|]. cbn [without_params]. intros ->. intros X. destruct (D X) as (es & c & r2 & P & Kc & S). exists es, c, r2, n. auto.
Qed.
Lemma gate_complete g u : gate_tokens g u -> forall n r, binds_gate g -> (without_params g -> bare_ok r) -> (~ without_params g -> starts_expression (next_kind r) = true) ->
  (4 * List.length (u ++ r) <= n)%nat -> parse_gate n (u ++ r) = POk g r.
Proof.
  induction 1 as [t dot g ts Kt Kd T IH|t o e ts c dot g ts' Kt Ko Te Kc Kd T IH|t dot g ts Kt Kd T IH|t ps ts Kt Tp]; intros n r B H1 H2 L; unfold is in *; cbn [app List.length] in *;
    (destruct n as [|n]; [lia|]); cbn [parse_gate]; rewrite Kt.
  - cbn [expect]. rewrite Kd, kind_eqb_refl. cbn [pbind]. rewrite (IH n r B H1 H2) by lia. reflexivity.
  - cbn [expect]. rewrite Ko, kind_eqb_refl. cbn [pbind]. destruct B as [Be Bg]. rewrite <- app_assoc in *. cbn [app] in *.
    rewrite (expr_complete n e ts (c :: dot :: ts' ++ r) Te Be); [|cbn; now rewrite Kc|lia]. cbn [pbind expect]. rewrite Kc, kind_eqb_refl. cbn [pbind expect]. rewrite Kd, kind_eqb_refl. cbn [pbind].
    rewrite (IH n r Bg H1 H2); [reflexivity|]. rewrite app_length in L. cbn [List.length] in L. lia.
  - cbn [expect]. rewrite Kd, kind_eqb_refl. cbn [pbind]. rewrite (IH n r B H1 H2) by lia. reflexivity.
  - rewrite (params_complete n ps ts r Tp B); [reflexivity|exact H1| |lia]. intros N. apply H2. exact N.
Qed.
Lemma gate_fuel n : forall ts, (4 * List.length ts + 1 <= n)%nat -> parse_gate n ts <> PFuel.
Proof.
  induction n as [|n IH]; intros ts L; [lia|]. cbn [parse_gate]. destruct ts as [|t ts]; [discriminate|]. cbn [List.length] in L.
  destruct (tk_kind t); try discriminate.
  - fuel_bind d r E; [apply expect_fuel|]. apply expect_ok in E. destruct E as [-> _]. cbn [List.length] in L. fuel_bind g r2 E2; [apply IH; lia|discriminate].
  - fuel_bind o r E; [apply expect_fuel|]. apply expect_ok in E. destruct E as [-> _]. cbn [List.length] in L. fuel_bind e r1 E1; [apply expr_fuel; lia|].
    apply expr_sound in E1. destruct E1 as (u & -> & T & _). rewrite app_length in L. fuel_bind c r2 E2; [apply expect_fuel|]. apply expect_ok in E2. destruct E2 as [-> _].
    fuel_bind d r3 E3; [apply expect_fuel|]. apply expect_ok in E3. destruct E3 as [-> _]. cbn [List.length] in L. fuel_bind g r4 E4; [apply IH; lia|discriminate].
  - fuel_bind d r E; [apply expect_fuel|]. apply expect_ok in E. destruct E as [-> _]. cbn [List.length] in L. fuel_bind g r2 E2; [apply IH; lia|discriminate].
  - fuel_bind ps r E; [apply params_fuel; lia|discriminate].
Qed.

(** ** Statements *)
(** Tokens inside a gate instruction or an expression. *)
Definition inner_kind (k : token_kind) : Prop := ends_statement k = false /\ k <> T_EQUALS /\ k <> T_ERROR.
Definition inner (t : token) : Prop := inner_kind (tk_kind t).
Lemma inner_is k t : is k t -> inner_kind k -> inner t.
Proof. intros E. unfold inner. now rewrite E. Qed.
Lemma inner_in l t : one_of l t -> Forall inner_kind l -> inner t.
Proof. unfold one_of, inner. intros I F. rewrite Forall_forall in F. auto. Qed.
Ltac inner_tac := first
  [ (eapply inner_is; [eassumption|split; [reflexivity|split; discriminate]])
  | (eapply inner_in; [eassumption|repeat (constructor; [split; [reflexivity|split; discriminate]|]); constructor]) ].
Lemma expr_inner :
  (forall c u, expr_tokens c u -> Forall inner u) /\ (forall c u, exprs_tokens c u -> Forall inner u) /\
  (forall c u, entry_tokens c u -> Forall inner u) /\ (forall c u, entries_tokens c u -> Forall inner u).
Proof.
  apply expr_tokens_mutind; intros;
  repeat first [assumption | apply Forall_nil | (apply Forall_app; split) | apply Forall_cons | inner_tac].
Qed.
Lemma params_inner ps u : params_tokens ps u -> Forall inner u.
Proof.
  intros H. inversion H; subst; [constructor|]. constructor; [inner_tac|]. apply Forall_app. split; [eapply (proj1 (proj2 expr_inner)); eauto|]. constructor; [inner_tac|constructor].
Qed.
Lemma gate_inner g u : gate_tokens g u -> Forall inner u.
Proof.
  induction 1 as [t dot g ts Kt Kd T IH|t o e ts c dot g ts' Kt Ko Te Kc Kd T IH|t dot g ts Kt Kd T IH|t ps ts Kt Tp].
  - constructor; [inner_tac|]. constructor; [inner_tac|exact IH].
  - constructor; [inner_tac|]. constructor; [inner_tac|]. apply Forall_app. split; [eapply (proj1 expr_inner); eauto|].
    constructor; [inner_tac|]. constructor; [inner_tac|exact IH].
  - constructor; [inner_tac|]. constructor; [inner_tac|exact IH].
  - constructor; [inner_tac|]. eapply params_inner; eauto.
Qed.

Lemma gate_instruction_sound n ts s r : (4 * List.length ts + 3 <= n)%nat -> parse_gate_instruction n ts = POk s r ->
  exists u, ts = u ++ r /\ statement_tokens s u /\ binds_statement s /\ Forall inner u /\ ends_statement (next_kind r) = true.
Proof.
  intros Ln. unfold parse_gate_instruction. intros H. ok_inv H g r1 E1. ok_inv H es r2 E2. destruct (ends_statement (next_kind r2)) eqn:Es; [|discriminate].
  injection H as <- <-. apply gate_sound in E1. destruct E1 as (u & -> & Tg & Bg & Nu & W). pose proof E2 as P2. apply exprs_sound in E2. destruct E2 as (v & -> & Te & Be).
  exists (u ++ v). split; [now rewrite app_assoc|]. split; [now constructor|]. split; [|split; [|exact Es]].
  - split; [exact Bg|]. split; [exact Be|]. intros Wp. destruct (exprs_head es v Te) as (e & es' & v1 & v2 & -> & -> & T1 & D).
    inversion Be as [|? ? B1 B2]; subst. intros S.
    assert (K : next_kind ((v1 ++ v2) ++ r2) = T_OPEN_PARENS).
    { pose proof (starts_like_params_open e v1 T1 S). pose proof (proj1 expr_tokens_nonempty _ _ T1) as Ne. destruct v1; [congruence|assumption]. }
    destruct (W Wp K) as (es0 & c & rr & n' & Ln' & P & Kc & SS). rewrite <- app_assoc in P.
    rewrite (operand_not_bare _ _ _ _ _ _ _ T1 B1 S P) in SS. discriminate.
  - apply Forall_app. split; [eapply gate_inner; eauto|eapply (proj1 (proj2 expr_inner)); eauto].
Qed.
Lemma gate_instruction_complete n g u es v r : gate_tokens g u -> exprs_tokens es v -> binds_statement (CGateInstr g es) -> ends_statement (next_kind r) = true ->
  (4 * List.length ((u ++ v) ++ r) + 3 <= n)%nat -> parse_gate_instruction n ((u ++ v) ++ r) = POk (CGateInstr g es) r.
Proof.
  intros Tg Te (Bg & Be & W) Er L. unfold parse_gate_instruction. rewrite <- app_assoc in *.
  destruct (exprs_head es v Te) as (e & es' & v1 & v2 & -> & -> & T1 & D). inversion Be as [|? ? B1 B2]; subst.
  rewrite (gate_complete g u Tg n ((v1 ++ v2) ++ r) Bg).
  - cbn [pbind]. rewrite (exprs_complete n _ _ r Te Be (or_intror Er)); [cbn [pbind]; now rewrite Er|]. rewrite app_length in L. lia.
  - intros Wp. specialize (W Wp). rewrite <- app_assoc. apply (operand_bare_ok e v1 (v2 ++ r) T1 B1 W).
    destruct D as [->|(comma & w & -> & Kc)]; cbn [app next_kind]; [destruct (next_kind r); try discriminate Er; reflexivity|now rewrite Kc].
  - intros _. rewrite <- app_assoc. exact (proj1 expr_starts e v1 T1 (v2 ++ r)).
  - lia.
Qed.
Lemma gate_instruction_fuel n ts : (4 * List.length ts + 3 <= n)%nat -> parse_gate_instruction n ts <> PFuel.
Proof.
  intros L. unfold parse_gate_instruction. fuel_bind g r E; [apply gate_fuel; lia|]. apply gate_sound in E. destruct E as (u & -> & _). rewrite app_length in L.
  fuel_bind es r2 E2; [apply exprs_fuel; lia|]. destruct (ends_statement (next_kind r2)); discriminate.
Qed.
Lemma measure_sound n ts s r : parse_measure n ts = POk s r -> exists u, ts = u ++ r /\ statement_tokens s u /\ binds_statement s.
Proof.
  unfold parse_measure. intros H. ok_inv H e1 r1 E1. ok_inv H q r2 E2. ok_inv H t r3 E3. ok_inv H ps r4 E4. ok_inv H e2 r5 E5. injection H as <- <-.
  apply expr_sound in E1, E5. apply expect_ok in E2, E3. apply params_sound in E4. destruct E1 as (u1 & -> & T1 & B1), E2 as [-> K2], E3 as [-> K3], E4 as (u4 & -> & T4 & B4 & D), E5 as (u5 & -> & T5 & B5).
  exists (u1 ++ q :: t :: u4 ++ u5). split; [rewrite <- !app_assoc; cbn; now rewrite <- app_assoc|]. split; [now constructor|].
  split; [exact B1|]. split; [exact B4|]. split; [exact B5|]. intros -> S.
  assert (K : next_kind (u5 ++ r5) = T_OPEN_PARENS).
  { pose proof (starts_like_params_open e2 u5 T5 S). pose proof (proj1 expr_tokens_nonempty _ _ T5) as Ne. destruct u5; [congruence|assumption]. }
  destruct (D K) as (es0 & c & rr & P & Kc & SS). rewrite (operand_not_bare _ _ _ _ _ _ _ T5 B5 S P) in SS. discriminate.
Qed.
Lemma measure_complete n e1 ts1 eq t ps ts2 e2 ts3 r :
  expr_tokens e1 ts1 -> is T_EQUALS eq -> is T_MEASURE t -> params_tokens ps ts2 -> expr_tokens e2 ts3 ->
  binds_statement (CMeasure t e1 ps e2) -> ends_statement (next_kind r) = true -> (4 * List.length ((ts1 ++ eq :: t :: ts2 ++ ts3) ++ r) + 3 <= n)%nat ->
  parse_measure n ((ts1 ++ eq :: t :: ts2 ++ ts3) ++ r) = POk (CMeasure t e1 ps e2) r.
Proof.
  intros T1 Ke Kt Tp T2 (B1 & Bp & B2 & W) Er L. unfold parse_measure. rewrite <- app_assoc in *. cbn [app] in *. rewrite <- app_assoc in *. unfold is in *.
  rewrite (expr_complete n e1 ts1 _ T1 B1); [|cbn; now rewrite Ke|lia]. cbn [pbind expect]. rewrite Ke, kind_eqb_refl. cbn [pbind expect]. rewrite Kt, kind_eqb_refl. cbn [pbind].
  assert (EE : ends_expr (next_kind r) = true) by (destruct (next_kind r); try discriminate Er; reflexivity).
  rewrite app_length in L. cbn [List.length] in L.
  rewrite (params_complete n ps ts2 (ts3 ++ r) Tp Bp); [cbn [pbind]| | |lia].
  - rewrite (expr_complete n e2 ts3 r T2 B2 EE); [reflexivity|]. rewrite app_length in L. lia.
  - intros E. apply (operand_bare_ok e2 ts3 r T2 B2 (W E)). destruct (next_kind r); try discriminate Er; reflexivity.
  - intros _. exact (proj1 expr_starts e2 ts3 T2 r).
Qed.
Lemma measure_fuel n ts : (4 * List.length ts + 3 <= n)%nat -> parse_measure n ts <> PFuel.
Proof.
  intros L. unfold parse_measure. fuel_bind e r E; [apply expr_fuel; lia|]. apply expr_sound in E. destruct E as (u & -> & _). rewrite app_length in L.
  fuel_bind q r1 E1; [apply expect_fuel|]. apply expect_ok in E1. destruct E1 as [-> _]. cbn [List.length] in L.
  fuel_bind t r2 E2; [apply expect_fuel|]. apply expect_ok in E2. destruct E2 as [-> _]. cbn [List.length] in L.
  fuel_bind ps r3 E3; [apply params_fuel; lia|]. apply params_sound in E3. destruct E3 as (u3 & -> & _). rewrite app_length in L.
  fuel_bind e2 r4 E4; [apply expr_fuel; lia|discriminate].
Qed.
(** A measure instruction is not a gate instruction. *)
Lemma not_gate u' r' ts1 eq w : Forall inner u' -> ends_statement (next_kind r') = true -> Forall inner ts1 -> is T_EQUALS eq -> u' ++ r' = ts1 ++ eq :: w -> False.
Proof.
  revert ts1. induction u' as [|x u' IH]; intros ts1 Fu Er F1 Ke E; cbn [app] in E.
  - subst r'. destruct ts1 as [|y ts1]; cbn [app next_kind] in Er.
    + rewrite Ke in Er. discriminate.
    + inversion F1 as [|? ? [Y _] _]; subst. congruence.
  - inversion Fu as [|? ? [_ X] Fu']; subst. destruct ts1 as [|y ts1]; cbn [app] in E; injection E as -> E; [exact (proj1 X Ke)|]. inversion F1; subst. eauto.
Qed.

Lemma type_sound ts ty r : (exists t ts', ts = t :: ts' /\ one_of [T_QUBIT_TYPE; T_BIT_TYPE] t) -> parse_type ts = POk ty r -> exists u, ts = u ++ r /\ type_tokens ty u.
Proof.
  intros (t & ts' & -> & Kt) H. cbn [parse_type] in H.
  assert (Plain : POk (mkCType t None) ts' = POk ty r -> exists u, t :: ts' = u ++ r /\ type_tokens ty u) by (intros X; injection X as <- <-; exists [t]; split; [reflexivity|now constructor]).
  destruct (next_kind ts') eqn:K; try exact (Plain H). clear Plain. apply next_kind_cons in K; [|discriminate]. destruct K as (o & ts2 & -> & Ko). cbn [tl] in H.
  ok_inv H i r1 E1. ok_inv H c r2 E2. injection H as <- <-. apply expect_ok in E1, E2. destruct E1 as [-> K1], E2 as [-> K2]. exists [t; o; i; c]. split; [reflexivity|now constructor].
Qed.
Lemma type_complete ty u r : type_tokens ty u -> next_kind r <> T_OPEN_BRACKET -> parse_type (u ++ r) = POk ty r.
Proof.
  intros H N. inversion H as [t Kt|t o i c Kt Ko Ki Kc]; subst; cbn [app parse_type].
  - destruct (next_kind r); try reflexivity. congruence.
  - cbn [next_kind tl expect]. unfold is in *. rewrite Ko, Ki, kind_eqb_refl. cbn [pbind expect]. rewrite Kc, kind_eqb_refl. reflexivity.
Qed.
Lemma type_fuel ts : parse_type ts <> PFuel.
Proof.
  unfold parse_type. destruct ts as [|t ts]; [discriminate|]. destruct (next_kind ts); try discriminate. fuel_bind i r E; [apply expect_fuel|]. fuel_bind c r2 E2; [apply expect_fuel|discriminate].
Qed.

Lemma statement_sound n ts s r : (4 * List.length ts + 3 <= n)%nat -> parse_statement n ts = POk s r ->
  exists u, ts = u ++ r /\ statement_tokens s u /\ binds_statement s.
Proof.
  intros L H. unfold parse_statement in H. destruct ts as [|t ts]; [discriminate|].
  assert (Gate : parse_gate_instruction n (t :: ts) = POk s r -> exists u, t :: ts = u ++ r /\ statement_tokens s u /\ binds_statement s).
  { intros X. apply gate_instruction_sound in X; [|exact L]. destruct X as (u & E & T & B & _). eauto. }
  assert (Ty : one_of [T_QUBIT_TYPE; T_BIT_TYPE] t -> (let? (ty, r) := parse_type (t :: ts) in let? (name, r') := expect T_IDENTIFIER r in POk (CVariable ty name) r') = POk s r ->
     exists u, t :: ts = u ++ r /\ statement_tokens s u /\ binds_statement s).
  { clear H. intros Kt H. ok_inv H ty r1 E1. ok_inv H name r2 E2. injection H as <- <-. apply type_sound in E1; [|eauto]. destruct E1 as (u & E & T). apply expect_ok in E2. destruct E2 as [-> K2].
    exists (u ++ [name]). split; [rewrite E; now rewrite <- app_assoc|]. split; [now constructor|exact I]. }
  destruct (tk_kind t) eqn:K; try (apply measure_sound in H; exact H); try exact (Gate H).
  - ok_inv H e r1 E. injection H as <- <-. apply expr_sound in E. destruct E as (u & -> & T & B). exists (t :: u). split; [reflexivity|]. split; [now constructor|exact B].
  - ok_inv H e r1 E. injection H as <- <-. apply expr_sound in E. destruct E as (u & -> & T & B). exists (t :: u). split; [reflexivity|]. split; [now constructor|exact B].
  - ok_inv H e r1 E. injection H as <- <-. apply expr_sound in E. destruct E as (u & -> & T & B). exists (t :: u). split; [reflexivity|]. split; [now constructor|exact B].
  - ok_inv H o r0 E0. ok_inv H p r1 E1. ok_inv H c r2 E2. ok_inv H e r3 E3. injection H as <- <-. apply expect_ok in E0, E2. destruct E0 as [-> K0], E2 as [-> K2].
    apply expr_sound in E1, E3. destruct E1 as (u1 & -> & T1 & B1), E3 as (u3 & -> & T3 & B3). exists (t :: o :: u1 ++ c :: u3). split; [cbn; now rewrite <- app_assoc|].
    split; [now constructor|split; assumption].
  - apply Ty; [|exact H]. unfold one_of. rewrite K. cbn. auto.
  - apply Ty; [|exact H]. unfold one_of. rewrite K. cbn. auto.
  - ok_inv H o r0 E0. ok_inv H name r1 E1. ok_inv H c r2 E2. ok_inv H code r3 E3. injection H as <- <-. apply expect_ok in E0, E1, E2, E3.
    destruct E0 as [-> K0], E1 as [-> K1], E2 as [-> K2], E3 as [-> K3]. exists [t; o; name; c; code]. split; [reflexivity|]. split; [now constructor|exact I].
  - destruct (parse_gate_instruction n (t :: ts)) as [s1 r1|r1|]; [injection H as <- <-; now apply Gate| |discriminate].
    apply measure_sound with n. destruct (parse_measure n (t :: ts)); [exact H|discriminate|discriminate].
Qed.
Lemma statement_complete n s u r : statement_tokens s u -> binds_statement s -> ends_statement (next_kind r) = true -> (4 * List.length (u ++ r) + 3 <= n)%nat ->
  parse_statement n (u ++ r) = POk s r.
Proof.
  intros T B Er L. assert (EE : ends_expr (next_kind r) = true) by (destruct (next_kind r); try discriminate Er; reflexivity).
  inversion T as [ty ts name Tt Kn|g ts es ts' Tg Te|e1 ts1 eq t ps ts2 e2 ts3 T1 Ke Kt Tp T2|t e ts Kt Te|t e ts Kt Te|t e ts Kt Te|t o p ts c e ts' Kt Ko Tp Kc Te|t o name c code Kt Ko Kn Kc Kcode]; subst; unfold is in *.
  - rewrite <- app_assoc in *. cbn [app] in *. unfold parse_statement.
    assert (P : parse_type (ts ++ name :: r) = POk ty (name :: r)) by (apply type_complete; [exact Tt|cbn; rewrite Kn; discriminate]).
    inversion Tt as [t Kt|t o i c Kt Ko Ki Kc]; subst; cbn [app] in *; unfold one_of in Kt; cbn in Kt; destruct Kt as [<-|[<-|[]]]; rewrite P; cbn [pbind expect]; rewrite Kn, kind_eqb_refl; reflexivity.
  - pose proof (gate_instruction_complete n g ts es ts' r Tg Te B Er L) as P. unfold parse_statement.
    inversion Tg as [t dot g' w Kt|t o e w c dot g' w' Kt|t dot g' w Kt|t ps w Kt]; subst; cbn [app] in *; unfold is in Kt; rewrite Kt in *; try exact P. now rewrite P.
  - pose proof (measure_complete n e1 ts1 eq t ps ts2 e2 ts3 r T1 Ke Kt Tp T2 B Er L) as P.
    rewrite <- app_assoc in *. cbn [app] in *. pose proof (proj1 expr_starts e1 ts1 T1 (eq :: t :: (ts2 ++ ts3) ++ r)) as St. unfold parse_statement. destruct (ts1 ++ eq :: t :: (ts2 ++ ts3) ++ r) as [|x xs] eqn:Ex; [destruct ts1; discriminate|]. cbn [next_kind] in St.
    destruct (tk_kind x) eqn:Kx; try discriminate St; try exact P.
    destruct (parse_gate_instruction n (x :: xs)) as [s1 r1|r1|] eqn:G.
    + exfalso. rewrite <- Ex in G. apply gate_instruction_sound in G; [|rewrite Ex; exact L]. destruct G as (u' & E & _ & _ & Fu & Er').
      eapply (not_gate u' r1 ts1 eq); eauto. eapply (proj1 expr_inner); eauto.
    + now rewrite P.
    + exfalso. revert G. apply gate_instruction_fuel. exact L.
  - cbn [app] in *. unfold parse_statement. rewrite Kt. cbn [List.length] in L. rewrite (expr_complete n e ts r Te B EE) by lia. reflexivity.
  - cbn [app] in *. unfold parse_statement. rewrite Kt. cbn [List.length] in L. rewrite (expr_complete n e ts r Te B EE) by lia. reflexivity.
  - cbn [app] in *. unfold parse_statement. rewrite Kt. cbn [List.length] in L. rewrite (expr_complete n e ts r Te B EE) by lia. reflexivity.
  - cbn [app] in *. unfold parse_statement. rewrite Kt. cbn [List.length] in L. cbn [expect]. rewrite Ko, kind_eqb_refl. cbn [pbind]. destruct B as [Bp Be]. rewrite <- app_assoc in *. cbn [app] in *.
    rewrite (expr_complete n p ts _ Tp Bp); [|cbn; now rewrite Kc|lia]. cbn [pbind expect]. rewrite Kc, kind_eqb_refl. cbn [pbind].
    rewrite (expr_complete n e ts' r Te Be EE); [reflexivity|]. rewrite app_length in L. cbn [List.length] in L. lia.
  - cbn [app] in *. unfold parse_statement. rewrite Kt. cbn [expect]. rewrite Ko, kind_eqb_refl. cbn [pbind expect]. rewrite Kn, kind_eqb_refl. cbn [pbind expect]. rewrite Kc, kind_eqb_refl. cbn [pbind expect]. rewrite Kcode, kind_eqb_refl. reflexivity.
Qed.
Lemma statement_fuel n ts : (4 * List.length ts + 3 <= n)%nat -> parse_statement n ts <> PFuel.
Proof.
  intros L. unfold parse_statement. destruct ts as [|t ts]; [discriminate|].
  destruct (tk_kind t); try (apply measure_fuel; exact L); try (apply gate_instruction_fuel; exact L); cbn [List.length] in L.
  - fuel_bind e r E; [apply expr_fuel; lia|discriminate].
  - fuel_bind e r E; [apply expr_fuel; lia|discriminate].
  - fuel_bind e r E; [apply expr_fuel; lia|discriminate].
  - fuel_bind o r E; [apply expect_fuel|]. apply expect_ok in E. destruct E as [-> _]. cbn [List.length] in L. fuel_bind e r1 E1; [apply expr_fuel; lia|].
    apply expr_sound in E1. destruct E1 as (u & -> & _). rewrite app_length in L. fuel_bind c r2 E2; [apply expect_fuel|]. apply expect_ok in E2. destruct E2 as [-> _]. cbn [List.length] in L.
    fuel_bind e2 r3 E3; [apply expr_fuel; lia|discriminate].
  - fuel_bind ty r E; [apply type_fuel|]. fuel_bind nm r2 E2; [apply expect_fuel|discriminate].
  - fuel_bind ty r E; [apply type_fuel|]. fuel_bind nm r2 E2; [apply expect_fuel|discriminate].
  - fuel_bind o r E; [apply expect_fuel|]. fuel_bind o2 r2 E2; [apply expect_fuel|]. fuel_bind o3 r3 E3; [apply expect_fuel|]. fuel_bind o4 r4 E4; [apply expect_fuel|discriminate].
  - pose proof (gate_instruction_fuel n (t :: ts) ltac:(cbn; lia)) as G. destruct (parse_gate_instruction n (t :: ts)) as [s1 r1|r1|]; [discriminate| |congruence].
    pose proof (measure_fuel n (t :: ts) ltac:(cbn; lia)) as M. destruct (parse_measure n (t :: ts)); congruence.
Qed.
