(** Where the parser reports an error: what it has read is the beginning of a
    sentence (C65). *)
From Coq Require Import ZifyBool ZifyN ZifyNat.
From Verif Require Import Base ModelLexer ModelParser SpecParser ProofsParser ProofsParser2 ProofsParser3 ProofsParser4.

(** A token of each kind, to complete a text with. *)
Definition some_token (k : token_kind) : token := mkToken k "" 0 0.
Definition some_expr : cexpr := CIdent (some_token T_IDENTIFIER).
Definition some_tokens : list token := [some_token T_IDENTIFIER].
Lemma some_expr_tokens : expr_tokens some_expr some_tokens.
Proof. now constructor. Qed.
Lemma is_some k : is k (some_token k).
Proof. reflexivity. Qed.

Lemma pbind_err {A B} (m : presult A) (f : A -> list token -> presult B) r :
  pbind m f = PErr r -> m = PErr r \/ exists a r', m = POk a r' /\ f a r' = PErr r.
Proof. destruct m; cbn; try discriminate; [eauto|]. intros H. injection H as ->. auto. Qed.
Lemma expect_err k ts r : expect k ts = PErr r -> ts = r.
Proof. unfold expect. destruct ts as [|t ts]; [congruence|]. destruct (token_kind_beq (tk_kind t) k); congruence. Qed.
Ltac err_inv H a r' E := apply pbind_err in H; destruct H as [H|(a & r' & E & H)].

(** [u] begins something of the form [F]. *)
Definition begins {A} (F : A -> list token -> Prop) (u : list token) : Prop := exists a z, F a (u ++ z).
Definition begun {A} (F : A -> list token -> Prop) (ts r : list token) : Prop := exists u, ts = u ++ r /\ begins F u.
Lemma begun_nil {A} (F : A -> list token -> Prop) a z ts : F a z -> begun F ts ts.
Proof. intros H. exists []. split; [reflexivity|]. exists a, z. exact H. Qed.

Definition viable_expr (n : nat) : Prop := forall p ts r, (p <= 22)%nat -> parse_expr n p ts = PErr r -> begun expr_tokens ts r.
Definition viable_loop (n : nat) : Prop := forall p e ts r, (p <= 22)%nat -> parse_loop n p e ts = PErr r ->
  exists u z, ts = u ++ r /\ forall u0, expr_tokens e u0 -> exists c, expr_tokens c (u0 ++ u ++ z).
Definition viable_primary (n : nat) : Prop := forall ts r, parse_primary n ts = PErr r -> begun expr_tokens ts r.
Definition viable_exprs (n : nat) : Prop := forall ts r, parse_exprs n ts = PErr r -> begun exprs_tokens ts r.
Definition viable_entries (n : nat) : Prop := forall ts r, parse_entries n ts = PErr r -> begun entries_tokens ts r.
Lemma begun_expr_nil ts : begun expr_tokens ts ts.
Proof. apply (begun_nil _ some_expr some_tokens). apply some_expr_tokens. Qed.
Ltac lists := cbn [app]; repeat (rewrite <- app_assoc; cbn [app]); reflexivity.
(** Give the consumed tokens, a completion, the tree and the same tokens as the
    constructor groups them. *)
Ltac give u z c g := exists u; split; [lists|exists c, z; replace (u ++ z) with g by lists].

Lemma parser_viable n : viable_expr n /\ viable_loop n /\ viable_primary n /\ viable_exprs n /\ viable_entries n.
Proof.
  induction n as [|n (IHe & IHl & IHp & IHes & IHis)].
  { repeat split; red; intros; discriminate. }
  pose proof (proj1 (parser_sound n)) as Se. pose proof (proj1 (proj2 (proj2 (parser_sound n)))) as Sp.
  pose proof (exprs_sound n) as Ses. pose proof (proj2 (proj2 (proj2 (proj2 (parser_sound n))))) as Sis.
  repeat split.
  - intros p ts r Lp H. cbn [parse_expr] in H. err_inv H e r1 E; [exact (IHp _ _ H)|].
    destruct (Sp _ _ _ E) as (u & -> & T & _). destruct (IHl _ _ _ _ Lp H) as (u2 & z & -> & X). destruct (X u T) as [c Tc].
    give (u ++ u2) z c (u ++ u2 ++ z). exact Tc.
  - intros p e ts r Lp H. cbn [parse_loop] in H. destruct ts as [|t ts]; [discriminate|].
    destruct (binary_prec (tk_kind t)) as [q|] eqn:Eq.
    + assert (Op : one_of (concat binary_operators) t) by (unfold one_of; apply binary_prec_concat; eauto).
      pose proof (binary_prec_range _ _ Eq) as Rq. destruct (Nat.leb p q); [|discriminate].
      assert (Lp2 : (next_prec (tk_kind t) q <= 22)%nat) by (unfold next_prec; destruct (right_assoc (tk_kind t)); lia).
      err_inv H e2 r1 E.
      * destruct (IHe _ _ _ Lp2 H) as (u & -> & c & z & Tc). exists (t :: u), z. split; [reflexivity|]. intros u0 T0. exists (CBinary t e c). cbn [app]. now apply et_binary.
      * destruct (Se _ _ _ _ Lp2 E) as (u & -> & T & _). destruct (IHl _ _ _ _ Lp H) as (u2 & z & -> & X).
        exists (t :: u ++ u2), z. split; [lists|]. intros u0 T0. destruct (X (u0 ++ t :: u)) as [c Tc]; [now apply et_binary|].
        exists c. replace (u0 ++ (t :: u ++ u2) ++ z) with ((u0 ++ t :: u) ++ u2 ++ z) by lists. exact Tc.
    + destruct (token_kind_beq (tk_kind t) T_TERNARY_CONDITIONAL_OP && Nat.leb p ternary_prec) eqn:Et; [|discriminate].
      apply andb_true_iff in Et. destruct Et as [Kt _]. apply kind_eqb in Kt. unfold ternary_prec in *.
      err_inv H e1 r1 E1.
      { destruct (IHe 0 _ _ ltac:(lia) H) as (u & -> & c & z & Tc). exists (t :: u), (z ++ some_token T_COLON :: some_tokens). split; [reflexivity|].
        intros u0 T0. exists (CTernary t e c some_expr). replace (u0 ++ (t :: u) ++ z ++ some_token T_COLON :: some_tokens) with (u0 ++ t :: (u ++ z) ++ some_token T_COLON :: some_tokens) by lists.
        apply et_ternary; auto using some_expr_tokens, is_some. }
      destruct (Se 0 _ _ _ ltac:(lia) E1) as (u1 & -> & T1 & _). err_inv H cl r2 E2.
      { apply expect_err in H. subst r1. exists (t :: u1), (some_token T_COLON :: some_tokens). split; [reflexivity|].
        intros u0 T0. exists (CTernary t e e1 some_expr). cbn [app]. apply et_ternary; auto using some_expr_tokens, is_some. }
      apply expect_ok in E2. destruct E2 as [-> Kc]. err_inv H e2 r3 E3.
      { destruct (IHe 7 _ _ ltac:(lia) H) as (u & -> & c & z & Tc). exists (t :: u1 ++ cl :: u), z. split; [lists|].
        intros u0 T0. exists (CTernary t e e1 c). replace (u0 ++ (t :: u1 ++ cl :: u) ++ z) with (u0 ++ t :: u1 ++ cl :: (u ++ z)) by lists. now apply et_ternary. }
      destruct (Se 7 _ _ _ ltac:(lia) E3) as (u2 & -> & T2 & _). destruct (IHl _ _ _ _ Lp H) as (u3 & z & -> & X).
      exists (t :: u1 ++ cl :: u2 ++ u3), z. split; [lists|]. intros u0 T0. destruct (X (u0 ++ t :: u1 ++ cl :: u2)) as [c Tc]; [now apply et_ternary|].
      exists c. replace (u0 ++ (t :: u1 ++ cl :: u2 ++ u3) ++ z) with ((u0 ++ t :: u1 ++ cl :: u2) ++ u3 ++ z) by lists. exact Tc.
  - intros ts r H. cbn [parse_primary] in H. destruct ts as [|t ts]; [injection H as <-; apply begun_expr_nil|].
    destruct (prefix_prec (tk_kind t)) as [q|] eqn:Eq.
    + pose proof (prefix_prec_range _ _ Eq) as Rq. err_inv H e r1 E; [|discriminate].
      destruct (IHe q _ _ ltac:(lia) H) as (u & -> & c & z & Tc). give (t :: u) z (CUnary t c) (t :: (u ++ z)). apply et_unary; [|exact Tc]. unfold one_of. apply prefix_prec_in. eauto.
    + destruct (tk_kind t) eqn:K; try (injection H as <-; apply begun_expr_nil); try discriminate H.
      * err_inv H e r1 E.
        -- destruct (IHe 0 _ _ ltac:(lia) H) as (u & -> & c & z & Tc). give (t :: u) (z ++ [some_token T_CLOSE_PARENS]) (CParens c) (t :: (u ++ z) ++ [some_token T_CLOSE_PARENS]). now apply et_parens.
        -- destruct (Se 0 _ _ _ ltac:(lia) E) as (u & -> & T & _). err_inv H cl r2 E2; [|discriminate]. apply expect_err in H. subst r1.
           give (t :: u) [some_token T_CLOSE_PARENS] (CParens e) (t :: u ++ [some_token T_CLOSE_PARENS]). now apply et_parens.
      * destruct (next_kind ts) eqn:K2; try discriminate H.
        -- apply next_kind_cons in K2; [|discriminate]. destruct K2 as (o & ts1 & -> & Ko). cbn [tl] in H. err_inv H idx r1 E.
           ++ destruct (IHis _ _ H) as (u & -> & c & z & Tc). give (t :: o :: u) (z ++ [some_token T_CLOSE_BRACKET]) (CIndex t c) (t :: o :: (u ++ z) ++ [some_token T_CLOSE_BRACKET]). now apply et_index.
           ++ destruct (Sis _ _ _ E) as (u & -> & T & _). err_inv H cl r2 E2; [|discriminate]. apply expect_err in H. subst r1.
              give (t :: o :: u) [some_token T_CLOSE_BRACKET] (CIndex t idx) (t :: o :: u ++ [some_token T_CLOSE_BRACKET]). now apply et_index.
        -- apply next_kind_cons in K2; [|discriminate]. destruct K2 as (o & ts1 & -> & Ko). cbn [tl] in H.
           assert (Args : (let? (args, r) := parse_exprs n ts1 in let? (_c, r') := expect T_CLOSE_PARENS r in POk (CCall t args) r') = PErr r ->
             begun expr_tokens (t :: o :: ts1) r).
           { clear H. intros H. err_inv H args r1 E.
             - destruct (IHes _ _ H) as (u & -> & c & z & Tc). give (t :: o :: u) (z ++ [some_token T_CLOSE_PARENS]) (CCall t c) (t :: o :: (u ++ z) ++ [some_token T_CLOSE_PARENS]). now apply et_call.
             - destruct (Ses _ _ _ E) as (u & -> & T & _). err_inv H cl r2 E2; [|discriminate]. apply expect_err in H. subst r1.
               give (t :: o :: u) [some_token T_CLOSE_PARENS] (CCall t args) (t :: o :: u ++ [some_token T_CLOSE_PARENS]). now apply et_call. }
           destruct (next_kind ts1); try exact (Args H). discriminate.
  - intros ts r H. cbn [parse_exprs] in H. err_inv H e r1 E.
    + destruct (IHe 0 _ _ ltac:(lia) H) as (u & -> & c & z & Tc). give u z [c] (u ++ z). now constructor.
    + destruct (Se 0 _ _ _ ltac:(lia) E) as (u & -> & T & _). destruct (next_kind r1) eqn:K; try discriminate H.
      apply next_kind_cons in K; [|discriminate]. destruct K as (comma & r2 & -> & Kc). cbn [tl] in H. err_inv H es r3 E3; [|discriminate].
      destruct (IHes _ _ H) as (u2 & -> & c & z & Tc). give (u ++ comma :: u2) z (e :: c) (u ++ comma :: (u2 ++ z)). now constructor.
  - intros ts r H. cbn [parse_entries] in H. err_inv H e r1 E.
    + destruct (IHe 0 _ _ ltac:(lia) H) as (u & -> & c & z & Tc). give u z [CItem c] (u ++ z). now constructor; constructor.
    + destruct (Se 0 _ _ _ ltac:(lia) E) as (u & -> & T & _). err_inv H i r2 Ei.
      * destruct (next_kind r1) eqn:K; try discriminate H. apply next_kind_cons in K; [|discriminate]. destruct K as (colon & r3 & -> & Kc). cbn [tl] in H. err_inv H e2 r4 E4; [|discriminate].
        destruct (IHe 0 _ _ ltac:(lia) H) as (u2 & -> & c & z & Tc). give (u ++ colon :: u2) z [CRange e c] (u ++ colon :: (u2 ++ z)). now constructor; constructor.
      * assert (Entry : exists u', u ++ r1 = u' ++ r2 /\ entry_tokens i u').
        { assert (Item : POk (CItem e) r1 = POk i r2 -> exists u', u ++ r1 = u' ++ r2 /\ entry_tokens i u').
          { intros X. injection X as <- <-. exists u. split; [reflexivity|now constructor]. }
          destruct (next_kind r1) eqn:K; try exact (Item Ei); clear Item.
          apply next_kind_cons in K; [|discriminate]. destruct K as (colon & r3 & -> & Kc). cbn [tl] in Ei. ok_inv Ei e2 r4 E4. injection Ei as <- <-.
          destruct (Se 0 _ _ _ ltac:(lia) E4) as (u2 & -> & T2 & _). exists (u ++ colon :: u2). split; [lists|now constructor]. }
        destruct Entry as (u' & Eu & Ti). rewrite Eu. destruct (next_kind r2) eqn:K; try discriminate H.
        apply next_kind_cons in K; [|discriminate]. destruct K as (comma & r3 & -> & Kc). cbn [tl] in H. err_inv H es r4 E4; [|discriminate].
        destruct (IHis _ _ H) as (u2 & -> & c & z & Tc). give (u' ++ comma :: u2) z (i :: c) (u' ++ comma :: (u2 ++ z)). now constructor.
Qed.
Lemma expr_viable n ts r : parse_expr n 0 ts = PErr r -> begun expr_tokens ts r.
Proof. apply (proj1 (parser_viable n)). lia. Qed.
Lemma exprs_viable n ts r : parse_exprs n ts = PErr r -> begun exprs_tokens ts r.
Proof. apply (proj1 (proj2 (proj2 (proj2 (parser_viable n))))). Qed.
Lemma some_exprs_tokens : exprs_tokens [some_expr] some_tokens.
Proof. constructor. apply some_expr_tokens. Qed.
Lemma params_viable n ts r : parse_params n ts = PErr r -> begun params_tokens ts r.
Proof.
  unfold parse_params. intros H. destruct (next_kind ts) eqn:K; try discriminate H. apply next_kind_cons in K; [|discriminate]. destruct K as (o & ts1 & -> & Ko). cbn [tl] in H.
  err_inv H es r1 E.
  - apply exprs_viable in H. destruct H as (u & -> & c & z & Tc). give (o :: u) (z ++ [some_token T_CLOSE_PARENS]) (Some c) (o :: (u ++ z) ++ [some_token T_CLOSE_PARENS]). now constructor.
  - apply exprs_sound in E. destruct E as (u & -> & T & _). err_inv H c r2 E2.
    + apply expect_err in H. subst r1. give (o :: u) [some_token T_CLOSE_PARENS] (Some es) (o :: u ++ [some_token T_CLOSE_PARENS]). now constructor.
    + destruct (_ || _); discriminate H.
Qed.
Definition some_gate : cgate := CNamed (some_token T_IDENTIFIER) None.
Lemma some_gate_tokens : gate_tokens some_gate some_tokens.
Proof. now repeat constructor. Qed.
Lemma gate_viable n : forall ts r, parse_gate n ts = PErr r -> begun gate_tokens ts r.
Proof.
  induction n as [|n IH]; intros ts r H; [discriminate|]. cbn [parse_gate] in H.
  assert (Nil : forall ts, begun gate_tokens ts ts) by (intros; apply (begun_nil _ _ _ _ some_gate_tokens)).
  destruct ts as [|t ts]; [injection H as <-; apply Nil|].
  destruct (tk_kind t) eqn:K; try (injection H as <-; apply Nil).
  - err_inv H d r1 E; [apply expect_err in H; subst ts; give [t] (some_token T_DOT :: some_tokens) (CInv t some_gate) (t :: some_token T_DOT :: some_tokens); constructor; auto using is_some, some_gate_tokens|].
    apply expect_ok in E. destruct E as [-> Kd]. err_inv H g r2 E2; [|discriminate]. destruct (IH _ _ H) as (u & -> & c & z & Tc). give (t :: d :: u) z (CInv t c) (t :: d :: (u ++ z)). now constructor.
  - err_inv H o r1 E; [apply expect_err in H; subst ts; give [t] (some_token T_OPEN_PARENS :: some_tokens ++ some_token T_CLOSE_PARENS :: some_token T_DOT :: some_tokens) (CPow t some_expr some_gate) (t :: some_token T_OPEN_PARENS :: some_tokens ++ some_token T_CLOSE_PARENS :: some_token T_DOT :: some_tokens); constructor; auto using is_some, some_gate_tokens, some_expr_tokens|].
    apply expect_ok in E. destruct E as [-> Ko]. err_inv H e r2 E2.
    { apply expr_viable in H. destruct H as (u & -> & c & z & Tc). give (t :: o :: u) (z ++ some_token T_CLOSE_PARENS :: some_token T_DOT :: some_tokens) (CPow t c some_gate) (t :: o :: (u ++ z) ++ some_token T_CLOSE_PARENS :: some_token T_DOT :: some_tokens).
      constructor; auto using is_some, some_gate_tokens. }
    apply expr_sound in E2. destruct E2 as (u & -> & T & _). err_inv H c r3 E3.
    { apply expect_err in H. subst r2. give (t :: o :: u) (some_token T_CLOSE_PARENS :: some_token T_DOT :: some_tokens) (CPow t e some_gate) (t :: o :: u ++ some_token T_CLOSE_PARENS :: some_token T_DOT :: some_tokens).
      constructor; auto using is_some, some_gate_tokens. }
    apply expect_ok in E3. destruct E3 as [-> Kc]. err_inv H d r4 E4.
    { apply expect_err in H. subst r3. give (t :: o :: u ++ [c]) (some_token T_DOT :: some_tokens) (CPow t e some_gate) (t :: o :: u ++ c :: some_token T_DOT :: some_tokens).
      constructor; auto using is_some, some_gate_tokens. }
    apply expect_ok in E4. destruct E4 as [-> Kd]. err_inv H g r5 E5; [|discriminate]. destruct (IH _ _ H) as (u2 & -> & g' & z & Tc).
    give (t :: o :: u ++ c :: d :: u2) z (CPow t e g') (t :: o :: u ++ c :: d :: (u2 ++ z)). now constructor.
  - err_inv H d r1 E; [apply expect_err in H; subst ts; give [t] (some_token T_DOT :: some_tokens) (CCtrl t some_gate) (t :: some_token T_DOT :: some_tokens); constructor; auto using is_some, some_gate_tokens|].
    apply expect_ok in E. destruct E as [-> Kd]. err_inv H g r2 E2; [|discriminate]. destruct (IH _ _ H) as (u & -> & c & z & Tc). give (t :: d :: u) z (CCtrl t c) (t :: d :: (u ++ z)). now constructor.
  - err_inv H ps r1 E; [|discriminate]. apply params_viable in H. destruct H as (u & -> & c & z & Tc). give (t :: u) z (CNamed t c) (t :: (u ++ z)). now constructor.
Qed.
(** The beginning of a gate instruction *)
Lemma gate_instruction_viable n ts r : parse_gate_instruction n ts = PErr r ->
  exists u g es v w z, ts = u ++ r /\ gate_tokens g v /\ exprs_tokens es w /\ u ++ z = v ++ w.
Proof.
  unfold parse_gate_instruction. intros H. err_inv H g r1 E.
  - apply gate_viable in H. destruct H as (u & -> & c & z & Tc). exists u, c, [some_expr], (u ++ z), some_tokens, (z ++ some_tokens). split; [reflexivity|]. split; [exact Tc|]. split; [apply some_exprs_tokens|lists].
  - apply gate_sound in E. destruct E as (u & -> & T & _). err_inv H es r2 E2.
    + apply exprs_viable in H. destruct H as (u2 & -> & c & z & Tc). exists (u ++ u2), g, c, u, (u2 ++ z), z. split; [lists|]. split; [exact T|]. split; [exact Tc|lists].
    + apply exprs_sound in E2. destruct E2 as (u2 & -> & T2 & _). destruct (ends_statement (next_kind r2)); [discriminate|]. injection H as <-.
      exists (u ++ u2), g, es, u, u2, []. split; [lists|]. split; [exact T|]. split; [exact T2|now rewrite app_nil_r].
Qed.
Lemma gate_instruction_begun n ts r : parse_gate_instruction n ts = PErr r -> begun statement_tokens ts r.
Proof.
  intros H. apply gate_instruction_viable in H. destruct H as (u & g & es & v & w & z & -> & Tg & Te & E). exists u. split; [reflexivity|]. exists (CGateInstr g es), z. rewrite E. now constructor.
Qed.
Lemma gate_instruction_err_inner n ts r : parse_gate_instruction n ts = PErr r -> exists u, ts = u ++ r /\ Forall inner u.
Proof.
  intros H. apply gate_instruction_viable in H. destruct H as (u & g & es & v & w & z & -> & Tg & Te & E). exists u. split; [reflexivity|].
  assert (F : Forall inner (u ++ z)) by (rewrite E; apply Forall_app; split; [eapply gate_inner; eauto|eapply (proj1 (proj2 expr_inner)); eauto]). apply Forall_app in F. tauto.
Qed.
Lemma measure_viable n ts r : parse_measure n ts = PErr r -> begun statement_tokens ts r.
Proof.
  unfold parse_measure. intros H. set (S := fun t e1 ps e2 => CMeasure t e1 ps e2). err_inv H e1 r1 E1.
  { apply expr_viable in H. destruct H as (u & -> & c & z & Tc). give u (z ++ some_token T_EQUALS :: some_token T_MEASURE :: [] ++ some_tokens) (CMeasure (some_token T_MEASURE) c None some_expr) ((u ++ z) ++ some_token T_EQUALS :: some_token T_MEASURE :: [] ++ some_tokens).
    constructor; auto using is_some, some_expr_tokens. constructor. }
  apply expr_sound in E1. destruct E1 as (u1 & -> & T1 & _). err_inv H q r2 E2.
  { apply expect_err in H. subst r1. give u1 (some_token T_EQUALS :: some_token T_MEASURE :: [] ++ some_tokens) (CMeasure (some_token T_MEASURE) e1 None some_expr) (u1 ++ some_token T_EQUALS :: some_token T_MEASURE :: [] ++ some_tokens).
    constructor; auto using is_some, some_expr_tokens. constructor. }
  apply expect_ok in E2. destruct E2 as [-> Kq]. err_inv H t r3 E3.
  { apply expect_err in H. subst r2. give (u1 ++ [q]) (some_token T_MEASURE :: [] ++ some_tokens) (CMeasure (some_token T_MEASURE) e1 None some_expr) (u1 ++ q :: some_token T_MEASURE :: [] ++ some_tokens).
    constructor; auto using is_some, some_expr_tokens. constructor. }
  apply expect_ok in E3. destruct E3 as [-> Kt]. err_inv H ps r4 E4.
  { apply params_viable in H. destruct H as (u & -> & c & z & Tc). give (u1 ++ q :: t :: u) (z ++ some_tokens) (CMeasure t e1 c some_expr) (u1 ++ q :: t :: (u ++ z) ++ some_tokens).
    constructor; auto using is_some, some_expr_tokens. }
  apply params_sound in E4. destruct E4 as (u2 & -> & T2 & _). err_inv H e2 r5 E5; [|discriminate].
  apply expr_viable in H. destruct H as (u & -> & c & z & Tc). give (u1 ++ q :: t :: u2 ++ u) z (CMeasure t e1 ps c) (u1 ++ q :: t :: u2 ++ (u ++ z)). now constructor.
Qed.
Lemma statement_viable n ts r : (4 * List.length ts + 3 <= n)%nat -> parse_statement n ts = PErr r -> begun statement_tokens ts r.
Proof.
  intros L H. unfold parse_statement in H.
  assert (Nil : forall ts, begun statement_tokens ts ts).
  { intros. apply (begun_nil _ (CReset (some_token T_RESET) some_expr) (some_token T_RESET :: some_tokens)). constructor; auto using is_some, some_expr_tokens. }
  destruct ts as [|t ts]; [injection H as <-; apply Nil|].
  assert (Ty : one_of [T_QUBIT_TYPE; T_BIT_TYPE] t -> (let? (ty, r) := parse_type (t :: ts) in let? (name, r') := expect T_IDENTIFIER r in POk (CVariable ty name) r') = PErr r -> begun statement_tokens (t :: ts) r).
  { clear H. intros Kt H. err_inv H ty r1 E1.
    - cbn [parse_type] in H. destruct (next_kind ts) eqn:K; try discriminate H. apply next_kind_cons in K; [|discriminate]. destruct K as (o & ts2 & -> & Ko). cbn [tl] in H.
      set (i := some_token T_INTEGER_LITERAL). set (c := some_token T_CLOSE_BRACKET).
      err_inv H i' r1 E1.
      + apply expect_err in H. subst ts2. give [t; o] ([i; c] ++ some_tokens) (CVariable (mkCType t (Some (i, c))) (some_token T_IDENTIFIER)) ([t; o; i; c] ++ [some_token T_IDENTIFIER]). constructor; [now constructor|apply is_some].
      + apply expect_ok in E1. destruct E1 as [-> Ki]. err_inv H c' r2 E2; [|discriminate]. apply expect_err in H. subst r1.
        give [t; o; i'] ([c] ++ some_tokens) (CVariable (mkCType t (Some (i', c))) (some_token T_IDENTIFIER)) ([t; o; i'; c] ++ [some_token T_IDENTIFIER]). constructor; [now constructor|apply is_some].
    - apply type_sound in E1; [|eauto]. destruct E1 as (u & -> & T). err_inv H name r2 E2; [|discriminate]. apply expect_err in H. subst r1.
      give u some_tokens (CVariable ty (some_token T_IDENTIFIER)) (u ++ [some_token T_IDENTIFIER]). constructor; [exact T|apply is_some]. }
  destruct (tk_kind t) eqn:K; try (apply measure_viable in H; exact H); try (apply gate_instruction_begun in H; exact H).
  - err_inv H e r1 E; [|discriminate]. apply expr_viable in H. destruct H as (u & -> & c & z & Tc). give (t :: u) z (CReset t c) (t :: (u ++ z)). now constructor.
  - err_inv H e r1 E; [|discriminate]. apply expr_viable in H. destruct H as (u & -> & c & z & Tc). give (t :: u) z (CInit t c) (t :: (u ++ z)). now constructor.
  - err_inv H e r1 E; [|discriminate]. apply expr_viable in H. destruct H as (u & -> & c & z & Tc). give (t :: u) z (CBarrier t c) (t :: (u ++ z)). now constructor.
  - err_inv H o r0 E0.
    { apply expect_err in H. subst ts. give [t] (some_token T_OPEN_PARENS :: some_tokens ++ some_token T_CLOSE_PARENS :: some_tokens) (CWait t some_expr some_expr) (t :: some_token T_OPEN_PARENS :: some_tokens ++ some_token T_CLOSE_PARENS :: some_tokens).
      constructor; auto using is_some, some_expr_tokens. }
    apply expect_ok in E0. destruct E0 as [-> Ko]. err_inv H p r1 E1.
    { apply expr_viable in H. destruct H as (u & -> & c & z & Tc). give (t :: o :: u) (z ++ some_token T_CLOSE_PARENS :: some_tokens) (CWait t c some_expr) (t :: o :: (u ++ z) ++ some_token T_CLOSE_PARENS :: some_tokens).
      constructor; auto using is_some, some_expr_tokens. }
    apply expr_sound in E1. destruct E1 as (u1 & -> & T1 & _). err_inv H c r2 E2.
    { apply expect_err in H. subst r1. give (t :: o :: u1) (some_token T_CLOSE_PARENS :: some_tokens) (CWait t p some_expr) (t :: o :: u1 ++ some_token T_CLOSE_PARENS :: some_tokens).
      constructor; auto using is_some, some_expr_tokens. }
    apply expect_ok in E2. destruct E2 as [-> Kc]. err_inv H e r3 E3; [|discriminate]. apply expr_viable in H. destruct H as (u & -> & x & z & Tc).
    give (t :: o :: u1 ++ c :: u) z (CWait t p x) (t :: o :: u1 ++ c :: (u ++ z)). now constructor.
  - apply Ty; [|exact H]. unfold one_of. rewrite K. cbn. auto.
  - apply Ty; [|exact H]. unfold one_of. rewrite K. cbn. auto.
  - set (o0 := some_token T_OPEN_PARENS). set (n0 := some_token T_IDENTIFIER). set (c0 := some_token T_CLOSE_PARENS). set (r0 := some_token T_RAW_TEXT_STRING).
    err_inv H o r1 E0.
    { apply expect_err in H. subst ts. give [t] [o0; n0; c0; r0] (CAsm n0 r0) [t; o0; n0; c0; r0]. now constructor. }
    apply expect_ok in E0. destruct E0 as [-> Ko]. err_inv H name r2 E1.
    { apply expect_err in H. subst r1. give [t; o] [n0; c0; r0] (CAsm n0 r0) [t; o; n0; c0; r0]. now constructor. }
    apply expect_ok in E1. destruct E1 as [-> Kn]. err_inv H c r3 E2.
    { apply expect_err in H. subst r2. give [t; o; name] [c0; r0] (CAsm name r0) [t; o; name; c0; r0]. now constructor. }
    apply expect_ok in E2. destruct E2 as [-> Kc]. err_inv H code r4 E3; [|discriminate].
    apply expect_err in H. subst r3. give [t; o; name; c] [r0] (CAsm name r0) [t; o; name; c; r0]. now constructor.
  - destruct (parse_gate_instruction n (t :: ts)) as [s1 r1|r1|] eqn:G; [discriminate| |discriminate].
    destruct (parse_measure n (t :: ts)) as [s2 r2|r2|] eqn:M; [discriminate| |discriminate]. injection H as <-.
    unfold further. destruct (Nat.leb _ _); [eapply gate_instruction_begun; eauto|eapply measure_viable; eauto].
Qed.
Lemma statements_viable n : forall ts r, (4 * List.length ts + 1 <= n)%nat -> parse_statements n ts = PErr r -> begun block_tokens ts r.
Proof.
  induction n as [|n IH]; intros ts r L H; [discriminate|]. cbn [parse_statements] in H.
  set (eof := some_token T_EOF). assert (End : block_tokens [] [eof]) by (apply (bt_end [] eof); [constructor|reflexivity]).
  assert (Sep : is_separator (next_kind ts) = true ->
    (match next_kind (skip_separators ts) with T_EOF => POk [] (skip_separators ts) | _ => let? (s, r) := parse_statement n (skip_separators ts) in let? (ss, r') := parse_statements n r in POk (s :: ss) r' end) = PErr r ->
    begun block_tokens ts r).
  { clear H. intros S H. destruct (skip_separators_split ts) as (seps & E & F & N). remember (skip_separators ts) as ts' eqn:Ets. clear Ets. subst ts.
    assert (Ne : seps <> []) by (intros ->; cbn in S; congruence).
    assert (Lt : (4 * List.length ts' + 4 <= n)%nat) by (rewrite app_length in L; destruct seps; [congruence|cbn in L; lia]).
    assert (St : (let? (s, r) := parse_statement n ts' in let? (ss, r') := parse_statements n r in POk (s :: ss) r') = PErr r -> begun block_tokens (seps ++ ts') r).
    { clear H. intros H. err_inv H s r1 E1.
      - apply statement_viable in H; [|lia]. destruct H as (u & -> & c & z & Tc). give (seps ++ u) (z ++ [eof]) [c] (seps ++ (u ++ z) ++ [eof]). now constructor.
      - apply statement_sound in E1; [|lia]. destruct E1 as (u & -> & T & _). err_inv H ss r2 E2; [|discriminate]. rewrite app_length in Lt. apply IH in H; [|lia]. destruct H as (u2 & -> & c & z & Tc).
        give (seps ++ u ++ u2) z (s :: c) (seps ++ u ++ (u2 ++ z)). now constructor. }
    destruct (next_kind ts') eqn:K; try exact (St H). discriminate. }
  destruct (next_kind ts) eqn:K; try discriminate H; try (injection H as <-; exact (begun_nil _ _ _ _ End)); apply Sep; auto.
Qed.
Lemma program_viable ts r : parse_program ts = PErr r -> begun program_tokens ts r.
Proof.
  unfold parse_program. intros H. destruct (skip_separators_split ts) as (seps & E & F & N). remember (skip_separators ts) as ts' eqn:Ets. clear Ets. subst ts.
  set (eof := some_token T_EOF). assert (End : block_tokens [] [eof]) by (apply (bt_end [] eof); [constructor|reflexivity]).
  set (v0 := some_token T_VERSION). set (n0 := some_token T_VERSION_NUMBER).
  err_inv H v r1 E1.
  { apply expect_err in H. subst ts'. give seps [v0; n0; eof] (mkCProgram n0 []) (seps ++ v0 :: n0 :: [eof]). now constructor. }
  apply expect_ok in E1. destruct E1 as [-> K1]. err_inv H nb r2 E2.
  { apply expect_err in H. subst r1. give (seps ++ [v]) [n0; eof] (mkCProgram n0 []) (seps ++ v :: n0 :: [eof]). now constructor. }
  apply expect_ok in E2. destruct E2 as [-> K2]. err_inv H ss r3 E3; [|discriminate].
  apply statements_viable in H; [|unfold parse_fuel; rewrite app_length; cbn; lia]. destruct H as (u & -> & c & z & Tc).
  give (seps ++ v :: nb :: u) z (mkCProgram nb c) (seps ++ v :: nb :: (u ++ z)). now constructor.
Qed.
