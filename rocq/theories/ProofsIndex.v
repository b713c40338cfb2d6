(** Lemmas about indexing (C33, C34), and consequences of the lemmas on gates. *)
From Coq Require Import Reals SpecFloat ZifyBool.
From Verif Require Import Base ModelUtils ModelVersion ModelError ModelTypes ModelOverload ModelFunctions
  ModelInstructionSet ModelAst ModelAnalyzer ModelSemantic SpecTypes SpecFunctions SpecInstructions
  ProofsTypes ProofsFunctions ProofsFolding ProofsExpr PropertiesTypes ProofsInstructions ProofsGates.
Local Open Scope string_scope.

(** ** Indices *)

Lemma zseq_length a n : List.length (zseq a n) = n.
Proof. revert a. induction n; intros a; cbn; auto. Qed.
Lemma zseq_nth a n i z : nth_error (zseq a n) i = Some z -> z = (a + Z.of_nat i)%Z.
Proof.
  revert a i. induction n as [|n IH]; intros a i; [destruct i; discriminate|]. destruct i as [|i]; cbn [zseq nth_error].
  - intros [= <-]. lia.
  - intros H. apply IH in H. lia.
Qed.
Lemma zseq_unique a r : (forall i z, nth_error r i = Some z -> z = (a + Z.of_nat i)%Z) -> r = zseq a (List.length r).
Proof.
  revert a. induction r as [|z r IH]; intros a H; [reflexivity|]. cbn [List.length zseq]. f_equal.
  - rewrite (H 0%nat z eq_refl). cbn. lia.
  - apply IH. intros i y Hy. rewrite (H (S i) y Hy). lia.
Qed.
Lemma zseq_last a n : (0 < n)%nat -> In (a + Z.of_nat n - 1)%Z (zseq a n).
Proof.
  revert a. induction n as [|n IH]; intros a H; [lia|]. cbn [zseq]. destruct n as [|n].
  - left. lia.
  - right. replace (a + Z.of_nat (S (S n)) - 1)%Z with (a + 1 + Z.of_nat (S n) - 1)%Z by lia. apply IH. lia.
Qed.
Lemma zseq_bounds a n z : In z (zseq a n) -> (a <= z < a + Z.of_nat n)%Z.
Proof. revert a. induction n as [|n IH]; intros a; cbn; [contradiction|]. intros [<-|H]; [lia|]. apply IH in H. lia. Qed.
Lemma zseq_NoDup a n : NoDup (zseq a n).
Proof.
  revert a. induction n as [|n IH]; intros a; cbn; constructor; [|apply IH]. intros H. apply zseq_bounds in H. lia.
Qed.

Section Index.
  Variables (lm : libm) (st : analyzer).
  Hypothesis Hst : ordinary lm st.

  Lemma const_int_of_denotes l e z : const_int_of l (visit st e) = Ok z <-> denotes_int st e z.
  Proof.
    unfold const_int_of, denotes_int. split.
    - intros E. apply bind_ok_inv in E. destruct E as (v & Ev & E). exists v. split; [exact Ev|].
      apply bind_ok_inv in E. destruct E as (p & Ep & E).
      pose proof (proj1 (visit_ordinary lm st Hst e) v Ev) as Ho.
      destruct v as [b|n|f|x|x idx]; cbn in Ep.
      + injection Ep as <-. destruct b; injection E as <-; auto.
      + injection Ep as <-. injection E as <-. auto.
      + injection Ep as <-. discriminate.
      + exfalso. unfold promote in Ep. cbn [type_of bind] in Ep. cbn in Ho. unfold declared in Ho.
        destruct (type_check (make_type TInt) (var_type x)) eqn:T.
        * unfold type_check in T. destruct (kind (var_type x)); (discriminate || contradiction).
        * injection Ep as <-. destruct (kind (var_type x)); discriminate.
      + exfalso. unfold promote in Ep. apply bind_ok_inv in Ep. destruct Ep as (t & Et & Ep).
        destruct (type_check (make_type TInt) t); injection Ep as <-; discriminate.
    - intros (v & Ev & C & H). rewrite Ev. cbn [bind]. destruct H as [->|[[-> ->]|[-> ->]]]; reflexivity.
  Qed.

  Lemma visit_entry_item l e : visit_entry st (IItem l e) = (let! z := const_int_of (expr_loc e) (visit st e) in Ok [z]).
  Proof. reflexivity. Qed.
  Lemma visit_entry_range l e1 e2 : visit_entry st (IRange l e1 e2) =
    (let! z1 := const_int_of (expr_loc e1) (visit st e1) in let! z2 := const_int_of (expr_loc e2) (visit st e2) in expand_range l z1 z2).
  Proof. reflexivity. Qed.
  Lemma visit_entry_ok i r : visit_entry st i = Ok r <->
    match i with
    | IItem _ e => exists z, denotes_int st e z /\ r = [z]
    | IRange _ e1 e2 => exists a b, denotes_int st e1 a /\ denotes_int st e2 b /\ (a <= b)%Z /\ b <> int64_max /\
                                    r = zseq a (Z.to_nat (b - a + 1))
    end.
  Proof.
    destruct i as [l e|l e1 e2]; [rewrite visit_entry_item|rewrite visit_entry_range]; split.
    - intros E. apply bind_ok_inv in E. destruct E as (z & Ez & [= <-]). apply const_int_of_denotes in Ez. eauto.
    - intros (z & H & ->). apply (const_int_of_denotes (expr_loc e)) in H. rewrite H. reflexivity.
    - intros E. apply bind_ok_inv in E. destruct E as (a & Ea & E). apply bind_ok_inv in E. destruct E as (b & Eb & E).
      apply const_int_of_denotes in Ea. apply const_int_of_denotes in Eb. exists a, b. unfold expand_range in E.
      destruct (Z.ltb_spec b a); [discriminate|]. destruct (Z.eqb_spec b int64_max); [discriminate|]. injection E as <-. auto.
    - intros (a & b & Ea & Eb & L & N & ->). apply (const_int_of_denotes (expr_loc e1)) in Ea.
      apply (const_int_of_denotes (expr_loc e2)) in Eb. rewrite Ea. cbn [bind]. rewrite Eb. cbn [bind]. unfold expand_range.
      destruct (Z.ltb_spec b a); [lia|]. destruct (Z.eqb_spec b int64_max); [contradiction|]. reflexivity.
  Qed.

  Lemma selects_sound idx is : mapM (visit_entry st) idx = Ok is -> selects st idx (concat is).
  Proof.
    rewrite mapM_ok. induction 1 as [|i r idx is H _ IH]; cbn [concat]; [constructor|]. apply visit_entry_ok in H.
    destruct i as [l e|l e1 e2].
    - destruct H as (z & H & ->). now constructor.
    - destruct H as (a & b & Ha & Hb & L & _ & ->). econstructor; try eassumption; [apply zseq_length|apply zseq_nth].
  Qed.
  Lemma selects_complete idx zs : selects st idx zs -> ~ In int64_max zs ->
    exists is, mapM (visit_entry st) idx = Ok is /\ concat is = zs.
  Proof.
    induction 1 as [|l e z idx zs H _ IH|l e1 e2 a b r idx zs Ha Hb L Lr Nr _ IH]; intros N.
    - exists []. auto.
    - destruct IH as (is & E & C); [intros X; apply N; now right|]. exists ([z] :: is). split; [|cbn; now rewrite C].
      cbn [mapM]. assert (V : visit_entry st (IItem l e) = Ok [z]) by (apply visit_entry_ok; eauto). rewrite V. cbn [bind]. now rewrite E.
    - destruct IH as (is & E & C); [intros X; apply N, in_or_app; auto|]. exists (r :: is). split; [|cbn; now rewrite C].
      pose proof (zseq_unique a r Nr) as Er. rewrite Lr in Er.
      assert (B : b <> int64_max).
      { intros ->. apply N, in_or_app. left. rewrite Er.
        replace int64_max with (a + Z.of_nat (Z.to_nat (int64_max - a + 1)) - 1)%Z at 1 by lia. apply zseq_last. lia. }
      cbn [mapM]. assert (V : visit_entry st (IRange l e1 e2) = Ok r) by (apply visit_entry_ok; exists a, b; auto).
      rewrite V. cbn [bind]. now rewrite E.
  Qed.

  Lemma index_accepted l l' n idx v :
    (forall x, resolve_variable st n = Ok (VVar x) -> (tsize (var_type x) <= 2 ^ 63 - 1)%Z) ->
    (visit_expression st (EIndex l (EIdent l' n) idx) = Ok v <->
     exists x zs, resolve_variable st n = Ok (VVar x) /\
       (kind (var_type x) = TQubitArray \/ kind (var_type x) = TBitArray) /\
       selects st idx zs /\ Forall (fun z => 0 <= z < tsize (var_type x))%Z zs /\ v = VIndex x zs).
  Proof.
    intros Hsize. unfold visit_expression. rewrite with_context_ok_iff. cbn [visit]. rewrite with_context_ok_iff. split.
    - intros E. apply bind_ok_inv in E. destruct E as (b & Eb & E). apply with_context_ok_iff in Eb.
      destruct b as [| | |x|]; try discriminate.
      assert (E' : (kind (var_type x) = TQubitArray \/ kind (var_type x) = TBitArray) /\
        (let! is := mapM (visit_entry st) idx in let! _ := check_out_of_range (concat is) (tsize (var_type x)) in Ok (VIndex x (concat is))) = Ok v).
      { destruct (kind (var_type x)); try discriminate; auto. }
      destruct E' as [K E']. apply bind_ok_inv in E'. destruct E' as (is & Ei & E'). apply bind_ok_inv in E'. destruct E' as ([] & R & [= <-]).
      apply check_out_of_range_ok in R. exists x, (concat is). split; [exact Eb|]. split; [exact K|]. split; [now apply selects_sound|auto].
    - intros (x & zs & Ex & K & S & R & ->). rewrite Ex. cbn [with_context bind].
      destruct (selects_complete idx zs S) as (is & Ei & Ec).
      { intros I. rewrite Forall_forall in R. apply R in I. specialize (Hsize x Ex). cbn beta in I. unfold int64_max in I. lia. }
      assert (G : (let! is := mapM (visit_entry st) idx in let! _ := check_out_of_range (concat is) (tsize (var_type x)) in Ok (VIndex x (concat is)))
                  = Ok (VIndex x zs)).
      { rewrite Ei. cbn [bind]. rewrite Ec. apply check_out_of_range_ok in R. rewrite R. reflexivity. }
      destruct K as [-> | ->]; exact G.
  Qed.

  Lemma single_entry_distinct l b i x idx : visit_expression st (EIndex l b [i]) = Ok (VIndex x idx) -> NoDup idx.
  Proof.
    unfold visit_expression. rewrite with_context_ok_iff. cbn [visit]. rewrite with_context_ok_iff. intros E.
    apply bind_ok_inv in E. destruct E as (v & Eb & E). destruct v as [| | |y|]; try discriminate.
    assert (E' : (let! is := mapM (visit_entry st) [i] in let! _ := check_out_of_range (concat is) (tsize (var_type y)) in Ok (VIndex y (concat is))) = Ok (VIndex x idx)).
    { destruct (kind (var_type y)); try discriminate; exact E. }
    apply bind_ok_inv in E'. destruct E' as (is & Ei & E'). apply bind_ok_inv in E'. destruct E' as ([] & _ & [= _ <-]).
    cbn [mapM] in Ei. apply bind_ok_inv in Ei. destruct Ei as (r & Er & [= <-]). cbn [concat]. rewrite app_nil_r.
    apply visit_entry_ok in Er. destruct i.
    - destruct Er as (z & _ & ->). repeat constructor. auto.
    - destruct Er as (a & b0 & _ & _ & _ & _ & ->). apply zseq_NoDup.
  Qed.

  (** ** Gates *)

  Lemma legal_chain g a : legal_gate st g a ->
    (exists ks b, In (gate_base g, (ks, b)) gates /\
       (gate_modifiers g <> [] -> b = 1%nat) /\
       a = (b + count_occ string_dec (gate_modifiers g) "ctrl")%nat) /\
    Forall (fun m => m = "inv" \/ m = "pow" \/ m = "ctrl") (gate_modifiers g) /\
    ~ In "ctrl" (tl (gate_modifiers g)).
  Proof.
    induction 1 as [l n ps ks a vs Hg Hv Hf|l g Hg IH|l g e v Hg IH He Hf|l g Hg IH]; cbn [gate_modifiers gate_base tl].
    - split; [|split; [constructor|intros []]]. exists ks, a. split; [exact Hg|]. split; [congruence|]. cbn. lia.
    - destruct IH as ((ks & b & I & N & A) & F & T).
      assert (C : ~ In "ctrl" (gate_modifiers g)).
      { intros C. apply (count_occ_In string_dec) in C. assert (gate_modifiers g <> []) by (intros Z; rewrite Z in C; cbn in C; lia).
        rewrite (N H) in A. lia. }
      assert (C0 : count_occ string_dec (gate_modifiers g) "ctrl" = 0%nat) by now apply count_occ_not_In.
      split; [|split; [constructor; auto|exact C]]. exists ks, b. split; [exact I|]. split; [lia|]. rewrite count_occ_cons_neq by discriminate. exact A.
    - destruct IH as ((ks & b & I & N & A) & F & T).
      assert (C : ~ In "ctrl" (gate_modifiers g)).
      { intros C. apply (count_occ_In string_dec) in C. assert (gate_modifiers g <> []) by (intros Z; rewrite Z in C; cbn in C; lia).
        rewrite (N H) in A. lia. }
      assert (C0 : count_occ string_dec (gate_modifiers g) "ctrl" = 0%nat) by now apply count_occ_not_In.
      split; [|split; [constructor; auto|exact C]]. exists ks, b. split; [exact I|]. split; [lia|]. rewrite count_occ_cons_neq by discriminate. exact A.
    - destruct IH as ((ks & b & I & N & A) & F & T).
      assert (C : ~ In "ctrl" (gate_modifiers g)).
      { intros C. apply (count_occ_In string_dec) in C. assert (gate_modifiers g <> []) by (intros Z; rewrite Z in C; cbn in C; lia).
        rewrite (N H) in A. lia. }
      assert (C0 : count_occ string_dec (gate_modifiers g) "ctrl" = 0%nat) by now apply count_occ_not_In.
      split; [|split; [constructor; auto|exact C]]. exists ks, b. split; [exact I|]. split; [lia|]. rewrite count_occ_cons_eq by reflexivity. lia.
  Qed.

  Lemma fits_stored_denotes v k w : is_const v -> stored_as v k w -> denotes_as v k w.
  Proof.
    intros Cv (C & K & P). unfold denotes_as. split; [exact C|]. split; [exact K|].
    split; [intros E|intros R].
    - pose proof (promote_const v (make_type k) Cv) as (P1 & _). cbn [kind make_type] in P1. specialize (P1 E). congruence.
    - destruct (C14_promote_denotes v (make_type k) w Cv) as (_ & _ & _ & _ & D); [|exact P|exact D].
      intros z E. specialize (R z E). unfold in_int64, int64_min, int64_max. lia.
  Qed.

  Lemma stored_params_denote vs ks ws : Forall2 fits_param vs ks -> stored_params vs ks ws -> params_stored denotes_as vs ks ws.
  Proof.
    intros F (L1 & L2 & N). split; [exact L1|]. split; [exact L2|]. intros i v k w Hv Hk Hw. apply fits_stored_denotes; [|eauto].
    assert (I : In v vs) by (eapply nth_error_In; eauto). clear -F I. induction F as [|v' k' vs ks [C _] _ IH]; [contradiction|].
    destruct I as [<-|I]; auto.
  Qed.
  Lemma stored_gate_denotes g sg : stored_gate st g sg -> forall a, legal_gate st g a -> gate_stored denotes_as st g sg.
  Proof.
    induction 1 as [l n ps ks a vs ws G V S|l m ks ps vs ws g sg M S IH V P]; intros a' L.
    - inversion L as [? ? ? ks' ? vs' G' V' F|?|?|?]; subst. destruct (gates_functional _ _ _ _ _ G G') as [<- <-].
      assert (vs' = vs) by congruence. subst. econstructor; eauto. now apply stored_params_denote.
    - assert (X : legal_gate st g 1 /\ Forall2 fits_param vs ks).
      { inversion L as [|? ? Lg|? ? e v Lg E F|? ? Lg]; subst; (split; [exact Lg|]); destruct P as (L1 & L2 & _).
        - assert (ks = []) by (cbn in M; intuition congruence). subst. destruct vs; [constructor|discriminate].
        - assert (ks = [TFloat]) by (cbn in M; intuition congruence). subst.
          unfold visit_expression_list in V. cbn in V. rewrite E in V. injection V as <-. auto.
        - assert (ks = []) by (cbn in M; intuition congruence). subst. destruct vs; [constructor|discriminate]. }
      destruct X as [Lg F]. econstructor; eauto. now apply stored_params_denote.
  Qed.

  (** ** The effect of a statement on the result *)
  Lemma add_statement_effect s st' : add_statement st s = Ok st' ->
    statements_of st' = (statements_of st ++ [s])%list /\ variables_of st' = variables_of st.
  Proof.
    unfold add_statement, update_current, statements_of, variables_of. destruct (scopes st) as [|sc rest]; [discriminate|].
    cbn. intros [= <-]. auto.
  Qed.

  Lemma gate_accepted l g ops st' : grammar_gate g -> visit_statement st (SGateInstr l g ops []) = (Ok st', []) ->
    exists a sg vs k i, legal_gate st g a /\ stored_gate st g sg /\ visit_expression_list st ops = Ok vs /\
       List.length vs = a /\ Forall (fun v => addresses Qubits v k) vs /\
       instr_name i = gate_resolution_name sg /\ operands_typed i vs /\
       statements_of st' = (statements_of st ++ [SemGateInstr l i sg vs []])%list.
  Proof.
    intros Hg E. rewrite (visit_gate_statement_pure st l g ops Hg) in E. apply catch_log_ok in E.
    apply (gate_statement_spec lm st Hst) in E; [|exact Hg].
    destruct E as (a & sg & vs & k & i & L & S & V & La & F & N & T & _ & E). apply add_statement_effect in E.
    exists a, sg, vs, k, i. destruct E as [E _]. auto 10.
  Qed.
  Lemma gate_accepted_iff l g ops : grammar_gate g ->
    ((exists st', visit_statement st (SGateInstr l g ops []) = (Ok st', [])) <->
     exists a vs k, legal_gate st g a /\ visit_expression_list st ops = Ok vs /\
       List.length vs = a /\ Forall (fun v => addresses Qubits v k) vs).
  Proof.
    intros Hg. split.
    - intros [st' E]. destruct (gate_accepted l g ops st' Hg E) as (a & sg & vs & k & i & L & S & V & La & F & _). eauto 8.
    - intros (a & vs & k & L & V & La & F).
      assert (S : exists sg, stored_gate st g sg).
      { clear -L Hst. induction L as [l n ps ks a vs Hg Hv Hf|l g Hg [sg IH]|l g e v Hg [sg IH] He Hf|l g Hg [sg IH]].
        - assert (X : exists ws, stored_all vs ks ws).
          { assert (K : param_kinds ks) by (eapply gates_param_kinds; eauto). clear -Hf K. induction Hf as [|v k vs ks H _ IH]; [exists []; constructor|].
            inversion K; subst. destruct IH as [ws IH]; [assumption|]. destruct (fits_promote v k H) as (w & P & C & E); [assumption|].
            exists (w :: ws). constructor; auto. split; auto. }
          destruct X as [ws X]. apply stored_all_iff in X. exists (SemGate l n None ws []). econstructor; eauto. apply X.
        - exists (SemGate l "inv" (Some sg) [] []). eapply sg_modified; [cbn; auto|exact IH|reflexivity|].
          split; [reflexivity|]. split; [reflexivity|]. intros [|i]; discriminate.
        - destruct (fits_promote v TFloat Hf) as (w & P & C & E); [reflexivity|].
          exists (SemGate l "pow" (Some sg) [w] []). eapply sg_modified; [cbn; auto|exact IH|unfold visit_expression_list; cbn; rewrite He; reflexivity|].
          split; [reflexivity|]. split; [reflexivity|]. intros [|[|i]] ? ? ?; cbn; try discriminate. intros [= <-] [= <-] [= <-]. split; auto.
        - exists (SemGate l "ctrl" (Some sg) [] []). eapply sg_modified; [cbn; auto|exact IH|reflexivity|].
          split; [reflexivity|]. split; [reflexivity|]. intros [|i]; discriminate. }
      destruct S as [sg S].
      assert (I : exists ts, operands_typed (mkInstruction (gate_resolution_name sg) ts) vs /\ Forall (fun t => tsize t = 0%Z) ts).
      { unfold operands_typed. cbn [operand_types]. pose proof (visit_list_ordinary lm st Hst _ _ V) as Ho. clear -Ho.
        induction Ho as [|v vs Hv _ (ts & T & Z)]; [exists []; split; constructor|]. destruct (ordinary_typed v Hv) as [t Ht].
        exists (make_type (kind t) :: ts). split; constructor; eauto. }
      destruct I as (ts & T & Z). destruct (add_statement_ok lm st Hst (SemGateInstr l (mkInstruction (gate_resolution_name sg) ts) sg vs [])) as [st' A].
      exists st'. rewrite (visit_gate_statement_pure st l g ops Hg). apply catch_log_ok. apply (gate_statement_spec lm st Hst); [exact Hg|].
      exists a, sg, vs, k, (mkInstruction (gate_resolution_name sg) ts). auto 12.
  Qed.

  Lemma non_gate_accepted l n ops ps st' : In n (map fst non_gates) -> visit_statement st (SNonGate l n ops ps []) = (Ok st', []) ->
    exists ks cs vs pvs ws i, In (n, (ks, cs)) non_gates /\ visit_expression_list st ops = Ok vs /\ visit_expression_list st ps = Ok pvs /\
       ((Forall2 fits_param pvs ks /\ stored_params pvs ks ws) \/ (pvs = [] /\ ws = [])) /\
       Forall2 (fun c v => exists k, addresses c v k) cs vs /\
       (n = "measure" -> exists k, Forall2 (fun c v => addresses c v k) cs vs) /\
       instr_name i = n /\ operands_typed i vs /\
       statements_of st' = (statements_of st ++ [SemNonGate l i n vs ws []])%list.
  Proof.
    intros Hn E. rewrite visit_non_gate_statement_pure in E. apply catch_log_ok in E.
    apply (non_gate_statement_spec lm st Hst) in E; [|exact Hn].
    destruct E as (ks & cs & vs & pvs & ws & i & I & V & P & S & F & M & N & T & _ & E). apply add_statement_effect in E.
    exists ks, cs, vs, pvs, ws, i. destruct E as [E _]. auto 12.
  Qed.

  Lemma non_gate_params n ps pvs ks cs ws : grammar_non_gate n ps -> visit_expression_list st ps = Ok pvs -> In (n, (ks, cs)) non_gates ->
    ((Forall2 fits_param pvs ks /\ stored_params pvs ks ws) \/ (pvs = [] /\ ws = [])) ->
    exists ks', In (n, (ks', cs)) non_gates /\ Forall2 fits_param pvs ks' /\ stored_params pvs ks' ws.
  Proof.
    intros (Hn & W & O) V I [[F S]|[-> ->]]; [eauto|].
    assert (L : List.length ps = 0%nat).
    { unfold visit_expression_list in V. apply mapM_ok in V. apply Forall2_length in V. exact V. }
    assert (N : n <> "wait") by (intros E; specialize (W E); lia).
    exists []. split; [|split; [constructor|]].
    - cbn in I. cbn. decompose [or] I; try contradiction; (match goal with X : _ = (n, (ks, cs)) |- _ => injection X as <- <- <- end); auto.
      destruct (N eq_refl).
    - split; [reflexivity|]. split; [reflexivity|]. intros [|i]; discriminate.
  Qed.

  Lemma non_gate_accepted_iff l n ops ps : grammar_non_gate n ps ->
    ((exists st', visit_statement st (SNonGate l n ops ps []) = (Ok st', [])) <->
     exists ks cs vs pvs, In (n, (ks, cs)) non_gates /\ visit_expression_list st ops = Ok vs /\ visit_expression_list st ps = Ok pvs /\
       Forall2 fits_param pvs ks /\ Forall2 (fun c v => exists k, addresses c v k) cs vs /\
       (n = "measure" -> exists k, Forall2 (fun c v => addresses c v k) cs vs)).
  Proof.
    intros Hn. split.
    - intros [st' E]. destruct (non_gate_accepted l n ops ps st' (proj1 Hn) E) as (ks & cs & vs & pvs & ws & i & I & V & P & S & F & M & _).
      destruct (non_gate_params n ps pvs ks cs ws Hn P I S) as (ks' & I' & F' & _). exists ks', cs, vs, pvs. auto 10.
    - intros (ks & cs & vs & pvs & I & V & P & Fp & F & M).
      assert (X : exists ws, stored_all pvs ks ws).
      { assert (K : param_kinds ks) by (cbn in I; decompose [or] I; try contradiction;
          (match goal with X : _ = (n, (ks, cs)) |- _ => injection X as <- <- <- end); repeat constructor).
        clear -Fp K. induction Fp as [|v k vs ks H _ IH]; [exists []; constructor|].
        inversion K; subst. destruct IH as [ws IH]; [assumption|]. destruct (fits_promote v k H) as (w & P & C & E); [assumption|].
        exists (w :: ws). constructor; auto. split; auto. }
      destruct X as [ws X]. apply stored_all_iff in X.
      assert (T : exists ts, operands_typed (mkInstruction n ts) vs /\ Forall (fun t => tsize t = 0%Z) ts).
      { unfold operands_typed. cbn [operand_types]. pose proof (visit_list_ordinary lm st Hst _ _ V) as Ho. clear -Ho.
        induction Ho as [|v vs Hv _ (ts & T & Z)]; [exists []; split; constructor|]. destruct (ordinary_typed v Hv) as [t Ht].
        exists (make_type (kind t) :: ts). split; constructor; eauto. }
      destruct T as (ts & T & Z). destruct (add_statement_ok lm st Hst (SemNonGate l (mkInstruction n ts) n vs ws [])) as [st' A].
      exists st'. rewrite visit_non_gate_statement_pure. apply catch_log_ok. apply (non_gate_statement_spec lm st Hst); [apply Hn|].
      exists ks, cs, vs, pvs, ws, (mkInstruction n ts). auto 12.
  Qed.
End Index.
