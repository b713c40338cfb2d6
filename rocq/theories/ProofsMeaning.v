(** Lemmas for C90: expressions, operands, parameters and gates. *)
From Coq Require Import Reals SpecFloat ZArith Lia ZifyBool.
From Verif Require Import Base ModelUtils ModelVersion ModelError ModelTypes ModelOverload ModelFunctions ModelInstructionSet ModelAst ModelAnalyzer ModelSemantic
  SpecUtils SpecTypes SpecFunctions SpecInstructions SpecAnalyzer SpecMachine SpecDiagnosis
  ProofsTypes ProofsFunctions ProofsFolding ProofsFolding2 ProofsIeee ProofsExpr ProofsInstructions ProofsGates ProofsIndex
  ProofsAnalyzer ProofsAnalyzer2 ProofsAnalyzer3 ProofsAnalyzer7 ProofsConstants ProofsRename2 ProofsMachine ProofsDiagnosis ProofsDiagnosis3
  SpecEvaluate ProofsEvaluate ProofsEvaluate2 ProofsEvaluate3 SpecMeaning.
Local Open Scope string_scope.

Definition named_variable (x : variable) : string * value := (var_name x, VVar x).
(** The analyzer knows the variables [vars] and the constants, and no other names. *)
Record sees (lm : libm) (vars : list variable) (st : analyzer) : Prop := {
  re_ordinary : ordinary lm st;
  re_scope : exists g, scopes st = [g];
  re_table : table_here st = (default_constants ++ map named_variable vars)%list;
  re_names : NoDup (constant_names ++ map var_name vars);
  re_sizes : Forall (fun x => tsize (var_type x) <= 2 ^ 63 - 1)%Z vars }.
(** What holds of the analyzer after the declarations [vars] and the instructions [xs] *)
Record reached (lm : libm) (api : list Z) (vars : list variable) (xs : list sem_statement) (st : analyzer) : Prop := {
  re_sees :> sees lm vars st;
  re_api : api_version st = api;
  re_next : next_id st = List.length vars;
  re_statements : statements_of st = xs;
  re_variables : variables_of st = map (fun x => mkSemVariable x []) vars }.

Lemma from_to_zseq a b : from_to a b = zseq a (Z.to_nat (b - a + 1)).
Proof.
  unfold from_to. rewrite (zseq_unique a (map _ _)); [now rewrite map_length, seq_length|]. intros i z H.
  rewrite nth_error_map in H. destruct (nth_error (seq 0 _) i) as [j|] eqn:E; [|discriminate]. injection H as <-.
  pose proof (nth_error_nth _ _ 0%nat E) as N. assert (L : (i < List.length (seq 0 (Z.to_nat (b - a + 1))))%nat) by (apply nth_error_Some; congruence).
  rewrite seq_length in L. rewrite seq_nth in N by exact L. lia.
Qed.

Lemma NoDup_right {A} (a b : list A) : NoDup (a ++ b) -> NoDup b.
Proof. induction a as [|x a IH]; [auto|]. cbn. intros H. inversion H. auto. Qed.

Section State.
  Variables (lm : libm) (vars : list variable) (st : analyzer).
  Hypothesis Hlib : machine_libm lm.
  Hypothesis Hst : sees lm vars st.
  Let Ho : ordinary lm st := re_ordinary _ _ _ Hst.

  Lemma reached_constants : only_constants st.
  Proof.
    destruct (re_scope _ _ _ Hst) as [g S]. pose proof (re_table _ _ _ Hst) as T. unfold table_here in T. rewrite S in T.
    exists g, (map named_variable vars). split; [exact S|]. split; [exact T|]. apply Forall_map, Forall_forall. intros x _. exists x. reflexivity.
  Qed.
  Lemma reached_visit e : machine_literals e -> (forall q, visit st e = Ok (cv q) <-> evaluates lm e q) /\ forall q, evaluates lm e q -> quantity_fits q.
  Proof.
    intros F. apply (visit_correct lm st (machine_returns _ Hlib) (ord_functions _ _ Ho)); [|exact constant_fits|now apply machine_fitting].
    intros l n p. cbn [visit]. rewrite only_constants_find by exact reached_constants. apply constant_is.
  Qed.
  Lemma reached_resolve n x : resolve_variable st n = Ok (VVar x) <-> In x vars /\ var_name x = n.
  Proof.
    destruct (re_scope _ _ _ Hst) as [g S]. pose proof (re_table _ _ _ Hst) as T. unfold table_here in T. rewrite S in T.
    unfold resolve_variable. rewrite S. cbn [resolve_variable_in]. unfold variable_resolve. rewrite T, table_find_app.
    pose proof (re_names _ _ _ Hst) as N.
    assert (C : (exists v, table_find n default_constants = Some v) -> In n constant_names).
    { intros [v E]. apply table_find_In_snd in E. apply (in_map fst) in E. exact E. }
    assert (V : table_find n default_constants <> Some (VVar x)).
    { intros E. apply table_find_In_snd in E. cbn in E. intuition discriminate. }
    destruct (table_find n default_constants) as [v|] eqn:E.
    - split; [congruence|]. intros [I <-]. exfalso. assert (J : In (var_name x) constant_names) by eauto.
      apply in_split in J. destruct J as (a & b & J). rewrite J, <- app_assoc in N. cbn in N. apply NoDup_remove_2 in N. apply N.
      rewrite !in_app_iff. right. right. now apply in_map.
    - clear E V C. apply NoDup_right in N. clear -N. induction vars as [|y ys IH]; cbn [map].
      + split; [discriminate|intros [[] _]].
      + cbn [map] in N. inversion N as [|? ? N1 N2]; subst. replace (table_find n (named_variable y :: map named_variable ys)) with (if String.eqb (var_name y) n then Some (VVar y) else table_find n (map named_variable ys)) by reflexivity. destruct (String.eqb_spec (var_name y) n) as [D|D].
        * split; [intros [= <-]; split; [now left|exact D]|]. intros [[->|I] E]; [reflexivity|]. exfalso. apply N1. rewrite D, <- E. now apply in_map.
        * rewrite (IH N2). split; [intros [I E]; split; [now right|exact E]|]. intros [[->|I] E]; [congruence|auto].
  Qed.

  Lemma const_quantity v : is_const v -> exists q, v = cv q.
  Proof. exact (const_cv v). Qed.
  Lemma reached_denotes e z : machine_literals e -> (denotes_int st e z <-> index_means lm e z).
  Proof.
    intros M. destruct (reached_visit e M) as [E _]. split.
    - intros (v & V & C & H). destruct (const_cv v C) as [q ->]. apply E in V. apply (index_number lm e q z V).
      destruct q as [[|]|z'|f]; cbn in H |- *; intuition congruence.
    - intros H. inversion H as [e' q z' V W]; subst. apply E in V. exists (cv q). split; [exact V|]. split; [destruct q; exact I|].
      destruct q as [[|]|z''|f]; cbn in W |- *; try discriminate; injection W as <-; auto.
  Qed.

  Definition machine_entry (i : index_entry) : Prop :=
    match i with IItem _ e => machine_literals e | IRange _ a b => machine_literals a /\ machine_literals b end.
  Lemma reached_selects is : Forall machine_entry is -> forall zs, selects st is zs <-> indices_mean lm is zs.
  Proof.
    induction 1 as [|i is M _ IH]; intros zs.
    - split; intros H; inversion H; constructor.
    - destruct i as [l e|l a b]; cbn [machine_entry] in M.
      + split; intros H; inversion H as [|? ? z ? zs' D S|]; subst; (constructor; [now apply (reached_denotes e)|now apply IH]).
      + destruct M as [Ma Mb]. split; intros H.
        * inversion H as [| |? ? ? x y r ? zs' Da Db L N R S]; subst. assert (r = from_to x y) as ->.
          { rewrite from_to_zseq, <- N. now apply zseq_unique. }
          constructor; auto; [now apply (reached_denotes a)|now apply (reached_denotes b)|now apply IH].
        * inversion H as [| |? ? ? x y ? zs' Da Db L S]; subst. rewrite from_to_zseq. econstructor; eauto.
          -- now apply (reached_denotes a).
          -- now apply (reached_denotes b).
          -- now rewrite zseq_length.
          -- intros i z. apply zseq_nth.
          -- now apply IH.
  Qed.
  Lemma entries_machine l b is : machine_literals (EIndex l b is) -> Forall machine_entry is.
  Proof.
    intros M. apply Forall_forall. intros [l' e|l' a c] I; cbn [machine_entry].
    - apply (machine_sub _ _ M). intros x W. eapply within_item; eauto.
    - split; apply (machine_sub _ _ M); intros x W; [eapply within_first; eauto|eapply within_last; eauto].
  Qed.

  Lemma call_not_variable n vs x : resolve_function st n vs <> Ok (VVar x).
  Proof. rewrite (resolve_function_call lm st n vs (ord_functions _ _ Ho)). intros E. destruct (call_ok_const _ _ _ _ E) as [_ C]. exact C. Qed.
  Lemma call_not_index n vs x is : resolve_function st n vs <> Ok (VIndex x is).
  Proof. rewrite (resolve_function_call lm st n vs (ord_functions _ _ Ho)). intros E. destruct (call_ok_const _ _ _ _ E) as [_ C]. exact C. Qed.
  Lemma variable_identifier e x : visit st e = Ok (VVar x) -> exists l, e = EIdent l (var_name x) /\ In x vars.
  Proof.
    destruct e as [l b|l z|l f|l n|l b is|l n args|l op a|l op a b|l c a b]; cbn [visit]; intros E; try discriminate.
    - apply reached_resolve in E. destruct E as [I <-]. eauto.
    - exfalso. apply with_context_ok_iff in E. apply bind_ok_inv in E. destruct E as (v & _ & E). destruct v; try discriminate.
      destruct (kind (var_type v)); try discriminate; apply bind_ok_inv in E; destruct E as (? & _ & E); apply bind_ok_inv in E; destruct E as (? & _ & E); discriminate.
    - exfalso. destruct args; [apply bind_ok_inv in E; destruct E as (? & _ & E)|]; now apply call_not_variable in E.
    - exfalso. apply bind_ok_inv in E. destruct E as (? & _ & E). now apply call_not_variable in E.
    - exfalso. apply bind_ok_inv in E. destruct E as (? & _ & E). apply bind_ok_inv in E. destruct E as (? & _ & E). now apply call_not_variable in E.
    - exfalso. do 3 (apply bind_ok_inv in E; destruct E as (? & _ & E)). now apply call_not_variable in E.
  Qed.
  Lemma index_shape e x is : visit st e = Ok (VIndex x is) -> exists l l' n es, e = EIndex l (EIdent l' n) es.
  Proof.
    destruct e as [l b|l z|l f|l n|l b es|l n args|l op a|l op a b|l c a b]; cbn [visit]; intros E; try discriminate.
    - exfalso. destruct (re_scope _ _ _ Hst) as [g S]. pose proof (re_table _ _ _ Hst) as T. unfold table_here in T. rewrite S in T.
      unfold resolve_variable in E. rewrite S in E. cbn [resolve_variable_in] in E. unfold variable_resolve in E. rewrite T in E.
      destruct (table_find n _) as [v|] eqn:X; [|discriminate]. injection E as ->. apply table_find_In_snd in X. apply in_app_or in X. destruct X as [X|X].
      + cbn in X. intuition discriminate.
      + apply in_map_iff in X. destruct X as (y & X & _). discriminate.
    - apply with_context_ok_iff in E. apply bind_ok_inv in E. destruct E as (v & V & E). destruct v; try discriminate.
      apply with_context_ok_iff in V. apply variable_identifier in V. destruct V as (l' & -> & _). eauto.
    - exfalso. destruct args; [apply bind_ok_inv in E; destruct E as (? & _ & E)|]; now apply call_not_index in E.
    - exfalso. apply bind_ok_inv in E. destruct E as (? & _ & E). now apply call_not_index in E.
    - exfalso. apply bind_ok_inv in E. destruct E as (? & _ & E). apply bind_ok_inv in E. destruct E as (? & _ & E). now apply call_not_index in E.
    - exfalso. do 3 (apply bind_ok_inv in E; destruct E as (? & _ & E)). now apply call_not_index in E.
  Qed.

  Lemma reached_index l l' n es v : machine_literals (EIndex l (EIdent l' n) es) ->
    (visit_expression st (EIndex l (EIdent l' n) es) = Ok v <-> operand_means lm vars (EIndex l (EIdent l' n) es) v).
  Proof.
    intros M. rewrite (index_accepted lm st Ho).
    - split.
      + intros (x & zs & R & K & S & F & ->). apply reached_resolve in R. destruct R as [I <-]. constructor; auto.
        now apply (reached_selects es (entries_machine _ _ _ M)).
      + intros H. inversion H as [|? ? x ? zs I K S F]; subst. exists x, zs. split; [now apply reached_resolve|]. split; [exact K|].
        split; [now apply (reached_selects es (entries_machine _ _ _ M))|auto].
    - intros x R. apply reached_resolve in R. destruct R as [I _]. pose proof (re_sizes _ _ _ Hst) as Z. rewrite Forall_forall in Z. now apply Z.
  Qed.
  Definition operand_value (v : value) : Prop := exists c k, addresses c v k.
  Lemma reached_operand e v : machine_literals e -> operand_value v -> (visit_expression st e = Ok v <-> operand_means lm vars e v).
  Proof.
    intros M (c & k & A). split.
    - intros E. assert (X : (exists x, v = VVar x) \/ exists x is, v = VIndex x is) by (inversion A; eauto).
      destruct X as [[x ->]|(x & is & ->)].
      + unfold visit_expression in E. apply with_context_ok_iff in E. apply variable_identifier in E. destruct E as (l & -> & I). now constructor.
      + pose proof E as E'. unfold visit_expression in E'. apply with_context_ok_iff in E'. destruct (index_shape e x is E') as (l & l' & n & es & ->).
        now apply reached_index.
    - intros H. destruct H as [l x I|l l' x es zs I K S F].
      + unfold visit_expression. apply with_context_ok_iff. cbn [visit]. now apply reached_resolve.
      + apply reached_index; [exact M|]. now constructor.
  Qed.
  Lemma reached_operands es vs : Forall machine_literals es -> Forall operand_value vs ->
    (visit_expression_list st es = Ok vs <-> Forall2 (operand_means lm vars) es vs).
  Proof.
    intros M A. unfold visit_expression_list. rewrite mapM_ok. revert vs A. induction M as [|e es M _ IH]; intros vs A.
    - split; intros H; inversion H; constructor.
    - split; intros H; inversion H as [|? v ? vs' E R]; subst; inversion A; subst; constructor; try (now apply IH); now apply (reached_operand e).
  Qed.

  (** ** Parameters *)
  Definition parameter_kind (k : type_kind) : Prop := k = TFloat \/ k = TInt.
  Lemma stored_number_is q k w : parameter_kind k -> quantity_fits q ->
    ((fits_param (cv q) k /\ stored_as (cv q) k w) <-> exists r, w = cv r /\ stored_number q k r).
  Proof.
    intros K Q. unfold fits_param, stored_as. destruct K as [->| ->].
    - split.
      + intros [_ (_ & _ & P)]. exists (QFloat (to_double q)). split; [destruct q as [[|]|z|f]; cbn in P; injection P as <-; reflexivity|].
        constructor. now apply as_double_is.
      + intros (r & -> & H). inversion H as [? f D|]; subst. apply as_double_is in D; [|exact Q]. subst.
        split; [split; [destruct q; exact I|]|split; [exact I|split; [reflexivity|]]]; destruct q as [[|]|z|f]; try reflexivity; cbn; auto; right; constructor.
    - split.
      + intros [[_ F] (_ & _ & P)]. destruct q as [[|]|z|f]; cbn in P; try discriminate; injection P as <-;
          [exists (QInt 1)|exists (QInt 0)|exists (QInt z)]; (split; [reflexivity|now constructor]).
      + intros (r & -> & H). inversion H as [|? z D]; subst.
        split; [split; [destruct q; exact I|]|split; [exact I|split; [reflexivity|]]]; destruct q as [[|]|z'|f]; cbn in D; try discriminate; injection D as <-; try reflexivity; cbn; auto; right; constructor.
  Qed.
  Lemma reached_value e v : machine_literals e -> is_const v -> visit_expression st e = Ok v -> exists q, v = cv q /\ evaluates lm e q /\ quantity_fits q.
  Proof.
    intros M C E. destruct (const_cv v C) as [q ->]. destruct (reached_visit e M) as [V F]. unfold visit_expression in E. apply with_context_ok_iff in E.
    apply V in E. exists q. auto.
  Qed.
  Lemma reached_parameters ps ks ws : Forall machine_literals ps -> Forall parameter_kind ks ->
    ((exists vs, visit_expression_list st ps = Ok vs /\ stored_all vs ks ws) <-> parameters_mean lm ps ks ws).
  Proof.
    intros M K. unfold visit_expression_list. setoid_rewrite mapM_ok. split.
    - intros (vs & E & S). revert ks ws K S. induction E as [|e v ps vs E _ IH]; intros ks ws K S; inversion S as [|? k w ? ks' ws' F A R]; subst; [constructor|].
      inversion M as [|? ? M1 M2]; subst. inversion K as [|? ? K1 K2]; subst. destruct (reached_value e v M1 (proj1 F) E) as (q & -> & V & Q).
      destruct (proj1 (stored_number_is q k w K1 Q) (conj F A)) as (r & -> & N). econstructor; eauto.
    - intros H. induction H as [|e q k w ps ks ws V N _ IH]; [exists []; split; constructor|].
      inversion M as [|? ? M1 M2]; subst. inversion K as [|? ? K1 K2]; subst. destruct (IH M2 K2) as (vs & E & S). destruct (reached_visit e M1) as [X F].
      exists (cv q :: vs). split.
      + constructor; [|exact E]. unfold visit_expression. apply with_context_ok_iff. now apply X.
      + destruct (proj2 (stored_number_is q k (cv w) K1 (F q V))) as [A B]; [eauto|]. now constructor.
  Qed.
  Lemma gates_kinds n ks a : In (n, (ks, a)) gates -> Forall parameter_kind ks.
  Proof.
    intros I. assert (F : Forall (fun e : string * (list type_kind * nat) => Forall parameter_kind (fst (snd e))) gates).
    { unfold gates, parameter_kind. repeat (constructor; [cbn; repeat (constructor; [auto|]); constructor|]). constructor. }
    rewrite Forall_forall in F. exact (F _ I).
  Qed.
  Lemma non_gates_kinds n ks a : In (n, (ks, a)) non_gates -> Forall parameter_kind ks.
  Proof.
    intros I. assert (F : Forall (fun e : string * (list type_kind * list operand_class) => Forall parameter_kind (fst (snd e))) non_gates).
    { unfold non_gates, parameter_kind. repeat (constructor; [cbn; repeat (constructor; [auto|]); constructor|]). constructor. }
    rewrite Forall_forall in F. exact (F _ I).
  Qed.

  (** ** Gates *)
  Lemma reached_gate g sg a : Forall machine_literals (gate_exprs g) ->
    (legal_gate st g a /\ stored_gate st g sg <-> exists base name, gate_means lm g sg base name a).
  Proof.
    intros M. split.
    - intros [L S]. revert a L. induction S as [l n ps ks b vs ws G V S|l m ks ps vs ws g sg I S IH V P]; intros a L.
      + inversion L as [? ? ? ks' ? vs' G' V' F| | |]; subst. destruct (gates_functional _ _ _ _ _ G G') as [<- <-].
        assert (vs' = vs) by congruence. subst. exists n, n. econstructor; [exact G|].
        apply reached_parameters; [|now apply (gates_kinds n ks b)|exists vs; split; [exact V|now apply stored_all_stored]].
        cbn [gate_exprs app] in M. apply Forall_app in M. apply M.
      + assert (Mg : Forall machine_literals (gate_exprs g)) by (cbn [gate_exprs] in M; apply Forall_app in M; apply M).
        assert (Mp : Forall machine_literals ps) by (cbn [gate_exprs] in M; apply Forall_app in M; destruct M as [_ M]; apply Forall_app in M; apply M).
        inversion L as [|? ? Lg|? ? e v Lg E F|? ? Lg]; subst; destruct (IH Mg _ Lg) as (base & name & IHg); exists base.
        * assert (ks = []) as -> by (cbn in I; intuition congruence). destruct P as (_ & Lw & _). destruct ws; [|discriminate]. eexists. econstructor; eauto.
        * assert (ks = [TFloat]) as -> by (cbn in I; intuition congruence). eexists. econstructor; [exact IHg|].
          apply reached_parameters; [exact Mp|repeat constructor|]. exists vs. split; [exact V|]. apply stored_all_stored. split; [|exact P].
          unfold visit_expression_list in V. cbn in V. rewrite E in V. injection V as <-. auto.
        * assert (ks = []) as -> by (cbn in I; intuition congruence). destruct P as (_ & Lw & _). destruct ws; [|discriminate]. eexists. econstructor; eauto.
    - intros (base & name & H).
      assert (Z : stored_params [] [] []) by (split; [reflexivity|]; split; [reflexivity|]; intros [|i]; discriminate).
      induction H as [l n ps ks a ws G P|l g sg base name H IH|l g sg base name ps ws H IH P|l g sg base name H IH]; cbn [gate_exprs app] in M.
      + apply reached_parameters in P; [|apply Forall_app in M; apply M|now apply (gates_kinds n ks a)]. destruct P as (vs & V & S). apply stored_all_stored in S. destruct S as [F S].
        split; econstructor; eauto.
      + apply Forall_app in M. destruct M as [M _]. destruct (IH M) as [L S]. split; [now constructor|]. eapply sg_modified; [cbn; auto|exact S|reflexivity|exact Z].
      + apply Forall_app in M. destruct M as [M M2]. destruct (IH M) as [L S]. apply Forall_app in M2. destruct M2 as [Mp _].
        apply reached_parameters in P; [|exact Mp|repeat constructor]. destruct P as (vs & V & T). apply stored_all_stored in T. destruct T as [F T].
        split; [|eapply sg_modified; [cbn; auto|exact S|exact V|exact T]].
        inversion F as [|v ? vs' ? F1 F2]; subst. inversion F2; subst. pose proof V as V'. unfold visit_expression_list in V. apply mapM_ok in V. inversion V as [|e ? ? ? E R]; subst. inversion R; subst.
        econstructor; eauto.
      + apply Forall_app in M. destruct M as [M _]. destruct (IH M) as [L S]. split; [now constructor|]. eapply sg_modified; [cbn; auto|exact S|reflexivity|exact Z].
  Qed.
End State.

Lemma means_name lm g sg base name a : gate_means lm g sg base name a -> gate_terminal_name sg = base /\ gate_resolution_name sg = name.
Proof.
  induction 1 as [l n ps ks a ws G P|l g sg base name H IH|l g sg base name ps ws H IH P|l g sg base name H IH]; cbn [gate_terminal_name];
    try (split; reflexivity); destruct IH as [IH _]; (split; [exact IH|]); rewrite resolution_name, IH; reflexivity.
Qed.
