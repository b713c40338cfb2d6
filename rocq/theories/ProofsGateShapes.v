(** Lemmas for C103: instructions in trees of any shape. *)
From Coq Require Import SpecFloat ZifyBool.
From Verif Require Import Base ModelUtils ModelVersion ModelError ModelTypes ModelOverload ModelFunctions
  ModelInstructionSet ModelAst ModelAnalyzer ModelSemantic SpecTypes SpecFunctions SpecInstructions SpecGateShapes
  ProofsTypes ProofsFunctions ProofsFolding ProofsExpr PropertiesTypes ProofsInstructions ProofsGates ProofsAnalyzer ProofsAnalyzer3.
From Verif Require ProofsShapes.
Local Open Scope string_scope.

(** ** Parameters *)

Lemma stored_exists vs ks : param_kinds ks -> Forall2 fits_param vs ks -> exists ws, stored_all vs ks ws.
Proof.
  intros K F. induction F as [|v k vs ks H F IH]; [exists []; constructor|].
  inversion K as [|? ? K1 K2]; subst. destruct (IH K2) as [ws W]. destruct (fits_promote v k H K1) as (w & E & C & Kw).
  exists (w :: ws). constructor; [exact H|split; [exact C|split; [exact Kw|exact E]]|exact W].
Qed.
Lemma non_gates_param_kinds n ks cs : In (n, (ks, cs)) non_gates -> param_kinds ks.
Proof. cbn. intros H. decompose [or] H; try contradiction; match goal with E : (_, _) = (_, _) |- _ => injection E as <- <- <- end; repeat constructor. Qed.

Lemma takes_resolve n vs : Forall ordinary_value vs -> ((exists ws, resolve_parameters n vs = Ok ws) <-> takes n vs).
Proof.
  intros Ho. unfold takes. destruct (disjoint_names n) as [D1 D2].
  destruct (in_dec string_dec n (map fst gates)) as [I1|I1]; [|destruct (in_dec string_dec n (map fst non_gates)) as [I2|I2];
    [|destruct (in_dec string_dec n (map fst modifiers)) as [I3|I3]]].
  - destruct (In_names _ _ I1) as [[ks a] G]. pose proof (or_introl (ex_intro _ a G) : (exists a, In (n, (ks, a)) gates) \/ In (n, ks) modifiers) as G0.
    pose proof (proj2 (resolve_parameters_known n ks vs G0 Ho)) as R. destruct (D1 I1) as [N1 N2]. split.
    + intros [ws E]. apply R, stored_all_stored in E. left. exists ks, a. tauto.
    + intros [(ks' & a' & G' & F)|[(ks' & M & _)|(ks' & cs & M & _)]].
      * destruct (gates_functional _ _ _ _ _ G G') as [<- _]. destruct (stored_exists vs ks (gates_param_kinds n ks G0) F) as [ws X].
        exists ws. now apply R.
      * destruct (N2 (in_map fst _ _ M)).
      * destruct (N1 (in_map fst _ _ M)).
  - pose proof (proj2 (resolve_parameters_non_gate n vs I2 Ho)) as R. split.
    + intros [ws E]. apply R in E. right. right. destruct E as [(ks & cs & I & E)|[E _]].
      * apply stored_all_stored in E. exists ks, cs. tauto.
      * destruct (In_names _ _ I2) as [[ks cs] I]. eauto.
    + intros [(ks & a & G & F)|[(ks & M & _)|(ks & cs & M & [F| ->])]].
      * destruct (I1 (in_map fst _ _ G)).
      * destruct (D2 I2 (in_map fst _ _ M)).
      * destruct (stored_exists vs ks (non_gates_param_kinds n ks cs M) F) as [ws X]. exists ws. apply R. left. eauto.
      * exists []. apply R. auto.
  - destruct (In_names _ _ I3) as [ks M]. pose proof (or_intror M : (exists a, In (n, (ks, a)) gates) \/ In (n, ks) modifiers) as G0.
    pose proof (proj2 (resolve_parameters_known n ks vs G0 Ho)) as R. split.
    + intros [ws E]. apply R, stored_all_stored in E. right. left. exists ks. tauto.
    + intros [(ks' & a' & G' & F)|[(ks' & M' & F)|(ks' & cs & M' & _)]].
      * destruct (I1 (in_map fst _ _ G')).
      * rewrite (modifiers_functional _ _ _ M' M) in F. destruct (stored_exists vs ks (gates_param_kinds n ks G0) F) as [ws X].
        exists ws. now apply R.
      * destruct (I2 (in_map fst _ _ M')).
  - destruct (resolve_parameters_unknown n vs I1 I2 I3) as [e E]. split.
    + intros [ws X]. congruence.
    + intros [(ks' & a' & G' & F)|[(ks' & M' & F)|(ks' & cs & M' & _)]].
      * destruct (I1 (in_map fst _ _ G')).
      * destruct (I3 (in_map fst _ _ M')).
      * destruct (I2 (in_map fst _ _ M')).
Qed.
Lemma takes_known n vs : takes n vs -> In n (map fst gates) \/ In n (map fst non_gates) \/ In n (map fst modifiers).
Proof. intros [(ks & a & G & _)|[(ks & M & _)|(ks & cs & M & _)]]; [left|right; right|right; left]; exact (in_map fst _ _ ltac:(eassumption)). Qed.

(** ** Gates *)

(** The name under which the instruction is looked up *)
Definition lookup_name (g : gate) : string :=
  match g with
  | Gate _ n None _ _ => n
  | Gate _ n (Some g') _ _ => ((if is_single_qubit_gate_modifier n then "1q_" else "2q_") ++ gate_base g')%string
  end.
Lemma single_modifier n : is_single_qubit_gate_modifier n = true <-> n = "inv" \/ n = "pow".
Proof.
  unfold is_single_qubit_gate_modifier, is_inv_gate_modifier, is_pow_gate_modifier. rewrite orb_true_iff, !String.eqb_eq. reflexivity.
Qed.

Section GateShapes.
  Variables (lm : libm) (st : analyzer).
  Hypothesis Hst : ordinary lm st.
  Notation pure := (pure_gate st).

  Lemma visit_gate_plain : forall g, plain_gate g -> visit_gate st g = lift (pure g).
  Proof.
    assert (T : forall l n i ps, lbind (lift (visit_expression_list st ps)) (fun vs => lbind (lift (resolve_parameters n vs))
        (fun ws => lbind (lift (check_gate i)) (fun _ => lbind (visit_annotated st []) (fun ans => lift (Ok (SemGate l n i ws ans))))))
      = lift (let! vs := visit_expression_list st ps in let! ws := resolve_parameters n vs in let! _ := check_gate i in
              Ok (SemGate l n i ws []))).
    { intros. apply lbind_lift; intros vs. apply lbind_lift; intros ws. apply lbind_lift; intros _. reflexivity. }
    fix IH 1. intros [l n [g|] ps an] P; inversion P as [? ? ? ? Q]; subst; cbn [visit_gate pure_gate]; rewrite <- log_context_lift; f_equal.
    - rewrite (IH g (Q g eq_refl)). rewrite (lbind_lift _ _ (fun r => Ok (Some r))) by reflexivity. apply lbind_lift. intros i. apply T.
    - unfold lift at 1. cbn [lbind bind]. rewrite T. reflexivity.
  Qed.

  Lemma two_iff g sg vs l n i ps an : g = Gate l n i ps an -> takes n vs -> gate_resolution_name sg = lookup_name g ->
    (is_two_qubit_gate (gate_resolution_name sg) = true <-> acts_on_two g).
  Proof.
    intros -> T ->. cbn [lookup_name acts_on_two]. destruct i as [g'|].
    - destruct (prefixed_two (gate_base g')) as [P1 P2]. destruct (is_single_qubit_gate_modifier n) eqn:S.
      + rewrite P1. apply single_modifier in S. split; [discriminate|]. tauto.
      + rewrite P2. split; [intros _|reflexivity]. split; intros ->; discriminate.
    - unfold is_two_qubit_gate. rewrite orb_true_iff, two_spec. destruct (no_composition_prefix n (takes_known n vs T)) as [_ N].
      unfold is_two_qubit_gate_composition, two_qubit_gate_composition_prefix in *. rewrite N. split; [intros [H|H]; [exact H|discriminate]|auto].
  Qed.

  Lemma pure_gate_fits : forall g, plain_gate g ->
    ((exists sg, pure g = Ok sg) <-> gate_fits st g) /\
    (forall sg, pure g = Ok sg -> gate_resolution_name sg = lookup_name g /\ gate_terminal_name sg = gate_base g).
  Proof.
    fix IH 1. intros [l n i ps an] P; inversion P as [? ? ? ? Q]; subst.
    assert (IHi : forall g, i = Some g -> ((exists sg, pure g = Ok sg) <-> gate_fits st g) /\
      (forall sg, pure g = Ok sg -> gate_resolution_name sg = lookup_name g /\ gate_terminal_name sg = gate_base g)).
    { destruct i as [g|]; [|discriminate]. intros g' [= <-]. exact (IH g (Q g eq_refl)). }
    clear IH Q P. split.
    - cbn [pure_gate]. split.
      + intros [sg E]. apply with_context_ok_iff in E. apply bind_ok_inv in E. destruct E as (i' & Ei & E).
        apply bind_ok_inv in E. destruct E as (vs & Ev & E). apply bind_ok_inv in E. destruct E as (ws & Ew & E).
        apply bind_ok_inv in E. destruct E as ([] & Ec & _).
        econstructor; [exact Ev|apply takes_resolve; [exact (visit_list_ordinary lm st Hst _ _ Ev)|eauto]|].
        intros g ->. destruct (IHi g eq_refl) as [IH1 IH2]. apply bind_ok_inv in Ei. destruct Ei as (sg' & Es & [= <-]).
        assert (F : gate_fits st g) by (apply IH1; eauto). split; [exact F|].
        destruct (IH2 sg' Es) as [L _]. inversion F as [l' n' i'' ps' vs' V' T' _]; subst g.
        intros A. apply (two_iff _ sg' vs' _ _ _ _ _ eq_refl T' L) in A. cbn [check_gate] in Ec. rewrite A in Ec. discriminate.
      + intros F. inversion F as [? ? ? ? vs V T G]; subst.
        assert (X : exists i', match i with None => Ok None | Some g' => let! r := pure g' in Ok (Some r) end = Ok i' /\ check_gate i' = Ok tt).
        { destruct i as [g|]; [|exists None; split; reflexivity]. destruct (G g eq_refl) as [Fg N]. destruct (IHi g eq_refl) as [IH1 IH2].
          destruct (proj2 IH1 Fg) as [sg' Es]. exists (Some sg'). rewrite Es. split; [reflexivity|]. cbn [check_gate].
          destruct (IH2 sg' Es) as [L _]. inversion Fg as [l' n' i'' ps' vs' V' T' _]; subst g.
          pose proof (two_iff _ sg' vs' _ _ _ _ _ eq_refl T' L) as I. destruct (is_two_qubit_gate _); [destruct N; now apply I|reflexivity]. }
        destruct X as (i' & Ei & Ec). apply takes_resolve in T; [|exact (visit_list_ordinary lm st Hst _ _ V)]. destruct T as [ws W].
        exists (SemGate l n i' ws []). apply with_context_ok_iff. rewrite Ei. cbn [bind]. rewrite V. cbn [bind]. rewrite W. cbn [bind]. rewrite Ec. reflexivity.
    - cbn [pure_gate]. intros sg E. apply with_context_ok_iff in E. apply bind_ok_inv in E. destruct E as (i' & Ei & E).
      apply bind_ok_inv in E. destruct E as (vs & Ev & E). apply bind_ok_inv in E. destruct E as (ws & Ew & E).
      apply bind_ok_inv in E. destruct E as ([] & Ec & [= <-]). destruct i as [g|].
      + apply bind_ok_inv in Ei. destruct Ei as (sg' & Es & [= <-]). destruct (IHi g eq_refl) as [_ IH2]. destruct (IH2 sg' Es) as [_ T].
        cbn [lookup_name gate_base gate_terminal_name]. rewrite resolution_name, T. split; reflexivity.
      + injection Ei as <-. split; reflexivity.
  Qed.

  (** ** What is registered *)

  Lemma name_registered n cs : name_operands n cs -> forall ks, In (n, ks) registered_kinds <-> Forall2 of_class cs ks.
  Proof.
    intros [pk a G|pk cs' G] ks.
    - rewrite (registered_gate n pk a ks G). symmetry. apply repeat_class.
    - exact (registered_non_gate_classes n pk cs' ks G).
  Qed.
  Lemma gate_registered g cs : gate_operands g cs -> forall ks, In (lookup_name g, ks) registered_kinds <-> Forall2 of_class cs ks.
  Proof.
    intros [l n ps an cs' N|l n g' ps an k Hn G|l n g' ps an k H1 H2 G] ks; cbn [lookup_name].
    - exact (name_registered n cs' N ks).
    - assert (S : is_single_qubit_gate_modifier n = true) by now apply single_modifier.
      rewrite S, registered_composition by auto. rewrite (repeat_class 1 ks : Forall2 of_class [Qubits] ks <-> _), single_gates_In.
      change ("1q_" =? "1q_") with true. cbv iota. split; [tauto|]. split; [eauto|tauto].
    - assert (S : is_single_qubit_gate_modifier n = false).
      { destruct (is_single_qubit_gate_modifier n) eqn:S; [|reflexivity]. apply single_modifier in S. tauto. }
      rewrite S, registered_composition by auto. rewrite (repeat_class 2 ks : Forall2 of_class [Qubits; Qubits] ks <-> _), single_gates_In.
      change ("2q_" =? "1q_") with false. cbv iota. split; [tauto|]. split; [eauto|tauto].
  Qed.
  Lemma registered_name n vs ks : takes n vs -> In (n, ks) registered_kinds -> exists cs, name_operands n cs.
  Proof.
    intros T R. apply registered_spec in R. destruct R as [(pk & a & G & _)|[(m & E & _)|[(m & E & _)|(pk & cs & G & _)]]].
    - eexists. econstructor. exact G.
    - destruct (known_no_prefix n m (takes_known n vs T)) as [N _]. destruct (N E).
    - destruct (known_no_prefix n m (takes_known n vs T)) as [_ N]. destruct (N E).
    - eexists. eapply no_other. exact G.
  Qed.
  Lemma registered_shape g ks : gate_fits st g -> In (lookup_name g, ks) registered_kinds -> exists cs, gate_operands g cs.
  Proof.
    intros F R. inversion F as [l n i ps vs V T G]; subst. cbn [lookup_name] in R. destruct i as [g'|].
    - destruct (is_single_qubit_gate_modifier n) eqn:S.
      + apply registered_composition in R; [|auto]. destruct R as [R _]. apply single_gates_In in R. destruct R as [k R].
        exists [Qubits]. econstructor; [now apply single_modifier|exact R].
      + apply registered_composition in R; [|auto]. destruct R as [R _]. apply single_gates_In in R. destruct R as [k R].
        exists [Qubits; Qubits]. apply go_two with k; [intros ->; discriminate|intros ->; discriminate|exact R].
    - destruct (registered_name n vs ks T R) as [cs N]. exists cs. now constructor.
  Qed.

  (** ** Operands *)

  Lemma resolved_operands n cs vs : (forall ks, In (n, ks) registered_kinds <-> Forall2 of_class cs ks) -> Forall ordinary_value vs ->
    ((exists r, resolve_instruction st n vs = Ok r /\ snd r = vs) <-> Forall2 (fun c v => exists m, addresses c v m) cs vs).
  Proof.
    intros R Ho. rewrite <- operands_classes by exact Ho. split.
    - intros ([i ws] & E & _). apply (resolve_instruction_default lm st Hst) in E; [|now apply ordinary_typed_list].
      destruct E as (_ & ks & I & K & _). exists ks. split; [exact K|now apply R].
    - intros (ks & K & F). exists (mkInstruction n (map make_type ks), vs). split; [|reflexivity].
      apply (resolve_instruction_default lm st Hst); [now apply ordinary_typed_list|]. split; [reflexivity|]. exists ks. split; [now apply R|split; [exact K|reflexivity]].
  Qed.

  Lemma gate_sizes cs vs : Forall2 (fun c v => exists m, addresses c v m) cs vs ->
    (check_gate_operands vs = Ok tt <-> exists k, Forall2 (k_qubits k) cs vs).
  Proof.
    intros F. unfold check_gate_operands.
    assert (X : adjacent_equal (map qubit_indices_size vs) = true <-> exists k, Forall2 (k_qubits k) cs vs).
    { rewrite adjacent_equal_all. split; intros [k H]; exists k.
      - rewrite Forall_map in H. revert H. induction F as [|c v cs vs [m A] _ IH]; intros H; constructor.
        + inversion H as [|? ? E _]; subst. destruct (addresses_size _ _ _ A) as [S1 S2]. destruct c; cbn [k_qubits].
          * rewrite S1. exact A.
          * split; [exact S1|eauto].
        + apply IH. now inversion H.
      - apply Forall_map. clear F. induction H as [|c v cs vs A _ IH]; constructor; [|exact IH]. destruct c; cbn [k_qubits] in A.
        + exact (proj1 (addresses_size _ _ _ A)).
        + destruct A as [-> [m A]]. exact (proj1 (addresses_size _ _ _ A)). }
    destruct (adjacent_equal _).
    - split; [intros _; now apply X|reflexivity].
    - split; [discriminate|]. intros H. apply X in H. discriminate.
  Qed.
  Lemma k_addresses k cs vs : Forall2 (k_qubits k) cs vs -> Forall2 (fun c v => exists m, addresses c v m) cs vs.
  Proof. induction 1 as [|c v cs vs A _ IH]; constructor; [|exact IH]. destruct c; cbn in A; [eauto|tauto]. Qed.

  (** ** Statements *)

  Lemma visit_plain l g ops : plain_gate g ->
    visit_statement st (SGateInstr l g ops []) = catch_log l st (lift (pure_gate_statement st l g ops)).
  Proof.
    intros Hg. cbn [visit_statement]. unfold visit_gate_instruction. rewrite (visit_gate_plain g Hg). f_equal.
    apply lbind_lift; intros sg. apply lbind_lift; intros vs. apply lbind_lift; intros r. apply lbind_lift; intros _.
    cbn [visit_annotated]. unfold lift at 1. cbn [lbind].
    destruct (add_statement st (SemGateInstr l (fst r) sg (snd r) [])); reflexivity.
  Qed.

  Lemma gate_shapes l g ops : plain_gate g ->
    ((exists st', visit_statement st (SGateInstr l g ops []) = (Ok st', [])) <->
     exists cs vs k, gate_fits st g /\ gate_operands g cs /\ visit_expression_list st ops = Ok vs /\ Forall2 (k_qubits k) cs vs).
  Proof.
    intros P. rewrite (visit_plain l g ops P). setoid_rewrite catch_log_ok. destruct (pure_gate_fits g P) as [FE FN]. unfold pure_gate_statement. split.
    - intros [st' E]. apply bind_ok_inv in E. destruct E as (sg & Es & E). apply bind_ok_inv in E. destruct E as (vs & Ev & E).
      apply bind_ok_inv in E. destruct E as ([i ws] & Ei & E). apply bind_ok_inv in E. destruct E as ([] & Ec & _). cbn [fst snd] in *.
      assert (F : gate_fits st g) by (apply FE; eauto). destruct (FN sg Es) as [L _]. rewrite L in Ei.
      pose proof (visit_list_ordinary lm st Hst _ _ Ev) as Ho. pose proof Ei as Ei'.
      apply (resolve_instruction_default lm st Hst) in Ei; [|now apply ordinary_typed_list]. destruct Ei as (-> & ks & R & _).
      destruct (registered_shape g ks F R) as [cs G].
      assert (A : Forall2 (fun c v => exists m, addresses c v m) cs vs).
      { apply (resolved_operands (lookup_name g) cs vs (gate_registered g cs G) Ho). eauto. }
      apply (gate_sizes cs vs A) in Ec. destruct Ec as [k K]. exists cs, vs, k. auto.
    - intros (cs & vs & k & F & G & V & K). destruct (proj2 FE F) as [sg Es]. rewrite Es. cbn [bind]. rewrite V. cbn [bind].
      destruct (FN sg Es) as [-> _]. pose proof (visit_list_ordinary lm st Hst _ _ V) as Ho. pose proof (k_addresses k cs vs K) as A.
      destruct (proj2 (resolved_operands (lookup_name g) cs vs (gate_registered g cs G) Ho) A) as ([i ws] & -> & E). cbn [snd] in E. subst ws.
      cbn [bind fst snd]. rewrite (proj2 (gate_sizes cs vs A) (ex_intro _ k K)). cbn [bind].
      exact (add_statement_ok lm st Hst _).
  Qed.

  Lemma gate_otherwise l g ops : plain_gate g ->
    (exists st', visit_statement st (SGateInstr l g ops []) = (Ok st', [])) \/
    (exists e, visit_statement st (SGateInstr l g ops []) = (Ok st, [e])) \/
    (exists k, visit_statement st (SGateInstr l g ops []) = (UB k, [])).
  Proof.
    intros P. rewrite (visit_plain l g ops P).
    assert (N : no_throw (pure_gate_statement st l g ops)).
    { pose proof (visit_gate_plain g P) as VG. pose proof (ProofsShapes.gate_quiet lm st Hst g) as Q. rewrite VG in Q. unfold pure_gate_statement.
      apply no_throw_bind; [exact Q|]. intros sg _. apply no_throw_bind; [apply (visit_list_no_throw lm st Hst)|]. intros vs Ev.
      apply no_throw_bind; [apply resolve_instruction_no_throw, ordinary_typed_list, (visit_list_ordinary lm st Hst _ _ Ev)|]. intros r _.
      apply no_throw_bind; [intros w; unfold check_gate_operands; destruct (adjacent_equal _); discriminate|]. intros u _.
      destruct (add_statement_ok lm st Hst (SemGateInstr l (fst r) sg (snd r) [])) as [st' ->]. discriminate. }
    unfold catch_log, lift. destruct (pure_gate_statement st l g ops) as [st'|e|w|k]; cbn; eauto. destruct (N w eq_refl).
  Qed.

  Lemma other_sizes n cs vs : name_operands n cs -> Forall2 (fun c v => exists m, addresses c v m) cs vs ->
    (check_non_gate_operands n vs = Ok tt <-> (n = "measure" -> exists k, Forall2 (fun c v => addresses c v k) cs vs)).
  Proof.
    intros [pk a G|pk cs' G] A; [|exact (measure_operands n pk cs' vs G A)].
    unfold check_non_gate_operands, is_measure. destruct (String.eqb_spec n "measure") as [-> |N]; [|tauto].
    exfalso. cbn in G. decompose [or] G; try contradiction; congruence.
  Qed.

  Lemma other_shapes l n ops ps :
    ((exists st', visit_statement st (SNonGate l n ops ps []) = (Ok st', [])) <->
     exists cs vs pvs, name_operands n cs /\ visit_expression_list st ops = Ok vs /\ visit_expression_list st ps = Ok pvs /\ takes n pvs /\
       Forall2 (fun c v => exists k, addresses c v k) cs vs /\ (n = "measure" -> exists k, Forall2 (fun c v => addresses c v k) cs vs)).
  Proof.
    rewrite (visit_non_gate_statement_pure st l n ops ps). setoid_rewrite catch_log_ok. unfold pure_non_gate_statement. split.
    - intros [st' E]. apply bind_ok_inv in E. destruct E as (vs & Ev & E). pose proof (visit_list_ordinary lm st Hst _ _ Ev) as Ho.
      apply bind_ok_inv in E. destruct E as ([i ws0] & Ei & E). apply bind_ok_inv in E. destruct E as (pvs & Ep & E).
      apply bind_ok_inv in E. destruct E as (ws & Ew & E). apply bind_ok_inv in E. destruct E as ([] & Ec & E). cbn [fst snd] in *.
      assert (T : takes n pvs) by (apply takes_resolve; [exact (visit_list_ordinary lm st Hst _ _ Ep)|eauto]). pose proof Ei as Ei'.
      apply (resolve_instruction_default lm st Hst) in Ei; [|now apply ordinary_typed_list]. destruct Ei as (-> & ks & R & _).
      destruct (registered_name n pvs ks T R) as [cs N].
      assert (A : Forall2 (fun c v => exists m, addresses c v m) cs vs) by (apply (resolved_operands n cs vs (name_registered n cs N) Ho); eauto).
      exists cs, vs, pvs. split; [exact N|]. split; [exact Ev|]. split; [exact Ep|]. split; [exact T|]. split; [exact A|]. now apply (other_sizes n cs vs N A).
    - intros (cs & vs & pvs & N & V & Vp & T & A & M). rewrite V. cbn [bind]. pose proof (visit_list_ordinary lm st Hst _ _ V) as Ho.
      destruct (proj2 (resolved_operands n cs vs (name_registered n cs N) Ho) A) as ([i ws] & -> & E). cbn [snd] in E. subst ws. cbn [bind].
      rewrite Vp. cbn [bind]. apply takes_resolve in T; [|exact (visit_list_ordinary lm st Hst _ _ Vp)]. destruct T as [ws ->]. cbn [bind fst snd].
      rewrite (proj2 (other_sizes n cs vs N A) M). cbn [bind]. exact (add_statement_ok lm st Hst _).
  Qed.
End GateShapes.
