(** Lemmas for C91: gates and instructions. *)
From Coq Require Import Reals SpecFloat ZArith Lia ZifyBool.
From Verif Require Import Base ModelUtils ModelVersion ModelError ModelTypes ModelOverload ModelFunctions ModelInstructionSet ModelAst ModelAnalyzer ModelSemantic
  SpecUtils SpecTypes SpecFunctions SpecInstructions SpecAnalyzer SpecMachine SpecSites SpecDiagnosis
  ProofsTypes ProofsFunctions ProofsFolding ProofsFolding2 ProofsIeee ProofsExpr ProofsInstructions ProofsGates ProofsIndex
  ProofsAnalyzer ProofsAnalyzer2 ProofsAnalyzer3 ProofsAnalyzer7 ProofsConstants ProofsRename2 ProofsMachine ProofsDiagnosis ProofsDiagnosis2 ProofsDiagnosis3 ProofsDiagnosis4
  SpecEvaluate ProofsEvaluate ProofsEvaluate2 ProofsEvaluate3 SpecMeaning ProofsMeaning SpecOutcome ProofsOutcome.
Local Open Scope string_scope.

Lemma context_raw l e : error_context l e = mkRawError (message e) (nearest [location e; l]).
Proof. destruct e as [m p]. apply context_nearest. Qed.
Lemma context_err_iff {A} l (r : outcome error A) m p :
  with_context l r = Err (mkRawError m p) <-> exists p', r = Err (mkRawError m p') /\ p = nearest [p'; l].
Proof.
  split.
  - intros E. apply context_err in E. destruct E as ([m' p'] & -> & E1 & E2). cbn in E1, E2. subst. eauto.
  - intros (p' & -> & ->). cbn [with_context]. now rewrite context_nearest.
Qed.

Section State.
  Variables (lm : libm) (vars : list variable) (st : analyzer).
  Hypothesis Hlib : machine_libm lm.
  Hypothesis Hst : sees lm vars st.
  Let Ho : ordinary lm st := re_ordinary _ _ _ Hst.

  Lemma gate_machine l n i ps an : Forall machine_literals (gate_exprs (Gate l n i ps an)) ->
    Forall machine_literals ps /\ match i with None => True | Some g => Forall machine_literals (gate_exprs g) end.
  Proof.
    cbn [gate_exprs]. intros M. apply Forall_app in M. destruct M as [M1 M2]. apply Forall_app in M2. destruct M2 as [M2 _]. split; [exact M2|]. now destruct i.
  Qed.
  Lemma legal_is g a : grammar_gate g -> Forall machine_literals (gate_exprs g) -> (legal_gate st g a <-> right_gate lm g a).
  Proof.
    intros G M. split.
    - intros L. destruct (legal_pure lm st Ho g G a L) as [sg E]. apply (pure_gate_spec lm st Ho g G) in E. destruct E as [_ S].
      exists sg. now apply (reached_gate lm vars st Hlib Hst g sg a M).
    - intros (sg & H). now apply (reached_gate lm vars st Hlib Hst g sg a M) in H.
  Qed.
  Lemma inner_grammar l n g ps an : grammar_gate (Gate l n (Some g) ps an) -> grammar_gate g /\ In n (map fst modifiers).
  Proof. intros H. inversion H; subst. auto. Qed.
  Lemma inner_ok l n i ps an : grammar_gate (Gate l n i ps an) -> Forall machine_literals (gate_exprs (Gate l n i ps an)) -> right_inner lm i ->
    exists i', (match i with None => Ok None | Some g' => let! r := pure_gate st g' in Ok (Some r) end) = Ok i'.
  Proof.
    intros G M R. destruct i as [g|]; [|eauto]. destruct R as [a R]. apply gate_machine in M. destruct M as [_ M]. apply inner_grammar in G. destruct G as [G _].
    apply (legal_is g a G M) in R. destruct (legal_pure lm st Ho g G a R) as [sg ->]. cbn. eauto.
  Qed.
  Lemma gate_name_not_non_gate l n i ps an : grammar_gate (Gate l n i ps an) -> ~ In n (map fst non_gates).
  Proof. intros H. inversion H as [? ? ? N _|? ? ? ? M _]; subst; [exact N|now apply not_non_gate_modifier]. Qed.

  Lemma gate_reported g m p : wrong_gate lm vars g m p -> grammar_gate g -> Forall machine_literals (gate_exprs g) -> pure_gate st g = Err (mkRawError m p).
  Proof.
    induction 1 as [l n g ps an m p _ IH|l n i ps an m p Hi P|l n i ps an vs m Hi V P|l n ks g ps an vs L Md V F]; intros G M; destruct (gate_machine _ _ _ _ _ M) as [Mp Mi];
      cbn [pure_gate]; apply context_err_iff.
    - exists p. split; [|reflexivity]. rewrite (IH (proj1 (inner_grammar _ _ _ _ _ G)) Mi). reflexivity.
    - exists p. split; [|reflexivity]. destruct (inner_ok _ _ _ _ _ G M Hi) as [i' ->]. cbn [bind]. apply (list_wrong lm vars st Hlib Hst ps m p Mp) in P. now rewrite P.
    - exists None. split; [|now rewrite nearest_none]. destruct (inner_ok _ _ _ _ _ G M Hi) as [i' ->]. cbn [bind].
      apply (list_is lm vars st Hlib Hst ps vs Mp) in V. rewrite V. cbn [bind].
      rewrite (proj2 (gate_parameters n vs (mkRawError m None) (gate_name_not_non_gate _ _ _ _ _ G) (visit_list_ordinary lm st Ho _ _ V))) by eauto. reflexivity.
    - exists None. split; [|now rewrite nearest_none]. destruct (inner_grammar _ _ _ _ _ G) as [Gi _]. apply (legal_is g 2 Gi Mi) in L.
      destruct (legal_pure lm st Ho g Gi 2 L) as [sg Es]. rewrite Es. cbn [bind]. apply (list_is lm vars st Hlib Hst ps vs Mp) in V. rewrite V. cbn [bind].
      destruct (fit_parameters n ks vs (or_intror Md) (visit_list_ordinary lm st Ho _ _ V) F) as [ws ->].
      cbn [bind check_gate]. apply (pure_gate_spec lm st Ho g Gi) in Es. destruct Es as [_ S]. destruct (stored_resolution st g 2 L sg S) as (T2 & _).
      rewrite (proj2 T2 eq_refl). reflexivity.
  Qed.
  Lemma gate_wrong g : grammar_gate g -> Forall machine_literals (gate_exprs g) -> forall m p, pure_gate st g = Err (mkRawError m p) -> wrong_gate lm vars g m p.
  Proof.
    induction 1 as [l n ps H1 H2|l n g ps Hm Hg IH]; intros M m p E; destruct (gate_machine _ _ _ _ _ M) as [Mp Mi]; cbn [pure_gate] in E; apply context_err_iff in E;
      destruct E as (p' & E & ->); cbn [bind] in E.
    - destruct (visit_expression_list st ps) as [vs|el|w|k] eqn:Ev; cbn [bind] in E; try discriminate E.
      + destruct (resolve_parameters n vs) as [ws|er|w|k] eqn:Er; cbn in E; try discriminate E. injection E as ->.
        apply (gate_parameters n vs _ H1 (visit_list_ordinary lm st Ho _ _ Ev)) in Er. destruct Er as (m' & P & [= <- ->]). rewrite nearest_none.
        apply (list_is lm vars st Hlib Hst ps vs Mp) in Ev. eapply wrong_parameters; [exact I|exact Ev|exact P].
      + injection E as ->. apply wrong_parameter; [exact I|]. now apply (list_wrong lm vars st Hlib Hst ps m p' Mp).
    - destruct (pure_gate st g) as [sg|eg|w|k] eqn:Eg; cbn [bind] in E; try discriminate E.
      + apply (pure_gate_spec lm st Ho g Hg) in Eg. destruct Eg as [[a L] S].
        assert (R : right_inner lm (Some g)) by (exists a; now apply (legal_is g a Hg Mi)).
        destruct (visit_expression_list st ps) as [vs|el|w|k] eqn:Ev; cbn [bind] in E; try discriminate E.
        * pose proof (visit_list_ordinary lm st Ho _ _ Ev) as Hv. apply (list_is lm vars st Hlib Hst ps vs Mp) in Ev.
          destruct (resolve_parameters n vs) as [ws|er|w|k] eqn:Er; cbn [bind] in E; try discriminate E.
          -- destruct (check_gate (Some sg)) as [u|ec|w|k] eqn:Ec; cbn [bind] in E; try discriminate E. injection E as ->. cbn [check_gate] in Ec.
             destruct (is_two_qubit_gate (gate_resolution_name sg)) eqn:T; [|discriminate Ec]. injection Ec as <- <-.
             rewrite nearest_none. apply In_names in Hm. destruct Hm as [ks Md]. apply (wrong_modifier lm vars l n ks g ps [] vs).
             ++ destruct (stored_resolution st g a L sg S) as (T2 & _). rewrite <- (proj1 T2 T). now apply (legal_is g a Hg Mi).
             ++ exact Md.
             ++ exact Ev.
             ++ eapply parameters_fit; eauto. now right.
          -- injection E as ->. apply (gate_parameters n vs _ (not_non_gate_modifier n Hm) Hv) in Er. destruct Er as (m' & P & [= <- ->]).
             rewrite nearest_none. eapply wrong_parameters; [exact R|exact Ev|exact P].
        * injection E as ->. apply wrong_parameter; [exact R|]. now apply (list_wrong lm vars st Hlib Hst ps m p' Mp).
      + injection E as ->. apply wrong_inner. now apply IH.
  Qed.

  (** ** Instructions *)
  Lemma gate_instruction_wrong l g ops m p : grammar_gate g -> Forall machine_literals (gate_exprs g) -> Forall machine_literals ops ->
    ((exists p', pure_gate_statement st l g ops = Err (mkRawError m p') /\ p = nearest [p'; l]) <-> wrong_instruction lm vars (SGateInstr l g ops []) m p).
  Proof.
    intros G Mg Mo. split.
    - intros (p' & E & ->). unfold pure_gate_statement in E. destruct (pure_gate st g) as [sg|eg|w|k] eqn:Eg; cbn [bind] in E; try discriminate E.
      + apply (pure_gate_spec lm st Ho g G) in Eg. destruct Eg as [[a L] S]. assert (R : right_gate lm g a) by now apply (legal_is g a G Mg).
        destruct (visit_expression_list st ops) as [vs|el|w|k] eqn:Ev; cbn [bind] in E; try discriminate E.
        * pose proof (visit_list_ordinary lm st Ho _ _ Ev) as Hv. apply (list_is lm vars st Hlib Hst ops vs Mo) in Ev.
          destruct (resolution_cases lm st Ho (gate_resolution_name sg) vs Hv) as [[r Rr]|Rr]; rewrite Rr in E; cbn [bind] in E.
          -- rewrite (resolved_operands lm st Ho _ vs r Hv Rr) in E. assert (RR : exists r, resolve_instruction st (gate_resolution_name sg) vs = Ok r) by eauto.
             apply (gate_registered lm st Ho g a sg vs L S Hv) in RR. destruct RR as [La F].
             destruct (check_gate_operands vs) as [u|ec|w|k] eqn:Ec; cbn [bind] in E; try discriminate E.
             ++ destruct (add_statement_ok lm st Ho (SemGateInstr l (fst r) sg vs [])) as [st' X]. congruence.
             ++ injection E as ->. apply (sizes_check vs _ F) in Ec. destruct Ec as [N [= -> ->]]. rewrite nearest_none. eapply wrong_gate_sizes; eauto.
          -- injection E as <- <-. rewrite nearest_none. rewrite (gate_text_name st g sg S). eapply wrong_gate_operands; eauto.
             intros X. apply (gate_registered lm st Ho g a sg vs L S Hv) in X. destruct X as [r X]. congruence.
        * injection E as ->. eapply wrong_gate_operand; [exact R|]. now apply (list_wrong lm vars st Hlib Hst ops m p' Mo).
      + injection E as ->. apply wrong_in_gate. now apply gate_wrong.
    - intros H. unfold pure_gate_statement.
      inversion H as [? ? ? ? ? p' P|? ? a ? ? ? p' R P|? ? a ? ? vs R Ev N|? ? a ? ? vs R Ev La F N| | | | | |]; subst.
      + exists p'. split; [|reflexivity]. rewrite (gate_reported g m p' P G Mg). reflexivity.
      + exists p'. split; [|reflexivity]. apply (legal_is g a G Mg) in R. destruct (legal_pure lm st Ho g G a R) as [sg ->]. cbn [bind].
        apply (list_wrong lm vars st Hlib Hst ops m p' Mo) in P. now rewrite P.
      + exists None. rewrite nearest_none. split; [|reflexivity]. apply (legal_is g a G Mg) in R. destruct (legal_pure lm st Ho g G a R) as [sg Es]. rewrite Es. cbn [bind].
        apply (list_is lm vars st Hlib Hst ops vs Mo) in Ev. rewrite Ev. cbn [bind].
        apply (pure_gate_spec lm st Ho g G) in Es. destruct Es as [_ S]. pose proof (visit_list_ordinary lm st Ho _ _ Ev) as Hv.
        destruct (resolution_cases lm st Ho (gate_resolution_name sg) vs Hv) as [Rr|Rr].
        * apply (gate_registered lm st Ho g a sg vs R S Hv) in Rr. destruct (N Rr).
        * rewrite Rr. cbn [bind]. rewrite (gate_text_name st g sg S). reflexivity.
      + exists None. rewrite nearest_none. split; [|reflexivity]. apply (legal_is g _ G Mg) in R. destruct (legal_pure lm st Ho g G _ R) as [sg Es]. rewrite Es. cbn [bind].
        apply (list_is lm vars st Hlib Hst ops vs Mo) in Ev. rewrite Ev. cbn [bind].
        apply (pure_gate_spec lm st Ho g G) in Es. destruct Es as [_ S]. pose proof (visit_list_ordinary lm st Ho _ _ Ev) as Hv.
        destruct (proj2 (gate_registered lm st Ho g _ sg vs R S Hv) (conj eq_refl F)) as [r Rr]. rewrite Rr. cbn [bind].
        rewrite (resolved_operands lm st Ho _ vs r Hv Rr). rewrite (proj2 (sizes_check vs _ F) (conj N eq_refl)). reflexivity.
  Qed.

  Lemma non_gate_instruction_wrong l n ops ps m p : grammar_non_gate n ps -> Forall machine_literals ops -> Forall machine_literals ps ->
    ((exists p', pure_non_gate_statement st l n ops ps = Err (mkRawError m p') /\ p = nearest [p'; l]) <-> wrong_instruction lm vars (SNonGate l n ops ps []) m p).
  Proof.
    intros G Mo Mp. pose proof (proj1 G) as Hn. split.
    - intros (p' & E & ->). destruct (In_names _ _ Hn) as [[ks0 cs] I0]. unfold pure_non_gate_statement in E.
      destruct (visit_expression_list st ops) as [vs|el|w|k] eqn:Ev; cbn [bind] in E; try discriminate E.
      + pose proof (visit_list_ordinary lm st Ho _ _ Ev) as Hv. apply (list_is lm vars st Hlib Hst ops vs Mo) in Ev.
        destruct (resolution_cases lm st Ho n vs Hv) as [[r R]|R]; rewrite R in E; cbn [bind] in E.
        * rewrite (resolved_operands lm st Ho _ vs r Hv R) in E. assert (F : Forall2 addresses_some cs vs) by (apply (suits_registered lm st Ho cs n vs ks0 Hv I0); eauto).
          assert (Su : operands_suit n vs) by (exists ks0, cs; auto).
          destruct (visit_expression_list st ps) as [ws|ep|w|k] eqn:Ep; cbn [bind] in E; try discriminate E.
          -- pose proof (visit_list_ordinary lm st Ho _ _ Ep) as Hop. pose proof (grammar_wait st n ps ws G Ep) as Hw. apply (list_is lm vars st Hlib Hst ps ws Mp) in Ep.
             destruct (resolve_parameters n ws) as [ws'|er|w|k] eqn:Er; cbn [bind] in E; try discriminate E.
             ++ destruct (check_non_gate_operands n vs) as [u|ec|w|k] eqn:Ec; cbn [bind] in E; try discriminate E.
                ** destruct (add_statement_ok lm st Ho (SemNonGate l (fst r) n vs ws' [])) as [st' X]. congruence.
                ** injection E as ->. apply (measure_check n ks0 cs vs _ I0 F) in Ec. destruct Ec as (-> & N & [= -> ->]). rewrite nearest_none.
                   apply (resolve_parameters_non_gate "measure" ws Hn Hop) in Er.
                   assert (X : exists ks1 cs1, In ("measure", (ks1, cs1)) non_gates /\ Forall2 fits_param ws ks1).
                   { destruct Er as [(ks1 & cs1 & I1 & S)|[-> _]]; [apply stored_all_iff in S; exists ks1, cs1; tauto|]. exists [], [Bits; Qubits]. cbn. auto. }
                   destruct X as (ks1 & cs1 & I1 & F1). eapply wrong_measure; eauto.
             ++ injection E as ->. apply (non_gate_parameters n ws _ Hn Hw Hop) in Er. destruct Er as (m' & P & [= <- ->]).
                rewrite nearest_none. destruct P as [[X ->]|(ks & cs' & k & I & M & ->)];
                  [exact (wrong_parameter_count lm vars l n ops ps [] vs ws Ev Su Ep X)|exact (wrong_parameter_type lm vars l n ops ps [] vs ws ks cs' k Ev Su Ep I M)].
          -- injection E as ->. eapply wrong_non_gate_parameter; eauto. now apply (list_wrong lm vars st Hlib Hst ps m p' Mp).
        * injection E as <- <-. rewrite nearest_none. apply wrong_operands with (vs := vs); [exact Ev|].
          intros (ks & cs' & I & F). apply (suits_registered lm st Ho cs' n vs ks Hv I) in F. destruct F as [r X]. congruence.
      + injection E as ->. apply wrong_operand. now apply (list_wrong lm vars st Hlib Hst ops m p' Mo).
    - intros H. unfold pure_non_gate_statement.
      assert (R : forall vs, visit_expression_list st ops = Ok vs -> operands_suit n vs -> exists r, resolve_instruction st n vs = Ok r /\ snd r = vs).
      { intros vs Ev (ks & cs & I & F). pose proof (visit_list_ordinary lm st Ho _ _ Ev) as Hv.
        destruct (proj2 (suits_registered lm st Ho cs n vs ks Hv I) F) as [r R]. exists r. split; [exact R|]. exact (resolved_operands lm st Ho n vs r Hv R). }
      inversion H as [| | | |? ? ? ? ? ? p' P|? ? ? ? ? vs Ev N|? ? ? ? ? vs ? p' Ev Su P|? ? ? ? ? vs ws Ev Su Ep X|? ? ? ? ? vs ws ks cs k Ev Su Ep I M
        |? ? ? ? vs ws ks cs Ev Su Ep I F N]; subst; try (apply (list_is lm vars st Hlib Hst ops vs Mo) in Ev; rewrite Ev; cbn [bind]).
      + exists p'. split; [|reflexivity]. apply (list_wrong lm vars st Hlib Hst ops m p' Mo) in P. now rewrite P.
      + exists None. rewrite nearest_none. split; [|reflexivity]. pose proof (visit_list_ordinary lm st Ho _ _ Ev) as Hv.
        destruct (resolution_cases lm st Ho n vs Hv) as [R'|R']; [|rewrite R'; reflexivity]. exfalso. apply N.
        destruct (In_names _ _ Hn) as [[ks0 cs] I0]. exists ks0, cs. split; [exact I0|]. now apply (suits_registered lm st Ho cs n vs ks0 Hv I0).
      + exists p'. split; [|reflexivity]. destruct (R vs Ev Su) as (r & -> & _). cbn [bind]. apply (list_wrong lm vars st Hlib Hst ps m p' Mp) in P. now rewrite P.
      + exists None. rewrite nearest_none. split; [|reflexivity]. destruct (R vs Ev Su) as (r & -> & _). cbn [bind].
        apply (list_is lm vars st Hlib Hst ps ws Mp) in Ep. rewrite Ep. cbn [bind].
        assert (Y : resolve_parameters n ws = Err (mkRawError ("instruction '" ++ n ++ "' does not have an overload with " ++ count_text (List.length ws) ++ " parameters.") None)).
        { apply (non_gate_parameters n ws _ Hn (grammar_wait st n ps ws G Ep) (visit_list_ordinary lm st Ho _ _ Ep)).
          eexists. split; [left; split; [exact X|reflexivity]|reflexivity]. }
        rewrite Y. reflexivity.
      + exists None. rewrite nearest_none. split; [|reflexivity]. destruct (R vs Ev Su) as (r & -> & _). cbn [bind].
        apply (list_is lm vars st Hlib Hst ps ws Mp) in Ep. rewrite Ep. cbn [bind].
        assert (Y : resolve_parameters n ws = Err (mkRawError (misfit_text n k) None)).
        { apply (non_gate_parameters n ws _ Hn (grammar_wait st n ps ws G Ep) (visit_list_ordinary lm st Ho _ _ Ep)).
          eexists. split; [right; exists ks, cs, k; auto|reflexivity]. }
        rewrite Y. reflexivity.
      + exists None. rewrite nearest_none. split; [|reflexivity]. destruct (R vs Ev Su) as (r & Rr & Rv). rewrite Rr. cbn [bind].
        apply (list_is lm vars st Hlib Hst ps ws Mp) in Ep. rewrite Ep. cbn [bind].
        destruct (fits_stored ws ks F) as [ws' S].
        { cbn in I. decompose [or] I; try contradiction; match goal with E : _ = (_, (ks, cs)) |- _ => try discriminate E; injection E as <- <- end; repeat constructor. }
        assert (Er : resolve_parameters "measure" ws = Ok ws').
        { apply (resolve_parameters_non_gate "measure" ws Hn (visit_list_ordinary lm st Ho _ _ Ep)). left. eauto. }
        rewrite Er. cbn [bind]. rewrite Rv. destruct Su as (ks1 & cs1 & I1 & F1). rewrite (proj2 (measure_check "measure" ks1 cs1 vs _ I1 F1) (conj eq_refl (conj N eq_refl))).
        reflexivity.
  Qed.
End State.
