(** Lemmas for C94: annotations, gates and instructions. *)
From Coq Require Import Reals SpecFloat ZArith Lia ZifyBool.
From Verif Require Import Base ModelUtils ModelVersion ModelError ModelTypes ModelOverload ModelFunctions ModelInstructionSet ModelAst ModelAnalyzer ModelSemantic
  SpecUtils SpecError SpecTypes SpecFunctions SpecInstructions SpecAnalyzer SpecMachine SpecSites SpecDiagnosis SpecHull SpecVersion
  ProofsTypes ProofsFunctions ProofsFolding ProofsFolding2 ProofsIeee ProofsExpr ProofsInstructions ProofsGates ProofsIndex
  ProofsAnalyzer ProofsAnalyzer2 ProofsAnalyzer3 ProofsAnalyzer7 ProofsConstants ProofsRename2 ProofsMachine ProofsDiagnosis ProofsDiagnosis2 ProofsDiagnosis3 ProofsDiagnosis4 ProofsHull
  ProofsVersion ProofsVersion2 SpecEvaluate ProofsEvaluate ProofsEvaluate2 ProofsEvaluate3 SpecMeaning ProofsMeaning ProofsMeaning2 SpecOutcome ProofsOutcome ProofsOutcome2 ProofsOutcome3
  SpecAnnotations.
Local Open Scope string_scope.

Lemma lbind_ok_iff {A B} (m : logged A) (f : A -> logged B) b es : lbind m f = (Ok b, es) <->
  exists a e1 e2, m = (Ok a, e1) /\ f a = (Ok b, e2) /\ es = (e1 ++ e2)%list.
Proof. split; [apply lbind_ok|]. intros (a & e1 & e2 & -> & E & ->). cbn [lbind]. now rewrite E. Qed.
Lemma lbind_err_iff {A B} (m : logged A) (f : A -> logged B) e es : lbind m f = (Err e, es) <->
  m = (Err e, es) \/ exists a e1 e2, m = (Ok a, e1) /\ f a = (Err e, e2) /\ es = (e1 ++ e2)%list.
Proof. split; [apply lbind_err|]. intros [-> |(a & e1 & e2 & -> & E & ->)]; cbn [lbind]; [reflexivity|now rewrite E]. Qed.
Lemma lift_bind_ok {A B} (m : outcome error A) (f : A -> logged B) b es : lbind (lift m) f = (Ok b, es) <-> exists a, m = Ok a /\ f a = (Ok b, es).
Proof.
  unfold lift. destruct m as [a|e|w|k]; cbn [lbind]; split; try discriminate; try (intros (a' & [=] & _); fail).
  - destruct (f a) as [r e2] eqn:E. cbn [app]. intros [= -> ->]. eauto.
  - intros (a' & [= <-] & E). now rewrite E.
Qed.
Lemma lift_bind_err {A B} (m : outcome error A) (f : A -> logged B) e es : lbind (lift m) f = (Err e, es) <->
  (m = Err e /\ es = []) \/ exists a, m = Ok a /\ f a = (Err e, es).
Proof.
  unfold lift. destruct m as [a|e'|w|k]; cbn [lbind]; split; try discriminate; try (intros [[[=] _]|(a' & [=] & _)]; fail).
  - destruct (f a) as [r e2] eqn:E. cbn [app]. intros [= -> ->]. eauto.
  - intros [[[=] _]|(a' & [= <-] & E)]. now rewrite E.
  - intros [= -> <-]. auto.
  - intros [[[= ->] ->]|(a' & [=] & _)]. reflexivity.
Qed.
Lemma log_context_ok_iff {A} l (m : logged A) a es : log_context l m = (Ok a, es) <-> m = (Ok a, es).
Proof. split; [apply log_context_ok|]. intros ->. reflexivity. Qed.
Lemma log_context_err_iff {A} l (m : logged A) e es : log_context l m = (Err e, es) <-> exists e', m = (Err e', es) /\ e = error_context l e'.
Proof.
  unfold log_context. destruct m as [[x|e'|w|k] e1]; cbn [fst snd with_context]; split; try discriminate; try (intros (? & [=] & _); fail).
  - intros [= <- <-]. eauto.
  - intros (e2 & [= <- <-] & ->). reflexivity.
Qed.

Section State.
  Variables (lm : libm) (vars : list variable) (st : analyzer).
  Hypothesis Hlib : machine_libm lm.
  Hypothesis Hst : sees lm vars st.
  Let Ho : ordinary lm st := re_ordinary _ _ _ Hst.

  (** ** Annotations *)
  Lemma annotation_operands_are l es : Forall machine_literals es -> forall vs errs,
    visit_annotation_operands st l es = (Ok vs, errs) <-> operands_kept lm vars l es vs errs.
  Proof.
    induction 1 as [|e es M _ IH]; intros vs errs; cbn [visit_annotation_operands].
    - split; [intros [= <- <-]; constructor|]. intros H. inversion H. reflexivity.
    - rewrite lbind_ok_iff. split.
      + intros (o & e1 & e2 & C & R & ->). apply lbind_ok_iff in R. destruct R as (vs' & e3 & e4 & R & [= <- <-] & ->). rewrite app_nil_r. apply IH in R.
        destruct (visit st e) as [v|[m p]|w|k] eqn:V; unfold lift in C; cbn [map_outcome catch_log] in C; try discriminate C; injection C as <- <-.
        * cbn [app]. constructor; [now apply (visit_is lm vars st Hlib Hst)|exact R].
        * cbn [app]. rewrite context_nearest. constructor; [exact (visit_wrong lm vars st Hlib Hst e M _ V)|exact R].
      + intros H. inversion H as [|? v ? vs' ? Hv R|? m p ? ? errs' W R]; subst.
        * exists (Some v), [], errs. apply (visit_is lm vars st Hlib Hst e v M) in Hv. rewrite Hv. split; [reflexivity|]. split; [|reflexivity].
          apply IH in R. rewrite R. cbn [lbind lift]. now rewrite app_nil_r.
        * exists None, [mkRawError m (nearest [p; l])], errs'. apply (proj1 (wrong_reported lm vars st Hlib Hst) e m p) in W; [|exact M]. rewrite W.
          split; [unfold lift, map_outcome; cbn [bind catch_log app]; rewrite context_nearest; reflexivity|]. split; [|reflexivity].
          apply IH in R. rewrite R. cbn [lbind lift]. now rewrite app_nil_r.
  Qed.
  Lemma annotations_are an : Forall machine_literals (annotation_exprs an) -> forall san errs,
    visit_annotated st an = (Ok san, errs) <-> annotations_kept lm vars an san errs.
  Proof.
    induction an as [|[l i o es] an IH]; intros M san errs; cbn [visit_annotated].
    - split; [intros [= <- <-]; constructor|]. intros H. inversion H. reflexivity.
    - unfold annotation_exprs in M. cbn [flat_map an_operands] in M. apply Forall_app in M. destruct M as [M1 M2]. specialize (IH M2). rewrite lbind_ok_iff. split.
      + intros (a & e1 & e2 & V & R & ->). unfold visit_annotation_data in V. apply lbind_ok_iff in V. destruct V as (vs & e3 & e4 & V & [= <- <-] & ->).
        apply lbind_ok_iff in R. destruct R as (san' & e5 & e6 & R & [= <- <-] & ->). rewrite !app_nil_r.
        apply (annotation_operands_are _ _ M1) in V. apply IH in R. constructor; auto.
      + intros H. inversion H as [|? ? ? ? vs e1 ? san' e2 V R]; subst. apply (annotation_operands_are _ _ M1) in V. apply IH in R.
        exists (mkSemAnnotation l i o vs), e1, e2. split; [unfold visit_annotation_data; cbn [an_loc an_operands an_interface an_operation]; rewrite V; cbn [lbind lift]; now rewrite app_nil_r|].
        split; [|reflexivity]. rewrite R. cbn [lbind lift]. now rewrite app_nil_r.
  Qed.
  (** Either all of them can be evaluated or the behaviour is undefined. *)
  Lemma annotations_total an : (exists san errs, visit_annotated st an = (Ok san, errs)) \/ exists k errs, visit_annotated st an = (UB k, errs).
  Proof.
    assert (O : forall l es, (exists vs errs, visit_annotation_operands st l es = (Ok vs, errs)) \/ exists k errs, visit_annotation_operands st l es = (UB k, errs)).
    { intros l. induction es as [|e es IH]; cbn [visit_annotation_operands]; [left; unfold lift; eauto|].
      pose proof (proj2 (visit_ordinary lm st Ho e)) as N. destruct (visit st e) as [v|err|w|k]; unfold lift, map_outcome; cbn [bind catch_log lbind]; try (destruct (N w eq_refl)); try (right; eauto; fail).
      all: destruct IH as [(vs & errs & ->)|(k & errs & ->)]; cbn [lbind]; [left|right]; eauto. }
    induction an as [|a an IH]; cbn [visit_annotated]; [left; unfold lift; eauto|]. unfold visit_annotation_data.
    destruct (O (an_loc a) (an_operands a)) as [(vs & e1 & ->)|(k & e1 & ->)]; cbn [lbind lift]; [|eauto].
    destruct IH as [(san & e2 & ->)|(k & e2 & ->)]; cbn [lbind lift]; [left|right]; eauto.
  Qed.

  (** ** Gates *)
  Lemma bare_terminal g : gate_terminal_name (bare_result_gate g) = gate_terminal_name g.
  Proof. induction g as [l n ps an|l n g ps an IH] using sem_gate_ind_full; cbn [bare_result_gate gate_terminal_name]; auto. Qed.
  Lemma bare_resolution g : gate_resolution_name (bare_result_gate g) = gate_resolution_name g.
  Proof.
    destruct g as [l n [g|] ps an]; unfold gate_resolution_name; cbn [bare_result_gate sem_gate_inner sem_gate_name]; [|reflexivity]. now rewrite bare_terminal.
  Qed.
  Lemma bare_check g : check_gate (Some (bare_result_gate g)) = check_gate (Some g).
  Proof. unfold check_gate. now rewrite bare_resolution. Qed.

  Lemma gate_exprs_inv l n i ps an : Forall machine_literals (gate_exprs (Gate l n i ps an)) ->
    match i with None => True | Some g => Forall machine_literals (gate_exprs g) end /\ Forall machine_literals (annotation_exprs an).
  Proof. cbn [gate_exprs]. rewrite !Forall_app. intros (A & _ & C). destruct i; auto. Qed.

  Lemma gate_ok g : Forall machine_literals (gate_exprs g) -> forall sg errs,
    visit_gate st g = (Ok sg, errs) <-> visit_gate st (bare_gate g) = (Ok (bare_result_gate sg), []) /\ gate_kept lm vars g sg errs.
  Proof.
    induction g as [l n ps an|l n g ps an IH] using gate_ind_full; intros M sg errs; apply gate_exprs_inv in M; destruct M as [Mi Ma]; cbn [bare_gate]; rewrite !visit_gate_unfold, !log_context_ok_iff.
    - rewrite !lift_bind_ok. split.
      + intros (i & [= <-] & H). apply lift_bind_ok in H. destruct H as (vs & Ev & H). apply lift_bind_ok in H. destruct H as (ws & Ew & H).
        apply lift_bind_ok in H. destruct H as (u & Eu & H). apply lbind_ok_iff in H. destruct H as (san & e1 & e2 & A & [= <- <-] & ->). rewrite app_nil_r.
        split; [|constructor; now apply (annotations_are an Ma)]. exists None. split; [reflexivity|]. rewrite Ev. unfold lift. cbn [lbind]. rewrite Ew. cbn [lbind]. rewrite Eu. reflexivity.
      + intros [(i & [= <-] & H) K]. inversion K as [? ? ? ? ws san ? A|]; subst. apply lift_bind_ok in H. destruct H as (vs & Ev & H). apply lift_bind_ok in H. destruct H as (ws' & Ew & H).
        apply lift_bind_ok in H. destruct H as (u & Eu & H). injection H as ->. exists None. split; [reflexivity|]. rewrite Ev. unfold lift. cbn [lbind]. rewrite Ew. cbn [lbind]. rewrite Eu. cbn [lbind].
        apply (annotations_are an Ma) in A. rewrite A. cbn [lbind app]. now rewrite app_nil_r.
    - specialize (IH Mi). rewrite !lbind_ok_iff. split.
      + intros (i & e1 & e2 & E1 & H & ->). apply lbind_ok_iff in E1. destruct E1 as (sg' & e3 & e4 & E1 & [= <- <-] & ->). rewrite app_nil_r. apply IH in E1. destruct E1 as [E1 K].
        apply lift_bind_ok in H. destruct H as (vs & Ev & H). apply lift_bind_ok in H. destruct H as (ws & Ew & H).
        apply lift_bind_ok in H. destruct H as (u & Eu & H). apply lbind_ok_iff in H. destruct H as (san & e5 & e6 & A & [= <- <-] & ->). rewrite app_nil_r.
        split; [|constructor; [exact K|now apply (annotations_are an Ma)]]. exists (Some (bare_result_gate sg')), [], []. rewrite E1. split; [reflexivity|]. split; [|reflexivity].
        rewrite Ev. unfold lift. cbn [lbind]. rewrite Ew. cbn [lbind]. rewrite bare_check, Eu. reflexivity.
      + intros [(i & e1 & e2 & E1 & H & E) K]. inversion K as [|? ? ? sg' ? ? ws san e3 e4 K' A]; subst. symmetry in E. apply app_eq_nil in E. destruct E as [-> ->].
        apply lbind_ok_iff in E1. destruct E1 as (sg0 & e1 & e2 & E1 & [= <- <-] & E). symmetry in E. apply app_eq_nil in E. destruct E as [-> _].
        apply lift_bind_ok in H. destruct H as (vs & Ev & H). apply lift_bind_ok in H. destruct H as (ws' & Ew & H).
        apply lift_bind_ok in H. destruct H as (u & Eu & H). injection H as -> ->. assert (E2 : visit_gate st g = (Ok sg', e3)) by (apply IH; auto).
        exists (Some sg'), e3, e4. rewrite E2. split; [cbn [lbind lift]; now rewrite app_nil_r|]. split; [|reflexivity].
        rewrite Ev. unfold lift. cbn [lbind]. rewrite Ew. cbn [lbind]. rewrite bare_check in Eu. rewrite Eu. cbn [lbind].
        apply (annotations_are an Ma) in A. rewrite A. cbn [lbind app]. now rewrite app_nil_r.
  Qed.
  (** Which annotations a gate has does not depend on its parameters. *)
  Lemma kept_refit g sg errs : gate_kept lm vars g sg errs -> forall sg0, visit_gate st (bare_gate g) = (Ok sg0, []) -> exists sg', bare_result_gate sg' = sg0 /\ gate_kept lm vars g sg' errs.
  Proof.
    induction 1 as [l n ps an ws san errs A|l n g sg ps an ws san errs errs' _ IH A]; intros sg0 V; cbn [bare_gate] in V; rewrite visit_gate_unfold, log_context_ok_iff in V.
    - apply lift_bind_ok in V. destruct V as (i & [= <-] & H). apply lift_bind_ok in H. destruct H as (vs & Ev & H). apply lift_bind_ok in H. destruct H as (ws' & Ew & H).
      apply lift_bind_ok in H. destruct H as (u & Eu & H). injection H as <-. exists (SemGate l n None ws' san). split; [reflexivity|now constructor].
    - apply lbind_ok_iff in V. destruct V as (i & e1 & e2 & E1 & H & E). symmetry in E. apply app_eq_nil in E. destruct E as [-> ->].
      apply lbind_ok_iff in E1. destruct E1 as (sg1 & e1 & e2 & E1 & [= <- <-] & E). symmetry in E. apply app_eq_nil in E. destruct E as [-> _].
      apply lift_bind_ok in H. destruct H as (vs & Ev & H). apply lift_bind_ok in H. destruct H as (ws' & Ew & H).
      apply lift_bind_ok in H. destruct H as (u & Eu & H). injection H as <-. destruct (IH _ E1) as (sg' & <- & K).
      exists (SemGate l n (Some sg') ws' san). split; [reflexivity|now constructor].
  Qed.

  Lemma bare_gate_exprs g : Forall machine_literals (gate_exprs g) -> Forall machine_literals (gate_exprs (bare_gate g)).
  Proof.
    induction g as [l n ps an|l n g ps an IH] using gate_ind_full; cbn [gate_exprs bare_gate annotation_exprs flat_map]; rewrite !Forall_app; intros (A & B & C); repeat split; auto.
  Qed.
  Section Right.
    Variable g : gate.
    Hypotheses (G : grammar_gate (bare_gate g)) (M : Forall machine_literals (gate_exprs g)).
    Lemma right_visits : (exists a, right_gate lm (bare_gate g) a) <-> exists sg, visit_gate st (bare_gate g) = (Ok sg, []).
    Proof.
      rewrite (visit_gate_pure st _ G). split.
      - intros [a R]. apply (legal_is lm vars st Hlib Hst _ a G (bare_gate_exprs g M)) in R. destruct (legal_pure lm st Ho _ G a R) as [sg E]. exists sg. now rewrite E.
      - intros (sg & E). unfold lift in E. injection E as E. apply (pure_gate_spec lm st Ho _ G) in E. destruct E as (L & _). destruct L as [a L].
        exists a. now apply (legal_is lm vars st Hlib Hst _ a G (bare_gate_exprs g M)).
    Qed.
    Lemma wrong_visits m p : wrong_gate lm vars (bare_gate g) m p <-> visit_gate st (bare_gate g) = (Err (mkRawError m p), []).
    Proof.
      rewrite (visit_gate_pure st _ G). split.
      - intros W. unfold lift. now rewrite (gate_reported lm vars st Hlib Hst _ m p W G (bare_gate_exprs g M)).
      - intros E. unfold lift in E. injection E as E. now apply (gate_wrong lm vars st Hlib Hst _ G (bare_gate_exprs g M)).
    Qed.
  End Right.
  Lemma gate_err g : grammar_gate (bare_gate g) -> Forall machine_literals (gate_exprs g) -> forall e errs,
    visit_gate st g = (Err e, errs) <-> visit_gate st (bare_gate g) = (Err e, []) /\ gate_lost lm vars g errs.
  Proof.
    induction g as [l n ps an|l n g ps an IH] using gate_ind_full; intros G M e errs; apply gate_exprs_inv in M; destruct M as [Mi Ma]; cbn [bare_gate] in *.
    - rewrite !visit_gate_unfold, !log_context_err_iff.
      assert (K : forall an' (e' : error) es, (let* inner' := lift (Ok None) in let* vs := lift (visit_expression_list st ps) in let* ws := lift (resolve_parameters n vs) in
          let* _ := lift (check_gate inner') in let* ans := visit_annotated st an' in lift (Ok (SemGate l n inner' ws ans))) = (Err e', es) <->
          (let! vs := visit_expression_list st ps in let! ws := resolve_parameters n vs in check_gate None) = Err e' /\ es = []).
      { intros an' e' es. rewrite lift_bind_err. split.
        - intros [[[=] _]|(i & [= <-] & H)]. apply lift_bind_err in H. destruct H as [[-> ->]|(vs & -> & H)]; [auto|]. cbn [bind].
          apply lift_bind_err in H. destruct H as [[-> ->]|(ws & -> & H)]; [auto|]. cbn [bind].
          apply lift_bind_err in H. destruct H as [[-> ->]|(u & Eu & H)]; [auto|].
          exfalso. apply lbind_err_iff in H. destruct H as [H|(san & e1 & e2 & _ & H & _)]; [exact (annotated_no_err _ _ _ _ H)|discriminate].
        - intros [H ->]. right. exists None. split; [reflexivity|]. destruct (visit_expression_list st ps) as [vs|err|w|k]; cbn [bind] in H; try discriminate; unfold lift; cbn [lbind].
          + destruct (resolve_parameters n vs) as [ws|err|w|k]; cbn [bind] in H; try discriminate; cbn [lbind]. injection H as <-. reflexivity.
          + injection H as <-. reflexivity. }
      split.
      + intros (e' & H & ->). apply K in H. destruct H as [H ->]. split; [|constructor]. exists e'. split; [|reflexivity]. apply K. auto.
      + intros [(e' & H & ->) L]. inversion L; subst. apply K in H. destruct H as [H _]. exists e'. split; [|reflexivity]. apply K. auto.
    - apply inner_grammar in G. destruct G as [G _]. specialize (IH G Mi).
      rewrite !visit_gate_unfold, !log_context_err_iff.
      assert (K : forall i an' (e' : error) es, (let* vs := lift (visit_expression_list st ps) in let* ws := lift (resolve_parameters n vs) in
          let* _ := lift (check_gate i) in let* ans := visit_annotated st an' in lift (Ok (SemGate l n i ws ans))) = (Err e', es) <->
          (let! vs := visit_expression_list st ps in let! ws := resolve_parameters n vs in check_gate i) = Err e' /\ es = []).
      { intros i an' e' es. rewrite lift_bind_err. split.
        - intros [[-> ->]|(vs & -> & H)]; [auto|]. cbn [bind].
          apply lift_bind_err in H. destruct H as [[-> ->]|(ws & -> & H)]; [auto|]. cbn [bind].
          apply lift_bind_err in H. destruct H as [[-> ->]|(u & Eu & H)]; [auto|].
          exfalso. apply lbind_err_iff in H. destruct H as [H|(san & e1 & e2 & _ & H & _)]; [exact (annotated_no_err _ _ _ _ H)|discriminate].
        - intros [H ->]. destruct (visit_expression_list st ps) as [vs|err|w|k]; cbn [bind] in H; try discriminate; [right|left; now injection H as ->].
          exists vs. split; [reflexivity|]. unfold lift. destruct (resolve_parameters n vs) as [ws|err|w|k]; cbn [bind] in H; try discriminate; cbn [lbind].
          + rewrite H. reflexivity.
          + injection H as <-. reflexivity. }
      split.
      + intros (e' & H & ->). apply lbind_err_iff in H. destruct H as [H|(i & e1 & e2 & E1 & H & ->)].
        * apply lbind_err_iff in H. destruct H as [H|(sg & e1 & e2 & _ & H & _)]; [|discriminate]. apply IH in H. destruct H as [H L]. split.
          -- exists e'. split; [|reflexivity]. rewrite H. reflexivity.
          -- destruct e' as [m p]. apply (wrong_visits g G Mi) in H. eapply lost_inside; eauto.
        * apply lbind_ok_iff in E1. destruct E1 as (sg & e3 & e4 & E1 & [= <- <-] & ->). apply K in H. destruct H as [H ->]. rewrite !app_nil_r.
          apply (gate_ok g Mi) in E1. destruct E1 as [E1 Kp]. split.
          -- exists e'. split; [|reflexivity]. rewrite E1. apply lbind_err_iff. right. exists (Some (bare_result_gate sg)), [], []. split; [reflexivity|]. split; [|reflexivity]. apply K. split; [|reflexivity].
             rewrite <- H. destruct (visit_expression_list st ps); cbn [bind]; auto. destruct (resolve_parameters n a); cbn [bind]; auto. apply bare_check.
          -- destruct (proj2 (right_visits g G Mi)) as [a R]; [eauto|]. eapply lost_modifier; eauto.
      + intros [(e' & H & ->) L]. inversion L as [|? ? ? sg a ? ? ? R Kp|? ? ? m p ? ? ? W L']; subst; apply lbind_err_iff in H.
        * destruct (proj1 (right_visits g G Mi)) as [sg0 V]; [eauto|]. destruct (kept_refit g sg errs Kp sg0 V) as (sg' & <- & Kp').
          destruct H as [H|(i & e1 & e2 & E1 & H & E)].
          { rewrite V in H. discriminate. }
          rewrite V in E1. injection E1 as <- <-. apply K in H. destruct H as [H _]. exists e'. split; [|reflexivity].
          assert (V' : visit_gate st g = (Ok sg', errs)) by (apply (gate_ok g Mi); auto). rewrite V'.
          apply lbind_err_iff. right. exists (Some sg'), errs, []. split; [cbn [lbind lift]; now rewrite app_nil_r|]. split; [|now rewrite app_nil_r]. apply K. split; [|reflexivity].
          rewrite <- H. destruct (visit_expression_list st ps); cbn [bind]; auto. destruct (resolve_parameters n a0); cbn [bind]; auto. symmetry. apply bare_check.
        * apply (wrong_visits g G Mi) in W. rewrite W in H. destruct H as [H|(i & e1 & e2 & E1 & H & E)]; [|discriminate]. cbn [lbind] in H. injection H as <-.
          exists (mkRawError m p). split; [|reflexivity]. assert (V' : visit_gate st g = (Err (mkRawError m p), errs)) by (apply IH; auto). rewrite V'. reflexivity.
  Qed.
End State.
