(** Lemmas for C94: statements and programs. *)
From Coq Require Import Reals SpecFloat ZArith Lia ZifyBool.
From Verif Require Import Base ModelUtils ModelVersion ModelError ModelTypes ModelOverload ModelFunctions ModelInstructionSet ModelAst ModelAnalyzer ModelSemantic
  SpecUtils SpecError SpecTypes SpecFunctions SpecInstructions SpecPlace SpecAnalyzer SpecMachine SpecSites SpecDiagnosis SpecHull SpecVersion
  ProofsTypes ProofsFunctions ProofsFolding ProofsFolding2 ProofsIeee ProofsExpr ProofsInstructions ProofsGates ProofsIndex
  ProofsAnalyzer ProofsAnalyzer2 ProofsAnalyzer3 ProofsAnalyzer7 ProofsConstants ProofsRename2 ProofsMachine ProofsDiagnosis ProofsDiagnosis2 ProofsDiagnosis3 ProofsDiagnosis4 ProofsHull
  ProofsVersion ProofsVersion2 SpecEvaluate ProofsEvaluate ProofsEvaluate2 ProofsEvaluate3 SpecMeaning ProofsMeaning ProofsMeaning2 SpecOutcome ProofsOutcome ProofsOutcome2 ProofsOutcome3
  SpecAnnotations ProofsAnnotations.
Local Open Scope string_scope.

Lemma bare_bare_gate g : bare_gate (bare_gate g) = bare_gate g.
Proof. induction g as [l n ps an|l n g ps an IH] using gate_ind_full; cbn [bare_gate]; [reflexivity|now rewrite IH]. Qed.
Lemma bare_bare s : bare_statement (bare_statement s) = bare_statement s.
Proof. destruct s; cbn [bare_statement]; try reflexivity. now rewrite bare_bare_gate. Qed.
Lemma bare_exprs s : Forall machine_literals (statement_exprs s) -> Forall machine_literals (statement_exprs (bare_statement s)).
Proof.
  destruct s as [l n t an|l g ops an|l n ops ps an|l n c an]; cbn [bare_statement statement_exprs annotation_exprs flat_map]; rewrite ?Forall_app; [constructor| | |constructor].
  - intros (A & B & _). repeat split; auto. now apply bare_gate_exprs.
  - intros (A & B & _). repeat split; auto.
Qed.
Lemma bare_machine s : machine_statement s -> machine_statement (bare_statement s).
Proof. intros [A B]. split; [now apply bare_exprs|]. now destruct s. Qed.

Definition never {A} (m : logged A) : Prop := forall w es, m <> (Throw w, es).
Lemma never_lbind {A B} (m : logged A) (f : A -> logged B) : never m -> (forall a es, m = (Ok a, es) -> never (f a)) -> never (lbind m f).
Proof.
  intros H1 H2 w es. destruct m as [[a|e|w'|k] e1]; cbn [lbind]; try discriminate.
  - specialize (H2 a e1 eq_refl). destruct (f a) as [r e2] eqn:E. intros [= -> _]. now apply (H2 w e2).
  - destruct (H1 w' e1 eq_refl).
Qed.
Lemma never_lift {A} (m : outcome error A) : no_throw m -> never (lift m).
Proof. intros H w es [= E _]. exact (H w E). Qed.
Lemma never_context {A} l (m : logged A) : never m -> never (log_context l m).
Proof. intros H w es. unfold log_context. destruct m as [[a|e|w'|k] e1]; cbn [fst snd with_context]; try discriminate. destruct (H w' e1 eq_refl). Qed.
Lemma never_catch {A} l (d : A) m : never m -> (exists a es, catch_log l d m = (Ok a, es)) \/ exists k es, catch_log l d m = (UB k, es).
Proof. intros H. destruct m as [[a|e|w|k] es]; cbn [catch_log]; [eauto|eauto|destruct (H w es eq_refl)|eauto]. Qed.

Section Statements.
  Variables (lm : libm) (vars : list variable) (st : analyzer).
  Hypothesis Hlib : machine_libm lm.
  Hypothesis Hst : sees lm vars st.
  Let Ho : ordinary lm st := re_ordinary _ _ _ Hst.

  (** The statement an instruction adds *)
  Definition body (s : statement) : logged sem_statement :=
    match s with
    | SVariable _ _ _ _ => lift (UB NullDereference)
    | SGateInstr l g ops an =>
        let* g' := visit_gate st g in
        let* vs := lift (visit_expression_list st ops) in
        let* r := lift (resolve_instruction st (gate_resolution_name g') vs) in
        let* _ := lift (check_gate_operands (snd r)) in
        let* ans := visit_annotated st an in
        lift (Ok (SemGateInstr l (fst r) g' (snd r) ans))
    | SNonGate l n ops ps an =>
        let* vs := lift (visit_expression_list st ops) in
        let* r := lift (resolve_instruction st n vs) in
        let* pvs := lift (visit_expression_list st ps) in
        let* ws := lift (resolve_parameters n pvs) in
        let* _ := lift (check_non_gate_operands n (snd r)) in
        let* ans := visit_annotated st an in
        lift (Ok (SemNonGate l (fst r) n (snd r) ws ans))
    | SAsm l n c an => let* ans := visit_annotated st an in lift (Ok (SemAsm l n c ans))
    end.
  Lemma lbind_assoc {A B C} (m : logged A) (f : A -> logged B) (h : B -> logged C) : lbind (lbind m f) h = lbind m (fun a => lbind (f a) h).
  Proof.
    destruct m as [[a|e|w|k] e1]; cbn [lbind]; try reflexivity. destruct (f a) as [[b|e|w|k] e2]; cbn [lbind]; try reflexivity.
    destruct (h b) as [r e3]. now rewrite app_assoc.
  Qed.
  Lemma lbind_ext {A B} (m : logged A) (f h : A -> logged B) : (forall a, f a = h a) -> lbind m f = lbind m h.
  Proof. intros H. destruct m as [[a|e|w|k] e1]; cbn [lbind]; try reflexivity. now rewrite H. Qed.
  Definition add (x : sem_statement) : logged analyzer := lift (Ok (map_current (with_statement x) st)).
  Lemma add_is x : lift (add_statement st x) = lbind (lift (Ok x)) add.
  Proof.
    destruct (add_statement_ok lm st Ho x) as [st' E]. rewrite E. apply add_statement_inv in E. destruct E as [_ ->]. reflexivity.
  Qed.
  Lemma visit_body s : ~ is_declaration s -> visit_statement st s = catch_log (place_of_statement s) st (let* x := body s in add x).
  Proof.
    intros D. destruct s as [l n t an|l g ops an|l n ops ps an|l n c an]; cbn [visit_statement place_of_statement body]; [destruct (D I)|unfold visit_gate_instruction|unfold visit_non_gate_instruction|unfold visit_asm_declaration]; f_equal.
    - rewrite lbind_assoc. apply lbind_ext. intros g'. rewrite lbind_assoc. apply lbind_ext. intros vs. rewrite lbind_assoc. apply lbind_ext. intros r.
      rewrite lbind_assoc. apply lbind_ext. intros u. rewrite lbind_assoc. apply lbind_ext. intros ans. apply add_is.
    - rewrite lbind_assoc. apply lbind_ext. intros vs. rewrite lbind_assoc. apply lbind_ext. intros r. rewrite lbind_assoc. apply lbind_ext. intros pvs.
      rewrite lbind_assoc. apply lbind_ext. intros ws. rewrite lbind_assoc. apply lbind_ext. intros u. rewrite lbind_assoc. apply lbind_ext. intros ans. apply add_is.
    - rewrite lbind_assoc. apply lbind_ext. intros ans. apply add_is.
  Qed.
  Lemma visit_body_cases s st' errs : ~ is_declaration s ->
    (visit_statement st s = (Ok st', errs) <->
     (exists x, body s = (Ok x, errs) /\ st' = map_current (with_statement x) st) \/
     (exists e e1, body s = (Err e, e1) /\ st' = st /\ errs = e1 ++ [error_context (place_of_statement s) e])%list).
  Proof.
    intros D. rewrite (visit_body s D). unfold add. destruct (body s) as [[x|e|w|k] e1]; unfold lift; cbn [lbind catch_log]; rewrite ?app_nil_r; split; try discriminate.
    - intros [= <- <-]. left. eauto.
    - intros [(x' & [= <- <-] & ->)|(e & e2 & [=] & _)]. reflexivity.
    - intros [= <- <-]. right. eauto.
    - intros [(x' & [=] & _)|(e' & e2 & [= <- <-] & -> & ->)]. reflexivity.
    - intros [(x' & [=] & _)|(e' & e2 & [=] & _)].
    - intros [(x' & [=] & _)|(e' & e2 & [=] & _)].
  Qed.

  Lemma body_ok s : Forall machine_literals (statement_exprs s) -> forall x errs,
    body s = (Ok x, errs) <-> body (bare_statement s) = (Ok (bare_result x), []) /\ instruction_kept lm vars s x errs.
  Proof.
    intros M x errs. destruct s as [l n t an|l g ops an|l n ops ps an|l n c an]; cbn [body bare_statement statement_exprs] in *.
    - split; [discriminate|]. intros [[=] _].
    - apply Forall_app in M. destruct M as [Mg M]. apply Forall_app in M. destruct M as [_ Ma]. split.
      + intros H. apply lbind_ok_iff in H. destruct H as (sg & e1 & e2 & E1 & H & ->). apply (gate_ok lm vars st Hlib Hst g Mg) in E1. destruct E1 as [E1 K].
        apply lift_bind_ok in H. destruct H as (vs & Ev & H). apply lift_bind_ok in H. destruct H as (r & Er & H). apply lift_bind_ok in H. destruct H as (u & Eu & H).
        apply lbind_ok_iff in H. destruct H as (san & e3 & e4 & A & [= <- <-] & ->). rewrite app_nil_r. apply (annotations_are lm vars st Hlib Hst an Ma) in A. split; [|now constructor].
        apply lbind_ok_iff. exists (bare_result_gate sg), [], []. split; [exact E1|]. split; [|reflexivity]. rewrite Ev, bare_resolution. unfold lift. cbn [lbind]. rewrite Er. cbn [lbind]. rewrite Eu. reflexivity.
      + intros [H K]. inversion K as [? ? ? ? i sg vs san e1 e2 Kg A| |]; subst. apply lbind_ok_iff in H. destruct H as (sg0 & e3 & e4 & E1 & H & E). symmetry in E. apply app_eq_nil in E. destruct E as [-> ->].
        apply lift_bind_ok in H. destruct H as (vs' & Ev & H). apply lift_bind_ok in H. destruct H as (r & Er & H). apply lift_bind_ok in H. destruct H as (u & Eu & H).
        injection H as <- -> <-. apply (annotations_are lm vars st Hlib Hst an Ma) in A.
        apply lbind_ok_iff. exists sg, e1, e2. split; [apply (gate_ok lm vars st Hlib Hst g Mg); auto|]. split; [|reflexivity].
        rewrite bare_resolution in Er. rewrite Ev. unfold lift. cbn [lbind]. rewrite Er. cbn [lbind]. rewrite Eu. cbn [lbind]. rewrite A. cbn [lbind app]. now rewrite app_nil_r.
    - apply Forall_app in M. destruct M as [_ M]. apply Forall_app in M. destruct M as [_ Ma]. split.
      + intros H. apply lift_bind_ok in H. destruct H as (vs & Ev & H). apply lift_bind_ok in H. destruct H as (r & Er & H). apply lift_bind_ok in H. destruct H as (pvs & Ep & H).
        apply lift_bind_ok in H. destruct H as (ws & Ew & H). apply lift_bind_ok in H. destruct H as (u & Eu & H).
        apply lbind_ok_iff in H. destruct H as (san & e3 & e4 & A & [= <- <-] & ->). rewrite app_nil_r. apply (annotations_are lm vars st Hlib Hst an Ma) in A. split; [|now constructor].
        rewrite Ev. unfold lift. cbn [lbind]. rewrite Er. cbn [lbind]. rewrite Ep. cbn [lbind]. rewrite Ew. cbn [lbind]. rewrite Eu. reflexivity.
      + intros [H K]. inversion K as [|? ? ? ? ? i vs ws san e1 A|]; subst.
        apply lift_bind_ok in H. destruct H as (vs' & Ev & H). apply lift_bind_ok in H. destruct H as (r & Er & H). apply lift_bind_ok in H. destruct H as (pvs & Ep & H).
        apply lift_bind_ok in H. destruct H as (ws' & Ew & H). apply lift_bind_ok in H. destruct H as (u & Eu & H). injection H as <- <- <-.
        apply (annotations_are lm vars st Hlib Hst an Ma) in A.
        rewrite Ev. unfold lift. cbn [lbind]. rewrite Er. cbn [lbind]. rewrite Ep. cbn [lbind]. rewrite Ew. cbn [lbind]. rewrite Eu. cbn [lbind]. rewrite A. cbn [lbind app]. now rewrite app_nil_r.
    - split.
      + intros H. apply lbind_ok_iff in H. destruct H as (san & e3 & e4 & A & [= <- <-] & ->). rewrite app_nil_r. apply (annotations_are lm vars st Hlib Hst an M) in A. split; [reflexivity|now constructor].
      + intros [H K]. inversion K as [| |? ? ? ? san e1 A]; subst. apply (annotations_are lm vars st Hlib Hst an M) in A. rewrite A. cbn [lbind lift]. now rewrite app_nil_r.
  Qed.
  Lemma kept_gate_of g : grammar_gate (bare_gate g) -> Forall machine_literals (gate_exprs g) -> forall sg errs a sg0, right_gate lm (bare_gate g) a -> gate_kept lm vars g sg errs ->
    visit_gate st (bare_gate g) = (Ok sg0, []) -> exists sg', visit_gate st g = (Ok sg', errs) /\ bare_result_gate sg' = sg0.
  Proof.
    intros G M sg errs a sg0 R K V. destruct (kept_refit lm vars st g sg errs K sg0 V) as (sg' & <- & K'). exists sg'. split; [|reflexivity]. apply (gate_ok lm vars st Hlib Hst g M). auto.
  Qed.
  Lemma body_err s : grammar_statement (bare_statement s) -> Forall machine_literals (statement_exprs s) -> forall e errs, ~ is_declaration s ->
    (body s = (Err e, errs) <-> body (bare_statement s) = (Err e, []) /\ instruction_lost lm vars s errs).
  Proof.
    intros (_ & _ & G) M e errs D. destruct s as [l n t an|l g ops an|l n ops ps an|l n c an]; cbn [body bare_statement statement_exprs] in *.
    - destruct (D I).
    - apply Forall_app in M. destruct M as [Mg _].
      assert (K : forall sg an' (e' : error) es, (let* vs := lift (visit_expression_list st ops) in let* r := lift (resolve_instruction st (gate_resolution_name sg) vs) in
          let* _ := lift (check_gate_operands (snd r)) in let* ans := visit_annotated st an' in lift (Ok (SemGateInstr l (fst r) sg (snd r) ans))) = (Err e', es) <->
          (let! vs := visit_expression_list st ops in let! r := resolve_instruction st (gate_resolution_name sg) vs in check_gate_operands (snd r)) = Err e' /\ es = []).
      { intros i an' e' es. rewrite lift_bind_err. split.
        - intros [[-> ->]|(vs & -> & H)]; [auto|]. cbn [bind].
          apply lift_bind_err in H. destruct H as [[-> ->]|(ws & -> & H)]; [auto|]. cbn [bind].
          apply lift_bind_err in H. destruct H as [[-> ->]|(u & Eu & H)]; [auto|].
          exfalso. apply lbind_err_iff in H. destruct H as [H|(san & e1 & e2 & _ & H & _)]; [exact (annotated_no_err _ _ _ _ H)|discriminate].
        - intros [H ->]. destruct (visit_expression_list st ops) as [vs|err|w|k]; cbn [bind] in H; try discriminate; [right|left; now injection H as ->].
          exists vs. split; [reflexivity|]. unfold lift. destruct (resolve_instruction st (gate_resolution_name i) vs) as [ws|err|w|k]; cbn [bind] in H; try discriminate; cbn [lbind].
          + rewrite H. reflexivity.
          + injection H as <-. reflexivity. }
      rewrite !lbind_err_iff. split.
      + intros [H|(sg & e1 & e2 & E1 & H & ->)].
        * apply (gate_err lm vars st Hlib Hst g G Mg) in H. destruct H as [H L]. split; [left; exact H|]. destruct e as [m p]. apply (wrong_visits lm vars st Hlib Hst g G Mg) in H. eapply lost_gate; eauto.
        * apply (gate_ok lm vars st Hlib Hst g Mg) in E1. destruct E1 as [E1 Kg]. apply K in H. destruct H as [H ->]. rewrite app_nil_r. split.
          -- right. exists (bare_result_gate sg), [], []. split; [exact E1|]. split; [|reflexivity]. apply K. rewrite bare_resolution. auto.
          -- destruct (proj2 (right_visits lm vars st Hlib Hst g G Mg)) as [a R]; [eauto|]. eapply lost_instruction; eauto.
      + intros [H L]. inversion L as [? ? sg a ? ? ? R Kg|? ? m p ? ? ? W Lg|]; subst.
        * destruct (proj1 (right_visits lm vars st Hlib Hst g G Mg)) as [sg0 V]; [eauto|]. destruct H as [H|(sg1 & e1 & e2 & E1 & H & E)]; [rewrite V in H; discriminate|].
          rewrite V in E1. injection E1 as <- <-. destruct (kept_gate_of g G Mg sg errs a sg0 R Kg V) as (sg' & V' & <-). right. exists sg', errs, []. split; [exact V'|]. split; [|now rewrite app_nil_r].
          apply K. apply K in H. destruct H as [H _]. rewrite bare_resolution in H. auto.
        * apply (wrong_visits lm vars st Hlib Hst g G Mg) in W. destruct H as [H|(sg1 & e1 & e2 & E1 & _)]; [|rewrite W in E1; discriminate]. left. apply (gate_err lm vars st Hlib Hst g G Mg). auto.
    - assert (K : forall an' (e' : error) es, (let* vs := lift (visit_expression_list st ops) in let* r := lift (resolve_instruction st n vs) in
          let* pvs := lift (visit_expression_list st ps) in let* ws := lift (resolve_parameters n pvs) in
          let* _ := lift (check_non_gate_operands n (snd r)) in let* ans := visit_annotated st an' in lift (Ok (SemNonGate l (fst r) n (snd r) ws ans))) = (Err e', es) <->
          (let! vs := visit_expression_list st ops in let! r := resolve_instruction st n vs in let! pvs := visit_expression_list st ps in let! ws := resolve_parameters n pvs in
           check_non_gate_operands n (snd r)) = Err e' /\ es = []).
      { intros an' e' es. split.
        - intros H. apply lift_bind_err in H. destruct H as [[-> ->]|(vs & -> & H)]; [auto|]. cbn [bind].
          apply lift_bind_err in H. destruct H as [[-> ->]|(r & -> & H)]; [auto|]. cbn [bind].
          apply lift_bind_err in H. destruct H as [[-> ->]|(pvs & -> & H)]; [auto|]. cbn [bind].
          apply lift_bind_err in H. destruct H as [[-> ->]|(ws & -> & H)]; [auto|]. cbn [bind].
          apply lift_bind_err in H. destruct H as [[-> ->]|(u & Eu & H)]; [auto|].
          exfalso. apply lbind_err_iff in H. destruct H as [H|(san & e1 & e2 & _ & H & _)]; [exact (annotated_no_err _ _ _ _ H)|discriminate].
        - intros [H ->]. unfold lift. destruct (visit_expression_list st ops) as [vs|err|w|k]; cbn [bind] in H; try discriminate; cbn [lbind]; [|now injection H as ->].
          destruct (resolve_instruction st n vs) as [r|err|w|k]; cbn [bind] in H; try discriminate; cbn [lbind]; [|now injection H as ->].
          destruct (visit_expression_list st ps) as [pvs|err|w|k]; cbn [bind] in H; try discriminate; cbn [lbind]; [|now injection H as ->].
          destruct (resolve_parameters n pvs) as [ws|err|w|k]; cbn [bind] in H; try discriminate; cbn [lbind]; [|now injection H as ->].
          rewrite H. reflexivity. }
      rewrite !K. split; [intros [H ->]; split; [auto|constructor]|]. intros [[H _] L]. inversion L; subst. auto.
    - split; [|intros [[=] _]]. intros H. exfalso. apply lbind_err_iff in H. destruct H as [H|(san & e1 & e2 & _ & H & _)]; [exact (annotated_no_err _ _ _ _ H)|discriminate].
  Qed.

  Lemma with_statement_inj x y : map_current (with_statement x) st = map_current (with_statement y) st -> x = y.
  Proof.
    destruct (re_scope _ _ _ Hst) as [g S]. unfold map_current. rewrite S. intros E. injection E as E _. cbn in E.
    apply app_inj_tail in E. apply E.
  Qed.
  Lemma instruction_fate s st' errs : grammar_statement (bare_statement s) -> machine_statement s -> ~ is_declaration s ->
    (visit_statement st s = (Ok st', errs) <->
     (exists x, instruction_means lm vars (bare_statement s) (bare_result x) /\ instruction_kept lm vars s x errs /\ st' = map_current (with_statement x) st) \/
     (exists m p e1, wrong_instruction lm vars (bare_statement s) m p /\ instruction_lost lm vars s e1 /\ st' = st /\ errs = e1 ++ [mkRawError m p])%list).
  Proof.
    intros G Ms D. assert (D' : ~ is_declaration (bare_statement s)) by now destruct s. pose proof (bare_machine s Ms) as Mb. pose proof (proj1 Ms) as M. pose proof (proj1 Mb) as M'.
    assert (P : place_of_statement (bare_statement s) = place_of_statement s) by now destruct s.
    assert (A1 : forall x, body (bare_statement s) = (Ok x, []) <-> instruction_means lm vars (bare_statement s) x).
    { intros x. split.
      - intros B. assert (V : visit_statement st (bare_statement s) = (Ok (map_current (with_statement x) st), [])) by (apply visit_body_cases; [exact D'|left; eauto]).
        apply (instruction_statement_means lm vars st Hlib Hst _ _ G Mb D') in V. destruct V as (y & Iy & E). apply with_statement_inj in E. now subst.
      - intros Ix. assert (V : visit_statement st (bare_statement s) = (Ok (map_current (with_statement x) st), [])) by (apply (instruction_statement_means lm vars st Hlib Hst _ _ G Mb D'); eauto).
        apply visit_body_cases in V; [|exact D']. destruct V as [(y & B & E)|(e & e1 & _ & _ & E)]; [|destruct e1; discriminate]. apply with_statement_inj in E. now subst. }
    assert (A2 : forall m p, wrong_instruction lm vars (bare_statement s) m p <-> exists e, body (bare_statement s) = (Err e, []) /\ error_context (place_of_statement s) e = mkRawError m p).
    { intros m p. rewrite <- (instruction_wrong lm vars st Hlib Hst _ m p G Mb D'), (visit_body_cases _ _ _ D'), P. split.
      - intros [(x & B & _)|(e & e1 & B & _ & E)].
        + exfalso. pose proof B as B'. apply (body_ok _ M') in B. rewrite bare_bare in B. destruct B as [B _]. rewrite B in B'. discriminate.
        + destruct e1 as [|e0 e1]; [|destruct e1; discriminate]. cbn [app] in E. injection E as E. exists e. split; [exact B|]. now symmetry.
      - intros (e & B & E). right. exists e, []. rewrite E. auto. }
    rewrite (visit_body_cases _ _ _ D). split.
    - intros [(x & B & ->)|(e & e1 & B & -> & ->)].
      + apply (body_ok s M) in B. destruct B as [B K]. left. exists x. split; [now apply A1|]. auto.
      + apply (body_err s G M e e1 D) in B. destruct B as [B L]. right. exists (message e), (nearest [location e; place_of_statement s]), e1.
        rewrite context_raw. split; [apply A2; exists e; split; [exact B|apply context_raw]|]. auto.
    - intros [(x & Ix & K & ->)|(m & p & e1 & W & L & -> & ->)].
      + left. exists x. split; [|reflexivity]. apply (body_ok s M). split; [now apply A1|exact K].
      + apply A2 in W. destruct W as (e & B & E). right. exists e, e1. split; [apply (body_err s G M e e1 D); auto|]. rewrite E. auto.
  Qed.

  (** ** No instruction throws *)
  Lemma never_annotated an : Forall machine_literals (annotation_exprs an) -> never (visit_annotated st an).
  Proof. intros M w es E. destruct (annotations_total lm vars st Hst an) as [(san & e & E')|(k & e & E')]; rewrite E' in E; discriminate. Qed.
  Lemma never_gate g : grammar_gate (bare_gate g) -> Forall machine_literals (gate_exprs g) -> never (visit_gate st g).
  Proof.
    induction g as [l n ps an|l n g ps an IH] using gate_ind_full; intros G M; rewrite visit_gate_unfold; apply never_context.
    - destruct (gate_exprs_inv _ _ _ _ _ M) as (_ & Ma). apply never_lbind; [now intros w es [=]|]. intros i es _.
      apply never_lbind; [apply never_lift, (visit_list_no_throw lm st Ho)|]. intros vs e1 Ev. apply lift_ok in Ev. destruct Ev as [Ev _].
      apply never_lbind; [apply never_lift, (resolve_parameters_no_throw), (visit_list_ordinary lm st Ho _ _ Ev)|]. intros ws e2 _.
      apply never_lbind; [apply never_lift, check_gate_clean|]. intros u e3 _.
      apply never_lbind; [now apply never_annotated|]. intros san e4 _ w es' [=].
    - destruct (gate_exprs_inv _ _ _ _ _ M) as (Mg & Ma). cbn [bare_gate] in G. apply inner_grammar in G. destruct G as [G _].
      apply never_lbind; [apply never_lbind; [now apply IH|now intros r e _ w es [=]]|]. intros i es _.
      apply never_lbind; [apply never_lift, (visit_list_no_throw lm st Ho)|]. intros vs e1 Ev. apply lift_ok in Ev. destruct Ev as [Ev _].
      apply never_lbind; [apply never_lift, (resolve_parameters_no_throw), (visit_list_ordinary lm st Ho _ _ Ev)|]. intros ws e2 _.
      apply never_lbind; [apply never_lift, check_gate_clean|]. intros u e3 _.
      apply never_lbind; [now apply never_annotated|]. intros san e4 _ w es' [=].
  Qed.
  Lemma never_body s : grammar_statement (bare_statement s) -> Forall machine_literals (statement_exprs s) -> never (body s).
  Proof.
    intros (_ & _ & G) M. destruct s as [l n t an|l g ops an|l n ops ps an|l n c an]; cbn [body bare_statement statement_exprs] in *; [now intros w es [=]|..].
    - apply Forall_app in M. destruct M as [Mg M]. apply Forall_app in M. destruct M as [_ Ma].
      apply never_lbind; [now apply never_gate|]. intros sg e0 _.
      apply never_lbind; [apply never_lift, (visit_list_no_throw lm st Ho)|]. intros vs e1 Ev. apply lift_ok in Ev. destruct Ev as [Ev _].
      apply never_lbind; [apply never_lift, resolve_instruction_no_throw, ordinary_typed_list, (visit_list_ordinary lm st Ho _ _ Ev)|]. intros r e2 _.
      apply never_lbind; [apply never_lift; intros w; unfold check_gate_operands; destruct (adjacent_equal _); discriminate|]. intros u e3 _.
      apply never_lbind; [now apply never_annotated|]. intros san e4 _ w es' [=].
    - apply Forall_app in M. destruct M as [_ M]. apply Forall_app in M. destruct M as [_ Ma].
      apply never_lbind; [apply never_lift, (visit_list_no_throw lm st Ho)|]. intros vs e1 Ev. apply lift_ok in Ev. destruct Ev as [Ev _].
      apply never_lbind; [apply never_lift, resolve_instruction_no_throw, ordinary_typed_list, (visit_list_ordinary lm st Ho _ _ Ev)|]. intros r e2 _.
      apply never_lbind; [apply never_lift, (visit_list_no_throw lm st Ho)|]. intros pvs e5 Ep. apply lift_ok in Ep. destruct Ep as [Ep _].
      apply never_lbind; [apply never_lift, (resolve_parameters_no_throw), (visit_list_ordinary lm st Ho _ _ Ep)|]. intros ws e6 _.
      apply never_lbind; [apply never_lift; intros w; unfold check_non_gate_operands; destruct (is_measure n); [destruct (_ =? _)%Z|]; discriminate|]. intros u e3 _.
      apply never_lbind; [now apply never_annotated|]. intros san e4 _ w es' [=].
    - apply never_lbind; [now apply never_annotated|]. intros san e4 _ w es' [=].
  Qed.
  Lemma sees_fresh : sees lm vars (fresh st).
  Proof. destruct Hst as [O' G T D Z]. constructor; cbn; auto. Qed.

  (** ** Declarations *)
  Definition declare_with (n : string) (ty : type) (san : list sem_annotation) : analyzer :=
    map_current (fun s => with_entry n (VVar (mkVariable (next_id st) n ty)) (with_variable (mkSemVariable (mkVariable (next_id st) n ty) san) s)) (fresh st).
  Definition list_with (n : string) (ty : type) (san : list sem_annotation) : analyzer :=
    map_current (with_variable (mkSemVariable (mkVariable (next_id st) n ty) san)) (fresh st).
  Lemma declared_build t ty : declares_type t ty -> build_semantic_type t = Ok ty.
  Proof.
    intros D. destruct (build_type_spec t) as [(ty' & E & D')|(e & _ & _ & N)]; [|destruct (N _ D)]. now rewrite E, (ProofsRename3.declares_type_functional t ty' ty D' D).
  Qed.
  Lemma variable_visited l n t ty an san errs : declares_type t ty -> visit_annotated (fresh st) an = (Ok san, errs) ->
    (taken vars n -> visit_statement st (SVariable l n t an) = (Ok (list_with n ty san), errs ++ [mkRawError ("trying to redeclare variable '" ++ n ++ "'")%string l])%list) /\
    (~ taken vars n -> visit_statement st (SVariable l n t an) = (Ok (declare_with n ty san), errs)).
  Proof.
    intros D A.
    assert (T : taken vars n <-> In n (names_here st)) by (symmetry; apply (names_are lm vars st Hst)). rewrite T. clear T.
    cbn [visit_statement]. unfold visit_variable. rewrite (declared_build t ty D). cbn [lift lbind]. rewrite A. cbn [lbind].
    destruct (re_scope _ _ _ Hst) as [g S]. rewrite names_table. unfold table_here. unfold declare_with, list_with, map_current, add_variable, update_current. cbn [fresh scopes api_version next_id]. rewrite S. cbn [bind lift lbind]. unfold register_variable, update_current. cbn [scopes].
    unfold variable_add. cbn [with_variable sc_variables_table]. destruct (table_find n (sc_variables_table g)) as [x|] eqn:F.
    - cbn [bind lift catch_log lbind app]. rewrite ?app_nil_r. split; [reflexivity|]. intros N. destruct N. apply table_find_Some_In in F. apply in_map_iff. exists (n, x). auto.
    - cbn [bind lift catch_log lbind app]. rewrite ?app_nil_r. split; [|reflexivity]. intros N. destruct (table_find_None _ _ F N).
  Qed.
  Lemma variable_undefined l n t ty an k errs : declares_type t ty -> visit_annotated (fresh st) an = (UB k, errs) ->
    visit_statement st (SVariable l n t an) = (UB k, errs).
  Proof.
    intros D A. cbn [visit_statement]. unfold visit_variable. rewrite (declared_build t ty D). cbn [lift lbind]. rewrite A. cbn [lbind catch_log]. reflexivity.
  Qed.
  Lemma variable_fails l n t m an : wrong_type t m -> visit_statement st (SVariable l n t an) = (Ok (fresh st), [mkRawError m l]).
  Proof.
    intros W. rewrite <- (declaration_fails st l n t m W). cbn [visit_statement]. unfold visit_variable.
    destruct (build_semantic_type t) as [ty|e|w|k] eqn:B; cbn [lift lbind]; try reflexivity.
    exfalso. destruct (build_type_spec t) as [(ty' & E & D')|(e & E & N)]; [|congruence].
    pose proof (declaration_fails st l n t m W) as F. cbn [visit_statement] in F. unfold visit_variable in F. rewrite B in F. cbn [lift lbind visit_annotated] in F.
    inversion W as [N1 N2|z Q Z L]; subst; [destruct (declares_name t ty' D'); contradiction|]. inversion D'; subst; cbn in Z; try discriminate; injection Z as <-; lia.
  Qed.
  Lemma annotated_total s : grammar_statement (bare_statement s) -> Forall machine_literals (statement_exprs s) ->
    (exists st' es, visit_statement st s = (Ok st', es)) \/ (exists k es, visit_statement st s = (UB k, es)).
  Proof.
    intros G M. assert (D : is_declaration s \/ ~ is_declaration s) by (destruct s; cbn; auto). destruct D as [D|D].
    - destruct s as [l n t an| | |]; try destruct D. destruct (type_cases t) as [[ty T]|[m W]].
      + destruct (annotations_total lm vars (fresh st) sees_fresh an) as [(san & e & A)|(k & e & A)].
        * left. destruct (variable_visited l n t ty an san e T A) as [V1 V2]. destruct (taken_dec vars n) as [N|N]; [rewrite (V1 N)|rewrite (V2 N)]; eauto.
        * right. rewrite (variable_undefined l n t ty an k e T A). eauto.
      + left. rewrite (variable_fails l n t m an W). eauto.
    - rewrite (visit_body s D). apply never_catch. apply never_lbind; [now apply never_body|]. intros x es _ w es' [=].
  Qed.
End Statements.

(** ** Programs *)
Record apoint (lm : libm) (api : list Z) (n : nat) (vars : list variable) (ds : list sem_variable) (xs : list sem_statement) (st : analyzer) : Prop := {
  ap_sees :> sees lm vars st;
  ap_api : api_version st = api;
  ap_next : next_id st = n;
  ap_statements : statements_of st = xs;
  ap_variables : variables_of st = ds }.
Section Points.
  Variables (lm : libm) (api : list Z) (n : nat) (vars : list variable) (ds : list sem_variable) (xs : list sem_statement) (st : analyzer).
  Hypothesis Hst : apoint lm api n vars ds xs st.
  Let Ho : ordinary lm st := re_ordinary _ _ _ Hst.
  Lemma next_ordinary s st' es : visit_statement st s = (Ok st', es) -> ordinary lm st'.
  Proof. intros V. exact (ordinary_extends _ _ _ Ho (effect_extends _ _ _ _ (statement_effect _ _ _ _ V))). Qed.
  Lemma apoint_statement x s es : visit_statement st s = (Ok (map_current (with_statement x) st), es) ->
    apoint lm api n vars ds (xs ++ [x]) (map_current (with_statement x) st).
  Proof.
    intros V. apply next_ordinary in V. destruct Hst as [[O' [g S] T D Z] A N X Y]. clear Ho. unfold table_here, statements_of, variables_of in T, X, Y. rewrite S in T, X, Y.
    unfold map_current in *. rewrite S in *. constructor; [constructor|..]; cbn; auto; [eauto|]. now rewrite X.
  Qed.
  Lemma apoint_declaration name ty san s es : visit_statement st s = (Ok (declare_with st name ty san), es) -> (tsize ty <= 2 ^ 63 - 1)%Z -> ~ taken vars name ->
    apoint lm api (S n) (vars ++ [mkVariable n name ty]) (ds ++ [mkSemVariable (mkVariable n name ty) san]) xs (declare_with st name ty san).
  Proof.
    intros V B C. apply next_ordinary in V. unfold declare_with in *. destruct Hst as [[O' [g S] T U Z] A N X Y]. clear Ho. unfold table_here, statements_of, variables_of in T, X, Y. rewrite S in T, X, Y.
    unfold map_current in *. cbn [fresh scopes api_version next_id] in *. rewrite S in *. constructor; [constructor|..]; cbn [api_version next_id scopes]; auto; unfold table_here, statements_of, variables_of;
      cbn [scopes with_entry with_variable sc_variables_table sc_block sc_variables].
    - eauto.
    - rewrite T, map_app, N, <- app_assoc. reflexivity.
    - rewrite map_app, app_assoc. apply NoDup_snoc; [exact U|]. cbn [var_name]. rewrite in_app_iff. exact C.
    - apply Forall_app. auto.
    - now rewrite Y, N.
  Qed.
  Lemma apoint_redeclaration name ty san s es : visit_statement st s = (Ok (list_with st name ty san), es) ->
    apoint lm api (S n) vars (ds ++ [mkSemVariable (mkVariable n name ty) san]) xs (list_with st name ty san).
  Proof.
    intros V. apply next_ordinary in V. unfold list_with in *. destruct Hst as [[O' [g S] T U Z] A N X Y]. clear Ho. unfold table_here, statements_of, variables_of in T, X, Y. rewrite S in T, X, Y.
    unfold map_current in *. cbn [fresh scopes api_version next_id] in *. rewrite S in *. constructor; [constructor|..]; cbn [api_version next_id scopes]; auto; unfold table_here, statements_of, variables_of;
      cbn [scopes with_variable sc_variables_table sc_block sc_variables]; auto.
    - eauto.
    - now rewrite Y, N.
  Qed.
  Lemma apoint_fresh s es : visit_statement st s = (Ok (fresh st), es) -> apoint lm api (S n) vars ds xs (fresh st).
  Proof.
    intros V. apply next_ordinary in V. destruct Hst as [[O' G T U Z] A N X Y]. clear Ho. constructor; [constructor|..]; cbn; auto.
  Qed.
End Points.

Section Programs.
  Variables (lm : libm) (api : list Z).
  Hypothesis Hlib : machine_libm lm.

  Lemma annotated_block ss : Forall (fun s => grammar_statement (bare_statement s)) ss -> Forall machine_statement ss -> forall n vars ds xs st, apoint lm api n vars ds xs st ->
    (forall st' es, block_run st ss st' es -> exists n' vars' ds' ys, annotated_gives lm n vars ss ds' ys es /\ apoint lm api n' vars' (ds ++ ds') (xs ++ ys) st') /\
    (forall ds' ys es, annotated_gives lm n vars ss ds' ys es -> exists n' vars' st', block_run st ss st' es /\ apoint lm api n' vars' (ds ++ ds') (xs ++ ys) st').
  Proof.
    induction 1 as [|s ss G _ IH]; intros M n vars ds xs st R.
    - split.
      + intros st' es B. inversion B; subst. exists n, vars, [], []. split; [constructor|]. now rewrite !app_nil_r.
      + intros ds' ys es H. inversion H; subst. exists n, vars, st. split; [constructor|]. now rewrite !app_nil_r.
    - inversion M as [|? ? M1 M2]; subst. specialize (IH M2).
      assert (D : is_declaration s \/ ~ is_declaration s) by (destruct s; cbn; auto). destruct D as [D|D].
      + destruct s as [l name t an| | |]; try destruct D. destruct M1 as [Ma Ms]. cbn [statement_exprs] in Ma. pose proof (sees_fresh lm vars st R) as Rf.
        split.
        * intros st' es B. inversion B as [|? ? st1 es1 ? ? es2 V B']; subst.
          destruct (type_cases t) as [[ty T]|[m W]].
          -- destruct (annotations_total lm vars (fresh st) Rf an) as [(san & e & A)|(k & e & A)]; [|rewrite (variable_undefined st l name t ty an k e T A) in V; discriminate].
             destruct (variable_visited lm vars st R l name t ty an san e T A) as [V1 V2]. apply (annotations_are lm vars (fresh st) Hlib Rf an Ma) in A.
             destruct (taken_dec vars name) as [N|N].
             ++ specialize (V1 N). rewrite V1 in V. injection V as <- <-.
                pose proof (apoint_redeclaration lm api n vars ds xs st R name ty san _ _ V1) as R1.
                destruct (IH _ _ _ _ _ R1) as [F _]. destruct (F _ _ B') as (n' & vars' & ds' & ys & H & R2). exists n', vars', (mkSemVariable (mkVariable n name ty) san :: ds'), ys.
                rewrite <- app_assoc. split; [exact (annotated_redeclaration lm n vars l name t ty an san e ss ds' ys es2 T N A H)|]. now rewrite <- app_assoc in R2.
             ++ specialize (V2 N). rewrite V2 in V. injection V as <- <-.
                pose proof (apoint_declaration lm api n vars ds xs st R name ty san _ _ V2 (type_bound t ty T Ms) N) as R1.
                destruct (IH _ _ _ _ _ R1) as [F _]. destruct (F _ _ B') as (n' & vars' & ds' & ys & H & R2). exists n', vars', (mkSemVariable (mkVariable n name ty) san :: ds'), ys.
                split; [exact (annotated_variable lm n vars l name t ty an san e ss ds' ys es2 T N A H)|]. now rewrite <- app_assoc in R2.
          -- pose proof (variable_fails st l name t m an W) as V'. rewrite V' in V. injection V as <- <-.
             pose proof (apoint_fresh lm api n vars ds xs st R _ _ V') as R1.
             destruct (IH _ _ _ _ _ R1) as [F _]. destruct (F _ _ B') as (n' & vars' & ds' & ys & H & R2). exists n', vars', ds', ys.
             split; [exact (annotated_no_variable lm n vars l name t m an ss ds' ys es2 W H)|exact R2].
        * intros ds' ys es H.
          inversion H as [|? ? ? ? ? ty ? san e ? ds1 ? es1 T N A H1|? ? ? ? ? ty ? san e ? ds1 ? es1 T N A H1|? ? ? ? ? m ? ? ? ? es1 W H1|? ? ? ? ? ? ? ? ? I|? ? ? ? ? ? ? ? ? ? I]; subst; try (inversion I; fail).
          -- apply (annotations_are lm vars (fresh st) Hlib Rf an Ma) in A. pose proof (proj2 (variable_visited lm vars st R l name t ty an san e T A) N) as V.
             pose proof (apoint_declaration lm api n vars ds xs st R name ty san _ _ V (type_bound t ty T Ms) N) as R1.
             destruct (IH _ _ _ _ _ R1) as [_ F]. destruct (F _ _ _ H1) as (n' & vars' & st' & B & R2). exists n', vars', st'. rewrite <- app_assoc in R2.
             split; [|exact R2]. econstructor; eauto.
          -- apply (annotations_are lm vars (fresh st) Hlib Rf an Ma) in A. pose proof (proj1 (variable_visited lm vars st R l name t ty an san e T A) N) as V.
             pose proof (apoint_redeclaration lm api n vars ds xs st R name ty san _ _ V) as R1.
             destruct (IH _ _ _ _ _ R1) as [_ F]. destruct (F _ _ _ H1) as (n' & vars' & st' & B & R2). exists n', vars', st'. rewrite <- app_assoc in R2.
             split; [|exact R2]. match goal with |- block_run _ _ _ (e ++ ?x :: es1) => change (e ++ x :: es1)%list with (e ++ ([x] ++ es1))%list end. rewrite app_assoc. econstructor; eauto.
          -- pose proof (variable_fails st l name t m an W) as V. pose proof (apoint_fresh lm api n vars ds xs st R _ _ V) as R1.
             destruct (IH _ _ _ _ _ R1) as [_ F]. destruct (F _ _ _ H1) as (n' & vars' & st' & B & R2). exists n', vars', st'.
             split; [|exact R2]. eapply (run_cons _ _ _ [_]); eauto.
      + split.
        * intros st' es B. inversion B as [|? ? st1 es1 ? ? es2 V B']; subst. pose proof V as V'.
          apply (instruction_fate lm vars st Hlib R s st1 es1 G M1 D) in V. destruct V as [(x & Ix & K & ->)|(m & p & e1 & W & L & -> & ->)].
          -- pose proof (apoint_statement lm api n vars ds xs st R x _ _ V') as R1.
             destruct (IH _ _ _ _ _ R1) as [F _]. destruct (F _ _ B') as (n' & vars' & ds' & ys & H & R2). exists n', vars', ds', (x :: ys). rewrite <- app_assoc in R2.
             split; [exact (annotated_instruction lm n vars s x es1 ss ds' ys es2 Ix K H)|exact R2].
          -- destruct (IH _ _ _ _ _ R) as [F _]. destruct (F _ _ B') as (n' & vars' & ds' & ys & H & R2). exists n', vars', ds', ys. rewrite <- app_assoc.
             split; [exact (annotated_no_instruction lm n vars s m p e1 ss ds' ys es2 W L H)|exact R2].
        * intros ds' ys es H.
          inversion H as [|? ? ? ? ? ty ? san e ? ds1 ? es1 T N A H1|? ? ? ? ? ty ? san e ? ds1 ? es1 T N A H1|? ? ? ? ? m ? ? ? ? es1 W H1|? ? ? x e ? ? ys1 es1 Ix K H1|? ? ? m p e ? ? ? es1 W L H1]; subst; try (destruct (D I); fail).
          -- assert (V : visit_statement st s = (Ok (map_current (with_statement x) st), e)) by (apply (instruction_fate lm vars st Hlib R s _ _ G M1 D); left; eauto).
             pose proof (apoint_statement lm api n vars ds xs st R x _ _ V) as R1.
             destruct (IH _ _ _ _ _ R1) as [_ F]. destruct (F _ _ _ H1) as (n' & vars' & st' & B & R2). exists n', vars', st'. rewrite <- app_assoc in R2.
             split; [|exact R2]. econstructor; eauto.
          -- assert (V : visit_statement st s = (Ok st, e ++ [mkRawError m p])%list) by (apply (instruction_fate lm vars st Hlib R s _ _ G M1 D); right; exists m, p, e; auto).
             destruct (IH _ _ _ _ _ R) as [_ F]. destruct (F _ _ _ H1) as (n' & vars' & st' & B & R2). exists n', vars', st'.
             split; [|exact R2]. change (e ++ mkRawError m p :: es1)%list with (e ++ ([mkRawError m p] ++ es1))%list. rewrite app_assoc. econstructor; eauto.
  Qed.
  Lemma annotated_block_total l ss : Forall (fun s => grammar_statement (bare_statement s)) ss -> Forall machine_statement ss -> forall n vars ds xs st, apoint lm api n vars ds xs st ->
    (exists st' es, visit_block l st ss = (Ok st', es)) \/ (exists k es, visit_block l st ss = (UB k, es)).
  Proof.
    induction 1 as [|s ss Gs _ IH]; intros M n vars ds xs st R; [left; cbn; unfold lift; eauto|]. rewrite visit_block_cons. inversion M as [|? ? M1 M2]; subst.
    destruct (annotated_total lm vars st R s Gs (proj1 M1)) as [(st1 & e1 & E)|(k & e1 & E)]; rewrite E; cbn [lbind]; [|eauto].
    destruct (proj1 (annotated_block [s] ltac:(auto) ltac:(auto) n vars ds xs st R) st1 (e1 ++ [])%list) as (n' & vars' & ds' & ys & _ & R1); [econstructor; [exact E|constructor]|].
    destruct (IH M2 _ _ _ _ _ R1) as [(st2 & e2 & E2)|(k & e2 & E2)]; rewrite E2; eauto.
  Qed.
End Programs.

Lemma apoint_default lm v : ordinary lm (mkAnalyzer v [default_scope lm] 0) -> apoint lm v 0 [] [] [] (mkAnalyzer v [default_scope lm] 0).
Proof. intros O. destruct (reached_default lm v O) as [S A N X Y]. constructor; auto. Qed.

Lemma annotated_outcome_at lm api p q es : version_same api [3; 0]%Z -> machine_libm lm ->
  annotated_program p -> machine_program p -> ordered_locations p ->
  ((exists st', analyze_ast (mkAnalyzer api [default_scope lm] 0) p = Ok (st', mkResult (Some q) es)) <-> annotated_program_gives lm api p q es).
Proof.
  intros Sv L [G Gi] M O. assert (Od : ordinary lm (mkAnalyzer api [default_scope lm] 0)) by apply default_ordinary_any.
  change (Forall grammar_statement (map bare_statement (prog_statements p))) in G. rewrite Forall_map in G.
  destruct (annotated_block lm api L (prog_statements p) G M 0 [] [] [] _ (apoint_default lm api Od)) as [F1 F2].
  assert (S : forall st' r q', analyze_ast (mkAnalyzer api [default_scope lm] 0) p = Ok (st', r) -> res_root r = Some q' -> spans_statements (sp_block q')).
  { intros st' r q' A R. apply (proj2 (analyze_spans _ _ _ _ A O (eq_refl : current_spans (mkAnalyzer api [default_scope lm] 0)))). exact R. }
  split.
  - intros (st' & A). pose proof (S _ _ _ A eq_refl) as Sp. apply analyze_ast_inv in A. destruct A as (v' & es1 & es2 & s & rest & V & B & Sc & E & _). injection E as -> ->.
    cbn [api_version sp_block] in *. apply (version_outcome api _ _ _ _ Sv) in V. destruct (F1 _ _ B) as (n & vars & ds & ys & H & R). cbn [app] in R.
    pose proof (ap_statements _ _ _ _ _ _ _ R) as X. pose proof (ap_variables _ _ _ _ _ _ _ R) as Y. unfold statements_of, variables_of in X, Y. rewrite Sc in X, Y.
    rewrite Y. constructor; auto. now rewrite X.
  - intros H. destruct H as [v ves ds b es2 V H Sp]. apply (version_outcome api _ _ _ _ Sv) in V. destruct (F2 _ _ _ H) as (n & vars & st' & B & R). cbn [app] in R.
    destruct (re_scope _ _ _ R) as [s Sc].
    pose proof (ap_statements _ _ _ _ _ _ _ R) as X. pose proof (ap_variables _ _ _ _ _ _ _ R) as Y. unfold statements_of, variables_of in X, Y. rewrite Sc in X, Y.
    assert (I : inv true st') by (eapply (inv_block lm); [exact B|exact Od|apply inv_default|now intros _]).
    pose proof (analyze_ast_intro (mkAnalyzer api [default_scope lm] 0) p v ves st' es2 s [] V B Sc) as A. cbn [api_version] in A.
    specialize (A (fun _ => inv_well_formed st' s [] api v (prog_version_loc p) I Sc)).
    exists st'. rewrite A. rewrite Y. do 5 f_equal. apply spans_unique; [apply (S _ _ _ A eq_refl)|exact Sp|exact X].
Qed.
Lemma annotated_outcome_total lm api p : machine_libm lm -> annotated_program p -> machine_program p ->
  (exists st' q es, analyze_ast (mkAnalyzer api [default_scope lm] 0) p = Ok (st', mkResult (Some q) es)) \/
  (exists k, analyze_ast (mkAnalyzer api [default_scope lm] 0) p = UB k).
Proof.
  intros L [G Gi] M. set (st := mkAnalyzer api [default_scope lm] 0). assert (Od : ordinary lm st) by apply default_ordinary_any. change (Forall grammar_statement (map bare_statement (prog_statements p))) in G. rewrite Forall_map in G.
  destruct (visit_version (api_version st) (prog_version p) (prog_version_loc p)) as [r es1] eqn:Ev.
  destruct (visit_version_ok _ _ _ _ _ Ev) as [v ->].
  destruct (annotated_block_total lm api L (prog_block_loc p) (prog_statements p) G M _ _ _ _ _ (apoint_default lm api Od)) as [(st' & es2 & B)|(k & es2 & B)].
  - left. apply block_run_iff in B.
    assert (I' : inv true st') by (eapply (inv_block lm); [exact B|exact Od|apply inv_default|now intros _]).
    destruct (inv_scope _ _ I') as [g Eg].
    rewrite (analyze_ast_intro st p v es1 st' es2 g [] Ev B Eg); [eauto|]. intros _. eapply inv_well_formed; eauto.
  - right. exists k. unfold analyze_ast, visit_program. rewrite Ev. cbn [lbind]. unfold st. rewrite B. reflexivity.
Qed.

(** ** Without annotations *)
Lemma among_app {A} (l0 l l' : list A) : among l l' -> among l (l0 ++ l').
Proof. intros H. induction l0 as [|x l0 IH]; [exact H|]. now constructor. Qed.
Lemma among_same {A} (l0 l l' : list A) : among l l' -> among (l0 ++ l) (l0 ++ l').
Proof. intros H. induction l0 as [|x l0 IH]; [exact H|]. now constructor. Qed.
Lemma bare_ordered p : ordered_locations p -> ordered_locations (bare_program p).
Proof.
  intros O s l I. cbn [bare_program prog_statements] in I. apply in_map_iff in I. destruct I as (s' & <- & I). intros E. apply (O s' l I). now destruct s'.
Qed.
Lemma bare_program_machine p : machine_program p -> machine_program (bare_program p).
Proof. intros M. unfold machine_program in *. cbn [bare_program prog_statements]. apply Forall_map. eapply Forall_impl; [|exact M]. apply bare_machine. Qed.
Lemma bare_gives lm n vars ss ds xs es : annotated_gives lm n vars ss ds xs es ->
  exists es0, block_gives lm n vars (map bare_statement ss) (map sv_var ds) (map bare_result xs) es0 /\ among es0 es.
Proof.
  induction 1 as [n vars|n vars l name t ty an san errs ss ds xs es T N A H (es0 & IH & S)|n vars l name t ty an san errs ss ds xs es T N A H (es0 & IH & S)|
    n vars l name t m an ss ds xs es W H (es0 & IH & S)|n vars s x errs ss ds xs es I K H (es0 & IH & S)|n vars s m p errs ss ds xs es W K H (es0 & IH & S)].
  - exists []. split; constructor.
  - exists es0. split; [cbn; eapply gives_variable; eauto|]. now apply among_app.
  - eexists. split; [cbn; eapply gives_redeclaration; eauto|]. apply among_app. now constructor.
  - eexists. split; [cbn; eapply gives_no_variable; eauto|]. now constructor.
  - exists es0. split; [cbn; eapply gives_instruction; eauto|]. now apply among_app.
  - eexists. split; [cbn; eapply gives_no_instruction; eauto|]. apply among_app. now constructor.
Qed.
Lemma bare_locations xs : statement_locations (map bare_result xs) = statement_locations xs.
Proof. unfold statement_locations. induction xs as [|x xs IH]; [reflexivity|]. cbn [map flat_map]. rewrite IH. now destruct x. Qed.
Lemma bare_program_gives lm api p q es : annotated_program_gives lm api p q es ->
  exists es0, program_gives lm api (bare_program p) (bare_sem_program q) es0 /\ among es0 es.
Proof.
  intros [v ves ds b es2 V H Sp]. destruct (bare_gives _ _ _ _ _ _ _ H) as (es0 & H0 & S). exists (ves ++ es0)%list. split; [|now apply among_same].
  unfold bare_sem_program. cbn [sp_api_version sp_version sp_version_loc sp_block sp_variables].
  replace (map (fun x => mkSemVariable (sv_var x) []) ds) with (map (fun x => mkSemVariable x []) (map sv_var ds)) by now rewrite map_map.
  change (prog_version_loc p) with (prog_version_loc (bare_program p)). constructor; [exact V|exact H0|].
  unfold spans_statements in *. cbn [blk_loc blk_statements]. now rewrite bare_locations.
Qed.
