(** Lemmas for C82: what is reported for statements and programs. *)
From Coq Require Import ZifyBool.
From Verif Require Import Base ModelUtils ModelVersion ModelError ModelTypes ModelOverload ModelFunctions
  ModelInstructionSet ModelAst ModelAnalyzer ModelSemantic SpecUtils SpecTypes SpecFunctions SpecInstructions SpecAnalyzer SpecSites SpecDiagnosis
  ProofsUtils ProofsVersion ProofsTypes ProofsFunctions ProofsFolding ProofsExpr ProofsInstructions ProofsGates ProofsIndex ProofsAnalyzer ProofsAnalyzer2 ProofsAnalyzer3
  ProofsDiagnosis ProofsDiagnosis2 ProofsDiagnosis3.
Local Open Scope string_scope.

Section Statements.
  Variables (lm : libm) (st : analyzer).
  Hypothesis Hst : ordinary lm st.

  Lemma gate_statement_reports l g ops m p : grammar_gate g -> statement_problem st (SGateInstr l g ops []) m p ->
    exists p', p = nearest [p'; l] /\ reports (pure_gate_statement st l g ops) m p'.
  Proof.
    intros Hg H. unfold pure_gate_statement.
    inversion H as [| | |? ? ? ? ? p' P|? ? a ? ? ? p' L P|? ? a ? ? vs L Ev N|? ? a ? ? vs L Ev La F N| | | | | |]; subst.
    - exists p'. split; [reflexivity|]. now apply bind_reports, (inner_reports lm st Hst).
    - exists p'. split; [reflexivity|]. destruct (legal_pure lm st Hst g Hg a L) as [sg ->]. cbn [bind]. now apply bind_reports, (list_reports lm st Hst).
    - exists None. rewrite nearest_none. split; [reflexivity|]. destruct (legal_pure lm st Hst g Hg a L) as [sg Es]. rewrite Es. cbn [bind]. rewrite Ev. cbn [bind].
      apply (pure_gate_spec lm st Hst g Hg) in Es. destruct Es as [_ S]. pose proof (visit_list_ordinary lm st Hst _ _ Ev) as Ho.
      destruct (resolution_cases lm st Hst (gate_resolution_name sg) vs Ho) as [R|R].
      + apply (gate_registered lm st Hst g a sg vs L S Ho) in R. destruct (N R).
      + rewrite R. left. cbn [bind]. rewrite (gate_text_name st g sg S). reflexivity.
    - exists None. rewrite nearest_none. split; [reflexivity|]. destruct (legal_pure lm st Hst g Hg _ L) as [sg Es]. rewrite Es. cbn [bind]. rewrite Ev. cbn [bind].
      apply (pure_gate_spec lm st Hst g Hg) in Es. destruct Es as [_ S]. pose proof (visit_list_ordinary lm st Hst _ _ Ev) as Ho.
      destruct (proj2 (gate_registered lm st Hst g _ sg vs L S Ho) (conj eq_refl F)) as [r R]. rewrite R. cbn [bind].
      rewrite (resolved_operands lm st Hst _ vs r Ho R). rewrite (proj2 (sizes_check vs _ F) (conj N eq_refl)). left. reflexivity.
  Qed.
  Lemma non_gate_statement_reports l n ops ps m p : grammar_non_gate n ps -> statement_problem st (SNonGate l n ops ps []) m p ->
    exists p', p = nearest [p'; l] /\ reports (pure_non_gate_statement st l n ops ps) m p'.
  Proof.
    intros Hg H. pose proof (proj1 Hg) as Hn. unfold pure_non_gate_statement.
    assert (R : forall vs, visit_expression_list st ops = Ok vs -> operands_suit n vs -> exists r, resolve_instruction st n vs = Ok r /\ snd r = vs).
    { intros vs Ev (ks & cs & I & F). pose proof (visit_list_ordinary lm st Hst _ _ Ev) as Ho.
      destruct (proj2 (suits_registered lm st Hst cs n vs ks Ho I) F) as [r R]. exists r. split; [exact R|]. exact (resolved_operands lm st Hst n vs r Ho R). }
    inversion H as [| | | | | | |? ? ? ? ? ? p' P|? ? ? ? ? vs Ev N|? ? ? ? ? vs ? p' Ev Su P|? ? ? ? ? vs ws Ev Su Ep X|? ? ? ? ? vs ws ks cs k Ev Su Ep I M
      |? ? ? ? vs ws ks cs Ev Su Ep I F N]; subst.
    - exists p'. split; [reflexivity|]. now apply bind_reports, (list_reports lm st Hst).
    - exists None. rewrite nearest_none. split; [reflexivity|]. rewrite Ev. cbn [bind]. pose proof (visit_list_ordinary lm st Hst _ _ Ev) as Ho.
      destruct (resolution_cases lm st Hst n vs Ho) as [R'|R']; [|rewrite R'; left; reflexivity]. exfalso. apply N.
      destruct (In_names _ _ Hn) as [[ks0 cs] I0]. exists ks0, cs. split; [exact I0|]. now apply (suits_registered lm st Hst cs n vs ks0 Ho I0).
    - exists p'. split; [reflexivity|]. rewrite Ev. cbn [bind]. destruct (R vs Ev Su) as (r & -> & _). cbn [bind]. now apply bind_reports, (list_reports lm st Hst).
    - exists None. rewrite nearest_none. split; [reflexivity|]. rewrite Ev. cbn [bind]. destruct (R vs Ev Su) as (r & -> & _). cbn [bind]. rewrite Ep. cbn [bind].
      apply bind_reports. left. apply (non_gate_parameters n ws _ Hn (grammar_wait st n ps ws Hg Ep) (visit_list_ordinary lm st Hst _ _ Ep)).
      eexists. split; [left; split; [exact X|reflexivity]|reflexivity].
    - exists None. rewrite nearest_none. split; [reflexivity|]. rewrite Ev. cbn [bind]. destruct (R vs Ev Su) as (r & -> & _). cbn [bind]. rewrite Ep. cbn [bind].
      apply bind_reports. left. apply (non_gate_parameters n ws _ Hn (grammar_wait st n ps ws Hg Ep) (visit_list_ordinary lm st Hst _ _ Ep)).
      eexists. split; [right; exists ks, cs, k; auto|reflexivity].
    - exists None. rewrite nearest_none. split; [reflexivity|]. rewrite Ev. cbn [bind]. destruct (R vs Ev Su) as (r & Rr & Rv). rewrite Rr. cbn [bind]. rewrite Ep. cbn [bind].
      destruct (fits_stored ws ks F) as [ws' S].
      { cbn in I. decompose [or] I; try contradiction; match goal with E : _ = (_, (ks, cs)) |- _ => try discriminate E; injection E as <- <- end; repeat constructor. }
      assert (Er : resolve_parameters "measure" ws = Ok ws').
      { apply (resolve_parameters_non_gate "measure" ws Hn (visit_list_ordinary lm st Hst _ _ Ep)). left. eauto. }
      rewrite Er. cbn [bind]. rewrite Rv. destruct Su as (ks1 & cs1 & I1 & F1). rewrite (proj2 (measure_check "measure" ks1 cs1 vs _ I1 F1) (conj eq_refl (conj N eq_refl))).
      left. reflexivity.
  Qed.

  Lemma catch_reports {A} l (d : A) (r : outcome error A) m p : reports r m p ->
    catch_log l d (lift r) = (Ok d, [mkRawError m (nearest [p; l])]) \/ exists k, catch_log l d (lift r) = (UB k, []).
  Proof. intros [->|[k ->]]; [left|right; now exists k]. unfold lift. cbn [catch_log]. now rewrite context_nearest. Qed.
  Lemma catch_err {A} l (d : A) (r : outcome error A) a es : catch_log l d (lift r) = (Ok a, es) ->
    (es = [] /\ r = Ok a) \/ exists e, r = Err e /\ es = [mkRawError (message e) (nearest [location e; l])].
  Proof.
    destruct r as [x|e|w|k]; unfold lift; cbn [catch_log]; try discriminate.
    - intros [= <- <-]. auto.
    - intros [= <- <-]. right. exists e. split; [reflexivity|]. destruct e as [m p]. now rewrite context_nearest.
  Qed.

  Lemma declares_name t ty : declares_type t ty -> ty_name t = "qubit" \/ ty_name t = "bit".
  Proof. intros []; auto. Qed.
  Lemma build_type_err t : (forall ty, ~ declares_type t ty) ->
    exists m, build_semantic_type t = Err (mkRawError m None) /\ forall l n, statement_problem st (SVariable l n t []) m l.
  Proof.
    intros N. destruct t as [lt n sz]. unfold build_semantic_type. cbn [ty_name ty_size].
    destruct (String.eqb_spec n "qubit") as [->|N1]; [|destruct (String.eqb_spec n "bit") as [->|N2]].
    - unfold build_type. destruct sz as [z|]; [|destruct (N _ (dt_qubit lt))].
      destruct (Z.ltb_spec 0 z) as [L|L]; [destruct (N _ (dt_qubits lt z L))|]. eexists. split; [reflexivity|]. intros l n.
      apply (sp_size st l n (mkAstType lt "qubit" (Some z)) [] z); cbn; auto.
    - unfold build_type. destruct sz as [z|]; [|destruct (N _ (dt_bit lt))].
      destruct (Z.ltb_spec 0 z) as [L|L]; [destruct (N _ (dt_bits lt z L))|]. eexists. split; [reflexivity|]. intros l n.
      apply (sp_size st l n (mkAstType lt "bit" (Some z)) [] z); cbn; auto.
    - eexists. split; [reflexivity|]. intros l n'. apply (sp_type st l n' (mkAstType lt n sz) []); cbn; assumption.
  Qed.
  Lemma variable_cases l n t : (exists ty st', declares_type t ty /\ ~ In n (names_here st) /\ visit_statement st (SVariable l n t []) = (Ok st', [])) \/
    (exists ty st', declares_type t ty /\ In n (names_here st) /\
       visit_statement st (SVariable l n t []) = (Ok st', [mkRawError ("trying to redeclare variable '" ++ n ++ "'") l])) \/
    (exists m st', (forall ty, ~ declares_type t ty) /\ build_semantic_type t = Err (mkRawError m None) /\
       visit_statement st (SVariable l n t []) = (Ok st', [mkRawError m l])).
  Proof.
    cbn [visit_statement]. unfold visit_variable. destruct (build_type_spec t) as [(ty & Et & D)|(e & Et & Le & N)]; rewrite Et; cbn [lift lbind catch_log visit_annotated].
    - destruct (ordinary_scopes lm st Hst) as (s & r & E). unfold names_here. rewrite E.
      unfold add_variable, update_current. cbn [fresh scopes]. rewrite E. cbn [bind lift lbind]. unfold register_variable, update_current. cbn [scopes].
      unfold variable_add. cbn [sc_variables_table]. destruct (table_find n (sc_variables_table s)) as [v|] eqn:F; cbn.
      + right. left. exists ty. eexists. split; [exact D|]. split; [apply table_find_Some_In in F; exact (in_map fst _ _ F)|]. destruct l; reflexivity.
      + left. exists ty. eexists. split; [exact D|]. split; [exact (table_find_None _ _ F)|]. reflexivity.
    - right. right. destruct e as [m p]. cbn in Le. subst p. exists m. eexists. split; [exact N|]. split; [reflexivity|]. cbn. reflexivity.
  Qed.

  (** Every error of a statement is the problem of it ... *)
  Lemma statement_reported s st' es : grammar_statement s -> visit_statement st s = (Ok st', es) ->
    es = [] \/ exists m p, es = [mkRawError m p] /\ statement_problem st s m p.
  Proof.
    intros (Hp & _ & Hg) E. destruct s as [l n t an|l g ops an|l n ops ps an|l n c an].
    - cbn in Hp. subst an. destruct (variable_cases l n t) as [(ty & st1 & _ & _ & V)|[(ty & st1 & D & I & V)|(m & st1 & N & B & V)]]; rewrite V in E; injection E as _ <-.
      + now left.
      + right. eexists _, _. split; [reflexivity|]. eapply sp_redeclared; eauto.
      + right. eexists _, _. split; [reflexivity|]. destruct (build_type_err t N) as (m' & B' & H). rewrite B in B'. injection B' as <-. apply H.
    - destruct Hp as [_ ->]. rewrite visit_gate_statement_pure in E by exact Hg. apply catch_err in E. destruct E as [[-> _]|(e & E & ->)]; [now left|right].
      eexists _, _. split; [reflexivity|]. now apply (gate_statement_err lm st Hst).
    - cbn in Hp. subst an. rewrite visit_non_gate_statement_pure in E. apply catch_err in E. destruct E as [[-> _]|(e & E & ->)]; [now left|right].
      eexists _, _. split; [reflexivity|]. now apply (non_gate_statement_err lm st Hst).
    - left. cbn in Hp. subst an. cbn [visit_statement] in E. unfold visit_asm_declaration in E. cbn [visit_annotated lift lbind] in E.
      destruct (add_statement_ok lm st Hst (SemAsm l n c [])) as [st1 E']. rewrite E' in E. cbn in E. injection E as _ <-. reflexivity.
  Qed.
  (** ... and a statement with a problem has that error. *)
  Lemma statement_reports s m p : grammar_statement s -> statement_problem st s m p ->
    (exists st', visit_statement st s = (Ok st', [mkRawError m p])) \/ exists k, visit_statement st s = (UB k, []).
  Proof.
    intros (Hp & _ & Hg) H. destruct s as [l n t an|l g ops an|l n ops ps an|l n c an].
    - left. cbn in Hp. subst an. destruct (variable_cases l n t) as [(ty & st1 & D & NI & V)|[(ty & st1 & D & I & V)|(m' & st1 & N & B & V)]]; rewrite V.
      + exfalso. inversion H as [? ? ? ? N1 N2|? ? ? ? z Q Z1 Z2|? ? ? ? ty' D' I| | | | | | | | | |]; subst.
        * destruct (declares_name t ty D); contradiction.
        * inversion D; subst; cbn in Z1; try discriminate; injection Z1 as <-; lia.
        * contradiction.
      + exists st1. inversion H as [? ? ? ? N1 N2|? ? ? ? z Q Z1 Z2|? ? ? ? ty' D' I'| | | | | | | | | |]; subst.
        * destruct (declares_name t ty D); contradiction.
        * inversion D; subst; cbn in Z1; try discriminate; injection Z1 as <-; lia.
        * reflexivity.
      + exists st1. inversion H as [? ? ? ? N1 N2|? ? ? ? z Q Z1 Z2|? ? ? ? ty' D' I'| | | | | | | | | |]; subst.
        * unfold build_semantic_type in B. rewrite (proj2 (String.eqb_neq _ _) N1), (proj2 (String.eqb_neq _ _) N2) in B. injection B as <-. reflexivity.
        * unfold build_semantic_type, build_type in B. rewrite Z1 in B. destruct (Z.ltb_spec 0 z); [lia|].
          destruct Q as [Q|Q]; rewrite Q in B; injection B as <-; rewrite Q; reflexivity.
        * destruct (N _ D').
    - destruct Hp as [_ ->]. destruct (gate_statement_reports l g ops m p Hg H) as (p' & -> & R). rewrite visit_gate_statement_pure by exact Hg.
      destruct (catch_reports l st _ m p' R) as [->|X]; eauto.
    - cbn in Hp. subst an. destruct (non_gate_statement_reports l n ops ps m p Hg H) as (p' & -> & R). rewrite visit_non_gate_statement_pure.
      destruct (catch_reports l st _ m p' R) as [->|X]; eauto.
    - inversion H.
  Qed.
End Statements.

Lemma block_diagnosed lm st ss st' es : block_run st ss st' es -> ordinary lm st -> Forall grammar_statement ss -> diagnosed st ss es.
Proof.
  induction 1 as [|st s st1 es1 ss st2 es2 H _ IH]; intros Ho Hg; [constructor|]. inversion Hg; subst.
  assert (Ho1 : ordinary lm st1) by (eapply ordinary_extends; [exact Ho|]; eapply effect_extends, statement_effect, H).
  destruct (statement_reported lm st Ho s st1 es1) as [->|(m & p & -> & P)]; try assumption.
  - cbn [app]. eapply dg_fine; [|exact H|auto]. intros m p P. destruct (statement_reports lm st Ho s m p) as [[st'' X]|[k X]]; try assumption; congruence.
  - cbn [app]. eapply dg_problem; [exact P|exact H|auto].
Qed.

Lemma version_texts v : version_to_string v = version_text v.
Proof. unfold version_to_string, version_text. apply join_concat. Qed.
Lemma version_diagnosis api v l r es : version_same api [3; 0]%Z -> visit_version api v l = (r, es) -> version_diagnosed api v l es.
Proof.
  intros A E. unfold visit_version in E. destruct (existsb (fun i => (i <? 0)%Z) v) eqn:X.
  - unfold lift in E. cbn [catch_log] in E. injection E as _ <-. replace (error_context l _) with (mkRawError "invalid version component" l) by (destruct l; reflexivity).
    apply vd_negative. apply existsb_exists in X. destruct X as (i & I & L). exists i. split; [exact I|lia].
  - destruct (version_eqb v api) eqn:Q; cbn [negb] in E; unfold lift in E; cbn [catch_log] in E; injection E as _ <-.
    + apply vd_fine. now apply version_eqb_iff.
    + rewrite !version_texts. unfold mk_error, mk_error_at. cbn [non_empty_message append String.eqb error_context location message]. apply vd_other.
      * rewrite <- version_eqb_iff, Q. discriminate.
      * apply Forall_forall. intros i I. destruct (Z.le_gt_cases 0 i) as [L|L]; [exact L|]. exfalso. rewrite <- not_true_iff_false in X. apply X.
        apply existsb_exists. exists i. split; [exact I|lia].
Qed.
Lemma program_diagnosed lm st p st' r : ordinary lm st -> version_same (api_version st) [3; 0]%Z -> grammar_program p -> analyze_ast st p = Ok (st', r) ->
  exists ves es, res_errors r = (ves ++ es)%list /\ version_diagnosed (api_version st) (prog_version p) (prog_version_loc p) ves /\
    diagnosed st (prog_statements p) es.
Proof.
  intros Ho A Hg E. apply analyze_ast_inv in E. destruct E as (v & es1 & es2 & s & rest & Ev & B & _ & -> & _). cbn [res_errors].
  exists es1, es2. split; [reflexivity|]. split; [eapply version_diagnosis; eauto|eapply block_diagnosed; eauto].
Qed.
