(** Analyses of whole programs (C36-C39, C58). *)
From Coq Require Import SpecFloat ZifyBool.
From Verif Require Import Base ModelUtils ModelVersion ModelError ModelTypes ModelOverload ModelFunctions
  ModelInstructionSet ModelAst ModelAnalyzer ModelSemantic SpecUtils SpecTypes SpecFunctions SpecInstructions SpecAnalyzer
  ProofsVersion ProofsTypes ProofsFunctions ProofsFolding ProofsExpr ProofsInstructions ProofsGates ProofsIndex
  ProofsAnalyzer ProofsAnalyzer2 ProofsAnalyzer3.
Local Open Scope string_scope.

Lemma accounting lm st p st' r : ordinary lm st -> version_same (api_version st) [3; 0]%Z -> Forall plain (prog_statements p) ->
  analyze_ast st p = Ok (st', r) ->
  exists sp ve cs, res_root r = Some sp /\ Forall2 contributes (prog_statements p) cs /\
    sp_variables sp = (variables_of st ++ flat_map new_variables cs)%list /\
    blk_statements (sp_block sp) = (statements_of st ++ flat_map new_statements cs)%list /\
    res_errors r = (ve ++ flat_map new_errors cs)%list /\
    (if version_eqb (prog_version p) (api_version st) then ve = [] else List.length ve = 1%nat) /\
    (NoDup (declared_names (prog_statements p)) -> (forall n, In n (declared_names (prog_statements p)) -> ~ In n (names_here st)) ->
     Forall (fun c => ~ redeclaration c) cs).
Proof.
  intros Ho Hv Hp H. apply analyze_ast_inv in H. destruct H as (v & es1 & es2 & s & rest & Ev & B & Sc & -> & _).
  destruct (block_contributions lm _ _ _ _ B Ho Hp) as (cs & C & V & S & -> & N). eexists _, es1, cs.
  split; [reflexivity|]. split; [exact C|]. unfold variables_of, statements_of in V, S. rewrite Sc in V, S.
  split; [exact V|]. split; [exact S|]. split; [reflexivity|]. split; [|exact N].
  destruct (visit_version_spec (api_version st) (prog_version p) (prog_version_loc p) Hv) as [X1 X2].
  destruct (version_eqb _ _) eqn:E.
  - apply version_eqb_iff in E. rewrite (X1 E) in Ev. congruence.
  - destruct X2 as (e & X2 & _); [rewrite <- version_eqb_iff; congruence|]. rewrite X2 in Ev. injection Ev as _ <-. reflexivity.
Qed.

(** ** Declarations *)
Lemma default_names lm api st : default_analyzer lm api = Ok st -> names_here st = constant_names.
Proof. intros H. apply default_analyzer_inv in H. destruct H as (v & _ & _ & ->). reflexivity. Qed.
Lemma resolve_single st s n w : scopes st = [s] -> resolve_variable st n = Ok w -> In n (names_here st).
Proof.
  intros E. unfold resolve_variable, names_here. rewrite E. cbn [resolve_variable_in]. unfold variable_resolve.
  destruct (table_find n (sc_variables_table s)) as [x|] eqn:F; [|discriminate]. intros _.
  revert F. generalize (sc_variables_table s). intros t F. induction t as [|[m a] t IH]; cbn in *; [discriminate|].
  destruct (String.eqb_spec m n) as [->|N]; [now left|right; auto].
Qed.
Lemma block_single st s ss st' es : scopes st = [s] -> block_run st ss st' es -> exists s', scopes st' = [s'].
Proof.
  intros E B. apply block_extends in B. destruct B as [_ B]. rewrite E in B. destruct (scopes st') as [|s' r]; [contradiction|].
  destruct B as [_ ->]. eauto.
Qed.
Lemma default_single lm api st : default_analyzer lm api = Ok st -> scopes st = [default_scope lm].
Proof. intros H. apply default_analyzer_inv in H. destruct H as (v & _ & _ & ->). reflexivity. Qed.

(** C38: a statement without errors mentions only what is declared before *)
Lemma mentioned_declared lm api st l ss1 s st1 es1 st2 n : default_analyzer lm api = Ok st ->
  visit_block l st ss1 = (Ok st1, es1) -> visit_statement st1 s = (Ok st2, []) -> mentions s n ->
  In n constant_names \/ exists d, In d ss1 /\ legal_declaration n d.
Proof.
  intros Hd B V M. apply block_run_iff in B. pose proof (default_single _ _ _ Hd) as S0.
  destruct (block_single _ _ _ _ _ S0 B) as [s' S1]. destruct (mentioned_resolves _ _ _ _ V M) as [w R].
  apply (resolve_single _ _ _ _ S1) in R. apply (block_names _ _ _ _ n B) in R. now rewrite (default_names _ _ _ Hd) in R.
Qed.
Lemma accepted_declared lm api st p st' r ss1 s ss2 n : default_analyzer lm api = Ok st ->
  analyze_ast st p = Ok (st', r) -> res_errors r = [] -> prog_statements p = (ss1 ++ s :: ss2)%list -> mentions s n ->
  In n constant_names \/ exists d, In d ss1 /\ legal_declaration n d.
Proof.
  intros Hd H E P M. apply analyze_ast_inv in H. destruct H as (v & es1 & es2 & sc & rest & _ & B & _ & -> & _). cbn in E.
  apply app_eq_nil in E. destruct E as [_ ->]. rewrite P in B. apply block_run_app in B. destruct B as (st1 & e1 & e2 & B1 & B2 & E).
  symmetry in E. apply app_eq_nil in E. destruct E as [-> ->]. remember (@nil error) as e0 eqn:E0 in B2.
  inversion B2 as [|? ? st2 e3 ? ? e4 V B3]; subst.
  match goal with X : (_ ++ _)%list = [] |- _ => apply app_eq_nil in X; destruct X as [-> ->] end. eapply mentioned_declared; eauto. apply (block_run_iff None). exact B1.
Qed.
(** C38: a name that is declared can be used *)
Lemma declared_resolves lm api st l ss1 ld n t an ss2 ty st1 es1 : default_analyzer lm api = Ok st ->
  visit_block l st (ss1 ++ SVariable ld n t an :: ss2) = (Ok st1, es1) -> declares_type t ty -> ~ In n constant_names ->
  (forall d, In d ss1 -> ~ legal_declaration n d) ->
  exists id, resolve_variable st1 n = Ok (VVar (mkVariable id n ty)).
Proof.
  intros Hd B D N F. apply block_run_iff in B. eapply first_declaration; eauto. now rewrite (default_names _ _ _ Hd).
Qed.

(** C37 *)
Lemma table_In_find {A} n (t : list (string * A)) : In n (map fst t) -> exists v, table_find n t = Some v.
Proof.
  induction t as [|[m a] t IH]; cbn; [contradiction|]. intros [->|I]; [rewrite String.eqb_refl; eauto|]. destruct (m =? n); eauto.
Qed.
Lemma here_stays st ss st' es n : block_run st ss st' es -> In n (names_here st) -> resolve_variable st' n = resolve_variable st n.
Proof.
  intros B I. rewrite names_table in I. apply table_In_find in I. destruct I as [v F]. rewrite (resolve_here st n v F). apply resolve_here.
  eapply block_table_find; eauto.
Qed.
Lemma declared_once lm api st p st' r ss1 l n t an ss2 st1 es1 : default_analyzer lm api = Ok st ->
  analyze_ast st p = Ok (st', r) -> prog_statements p = (ss1 ++ SVariable l n t an :: ss2)%list ->
  visit_block (prog_block_loc p) st ss1 = (Ok st1, es1) ->
  In n constant_names \/ (exists d, In d ss1 /\ legal_declaration n d) ->
  res_errors r <> [] /\ resolve_variable st' n = resolve_variable st1 n.
Proof.
  intros Hd H P B1 D. apply analyze_ast_inv in H. destruct H as (v & e1 & e2 & sc & rest & _ & B & _ & -> & _). cbn [res_errors].
  rewrite P in B. apply block_run_app in B. destruct B as (st1' & e3 & e4 & B1' & B2 & ->). apply block_run_iff in B1.
  pose proof (proj2 (block_run_iff None _ _ _ _) B1) as U. pose proof (proj2 (block_run_iff None _ _ _ _) B1') as U'. rewrite U in U'. injection U' as <- <-.
  assert (I : In n (names_here st1)). { apply (block_names _ _ _ _ n B1). now rewrite (default_names _ _ _ Hd). }
  split; [|eapply here_stays; eauto]. inversion B2 as [|? ? st2 e5 ? ? e6 V B3]; subst.
  destruct (redeclaration_harmless _ _ _ _ _ _ _ V I) as [X _]. intros E.
  apply app_eq_nil in E. destruct E as [_ E]. apply app_eq_nil in E. destruct E as [_ E]. apply app_eq_nil in E. destruct E as [-> _]. now apply X.
Qed.
Lemma constants_stay lm api st p st' r n : default_analyzer lm api = Ok st -> analyze_ast st p = Ok (st', r) -> In n constant_names ->
  resolve_variable st' n = resolve_variable st n.
Proof.
  intros Hd H I. apply analyze_ast_inv in H. destruct H as (v & e1 & e2 & sc & rest & _ & B & _). eapply here_stays; eauto.
  now rewrite (default_names _ _ _ Hd).
Qed.

(** C39 *)
Lemma default_version lm api : (exists st, default_analyzer lm api = Ok st) <-> exists v, @version_of_string error api = Ok v /\ version_same v [3; 0]%Z.
Proof.
  split.
  - intros [st H]. apply default_analyzer_inv in H. destruct H as (v & E & S & _). eauto.
  - intros (v & E & S). rewrite default_analyzer_cases, E. cbn [bind]. apply version_eqb_iff in S. rewrite S. eauto.
Qed.
Lemma new_analyzer_version v : (exists st, new_analyzer v = Ok st) <-> version_same v [3; 0]%Z.
Proof.
  rewrite new_analyzer_value, <- version_eqb_iff. destruct (version_eqb v [3; 0]%Z); split; intros H; eauto; try discriminate. destruct H; discriminate.
Qed.
Lemma version_error st p st' r : version_same (api_version st) [3; 0]%Z ->
  analyze_ast st (with_version (api_version st) p) = Ok (st', r) ->
  exists r' sp sp', analyze_ast st p = Ok (st', r') /\ res_root r = Some sp /\ res_root r' = Some sp' /\ same_tree sp sp' /\
    (version_same (prog_version p) (api_version st) -> res_errors r' = res_errors r /\ sp_version sp' = prog_version p) /\
    (~ version_same (prog_version p) (api_version st) ->
     exists e, res_errors r' = e :: res_errors r /\ (prog_version_loc p <> None -> location e = prog_version_loc p)).
Proof.
  intros Hv H. apply analyze_ast_inv in H. destruct H as (v & e1 & e2 & sc & rest & Ev & B & S & -> & W).
  cbn [with_version prog_version prog_version_loc prog_statements] in *.
  destruct (visit_version_spec (api_version st) (api_version st) (prog_version_loc p) Hv) as [X _]. rewrite X in Ev by (intros k; reflexivity).
  injection Ev as <- <-. cbn [app] in *.
  destruct (visit_version_spec (api_version st) (prog_version p) (prog_version_loc p) Hv) as [Y1 Y2].
  destruct (version_eqb (prog_version p) (api_version st)) eqn:E.
  - apply version_eqb_iff in E. eexists _, _, _. split; [apply analyze_ast_intro with (2 := B) (3 := S); [exact (Y1 E)|exact W]|].
    cbn [res_root res_errors app]. split; [reflexivity|]. split; [reflexivity|]. split; [split; reflexivity|]. split; [auto|]. intros N. now destruct N.
  - assert (N : ~ version_same (prog_version p) (api_version st)) by (rewrite <- version_eqb_iff; congruence).
    destruct (Y2 N) as (e & Y & L). eexists _, _, _. split; [apply analyze_ast_intro with (2 := B) (3 := S); [exact Y|discriminate]|].
    cbn [res_root res_errors app]. split; [reflexivity|]. split; [reflexivity|]. split; [split; reflexivity|]. split; [contradiction|]. intros _.
    eexists. split; [reflexivity|]. intros Nl. unfold error_context. destruct (location e) eqn:Le; [congruence|]. destruct (prog_version_loc p); [reflexivity|congruence].
Qed.

(** C58 *)
Lemma appended st p1 st1 r1 p2 st2 r2 : analyze_ast st p1 = Ok (st1, r1) -> analyze_ast st (append_programs p1 p2) = Ok (st2, r2) ->
  exists sp1 sp2, res_root r1 = Some sp1 /\ res_root r2 = Some sp2 /\ prefix_of (sp_variables sp1) (sp_variables sp2) /\
    prefix_of (blk_statements (sp_block sp1)) (blk_statements (sp_block sp2)) /\ prefix_of (res_errors r1) (res_errors r2).
Proof.
  intros H1 H2. apply analyze_ast_inv in H1. destruct H1 as (v1 & ea & eb & s1 & rest1 & Ev1 & B1 & S1 & -> & _).
  apply analyze_ast_inv in H2. destruct H2 as (v2 & ec & ed & s2 & rest2 & Ev2 & B2 & S2 & -> & _).
  cbn [append_programs prog_version prog_version_loc prog_statements] in *. rewrite Ev1 in Ev2. injection Ev2 as <- <-.
  apply block_run_app in B2. destruct B2 as (st1' & e3 & e4 & B1' & B2 & ->).
  pose proof (proj2 (block_run_iff None _ _ _ _) B1) as U. pose proof (proj2 (block_run_iff None _ _ _ _) B1') as U'. rewrite U in U'. injection U' as <- <-.
  eexists _, _. split; [reflexivity|]. split; [reflexivity|]. cbn [sp_variables sp_block res_errors].
  pose proof (extends_prefixes _ _ (block_extends _ _ _ _ B2)) as P. unfold variables_of, statements_of in P. rewrite S1, S2 in P.
  destruct P as [P1 P2]. split; [exact P1|]. split; [exact P2|]. exists e4. now rewrite app_assoc.
Qed.
