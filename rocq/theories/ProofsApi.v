(** Lemmas about the entry points (C68, C69). *)
From Verif Require Import Base ModelUtils ModelVersion ModelError ModelTypes ModelOverload ModelFunctions ModelAst ModelAnalyzer ModelSemantic ModelLexer ModelParser ModelSyntactic ModelApi
  SpecUtils SpecInstructions SpecAnalyzer SpecApi SpecLexer SpecSyntax SpecTree SpecReading SpecSites SpecRelocate ProofsExpr ProofsFunctions ProofsAnalyzer ProofsAnalyzer2 ProofsRelocate ProofsLayout2 ProofsFileName
  ProofsText ProofsPipeline ProofsReading ProofsAnalyzer7.
Local Open Scope string_scope.

(** ** The functions of cqasm.hpp *)
Lemma unwrap_analysis_string lm rtl data file api :
  match run lm rtl api data file with
  | Ok r => v3x_analyze_string lm rtl data file api = unwrap r
  | _ => forall p, snd (v3x_analyze_string lm rtl data file api) <> Ok p
  end.
Proof.
  unfold run, v3x_analyze_string, unwrap_analysis, analyze_string.
  destruct (default_analyzer lm api) as [st| | |]; cbn [bind]; destruct (parse_string file rtl data) as [r| | |]; cbn [bind]; try discriminate.
  destruct (analyze st r) as [x| | |]; cbn [bind]; try discriminate. reflexivity.
Qed.
Lemma unwrap_ok {R : Type} (r : result R) root : snd (unwrap r) = Ok root <-> r = mkResult root [].
Proof.
  destruct r as [x [|e es]]; cbn; split; intros H; try discriminate; congruence.
Qed.
Lemma v3x_string_ok lm rtl data file api root : snd (v3x_analyze_string lm rtl data file api) = Ok root <-> run lm rtl api data file = Ok (mkResult root []).
Proof.
  pose proof (unwrap_analysis_string lm rtl data file api) as H. destruct (run lm rtl api data file) as [r|e|w|k].
  - rewrite H, unwrap_ok. split; [intros ->; reflexivity|congruence].
  - split; [intros E; now destruct (H _ E)|discriminate].
  - split; [intros E; now destruct (H _ E)|discriminate].
  - split; [intros E; now destruct (H _ E)|discriminate].
Qed.
Lemma v3x_string_errors lm rtl data file api root e es : run lm rtl api data file = Ok (mkResult root (e :: es)) ->
  v3x_analyze_string lm rtl data file api = (join (String (ascii_of_nat 10) "") (map what (e :: es)), Throw "AnalysisFailed").
Proof. intros E. pose proof (unwrap_analysis_string lm rtl data file api) as H. rewrite E in H. exact H. Qed.

(** ** Python *)
Lemma unpack_strings {R T : Type} (write : option R -> string) (read : string -> T) (r : result R) :
  py_unpack read (to_strings write r) = match res_errors r with [] => inl (read (write (res_root r))) | es => inr (map what es) end.
Proof. destruct r as [x [|e es]]; reflexivity. Qed.

(** ** An analyzer without instructions *)
Definition bare (st : analyzer) : Prop := Forall (fun s => sc_instructions s = []) (scopes st).
Lemma v3x_bare lm v st : v3x_analyzer lm v true = Ok st -> bare st /\ exists s, scopes st = [s] /\ blk_statements (sc_block s) = [].
Proof.
  unfold v3x_analyzer. destruct (@version_of_string error v) as [w| | |]; cbn [bind]; try discriminate. rewrite new_analyzer_value.
  destruct (version_eqb w [3; 0]%Z); cbn [bind]; [|discriminate].
  replace (register_default_constants (mkAnalyzer w [empty_scope] 0)) with (Ok (mkAnalyzer w [set_variables default_constants empty_scope] 0) : outcome error analyzer) by reflexivity.
  cbn [bind]. unfold register_default_functions. rewrite foldM_functions by reflexivity. intros H. injection H as <-. split; [repeat constructor|]. eexists. split; reflexivity.
Qed.
Lemma bare_resolves l n args r : Forall (fun s => sc_instructions s = []) l -> resolve_instruction_in l n args <> Ok r.
Proof.
  induction 1 as [|s l E _ IH]; cbn [resolve_instruction_in].
  - destruct (types_of args); discriminate.
  - rewrite E. destruct (resolve [] n args) as [x| | |] eqn:R; try discriminate. exact IH.
Qed.
Lemma bare_extends st st' : bare st -> state_extends st st' -> bare st'.
Proof.
  unfold bare. intros B [_ X]. destruct (scopes st) as [|s l], (scopes st') as [|s' l']; try contradiction; [constructor|].
  destruct X as [X ->]. inversion B; subst. constructor; [|assumption]. destruct X as [_ I _ _ _]. congruence.
Qed.
Lemma bare_statement st s st' es : bare st -> only_asm (statements_of st) -> visit_statement st s = (Ok st', es) ->
  bare st' /\ only_asm (statements_of st') /\ (instruction_statement s = true -> es <> []).
Proof.
  intros B O H. apply statement_effect in H. split; [eapply bare_extends; [exact B|eapply effect_extends; eauto]|].
  destruct H as [l n t an e N Le|l n t an ty ans es D A Ns Ni|l n t an ty ans es e D A Ns Ni Le|l g ops an sg es1 vs i ws ans es2 G V R C A Ns
    |l n ops ps an vs i ws pvs pws ans es V R P RP C A Ns|l n c an ans es A Ns|l s e es El Pl Nv].
  - split; [exact O|discriminate].
  - split; [|discriminate]. rewrite statements_of_map. unfold statements_of in O. cbn [fresh scopes]. destruct (scopes st); [constructor|exact O].
  - split; [|discriminate]. rewrite statements_of_map. unfold statements_of in O. cbn [fresh scopes]. destruct (scopes st); [constructor|exact O].
  - destruct (bare_resolves _ _ _ _ B R).
  - destruct (bare_resolves _ _ _ _ B R).
  - split; [|discriminate]. rewrite statements_of_map. unfold statements_of in O. destruct (scopes st); [constructor|]. cbn. apply Forall_app. split; [exact O|]. repeat constructor.
  - split; [exact O|]. intros _. intros X. now apply app_eq_nil in X as [_ X].
Qed.
Lemma bare_block st ss st' es : block_run st ss st' es -> bare st -> only_asm (statements_of st) ->
  only_asm (statements_of st') /\ (List.length (filter instruction_statement ss) <= List.length es)%nat.
Proof.
  induction 1 as [st|st s st1 es1 ss st2 es2 H _ IH]; intros B O; [cbn; auto|].
  destruct (bare_statement st s st1 es1 B O H) as (B1 & O1 & N). destruct (IH B1 O1) as [O2 L]. split; [exact O2|].
  rewrite app_length. cbn [filter]. destruct (instruction_statement s); [|lia]. specialize (N eq_refl). destruct es1; [congruence|]. cbn [List.length]. lia.
Qed.
Lemma bare_analysis lm v st p st' r : v3x_analyzer lm v true = Ok st -> analyze_ast st p = Ok (st', r) ->
  (exists sp, res_root r = Some sp /\ only_asm (blk_statements (sp_block sp))) /\
  (List.length (filter instruction_statement (prog_statements p)) <= List.length (res_errors r))%nat.
Proof.
  intros V A. destruct (v3x_bare lm v st V) as (B & s0 & S0 & E0). apply analyze_ast_inv in A. destruct A as (ver & es1 & es2 & s & rest & _ & R & S & -> & _).
  destruct (bare_block _ _ _ _ R B) as [O L]; [unfold statements_of; rewrite S0, E0; constructor|]. cbn [res_root res_errors]. rewrite app_length. split; [|lia].
  eexists. split; [reflexivity|]. unfold statements_of in O. rewrite S in O. exact O.
Qed.

(** ** File names of errors *)
Lemma parse_error_located file rtl data s e : text_of data s -> utf8 s -> parse_string file rtl data = Ok (mkResult None [e]) ->
  exists l, location e = Some l /\ file_name l = match file with Some "" => None | _ => file end.
Proof.
  intros T U E. destruct (parse_outcome file rtl data s T U) as (r & E' & P). rewrite E in E'. injection E' as <-.
  inversion P as [| ? ? ? ? ? To S Ht L N Eq|? ? ? Sc NS O Eq]; subst; (eexists; split; [reflexivity|reflexivity]).
Qed.
Lemma analysis_names_file lm rtl st data file s st' r : ordinary lm st -> version_same (api_version st) [3; 0]%Z -> text_of data s -> utf8 s ->
  analyze_string rtl st data file = Ok (st', r) ->
  Forall (located (fun l => file_name l = match file with Some "" => None | _ => file end)) (res_errors r).
Proof.
  intros O V T U A. destruct (program_or_error file rtl data s T U) as [(p & E)|(e & E)].
  - eapply Forall_impl; [|eapply text_errors_located; eauto]. intros x (l & L & a & t & b & _ & ->). eexists. split; [exact L|reflexivity].
  - pose proof (parse_error_located file rtl data s e T U E) as (l & L & F). unfold analyze_string in A. rewrite E in A. cbn in A. injection A as _ <-. cbn [res_errors].
    constructor; [|constructor]. exists l. auto.
Qed.
Lemma lines_join l : join (String (ascii_of_nat 10) "") l = lines l.
Proof. induction l as [|a [|b l] IH]; try reflexivity. change (a ++ String (ascii_of_nat 10) "" ++ join (String (ascii_of_nat 10) "") (b :: l) = a ++ String (ascii_of_nat 10) (lines (b :: l))). now rewrite IH. Qed.
Lemma both_versions lm v : (exists st, v3x_analyzer lm v true = Ok st) <-> (exists st, v3x_analyzer lm v false = Ok st).
Proof.
  change (v3x_analyzer lm v false) with (default_analyzer lm v). rewrite default_analyzer_cases. unfold v3x_analyzer.
  destruct (@version_of_string error v) as [w| | |]; cbn [bind]; try (split; intros [? ?]; discriminate). rewrite new_analyzer_value.
  destruct (version_eqb w [3; 0]%Z); cbn [bind]; [|split; intros [? ?]; discriminate]. 
  replace (register_default_constants (mkAnalyzer w [empty_scope] 0)) with (Ok (mkAnalyzer w [set_variables default_constants empty_scope] 0) : outcome error analyzer) by reflexivity.
  cbn [bind]. unfold register_default_functions. rewrite foldM_functions by reflexivity. split; eauto.
Qed.
Lemma analyze_string_version rtl st data file st' r : analyze_string rtl st data file = Ok (st', r) -> api_version st' = api_version st.
Proof.
  unfold analyze_string. destruct (parse_string file rtl data) as [x| | |]; cbn [bind]; try discriminate. unfold analyze.
  destruct x as [[p|] [|e es]]; cbn [res_errors res_root]; try discriminate; try (intros [= <- _]; reflexivity).
  intros H. apply analyze_ast_inv in H. destruct H as (v & es1 & es2 & s & rest & _ & R & _). apply block_extends in R. exact (proj1 R).
Qed.
