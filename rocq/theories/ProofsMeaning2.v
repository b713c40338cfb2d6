(** Lemmas for C90: statements and programs. *)
From Coq Require Import Reals SpecFloat ZArith Lia ZifyBool.
From Verif Require Import Base ModelUtils ModelVersion ModelError ModelTypes ModelOverload ModelFunctions ModelInstructionSet ModelAst ModelAnalyzer ModelSemantic
  SpecUtils SpecError SpecTypes SpecFunctions SpecInstructions SpecAnalyzer SpecMachine SpecDiagnosis SpecHull SpecVersion
  ProofsTypes ProofsFunctions ProofsFolding ProofsFolding2 ProofsIeee ProofsExpr ProofsInstructions ProofsGates ProofsIndex
  ProofsAnalyzer ProofsAnalyzer2 ProofsAnalyzer3 ProofsAnalyzer7 ProofsConstants ProofsRename2 ProofsMachine ProofsDiagnosis ProofsDiagnosis3 ProofsHull
  ProofsVersion ProofsVersion2 SpecEvaluate ProofsEvaluate ProofsEvaluate2 ProofsEvaluate3 SpecMeaning ProofsMeaning.
From Verif Require ProofsRename3.
Local Open Scope string_scope.

Lemma instruction_is i name vs : Forall ordinary_value vs ->
  (instr_name i = name /\ operands_typed i vs /\ Forall (fun t => tsize t = 0%Z) (operand_types i) <-> i = instruction_for name vs).
Proof.
  intros O. unfold instruction_for. split.
  - intros (N & T & Z). destruct i as [n ts]. cbn in *. subst. f_equal. unfold operands_typed in T. cbn [operand_types] in T.
    induction T as [|v t vs ts (tv & Et & K) _ IH]; [reflexivity|]. inversion O; subst. inversion Z; subst. cbn [map]. f_equal; [|now apply IH].
    rewrite <- (operand_kind_type v tv), K by assumption. destruct t; cbn in *; now subst.
  - intros ->. split; [reflexivity|]. unfold operands_typed. cbn [operand_types]. induction O as [|v vs Ov _ [T Z]]; [split; constructor|].
    destruct (ordinary_typed v Ov) as [t Et]. split; constructor; auto. exists t. split; [exact Et|]. cbn [kind]. now apply operand_kind_type.
Qed.

Lemma add_statement_iff st x st' : scopes st <> [] -> (add_statement st x = Ok st' <-> st' = map_current (with_statement x) st).
Proof.
  intros N. split; [intros H; now apply add_statement_inv in H|]. intros ->. unfold add_statement, update_current, map_current. destruct (scopes st) as [|s r]; [congruence|reflexivity].
Qed.

Section Statements.
  Variables (lm : libm) (vars : list variable) (st : analyzer).
  Hypothesis Hlib : machine_libm lm.
  Hypothesis Hst : sees lm vars st.
  Let Ho : ordinary lm st := re_ordinary _ _ _ Hst.
  Lemma reached_scopes : scopes st <> [].
  Proof. destruct (re_scope _ _ _ Hst) as [g ->]. discriminate. Qed.

  Definition is_declaration (s : statement) : Prop := match s with SVariable _ _ _ _ => True | _ => False end.
  Lemma all_addressed {A} (R : A -> value -> Prop) cs vs : (forall c v, R c v -> operand_value v) -> Forall2 R cs vs -> Forall operand_value vs.
  Proof. intros H F. induction F; constructor; eauto. Qed.

  Lemma gate_statement_means l g ops st' : grammar_gate g -> Forall machine_literals (gate_exprs g ++ ops) ->
    (visit_statement st (SGateInstr l g ops []) = (Ok st', []) <->
     exists x, instruction_means lm vars (SGateInstr l g ops []) x /\ st' = map_current (with_statement x) st).
  Proof.
    intros G M. apply Forall_app in M. destruct M as [Mg Mo]. rewrite (visit_gate_statement_pure st l g ops G), catch_log_ok, (gate_statement_spec lm st Ho) by exact G. split.
    - intros (a & sg & vs & k & i & L & S & V & N & A & I1 & I2 & I3 & E).
      pose proof (visit_list_ordinary lm st Ho _ _ V) as O.
      assert (Av : Forall operand_value vs) by (eapply Forall_impl; [|exact A]; intros v Hv; exists Qubits, k; exact Hv).
      destruct (proj1 (reached_gate lm vars st Hlib Hst g sg a Mg) (conj L S)) as (base & name & GM). destruct (means_name _ _ _ _ _ _ GM) as [_ X].
      assert (i = instruction_for name vs) as -> by (apply instruction_is; auto; rewrite <- X; auto).
      apply add_statement_iff in E; [|exact reached_scopes]. eexists. split; [|exact E]. 
      apply (reached_operands lm vars st Hlib Hst) in V; auto.
      apply (gate_applied lm vars l g ops sg base name vs k); auto. rewrite (Forall2_length V), N. exact GM.
    - intros (x & H & ->). inversion H as [? ? ? sg base name vs k GM V A| |]; subst.
      assert (Av : Forall operand_value vs) by (eapply Forall_impl; [|exact A]; intros v Hv; exists Qubits, k; exact Hv).
      pose proof (Forall2_length V) as N. apply (reached_operands lm vars st Hlib Hst) in V; auto.
      pose proof (visit_list_ordinary lm st Ho _ _ V) as O.
      destruct (means_name _ _ _ _ _ _ GM) as [_ X].
      destruct (proj2 (reached_gate lm vars st Hlib Hst g sg (List.length ops) Mg)) as [L S]; [eauto|].
      destruct (proj2 (instruction_is (instruction_for name vs) name vs O) eq_refl) as (I1 & I2 & I3).
      exists (List.length ops), sg, vs, k, (instruction_for name vs). rewrite X.
      assert (E : add_statement st (SemGateInstr l (instruction_for name vs) sg vs []) = Ok (map_current (with_statement (SemGateInstr l (instruction_for name vs) sg vs [])) st))
        by (apply add_statement_iff; [exact reached_scopes|reflexivity]). auto 12.
  Qed.

  Lemma non_gate_statement_means l n ops ps st' : grammar_non_gate n ps -> Forall machine_literals (ops ++ ps) ->
    (visit_statement st (SNonGate l n ops ps []) = (Ok st', []) <->
     exists x, instruction_means lm vars (SNonGate l n ops ps []) x /\ st' = map_current (with_statement x) st).
  Proof.
    intros G M. apply Forall_app in M. destruct M as [Mo Mp]. rewrite (visit_non_gate_statement_pure st l n ops ps), catch_log_ok, (non_gate_statement_spec lm st Ho) by apply G. split.
    - intros (ks & cs & vs & pvs & ws & i & I & V & P & S & A & B & I1 & I2 & I3 & E).
      pose proof (visit_list_ordinary lm st Ho _ _ V) as O.
      destruct (non_gate_params st n ps pvs ks cs ws G P I S) as (ks' & I' & F & S').
      assert (Av : Forall operand_value vs) by (eapply all_addressed; [|exact A]; intros c v [k Hv]; exists c, k; exact Hv).
      assert (i = instruction_for n vs) as -> by (apply instruction_is; auto).
      apply add_statement_iff in E; [|exact reached_scopes]. eexists. split; [|exact E].
      apply (reached_operands lm vars st Hlib Hst) in V; auto.
      apply (non_gate_applied lm vars l n ops ps ks' cs vs ws); auto.
      apply (reached_parameters lm vars st Hlib Hst); [exact Mp|now apply (non_gates_kinds n ks' cs)|]. exists pvs. split; [exact P|now apply stored_all_stored].
    - intros (x & H & ->). inversion H as [|? ? ? ? ks cs vs ws I V P A B|]; subst.
      assert (Av : Forall operand_value vs) by (eapply all_addressed; [|exact A]; intros c v [k Hv]; exists c, k; exact Hv).
      apply (reached_operands lm vars st Hlib Hst) in V; auto.
      pose proof (visit_list_ordinary lm st Ho _ _ V) as O.
      apply (reached_parameters lm vars st Hlib Hst) in P; [|exact Mp|now apply (non_gates_kinds n ks cs)]. destruct P as (pvs & P & S). apply stored_all_stored in S.
      destruct (proj2 (instruction_is (instruction_for n vs) n vs O) eq_refl) as (I1 & I2 & I3).
      exists ks, cs, vs, pvs, ws, (instruction_for n vs).
      assert (E : add_statement st (SemNonGate l (instruction_for n vs) n vs ws []) = Ok (map_current (with_statement (SemNonGate l (instruction_for n vs) n vs ws [])) st))
        by (apply add_statement_iff; [exact reached_scopes|reflexivity]). auto 12.
  Qed.
  Lemma asm_statement_means l n c st' :
    (visit_statement st (SAsm l n c []) = (Ok st', []) <->
     exists x, instruction_means lm vars (SAsm l n c []) x /\ st' = map_current (with_statement x) st).
  Proof.
    transitivity (add_statement st (SemAsm l n c []) = Ok st').
    - cbn [visit_statement]. unfold visit_asm_declaration, catch_log, lift. cbn [visit_annotated]. unfold lift. cbn [lbind].
      destruct (add_statement st (SemAsm l n c [])); cbn; split; intros H; try discriminate; congruence.
    - rewrite add_statement_iff by exact reached_scopes. split.
      + intros ->. eexists. split; [constructor|reflexivity].
      + intros (x & H & ->). inversion H. reflexivity.
  Qed.
  Lemma instruction_statement_means s st' : grammar_statement s -> machine_statement s -> ~ is_declaration s ->
    (visit_statement st s = (Ok st', []) <-> exists x, instruction_means lm vars s x /\ st' = map_current (with_statement x) st).
  Proof.
    intros (P & _ & G) [M _] D. destruct s as [l n t an|l g ops an|l n ops ps an|l n c an]; cbn [plain statement_exprs] in *.
    - destruct (D I).
    - destruct P as [_ ->]. apply gate_statement_means; [exact G|]. cbn [annotation_exprs flat_map] in M. now rewrite app_nil_r in M.
    - subst. apply non_gate_statement_means; [exact G|]. cbn [annotation_exprs flat_map] in M. now rewrite app_nil_r in M.
    - subst. apply asm_statement_means.
  Qed.
  Definition declare (n : string) (ty : type) : analyzer :=
    map_current (fun s => with_entry n (VVar (mkVariable (next_id st) n ty)) (with_variable (mkSemVariable (mkVariable (next_id st) n ty) []) s)) (fresh st).
  Lemma names_are n : In n (names_here st) <-> In n constant_names \/ In n (map var_name vars).
  Proof.
    rewrite names_table, (re_table _ _ _ Hst), map_app, in_app_iff, map_map. reflexivity.
  Qed.
  Lemma declaration_means l n t st' :
    (visit_statement st (SVariable l n t []) = (Ok st', []) <->
     exists ty, declares_type t ty /\ ~ In n constant_names /\ ~ In n (map var_name vars) /\ st' = declare n ty).
  Proof.
    assert (F : forall st', visit_statement st (SVariable l n t []) = (Ok st', []) -> exists ty, declares_type t ty /\ ~ In n (names_here st) /\ st' = declare n ty).
    { intros st1 V. apply statement_effect in V. remember (@nil error) as log eqn:El.
      inversion V as [? ? ? ? e N L|? ? ? ? ty ans es D A S N|? ? ? ? ty ans es e D A S N L| | | |? ? ? es P Q N]; subst.
      - discriminate.
      - cbn [visit_annotated] in A. injection A as <-. exists ty. auto.
      - exfalso. destruct es; discriminate.
      - exfalso. destruct es; discriminate. }
    split.
    - intros V. apply F in V. destruct V as (ty & D & N & ->). exists ty. rewrite names_are in N. tauto.
    - intros (ty & D & N1 & N2 & ->). apply (ProofsRename3.visit_declaration lm st l n t ty Ho D). rewrite names_are. tauto.
  Qed.
End Statements.

Section Reached.
  Variables (lm : libm) (api : list Z) (vars : list variable) (xs : list sem_statement) (st : analyzer).
  Hypothesis Hst : reached lm api vars xs st.
  Let Ho : ordinary lm st := re_ordinary _ _ _ Hst.
  Lemma reached_statement x s es : visit_statement st s = (Ok (map_current (with_statement x) st), es) -> reached lm api vars (xs ++ [x]) (map_current (with_statement x) st).
  Proof.
    intros V. pose proof (ordinary_extends _ _ _ Ho (effect_extends _ _ _ _ (statement_effect _ _ _ _ V))) as O. clear V.
    destruct Hst as [[O' [g S] T D Z] A N X Y]. clear Ho. unfold table_here, statements_of, variables_of in T, X, Y. rewrite S in T, X, Y.
    unfold map_current in *. rewrite S in *. constructor; [constructor|..]; cbn; auto; [eauto|]. now rewrite X.
  Qed.
  Lemma reached_declaration n ty s es : visit_statement st s = (Ok (declare st n ty), es) -> (tsize ty <= 2 ^ 63 - 1)%Z -> ~ In n constant_names -> ~ In n (map var_name vars) ->
    reached lm api (vars ++ [mkVariable (List.length vars) n ty]) xs (declare st n ty).
  Proof.
    intros V B C D. pose proof (ordinary_extends _ _ _ Ho (effect_extends _ _ _ _ (statement_effect _ _ _ _ V))) as O. clear V. unfold declare in *.
    destruct Hst as [[O' [g S] T U Z] A N X Y]. clear Ho. unfold table_here, statements_of, variables_of in T, X, Y. rewrite S in T, X, Y.
    unfold map_current in *. cbn [fresh scopes api_version next_id] in *. rewrite S in *. constructor; [constructor|..]; cbn [api_version next_id scopes]; auto; unfold table_here, statements_of, variables_of;
      cbn [scopes with_entry with_variable sc_variables_table sc_block sc_variables].
    - eauto.
    - rewrite T, map_app, N, <- app_assoc. reflexivity.
    - rewrite map_app, app_assoc. apply NoDup_snoc; [exact U|]. cbn [var_name]. rewrite in_app_iff. tauto.
    - apply Forall_app. auto.
    - rewrite app_length. cbn. lia.
    - now rewrite Y, map_app, N.
  Qed.
End Reached.

Section Programs.
  Variables (lm : libm) (api : list Z).
  Hypothesis Hlib : machine_libm lm.
  Lemma run_cons_iff st s ss st2 : block_run st (s :: ss) st2 [] <-> exists st1, visit_statement st s = (Ok st1, []) /\ block_run st1 ss st2 [].
  Proof.
    split.
    - intros H. inversion H as [|? ? st1 es1 ? ? es2 V B]; subst. destruct es1; [|discriminate]. cbn in *. subst. eauto.
    - intros (st1 & V & B). change (@nil error) with (@nil error ++ [])%list. econstructor; eauto.
  Qed.
  Lemma type_bound t ty : declares_type t ty -> (forall z, ty_size t = Some z -> fits z) -> (tsize ty <= 2 ^ 63 - 1)%Z.
  Proof. intros D F. apply (machine_declared t ty 0 "" D) in F. cbn in F. lia. Qed.
  Lemma block_meaning ss : Forall grammar_statement ss -> Forall machine_statement ss -> forall vars xs st, reached lm api vars xs st ->
    (forall st', block_run st ss st' [] -> exists vars' ys, block_means lm vars ss vars' ys /\ reached lm api vars' (xs ++ ys) st') /\
    (forall vars' ys, block_means lm vars ss vars' ys -> exists st', block_run st ss st' [] /\ reached lm api vars' (xs ++ ys) st').
  Proof.
    induction 1 as [|s ss G _ IH]; intros M vars xs st R.
    - split.
      + intros st' B. inversion B; subst. exists vars, []. split; [constructor|]. now rewrite app_nil_r.
      + intros vars' ys H. inversion H; subst. exists st. split; [constructor|]. now rewrite app_nil_r.
    - inversion M as [|? ? M1 M2]; subst. specialize (IH M2).
      assert (D : is_declaration s \/ ~ is_declaration s) by (destruct s; cbn; auto). destruct D as [D|D].
      + destruct s as [l n t an| | |]; try destruct D. assert (an = []) as -> by apply G. destruct M1 as [_ Ms]. split.
        * intros st' B. apply run_cons_iff in B. destruct B as (st1 & V & B). pose proof V as V'. apply (declaration_means lm vars st R) in V.
          destruct V as (ty & T & N1 & N2 & ->). pose proof (reached_declaration lm api vars xs st R n ty _ _ V' (type_bound t ty T Ms) N1 N2) as R1.
          destruct (IH _ _ _ R1) as [F _]. destruct (F _ B) as (vars' & ys & H & R2). exists vars', ys. split; [econstructor; eauto|exact R2].
        * intros vars' ys H. inversion H as [|? ? ? ty ? ? ? T N1 N2 H1|? ? ? ? ? I]; subst; [|inversion I].
          assert (V : visit_statement st (SVariable l n t []) = (Ok (declare st n ty), [])) by (apply (declaration_means lm vars st R); eauto).
          pose proof (reached_declaration lm api vars xs st R n ty _ _ V (type_bound t ty T Ms) N1 N2) as R1.
          destruct (IH _ _ _ R1) as [_ F]. destruct (F _ _ H1) as (st' & B & R2). exists st'. split; [apply run_cons_iff; eauto|exact R2].
      + split.
        * intros st' B. apply run_cons_iff in B. destruct B as (st1 & V & B). pose proof V as V'. apply (instruction_statement_means lm vars st Hlib R s st1 G M1 D) in V.
          destruct V as (x & Ix & ->). pose proof (reached_statement lm api vars xs st R x _ _ V') as R1.
          destruct (IH _ _ _ R1) as [F _]. destruct (F _ B) as (vars' & ys & H & R2). exists vars', (x :: ys). split; [econstructor; eauto|]. now rewrite <- app_assoc in R2.
        * intros vars' ys H. inversion H as [|? ? ? ty ? ? ? T N1 N2 H1|? x ? ? ys' I H1]; subst; [destruct (D I)|].
          assert (V : visit_statement st s = (Ok (map_current (with_statement x) st), [])) by (apply (instruction_statement_means lm vars st Hlib R s _ G M1 D); eauto).
          pose proof (reached_statement lm api vars xs st R x _ _ V) as R1.
          destruct (IH _ _ _ R1) as [_ F]. destruct (F _ _ H1) as (st' & B & R2). exists st'. split; [apply run_cons_iff; eauto|]. now rewrite <- app_assoc in R2.
  Qed.
End Programs.

Lemma reached_default lm v : ordinary lm (mkAnalyzer v [default_scope lm] 0) -> reached lm v [] [] (mkAnalyzer v [default_scope lm] 0).
Proof.
  intros O. constructor; [constructor|..]; cbn [api_version next_id]; try reflexivity; [exact O|eexists; reflexivity| |constructor].
  cbn [map]. rewrite app_nil_r. unfold constant_names. repeat constructor; cbn; intuition discriminate.
Qed.

Lemma at_or_before_antisym a b : at_or_before a b -> at_or_before b a -> a = b.
Proof. destruct a as [la ca], b as [lb cb]. unfold at_or_before. cbn. intros H H'. f_equal; lia. Qed.
Lemma spans_unique b b' : spans_statements b -> spans_statements b' -> blk_statements b = blk_statements b' -> b = b'.
Proof.
  destruct b as [ss l], b' as [ss' l']. unfold spans_statements. cbn [blk_loc blk_statements]. intros H H' <-. f_equal.
  destruct l as [l|], l' as [l'|].
  - destruct H as (l0 & ls & E & F & _ & C & L). destruct H' as (l0' & ls' & E' & F' & _ & C' & L'). rewrite E in E'. injection E' as <- <-.
    f_equal. destruct l as [f r], l' as [f' r']. cbn [file_name loc_range] in *. f_equal; [congruence|].
    destruct (L r' C') as [A B], (L' r C) as [A' B']. destruct r, r'. cbn in *. f_equal; now apply at_or_before_antisym.
  - destruct H as (l0 & ls & E & _). congruence.
  - destruct H' as (l0 & ls & E & _). congruence.
  - reflexivity.
Qed.

Lemma program_meaning_at lm api p q : version_same api [3; 0]%Z -> machine_libm lm ->
  grammar_program p -> machine_program p -> ordered_locations p ->
  ((exists st', analyze_ast (mkAnalyzer api [default_scope lm] 0) p = Ok (st', mkResult (Some q) [])) <-> program_means lm api p q).
Proof.
  intros Sv L G M O. assert (Od : ordinary lm (mkAnalyzer api [default_scope lm] 0)) by apply default_ordinary_any.
  destruct (block_meaning lm api L (prog_statements p) G M [] [] _ (reached_default lm api Od)) as [F1 F2].
  destruct (visit_version_spec api (prog_version p) (prog_version_loc p) Sv) as [V1 V2].
  assert (S : forall st' r q', analyze_ast (mkAnalyzer api [default_scope lm] 0) p = Ok (st', r) -> res_root r = Some q' -> spans_statements (sp_block q')).
  { intros st' r q' A R. apply (proj2 (analyze_spans _ _ _ _ A O (eq_refl : current_spans (mkAnalyzer api [default_scope lm] 0)))). exact R. }
  split.
  - intros (st' & A). pose proof (S _ _ _ A eq_refl) as Sp. apply analyze_ast_inv in A. destruct A as (v' & es1 & es2 & s & rest & V & B & Sc & E & _). injection E as -> E.
    symmetry in E. apply app_eq_nil in E. destruct E as [-> ->]. cbn [api_version] in *.
    assert (W : version_same (prog_version p) api).
    { destruct (version_eqb (prog_version p) api) eqn:Q; [now apply version_eqb_iff|]. exfalso. destruct V2 as (e & V2 & _); [|congruence].
      intros X. apply version_eqb_iff in X. congruence. }
    rewrite (V1 W) in V. injection V as <-. destruct (F1 _ B) as (vars & ys & H & R). cbn [app] in R.
    pose proof (re_statements _ _ _ _ _ R) as X. pose proof (re_variables _ _ _ _ _ R) as Y. unfold statements_of, variables_of in X, Y. rewrite Sc in X, Y.
    rewrite Y. constructor; auto. now rewrite X.
  - intros H. destruct H as [vars b W H Sp]. destruct (F2 _ _ H) as (st' & B & R). cbn [app] in R.
    destruct (re_scope _ _ _ R) as [s Sc].
    pose proof (re_statements _ _ _ _ _ R) as X. pose proof (re_variables _ _ _ _ _ R) as Y. unfold statements_of, variables_of in X, Y. rewrite Sc in X, Y.
    assert (I : inv true st') by (eapply (inv_block lm); [exact B|exact Od|apply inv_default|intros _; now apply grammar_indexed]).
    pose proof (analyze_ast_intro (mkAnalyzer api [default_scope lm] 0) p (prog_version p) [] st' [] s [] (V1 W) B Sc) as A. cbn [app api_version] in A.
    specialize (A (fun _ => inv_well_formed st' s [] api (prog_version p) (prog_version_loc p) I Sc)).
    exists st'. rewrite A. rewrite Y. do 5 f_equal. apply spans_unique; [apply (S _ _ _ A eq_refl)|exact Sp|exact X].
Qed.

Lemma version_text_analyzer lm text api : version_text text api -> version_same api [3; 0]%Z -> default_analyzer lm text = Ok (mkAnalyzer api [default_scope lm] 0).
Proof.
  intros T Sa. rewrite default_analyzer_cases. assert (E : @version_of_string error text = Ok api).
  { apply version_text_reads. split; [exact T|]. apply Forall_forall. intros c I.
    apply In_nth with (d := 0%Z) in I. destruct I as (i & _ & <-). specialize (Sa i). unfold component in Sa. rewrite Sa. destruct i as [|[|[|i]]]; cbn; lia. }
  rewrite E. cbn [bind]. apply version_eqb_iff in Sa. now rewrite Sa.
Qed.
Lemma program_meaning lm text api st p q : version_text text api -> version_same api [3; 0]%Z -> default_analyzer lm text = Ok st -> machine_libm lm ->
  grammar_program p -> machine_program p -> ordered_locations p ->
  ((exists st', analyze_ast st p = Ok (st', mkResult (Some q) [])) <-> program_means lm api p q).
Proof. intros T S D. rewrite (version_text_analyzer lm text api T S) in D. injection D as <-. now apply program_meaning_at. Qed.
Lemma one_meaning lm api p q q' : version_same api [3; 0]%Z -> machine_libm lm ->
  grammar_program p -> machine_program p -> ordered_locations p -> program_means lm api p q -> program_means lm api p q' -> q = q'.
Proof.
  intros S L G M O H H'. apply (program_meaning_at lm api p q S L G M O) in H. apply (program_meaning_at lm api p q' S L G M O) in H'.
  destruct H as [st H], H' as [st' H']. congruence.
Qed.
