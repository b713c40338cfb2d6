(** Lemmas for C91: statements and programs. *)
From Coq Require Import Reals SpecFloat ZArith Lia ZifyBool.
From Verif Require Import Base ModelUtils ModelVersion ModelError ModelTypes ModelOverload ModelFunctions ModelInstructionSet ModelAst ModelAnalyzer ModelSemantic
  SpecUtils SpecError SpecTypes SpecFunctions SpecInstructions SpecAnalyzer SpecMachine SpecSites SpecDiagnosis SpecHull SpecVersion
  ProofsTypes ProofsFunctions ProofsFolding ProofsFolding2 ProofsIeee ProofsExpr ProofsInstructions ProofsGates ProofsIndex
  ProofsAnalyzer ProofsAnalyzer2 ProofsAnalyzer3 ProofsAnalyzer7 ProofsConstants ProofsRename2 ProofsMachine ProofsDiagnosis ProofsDiagnosis2 ProofsDiagnosis3 ProofsDiagnosis4 ProofsHull
  ProofsVersion ProofsVersion2 SpecEvaluate ProofsEvaluate ProofsEvaluate2 ProofsEvaluate3 SpecMeaning ProofsMeaning ProofsMeaning2 SpecOutcome ProofsOutcome ProofsOutcome2.
From Verif Require ProofsRename3.
Local Open Scope string_scope.

Section Statements.
  Variables (lm : libm) (vars : list variable) (st : analyzer).
  Hypothesis Hlib : machine_libm lm.
  Hypothesis Hst : sees lm vars st.
  Let Ho : ordinary lm st := re_ordinary _ _ _ Hst.

  Lemma instruction_wrong s m p : grammar_statement s -> machine_statement s -> ~ is_declaration s ->
    (visit_statement st s = (Ok st, [mkRawError m p]) <-> wrong_instruction lm vars s m p).
  Proof.
    assert (K : forall l (r : outcome error analyzer), catch_log l st (lift r) = (Ok st, [mkRawError m p]) <-> exists p', r = Err (mkRawError m p') /\ p = nearest [p'; l]).
    { intros l r. split.
      - intros E. apply catch_err in E. destruct E as [[E _]|([m' p'] & -> & [= -> ->])]; [discriminate|eauto].
      - intros (p' & -> & ->). unfold lift. cbn [catch_log]. now rewrite context_nearest. }
    intros (P & _ & G) [M _] D. destruct s as [l n t an|l g ops an|l n ops ps an|l n c an]; cbn [plain statement_exprs] in *.
    - destruct (D I).
    - destruct P as [_ ->]. cbn [annotation_exprs flat_map] in M. rewrite app_nil_r in M. apply Forall_app in M. destruct M as [M1 M2].
      rewrite visit_gate_statement_pure by exact G. rewrite K. now apply gate_instruction_wrong.
    - subst. cbn [annotation_exprs flat_map] in M. rewrite app_nil_r in M. apply Forall_app in M. destruct M as [M1 M2].
      rewrite visit_non_gate_statement_pure, K. now apply non_gate_instruction_wrong.
    - subst. split; intros H; [|inversion H]. exfalso. cbn [visit_statement] in H. unfold visit_asm_declaration in H. cbn [visit_annotated lift lbind] in H.
      destruct (add_statement_ok lm st Ho (SemAsm l n c [])) as [st1 E']. rewrite E' in H. discriminate.
  Qed.
  Lemma instruction_cases s st' es : grammar_statement s -> ~ is_declaration s -> visit_statement st s = (Ok st', es) ->
    es = [] \/ exists m p, es = [mkRawError m p] /\ st' = st.
  Proof.
    intros (P & _ & G) D V. destruct s as [l n t an|l g ops an|l n ops ps an|l n c an]; cbn [plain] in *.
    - destruct (D I).
    - destruct P as [_ ->]. rewrite visit_gate_statement_pure in V by exact G. destruct (pure_gate_statement st l g ops) as [a|e|w|k]; unfold lift in V; cbn [catch_log] in V; try discriminate V;
        injection V as <- <-; [auto|right]. rewrite context_raw. eauto.
    - subst. rewrite visit_non_gate_statement_pure in V. destruct (pure_non_gate_statement st l n ops ps) as [a|e|w|k]; unfold lift in V; cbn [catch_log] in V; try discriminate V;
        injection V as <- <-; [auto|right]. rewrite context_raw. eauto.
    - subst. cbn [visit_statement] in V. unfold visit_asm_declaration in V. cbn [visit_annotated lift lbind] in V.
      destruct (add_statement_ok lm st Ho (SemAsm l n c [])) as [st1 E']. rewrite E' in V. injection V as <- <-. auto.
  Qed.

  (** The three fates of a declaration *)
  Definition list_only (n : string) (ty : type) : analyzer := map_current (with_variable (mkSemVariable (mkVariable (next_id st) n ty) [])) (fresh st).
  Lemma declaration_redeclares l n t ty : declares_type t ty -> taken vars n ->
    visit_statement st (SVariable l n t []) = (Ok (list_only n ty), [mkRawError ("trying to redeclare variable '" ++ n ++ "'") l]).
  Proof.
    intros D T. apply (names_are lm vars st Hst) in T.
    destruct (variable_cases lm st Ho l n t) as [(ty' & st1 & _ & N & V)|[(ty' & st1 & D' & I & V)|(m & st1 & N & B & V)]].
    - destruct (N T).
    - rewrite V. apply statement_effect in V.
      inversion V as [? ? ? ? e N L|? ? ? ? ty1 ans es D1 A S N|? ? ? ? ty1 ans es e D1 A S N L Ee| | | |? ? ? es P Q N]; subst.
      + destruct (N _ D).
      + destruct (N T).
      + cbn [visit_annotated] in A. unfold lift in A. injection A as <- <-. rewrite (ProofsRename3.declares_type_functional t ty1 ty D1 D). reflexivity.
      + exfalso. eapply N. reflexivity.
    - destruct (N _ D).
  Qed.
  Lemma declaration_fails l n t m : wrong_type t m -> visit_statement st (SVariable l n t []) = (Ok (fresh st), [mkRawError m l]).
  Proof.
    intros W. assert (N : forall ty, ~ declares_type t ty).
    { intros ty D. inversion W as [N1 N2|z Q Z L]; subst.
      - destruct (declares_name t ty D); contradiction.
      - inversion D; subst; cbn in Z; try discriminate; injection Z as <-; lia. }
    assert (B : build_semantic_type t = Err (mkRawError m None)).
    { unfold build_semantic_type, build_type. inversion W as [N1 N2|z Q Z L]; subst.
      - rewrite (proj2 (String.eqb_neq _ _) N1), (proj2 (String.eqb_neq _ _) N2). reflexivity.
      - rewrite Z. destruct (Z.ltb_spec 0 z); [lia|]. destruct Q as [-> | ->]; reflexivity. }
    cbn [visit_statement]. unfold visit_variable. rewrite B. unfold lift. cbn [lbind catch_log]. now rewrite context_nearest, nearest_none.
  Qed.
  Lemma type_cases t : (exists ty, declares_type t ty) \/ exists m, wrong_type t m.
  Proof.
    destruct t as [lt n sz]. destruct (String.eqb_spec n "qubit") as [->|N1]; [|destruct (String.eqb_spec n "bit") as [->|N2]].
    - destruct sz as [z|]; [|left; eexists; constructor]. destruct (Z.ltb_spec 0 z) as [L|L]; [left; eexists; constructor; exact L|].
      right. eexists. apply (wrong_type_size _ z); cbn; auto.
    - destruct sz as [z|]; [|left; eexists; constructor]. destruct (Z.ltb_spec 0 z) as [L|L]; [left; eexists; constructor; exact L|].
      right. eexists. apply (wrong_type_size _ z); cbn; auto.
    - right. eexists. apply wrong_type_name; cbn; assumption.
  Qed.
  Lemma taken_dec n : taken vars n \/ ~ taken vars n.
  Proof.
    unfold taken. destruct (in_dec string_dec n constant_names) as [A|A]; [tauto|]. destruct (in_dec string_dec n (map var_name vars)); tauto.
  Qed.
End Statements.

(** What holds of the analyzer behind n declarations, when the variables vars can be
    used, and the variables ds and the instructions xs have been added *)
Record point (lm : libm) (api : list Z) (n : nat) (vars ds : list variable) (xs : list sem_statement) (st : analyzer) : Prop := {
  pt_sees :> sees lm vars st;
  pt_api : api_version st = api;
  pt_next : next_id st = n;
  pt_statements : statements_of st = xs;
  pt_variables : variables_of st = map (fun x => mkSemVariable x []) ds }.

Section Points.
  Variables (lm : libm) (api : list Z) (n : nat) (vars ds : list variable) (xs : list sem_statement) (st : analyzer).
  Hypothesis Hst : point lm api n vars ds xs st.
  Let Ho : ordinary lm st := re_ordinary _ _ _ Hst.
  Lemma ordinary_next s st' es : visit_statement st s = (Ok st', es) -> ordinary lm st'.
  Proof. intros V. exact (ordinary_extends _ _ _ Ho (effect_extends _ _ _ _ (statement_effect _ _ _ _ V))). Qed.

  Lemma point_statement x s es : visit_statement st s = (Ok (map_current (with_statement x) st), es) ->
    point lm api n vars ds (xs ++ [x]) (map_current (with_statement x) st).
  Proof.
    intros V. apply ordinary_next in V. destruct Hst as [[O' [g S] T D Z] A N X Y]. clear Ho. unfold table_here, statements_of, variables_of in T, X, Y. rewrite S in T, X, Y.
    unfold map_current in *. rewrite S in *. constructor; [constructor|..]; cbn; auto; [eauto|]. now rewrite X.
  Qed.
  Lemma point_declaration name ty s es : visit_statement st s = (Ok (declare st name ty), es) -> (tsize ty <= 2 ^ 63 - 1)%Z -> ~ taken vars name ->
    point lm api (S n) (vars ++ [mkVariable n name ty]) (ds ++ [mkVariable n name ty]) xs (declare st name ty).
  Proof.
    intros V B C. apply ordinary_next in V. unfold declare in *. destruct Hst as [[O' [g S] T U Z] A N X Y]. clear Ho. unfold table_here, statements_of, variables_of in T, X, Y. rewrite S in T, X, Y.
    unfold map_current in *. cbn [fresh scopes api_version next_id] in *. rewrite S in *. constructor; [constructor|..]; cbn [api_version next_id scopes]; auto; unfold table_here, statements_of, variables_of;
      cbn [scopes with_entry with_variable sc_variables_table sc_block sc_variables].
    - eauto.
    - rewrite T, map_app, N, <- app_assoc. reflexivity.
    - rewrite map_app, app_assoc. apply NoDup_snoc; [exact U|]. cbn [var_name]. rewrite in_app_iff. exact C.
    - apply Forall_app. auto.
    - now rewrite Y, map_app, N.
  Qed.
  Lemma point_redeclaration name ty s es : visit_statement st s = (Ok (list_only st name ty), es) ->
    point lm api (S n) vars (ds ++ [mkVariable n name ty]) xs (list_only st name ty).
  Proof.
    intros V. apply ordinary_next in V. unfold list_only in *. destruct Hst as [[O' [g S] T U Z] A N X Y]. clear Ho. unfold table_here, statements_of, variables_of in T, X, Y. rewrite S in T, X, Y.
    unfold map_current in *. cbn [fresh scopes api_version next_id] in *. rewrite S in *. constructor; [constructor|..]; cbn [api_version next_id scopes]; auto; unfold table_here, statements_of, variables_of;
      cbn [scopes with_variable sc_variables_table sc_block sc_variables]; auto.
    - eauto.
    - now rewrite Y, map_app, N.
  Qed.
  Lemma point_fresh s es : visit_statement st s = (Ok (fresh st), es) -> point lm api (S n) vars ds xs (fresh st).
  Proof.
    intros V. apply ordinary_next in V. destruct Hst as [[O' G T U Z] A N X Y]. clear Ho. constructor; [constructor|..]; cbn; auto.
  Qed.
End Points.

Section Programs.
  Variables (lm : libm) (api : list Z).
  Hypothesis Hlib : machine_libm lm.

  Lemma block_outcome ss : Forall grammar_statement ss -> Forall machine_statement ss -> forall n vars ds xs st, point lm api n vars ds xs st ->
    (forall st' es, block_run st ss st' es -> exists n' vars' ds' ys, block_gives lm n vars ss ds' ys es /\ point lm api n' vars' (ds ++ ds') (xs ++ ys) st') /\
    (forall ds' ys es, block_gives lm n vars ss ds' ys es -> exists n' vars' st', block_run st ss st' es /\ point lm api n' vars' (ds ++ ds') (xs ++ ys) st').
  Proof.
    induction 1 as [|s ss G _ IH]; intros M n vars ds xs st R.
    - split.
      + intros st' es B. inversion B; subst. exists n, vars, [], []. split; [constructor|]. now rewrite !app_nil_r.
      + intros ds' ys es H. inversion H; subst. exists n, vars, st. split; [constructor|]. now rewrite !app_nil_r.
    - inversion M as [|? ? M1 M2]; subst. specialize (IH M2).
      assert (D : is_declaration s \/ ~ is_declaration s) by (destruct s; cbn; auto). destruct D as [D|D].
      + destruct s as [l name t an| | |]; try destruct D. assert (an = []) as -> by apply G. destruct M1 as [_ Ms].
        assert (KD : forall ty, declares_type t ty -> ~ taken vars name -> visit_statement st (SVariable l name t []) = (Ok (declare st name ty), [])).
        { intros ty T N. apply (declaration_means lm vars st R). unfold taken in N. exists ty. tauto. }
        split.
        * intros st' es B. inversion B as [|? ? st1 es1 ? ? es2 V B']; subst.
          destruct (type_cases t) as [[ty T]|[m W]].
          -- destruct (taken_dec vars name) as [N|N].
             ++ pose proof (declaration_redeclares lm vars st R l name t ty T N) as V'. rewrite V' in V. injection V as <- <-.
                pose proof (point_redeclaration lm api n vars ds xs st R name ty _ _ V') as R1.
                destruct (IH _ _ _ _ _ R1) as [F _]. destruct (F _ _ B') as (n' & vars' & ds' & ys & H & R2). exists n', vars', (mkVariable n name ty :: ds'), ys.
                split; [exact (gives_redeclaration lm n vars l name t ty ss ds' ys es2 T N H)|]. now rewrite <- app_assoc in R2.
             ++ pose proof (KD ty T N) as V'. rewrite V' in V. injection V as <- <-.
                pose proof (point_declaration lm api n vars ds xs st R name ty _ _ V' (type_bound t ty T Ms) N) as R1.
                destruct (IH _ _ _ _ _ R1) as [F _]. destruct (F _ _ B') as (n' & vars' & ds' & ys & H & R2). exists n', vars', (mkVariable n name ty :: ds'), ys.
                split; [exact (gives_variable lm n vars l name t ty ss ds' ys es2 T N H)|]. now rewrite <- app_assoc in R2.
          -- pose proof (declaration_fails st l name t m W) as V'. rewrite V' in V. injection V as <- <-.
             pose proof (point_fresh lm api n vars ds xs st R _ _ V') as R1.
             destruct (IH _ _ _ _ _ R1) as [F _]. destruct (F _ _ B') as (n' & vars' & ds' & ys & H & R2). exists n', vars', ds', ys.
             split; [exact (gives_no_variable lm n vars l name t m ss ds' ys es2 W H)|exact R2].
        * intros ds' ys es H.
          inversion H as [|? ? ? ? ? ty ? ds1 ? ? T N H1|? ? ? ? ? ty ? ds1 ? es1 T N H1|? ? ? ? ? m ? ? ? es1 W H1|? ? ? ? ? ? ? ? I|? ? ? ? ? ? ? ? ? I]; subst; try (inversion I; fail).
          -- pose proof (KD ty T N) as V. pose proof (point_declaration lm api n vars ds xs st R name ty _ _ V (type_bound t ty T Ms) N) as R1.
             destruct (IH _ _ _ _ _ R1) as [_ F]. destruct (F _ _ _ H1) as (n' & vars' & st' & B & R2). exists n', vars', st'. rewrite <- app_assoc in R2.
             split; [|exact R2]. change es with ([] ++ es)%list. econstructor; eauto.
          -- pose proof (declaration_redeclares lm vars st R l name t ty T N) as V. pose proof (point_redeclaration lm api n vars ds xs st R name ty _ _ V) as R1.
             destruct (IH _ _ _ _ _ R1) as [_ F]. destruct (F _ _ _ H1) as (n' & vars' & st' & B & R2). exists n', vars', st'. rewrite <- app_assoc in R2.
             split; [|exact R2]. eapply (run_cons _ _ _ [_]); eauto.
          -- pose proof (declaration_fails st l name t m W) as V. pose proof (point_fresh lm api n vars ds xs st R _ _ V) as R1.
             destruct (IH _ _ _ _ _ R1) as [_ F]. destruct (F _ _ _ H1) as (n' & vars' & st' & B & R2). exists n', vars', st'.
             split; [|exact R2]. eapply (run_cons _ _ _ [_]); eauto.
      + split.
        * intros st' es B. inversion B as [|? ? st1 es1 ? ? es2 V B']; subst.
          destruct (instruction_cases lm vars st R s st1 es1 G D V) as [->|(m & p & -> & ->)].
          -- pose proof V as V'. apply (instruction_statement_means lm vars st Hlib R s st1 G M1 D) in V. destruct V as (x & Ix & ->).
             pose proof (point_statement lm api n vars ds xs st R x _ _ V') as R1.
             destruct (IH _ _ _ _ _ R1) as [F _]. destruct (F _ _ B') as (n' & vars' & ds' & ys & H & R2). exists n', vars', ds', (x :: ys). rewrite <- app_assoc in R2.
             split; [exact (gives_instruction lm n vars s x ss ds' ys es2 Ix H)|exact R2].
          -- apply (instruction_wrong lm vars st Hlib R s m p G M1 D) in V.
             destruct (IH _ _ _ _ _ R) as [F _]. destruct (F _ _ B') as (n' & vars' & ds' & ys & H & R2). exists n', vars', ds', ys.
             split; [exact (gives_no_instruction lm n vars s m p ss ds' ys es2 V H)|exact R2].
        * intros ds' ys es H.
          inversion H as [|? ? ? ? ? ty ? ds1 ? ? T N H1|? ? ? ? ? ty ? ds1 ? es1 T N H1|? ? ? ? ? m ? ? ? es1 W H1|? ? ? x ? ? ys1 ? Ix H1|? ? ? m p ? ? ? es1 W H1]; subst; try (destruct (D I); fail).
          -- assert (V : visit_statement st s = (Ok (map_current (with_statement x) st), [])) by (apply (instruction_statement_means lm vars st Hlib R s _ G M1 D); eauto).
             pose proof (point_statement lm api n vars ds xs st R x _ _ V) as R1.
             destruct (IH _ _ _ _ _ R1) as [_ F]. destruct (F _ _ _ H1) as (n' & vars' & st' & B & R2). exists n', vars', st'. rewrite <- app_assoc in R2.
             split; [|exact R2]. change es with ([] ++ es)%list. econstructor; eauto.
          -- apply (instruction_wrong lm vars st Hlib R s m p G M1 D) in W.
             destruct (IH _ _ _ _ _ R) as [_ F]. destruct (F _ _ _ H1) as (n' & vars' & st' & B & R2). exists n', vars', st'.
             split; [|exact R2]. eapply (run_cons _ _ _ [_]); eauto.
  Qed.
End Programs.

Lemma point_default lm v : ordinary lm (mkAnalyzer v [default_scope lm] 0) -> point lm v 0 [] [] [] (mkAnalyzer v [default_scope lm] 0).
Proof. intros O. destruct (reached_default lm v O) as [S A N X Y]. constructor; auto. Qed.

Lemma version_outcome api v l r es : version_same api [3; 0]%Z -> (visit_version api v l = (Ok r, es) <-> version_gives api v l r es).
Proof.
  intros A. destruct (visit_version_spec api v l A) as [V1 V2]. split.
  - intros E. pose proof (version_diagnosis api v l (Ok r) es A E) as D. inversion D as [S|N|N F]; subst.
    + rewrite (V1 S) in E. injection E as <-. now constructor.
    + destruct (version_eqb v api) eqn:Q; [exfalso; apply version_eqb_iff in Q; rewrite (V1 Q) in E; discriminate|].
      destruct V2 as (e & V2 & _); [intros X; apply version_eqb_iff in X; congruence|]. rewrite V2 in E. injection E as <- _. now constructor.
    + destruct (V2 N) as (e & V3 & _). rewrite V3 in E. injection E as <- _. now constructor.
  - intros H. assert (K : forall m, version_diagnosed api v l [mkRawError m l] -> ~ version_same v api -> (forall m', version_diagnosed api v l [mkRawError m' l] -> m' = m) ->
      visit_version api v l = (Ok api, [mkRawError m l])).
    { intros m D N U. destruct (V2 N) as (e & V3 & Le). rewrite V3. do 2 f_equal. rewrite context_raw, Le, nearest_none. f_equal. apply U.
      pose proof (version_diagnosis api v l _ _ A V3) as D'. rewrite context_raw, Le, nearest_none in D'. exact D'. }
    inversion H as [S|N|N F]; subst.
    + auto.
    + apply K; [now constructor| |].
      * intros S. destruct N as (i & I & L). apply In_nth with (d := 0%Z) in I. destruct I as (j & _ & <-). specialize (S j). specialize (A j). unfold component in *. rewrite S, A in L.
        destruct j as [|[|[|j]]]; cbn in L; lia.
      * intros m' D. inversion D as [| |N' F]; [reflexivity|]. exfalso. destruct N as (i & I & L). rewrite Forall_forall in F. specialize (F i I). lia.
    + apply K; [now constructor|exact N|]. intros m' D. inversion D as [|(i & I & L)|]; [|reflexivity]. exfalso. rewrite Forall_forall in F. specialize (F i I). lia.
Qed.

Lemma program_outcome_at lm api p q es : version_same api [3; 0]%Z -> machine_libm lm ->
  grammar_program p -> machine_program p -> ordered_locations p ->
  ((exists st', analyze_ast (mkAnalyzer api [default_scope lm] 0) p = Ok (st', mkResult (Some q) es)) <-> program_gives lm api p q es).
Proof.
  intros Sv L G M O. assert (Od : ordinary lm (mkAnalyzer api [default_scope lm] 0)) by apply default_ordinary_any.
  destruct (block_outcome lm api L (prog_statements p) G M 0 [] [] [] _ (point_default lm api Od)) as [F1 F2].
  assert (S : forall st' r q', analyze_ast (mkAnalyzer api [default_scope lm] 0) p = Ok (st', r) -> res_root r = Some q' -> spans_statements (sp_block q')).
  { intros st' r q' A R. apply (proj2 (analyze_spans _ _ _ _ A O (eq_refl : current_spans (mkAnalyzer api [default_scope lm] 0)))). exact R. }
  split.
  - intros (st' & A). pose proof (S _ _ _ A eq_refl) as Sp. apply analyze_ast_inv in A. destruct A as (v' & es1 & es2 & s & rest & V & B & Sc & E & _). injection E as -> ->.
    cbn [api_version sp_block] in *. apply (version_outcome api _ _ _ _ Sv) in V. destruct (F1 _ _ B) as (n & vars & ds & ys & H & R). cbn [app] in R.
    pose proof (pt_statements _ _ _ _ _ _ _ R) as X. pose proof (pt_variables _ _ _ _ _ _ _ R) as Y. unfold statements_of, variables_of in X, Y. rewrite Sc in X, Y.
    rewrite Y. constructor; auto. now rewrite X.
  - intros H. destruct H as [v ves ds b es2 V H Sp]. apply (version_outcome api _ _ _ _ Sv) in V. destruct (F2 _ _ _ H) as (n & vars & st' & B & R). cbn [app] in R.
    destruct (re_scope _ _ _ R) as [s Sc].
    pose proof (pt_statements _ _ _ _ _ _ _ R) as X. pose proof (pt_variables _ _ _ _ _ _ _ R) as Y. unfold statements_of, variables_of in X, Y. rewrite Sc in X, Y.
    assert (I : inv true st') by (eapply (inv_block lm); [exact B|exact Od|apply inv_default|intros _; now apply grammar_indexed]).
    pose proof (analyze_ast_intro (mkAnalyzer api [default_scope lm] 0) p v ves st' es2 s [] V B Sc) as A. cbn [api_version] in A.
    specialize (A (fun _ => inv_well_formed st' s [] api v (prog_version_loc p) I Sc)).
    exists st'. rewrite A. rewrite Y. do 5 f_equal. apply spans_unique; [apply (S _ _ _ A eq_refl)|exact Sp|exact X].
Qed.
Lemma program_outcome lm text api st p q es : version_text text api -> version_same api [3; 0]%Z -> default_analyzer lm text = Ok st -> machine_libm lm ->
  grammar_program p -> machine_program p -> ordered_locations p ->
  ((exists st', analyze_ast st p = Ok (st', mkResult (Some q) es)) <-> program_gives lm api p q es).
Proof. intros T S D. rewrite (version_text_analyzer lm text api T S) in D. injection D as <-. now apply program_outcome_at. Qed.
Lemma one_outcome lm api p q q' es es' : version_same api [3; 0]%Z -> machine_libm lm ->
  grammar_program p -> machine_program p -> ordered_locations p -> program_gives lm api p q es -> program_gives lm api p q' es' -> q = q' /\ es = es'.
Proof.
  intros S L G M O H H'. apply (program_outcome_at lm api p q es S L G M O) in H. apply (program_outcome_at lm api p q' es' S L G M O) in H'.
  destruct H as [st H], H' as [st' H']. rewrite H in H'. injection H' as _ -> ->. auto.
Qed.
Lemma outcome_meaning lm api p q : version_same api [3; 0]%Z -> machine_libm lm ->
  grammar_program p -> machine_program p -> ordered_locations p -> (program_gives lm api p q [] <-> program_means lm api p q).
Proof.
  intros S L G M O. rewrite <- (program_outcome_at lm api p q [] S L G M O). now apply program_meaning_at.
Qed.
Lemma default_total lm api p : grammar_program p ->
  (exists st' q es, analyze_ast (mkAnalyzer api [default_scope lm] 0) p = Ok (st', mkResult (Some q) es)) \/
  (exists k, analyze_ast (mkAnalyzer api [default_scope lm] 0) p = UB k).
Proof.
  intros Hp. set (st := mkAnalyzer api [default_scope lm] 0). assert (Od : ordinary lm st) by apply default_ordinary_any.
  destruct (visit_version (api_version st) (prog_version p) (prog_version_loc p)) as [r es1] eqn:Ev.
  destruct (visit_version_ok _ _ _ _ _ Ev) as [v ->].
  destruct (block_total lm (prog_block_loc p) (prog_statements p) Hp st Od) as [(st' & es2 & B)|(k & es2 & B)].
  - left. apply block_run_iff in B.
    assert (I' : inv true st') by (eapply (inv_block lm); [exact B|exact Od|apply inv_default|intros _; now apply grammar_indexed]).
    destruct (inv_scope _ _ I') as [g Eg].
    rewrite (analyze_ast_intro st p v es1 st' es2 g [] Ev B Eg); [eauto|]. intros _. eapply inv_well_formed; eauto.
  - right. exists k. unfold analyze_ast, visit_program. rewrite Ev. cbn [lbind]. rewrite B. reflexivity.
Qed.
Lemma undefined_outcome lm api p : version_same api [3; 0]%Z -> machine_libm lm ->
  grammar_program p -> machine_program p -> ordered_locations p ->
  ((exists k, analyze_ast (mkAnalyzer api [default_scope lm] 0) p = UB k) <-> forall q es, ~ program_gives lm api p q es).
Proof.
  intros S L G M O. split.
  - intros (k & E) q es H. apply (program_outcome_at lm api p q es S L G M O) in H. destruct H as [st H]. rewrite H in E. discriminate.
  - intros N. destruct (default_total lm api p G) as [(st' & q & es & E)|U]; [|exact U]. exfalso. apply (N q es), (program_outcome_at lm api p q es S L G M O). eauto.
Qed.
