(** Lemmas for C77, C78: programs that differ in one statement. *)
From Coq Require Import Permutation.
From Verif Require Import Base ModelUtils ModelVersion ModelError ModelTypes ModelOverload ModelFunctions ModelInstructionSet ModelAst ModelAnalyzer ModelSemantic ModelObjects
  SpecTypes SpecFunctions SpecInstructions SpecAnalyzer SpecObjects SpecRename ProofsTypes ProofsFunctions ProofsFolding ProofsExpr ProofsInstructions ProofsGates
  ProofsAnalyzer ProofsAnalyzer2 ProofsAnalyzer3 ProofsAnalyzer4 ProofsScopes ProofsObjects ProofsRename ProofsRename2.
Local Open Scope string_scope.

(** ** Analysis of a parsed program *)
Definition program_of (st : analyzer) (v : version) (p : program) (st' : analyzer) : sem_program :=
  mkSemProgram (api_version st) v (prog_version_loc p) (mkBlock (statements_of st') (block_loc_of st')) (variables_of st').
Lemma program_of_scope st v p st' s rest : scopes st' = s :: rest ->
  program_of st v p st' = mkSemProgram (api_version st) v (prog_version_loc p) (sc_block s) (sc_variables s).
Proof. intros E. unfold program_of, statements_of, block_loc_of, variables_of. rewrite E. now destruct (sc_block s). Qed.
Lemma analyze_cases lm st p v es1 : analyses lm st -> grammar_program p -> visit_version (api_version st) (prog_version p) (prog_version_loc p) = (Ok v, es1) ->
  (exists st' es2, visit_block (prog_block_loc p) st (prog_statements p) = (Ok st', es2) /\
     analyze_ast st p = Ok (st', mkResult (Some (program_of st v p st')) (es1 ++ es2))) \/
  (exists k es2, visit_block (prog_block_loc p) st (prog_statements p) = (UB k, es2) /\ analyze_ast st p = UB k).
Proof.
  intros H Hp Ev. destruct (block_total lm (prog_block_loc p) (prog_statements p) Hp st (analyses_ordinary lm st H)) as [(st' & es2 & B)|(k & es2 & B)].
  - left. exists st', es2. split; [exact B|]. apply block_run_iff in B. pose proof (analyses_inv lm st H) as I.
    assert (I' : inv true st') by (eapply inv_block; eauto using analyses_ordinary; intros _; now apply grammar_indexed).
    destruct (inv_scope _ _ I') as [g Eg]. rewrite (program_of_scope _ _ _ _ _ _ Eg).
    apply (analyze_ast_intro st p v es1 st' es2 g [] Ev B Eg). intros _. eapply inv_well_formed; eauto.
  - right. exists k, es2. split; [exact B|]. unfold analyze_ast, visit_program. rewrite Ev. cbn [lbind]. rewrite B. reflexivity.
Qed.
Lemma visit_block_app l st ss1 ss2 : visit_block l st (ss1 ++ ss2) = (let* st' := visit_block l st ss1 in visit_block l st' ss2).
Proof.
  revert st. induction ss1 as [|s ss1 IH]; intros st; cbn [app].
  - change (visit_block l st []) with (lift (Ok st)). unfold lift. cbn [lbind]. now destruct (visit_block l st ss2).
  - rewrite !visit_block_cons. destruct (visit_statement st s) as [[st1|e|w|k] es]; cbn [lbind]; try reflexivity. rewrite IH.
    destruct (visit_block l st1 ss1) as [[st2|e|w|k] es2]; cbn [lbind]; try reflexivity. destruct (visit_block l st2 ss2) as [r es3]. now rewrite app_assoc.
Qed.
Lemma Forall_grammar_app p ss1 ss2 : grammar_program (with_statements (ss1 ++ ss2) p) -> Forall grammar_statement ss1 /\ Forall grammar_statement ss2.
Proof. unfold grammar_program. cbn. apply Forall_app. Qed.

(** ** Identities are given in order *)
Lemma effect_ids st s st' es : effect st s st' es -> exists vs, variables_of st' = (variables_of st ++ vs)%list /\
  (next_id st <= next_id st')%nat /\ Forall (fun v => next_id st <= var_id (sv_var v) < next_id st')%nat vs.
Proof.
  intros E. destruct E as [l n t an e N Le|l n t an ty ans es D A Ns Ni|l n t an ty ans es e D A Ns Ni Le|l g ops an sg es1 vs i ws ans es2 G V R C A Ns
    |l n ops ps an vs i ws pvs pws ans es V R P RP C A Ns|l n c an ans es A Ns|l s e es El Pl Nv].
  - exists []. rewrite app_nil_r. split; [reflexivity|]. split; [cbn; lia|constructor].
  - exists [mkSemVariable (mkVariable (next_id st) n ty) ans]. unfold variables_of, map_current. cbn [fresh scopes]. destruct (scopes st) as [|s r]; [congruence|]. cbn.
    split; [reflexivity|]. split; [lia|]. constructor; [cbn; lia|constructor].
  - exists [mkSemVariable (mkVariable (next_id st) n ty) ans]. unfold variables_of, map_current. cbn [fresh scopes]. destruct (scopes st) as [|s r]; [congruence|]. cbn.
    split; [reflexivity|]. split; [lia|]. constructor; [cbn; lia|constructor].
  - exists []. rewrite app_nil_r, variables_of_map. unfold variables_of, map_current. destruct (scopes st); cbn; (split; [reflexivity|split; [lia|constructor]]).
  - exists []. rewrite app_nil_r, variables_of_map. unfold variables_of, map_current. destruct (scopes st); cbn; (split; [reflexivity|split; [lia|constructor]]).
  - exists []. rewrite app_nil_r, variables_of_map. unfold variables_of, map_current. destruct (scopes st); cbn; (split; [reflexivity|split; [lia|constructor]]).
  - exists []. rewrite app_nil_r. split; [reflexivity|]. split; [lia|constructor].
Qed.
Lemma block_ids st ss st' es : block_run st ss st' es -> exists vs, variables_of st' = (variables_of st ++ vs)%list /\
  (next_id st <= next_id st')%nat /\ Forall (fun v => next_id st <= var_id (sv_var v) < next_id st')%nat vs.
Proof.
  induction 1 as [st|st s st1 es1 ss st2 es2 H _ IH].
  - exists []. rewrite app_nil_r. split; [reflexivity|]. split; [lia|constructor].
  - apply statement_effect, effect_ids in H. destruct H as (vs & E & L & F), IH as (vs' & E' & L' & F'). exists (vs ++ vs')%list. rewrite E', E, app_assoc.
    split; [reflexivity|]. split; [lia|]. apply Forall_app. split; (eapply Forall_impl; [|eassumption]); cbn; intros; lia.
Qed.
Definition ids_below (st : analyzer) : Prop := Forall (fun v => var_id (sv_var v) < next_id st)%nat (variables_of st).
Lemma ids_block st ss st' es : block_run st ss st' es -> ids_below st -> ids_below st'.
Proof.
  intros H B. destruct (block_ids _ _ _ _ H) as (vs & E & L & F). unfold ids_below. rewrite E. apply Forall_app.
  split; (eapply Forall_impl; [|eassumption]); cbn; intros; lia.
Qed.
Lemma ids_analyses lm st : analyses lm st -> ids_below st.
Proof.
  induction 1 as [st H|st p st' r H IH Hp E].
  - apply default_analyzer_inv in H. destruct H as (v & _ & _ & ->). constructor.
  - apply analyze_ast_inv in E. destruct E as (v & es1 & es2 & s & rest & _ & B & _). eapply ids_block; eauto.
Qed.

(** ** One more variable (C77) *)
Lemma make_room_low k i : (i < k)%nat -> make_room k i = i.
Proof. unfold make_room. intros H. apply Nat.ltb_lt in H. now rewrite H. Qed.
Lemma make_room_high k i : (k <= i)%nat -> make_room k i = S i.
Proof. unfold make_room. intros H. apply Nat.ltb_ge in H. now rewrite H. Qed.
Lemma value_ok_kept st k v : inv true st -> Forall (fun v => var_id (sv_var v) < k)%nat (variables_of st) -> value_ok true (vars_of st) v -> kept (make_room k) v.
Proof.
  intros I B [R _]. assert (L : forall x, In x (vars_of st) -> (var_id x < k)%nat).
  { unfold vars_of. intros x Ix. apply in_map_iff in Ix. destruct Ix as (w & <- & Iw). rewrite Forall_forall in B. exact (B w Iw). }
  destruct v as [| | |x|x idx]; cbn in *; auto; apply make_room_low, L; tauto.
Qed.
Lemma resolve_kept st n v : inv true st -> ids_below st -> resolve_variable st n = Ok v -> kept (make_room (next_id st)) v.
Proof.
  intros I B E. pose proof (resolve_variable_hold _ st n v (inv_tables _ _ I) E) as Hv.
  assert (L : forall x, In x (vars_of st) -> (var_id x < next_id st)%nat).
  { unfold vars_of. intros x Ix. apply in_map_iff in Ix. destruct Ix as (w & <- & Iw). unfold ids_below in B. rewrite Forall_forall in B. exact (B w Iw). }
  destruct v as [| | |x|x idx]; cbn in *; auto; now apply make_room_low, L.
Qed.
Lemma declares_type_functional t ty ty' : declares_type t ty -> declares_type t ty' -> ty = ty'.
Proof. intros H H'. inversion H; subst; inversion H'; subst; reflexivity. Qed.
Lemma visit_declaration lm st l n t ty : ordinary lm st -> declares_type t ty -> ~ In n (names_here st) ->
  visit_statement st (SVariable l n t []) = (Ok (map_current (fun s => with_entry n (VVar (mkVariable (next_id st) n ty))
    (with_variable (mkSemVariable (mkVariable (next_id st) n ty) []) s)) (fresh st)), []).
Proof.
  intros O D N. destruct (ordinary_scopes lm st O) as (s & r & Es).
  assert (G : exists st' es, visit_statement st (SVariable l n t []) = (Ok st', es)).
  { cbn [visit_statement]. unfold visit_variable. destruct (build_type_spec t) as [(ty' & -> & _)|(e & -> & _)]; cbn [lift lbind catch_log visit_annotated]; [|eauto].
    unfold add_variable, update_current. cbn [fresh scopes]. rewrite Es. cbn [bind lift lbind]. unfold register_variable, update_current. cbn [scopes].
    unfold variable_add. cbn [sc_variables_table]. destruct (table_find n (sc_variables_table s)); cbn; eauto. }
  destruct G as (st' & es & G). rewrite G. apply statement_effect in G.
  inversion G as [? ? ? ? e N'|? ? ? ? ty' ans ? D' A Ns Ni|? ? ? ? ty' ans ? e D' A Ns Ni Le| | | |? ? ? ? ? ? Nv]; subst.
  - destruct (N' ty D).
  - cbn in A. injection A as <- <-. now rewrite (declares_type_functional t ty' ty D' D).
  - contradiction.
  - destruct (Nv l n t []). reflexivity.
Qed.

Lemma declaration_matches lm st n ty : ordinary lm st -> inv true st -> ids_below st -> declared (mkVariable (next_id st) n ty) -> ~ In n (names_here st) ->
  let x := mkVariable (next_id st) n ty in
  matches same_name (make_room (next_id st)) lm (fun m => m <> n) True (variables_of st) (variables_of st ++ [mkSemVariable x []]) (statements_of st) (statements_of st)
    st (map_current (fun s => with_entry n (VVar x) (with_variable (mkSemVariable x []) s)) (fresh st)).
Proof.
  intros O I B Dx N x. destruct (ordinary_scopes lm st O) as (s & r & Es).
  set (st' := map_current _ (fresh st)).
  assert (X : state_extends st st').
  { apply (state_extends_trans _ (fresh st)); [apply fresh_extends|]. apply map_current_extends. intros s0.
    eapply extends_trans; [apply with_variable_extends|]. now apply with_entry_extends. }
  assert (E' : st' = map_current (with_entry n (VVar x)) (map_current (with_variable (mkSemVariable x [])) (fresh st))).
  { unfold st', map_current. cbn [fresh scopes]. rewrite Es. reflexivity. }
  assert (R : forall m, resolve_variable st' m = if n =? m then Ok (VVar x) else resolve_variable st m).
  { intros m. rewrite E', resolve_with_entry.
    - destruct (n =? m); [reflexivity|]. unfold resolve_variable, map_current. cbn [fresh scopes]. rewrite Es. reflexivity.
    - unfold map_current. cbn [fresh scopes]. rewrite Es. discriminate.
    - rewrite names_here_map. cbn [fresh scopes]. unfold names_here in N. rewrite Es in *. exact N. }
  split.
  - split; [exact O|exact (ordinary_extends lm _ _ O X)|]. intros m Nm. change (same_name m) with m. rewrite R. destruct (String.eqb_spec n m) as [->|_]; [congruence|].
    destruct (resolve_variable st m) as [v|e|w|k] eqn:E; cbn; try reflexivity; [|apply renamed_same]. unfold image. symmetry. apply kept_value. eapply resolve_kept; eauto.
  - destruct X as [X _]. exact X.
  - intros m Nm. unfold same_name. unfold st'. rewrite names_here_map. cbn [fresh scopes]. unfold names_here. rewrite Es. cbn [with_entry with_variable sc_variables_table].
    rewrite map_app, in_app_iff. cbn. split; [now left|]. intros [H|[H|[]]]; [exact H|congruence].
  - intros k. rewrite make_room_high by lia. unfold st', map_current. cbn [fresh scopes]. rewrite Es. cbn. lia.
  - exists []. unfold st'. rewrite variables_of_map. cbn [fresh scopes]. unfold variables_of. rewrite Es. cbn [with_entry with_variable sc_variables map]. now rewrite !app_nil_r.
  - exists []. unfold st'. rewrite statements_of_map. cbn [fresh scopes]. unfold statements_of. rewrite Es. cbn [with_entry with_variable sc_block map]. now rewrite !app_nil_r.
  - intros _. unfold st', map_current, block_loc_of. cbn [fresh scopes]. rewrite Es. reflexivity.
Qed.
Lemma within_not n ss : ~ In n (declared_names ss) -> Forall (fun s => ~ mentions s n) ss -> Forall (within (fun m => m <> n)) ss.
Proof.
  intros N F. apply Forall_forall. intros s Is. rewrite Forall_forall in F. split.
  - intros e Ie. apply Forall_forall. intros m Im ->. apply (F s Is). exists e. auto.
  - apply Forall_forall. intros m Im ->. apply N. unfold declared_names in *. cbn in Im. rewrite app_nil_r in Im. apply in_flat_map. eauto.
Qed.
Lemma rename_same_statements ss : map (rename_statement same_name) ss = ss.
Proof. apply map_same, rename_same_statement. Qed.

Lemma unused_declaration lm st p ss1 ss2 l n t ty : analyses lm st -> grammar_program p -> prog_statements p = (ss1 ++ ss2)%list -> declares_type t ty ->
  ~ In n (names_here st) -> ~ In n (declared_names (ss1 ++ ss2)) -> Forall (fun s => ~ mentions s n) ss2 ->
  outcomes (fun r r' => exists k, one_more_variable (mkSemVariable (mkVariable k n ty) []) r r')
    (map_outcome snd (analyze_ast st p)) (map_outcome snd (analyze_ast st (with_statements (ss1 ++ SVariable l n t [] :: ss2) p))).
Proof.
  intros H Hp Ep D N1 N2 F. pose proof (analyses_ordinary lm st H) as O. pose proof (analyses_inv lm st H) as Iv.
  destruct (visit_version (api_version st) (prog_version p) (prog_version_loc p)) as [rv es0] eqn:Ev. destruct (visit_version_ok _ _ _ _ _ Ev) as [v ->].
  unfold grammar_program in Hp. rewrite Ep in Hp. pose proof Hp as Hp0. apply Forall_app in Hp. destruct Hp as [Hp1 Hp2].
  set (p' := with_statements _ p).
  assert (Hp' : grammar_program p'). { apply Forall_app. split; [exact Hp1|]. constructor; [|exact Hp2]. split; [reflexivity|]. split; [reflexivity|exact I]. }
  assert (Hpp : grammar_program p) by (unfold grammar_program; rewrite Ep; exact Hp0).
  assert (Nd : forall s, In s ss1 -> ~ legal_declaration n s).
  { intros s Is (l0 & t0 & an & ty0 & -> & _). apply N2. unfold declared_names. apply in_flat_map. exists (SVariable l0 n t0 an). split; [apply in_or_app; now left|now left]. }
  assert (N2' : ~ In n (declared_names ss2)) by (unfold declared_names in *; rewrite flat_map_app, in_app_iff in N2; tauto).
  assert (Ev' : visit_version (api_version st) (prog_version p') (prog_version_loc p') = (Ok v, es0)) by exact Ev.
  assert (Eb : prog_block_loc p' = prog_block_loc p) by reflexivity. assert (Ep' : prog_statements p' = (ss1 ++ SVariable l n t [] :: ss2)%list) by reflexivity.
  assert (Hv : prog_version_loc p' = prog_version_loc p) by reflexivity. clearbody p'.
  pose proof (analyze_cases lm st p v es0 H Hpp Ev) as C. pose proof (analyze_cases lm st p' v es0 H Hp' Ev') as C'. rewrite Eb, Ep' in C'. rewrite Ep in C.
  rewrite visit_block_app in C, C'.
  destruct (visit_block (prog_block_loc p) st ss1) as [[st1|e|w|k] es1] eqn:B1.
  2: { cbn [lbind] in C. destruct C as [(? & ? & C & _)|(? & ? & C & _)]; discriminate C. }
  2: { cbn [lbind] in C. destruct C as [(? & ? & C & _)|(? & ? & C & _)]; discriminate C. }
  2: { cbn [lbind] in C, C'. destruct C as [(? & ? & C & _)|(k1 & ? & C & ->)]; [discriminate C|]. destruct C' as [(? & ? & C' & _)|(k2 & ? & C' & ->)]; [discriminate C'|].
       injection C as <- _. injection C' as <- _. reflexivity. }
  cbn [lbind] in C, C'. apply block_run_iff in B1.
  assert (O1 : ordinary lm st1) by (eapply ordinary_extends; [exact O|]; eapply block_extends, B1).
  assert (I1 : inv true st1). { eapply inv_block; [exact B1|exact O|exact Iv|]. intros _. eapply Forall_impl; [|exact Hp1]. intros s (_ & Q & _). exact Q. }
  assert (Bd : ids_below st1) by (eapply ids_block; [exact B1|]; eapply ids_analyses, H).
  assert (Nn : ~ In n (names_here st1)). { rewrite (block_names _ _ _ _ n B1). intros [Q|(s & Is & L)]; [exact (N1 Q)|exact (Nd s Is L)]. }
  rewrite visit_block_cons, (visit_declaration lm st1 l n t ty O1 D Nn) in C'. cbn [lbind app] in C'.
  set (x := mkSemVariable (mkVariable (next_id st1) n ty) []) in *.
  pose proof (declaration_matches lm st1 n ty O1 I1 Bd (declares_type_declared _ _ _ _ D) Nn) as M. cbv zeta in M. fold x in M.
  assert (L := matches_block same_name (make_room (next_id st1)) lm (fun m => m <> n) (fun a b _ _ E => E) True _ _ _ _ (prog_block_loc p) ss2 _ _ M (within_not n ss2 N2' F)).
  rewrite rename_same_statements in L.
  set (st1' := map_current _ (fresh st1)) in *. clearbody st1'.
  destruct (visit_block (prog_block_loc p) st1 ss2) as [[st2|e|w|k] es2] eqn:B2; [| | |].
  - destruct C as [(st2' & es & C & ->)|(k & es & C & _)]; [|discriminate C]. injection C as <- <-.
    destruct L as [L1 L2]. cbn [fst snd] in L1, L2. destruct (visit_block (prog_block_loc p) st1' ss2) as [[st2''|e|w|k] es2'] eqn:B2'; cbn in L1; try contradiction.
    destruct C' as [(st3 & es & C' & ->)|(k & es & C' & _)]; [|discriminate C']. cbn [lbind] in C'. injection C' as <- <-. apply renamed_same_errors in L2. cbn [snd] in L2. subst es2'.
    cbn [map_outcome bind outcomes snd]. exists (next_id st1). fold x. destruct L1 as [_ Lv _ _ (vs & Ev1 & Ev2) (xs & Ex1 & Ex2) Ll].
    split; [reflexivity|]. eexists _, _. split; [reflexivity|]. split; [reflexivity|]. cbn [program_of sp_api_version sp_version sp_version_loc sp_variables sp_block blk_statements blk_loc].
    split; [reflexivity|]. split; [reflexivity|]. split; [exact Hv|]. split; [|split].
    + exists (variables_of st1), vs. cbn [x sv_var var_id]. rewrite Ev1, Ev2, <- app_assoc. split; [reflexivity|]. split; [reflexivity|]. split; [exact Bd|].
      apply block_run_iff, block_ids in B2. destruct B2 as (vs' & E & _ & F'). rewrite Ev1 in E. apply app_inv_head in E. subst vs'. eapply Forall_impl; [|exact F']. cbn. intros. lia.
    + cbn [x sv_var var_id]. rewrite Ex1, Ex2, map_app. f_equal. symmetry. apply kept_statements. eapply Forall_impl; [|exact (inv_statements _ _ I1)].
      intros y [Fy _]. eapply Forall_impl; [|exact Fy]. intros w. apply value_ok_kept; [exact I1|exact Bd].
    + exact (Ll I).
  - destruct C as [(? & ? & C & _)|(? & ? & C & _)]; discriminate C.
  - destruct C as [(? & ? & C & _)|(? & ? & C & _)]; discriminate C.
  - destruct C as [(? & ? & C & _)|(k1 & ? & C & ->)]; [discriminate C|]. injection C as <- _.
    destruct L as [L1 _]. cbn [fst] in L1. destruct (visit_block (prog_block_loc p) st1' ss2) as [[st2''|e|w|k'] es2'] eqn:B2'; cbn in L1; try contradiction. subst k'.
    destruct C' as [(st3 & es & C' & _)|(k1 & es & C' & ->)]; [discriminate C'|]. cbn [lbind] in C'. injection C' as <- _. reflexivity.
Qed.

(** ** Instructions (C78) *)
(** States that differ only in the block of the current scope *)
Definition same_but_block (st st' : analyzer) : Prop :=
  api_version st' = api_version st /\ next_id st' = next_id st /\
  exists s s' r, scopes st = s :: r /\ scopes st' = s' :: r /\ sc_variables_table s' = sc_variables_table s /\
    sc_functions s' = sc_functions s /\ sc_instructions s' = sc_instructions s /\ sc_variables s' = sc_variables s.
Lemma same_block_refl lm st : ordinary lm st -> same_but_block st st.
Proof. intros O. destruct (ordinary_scopes lm st O) as (s & r & E). split; [reflexivity|]. split; [reflexivity|]. exists s, s, r. auto 10. Qed.
Lemma same_block_sym st st' : same_but_block st st' -> same_but_block st' st.
Proof. intros (V & N & s & s' & r & E & E' & T & F & J & W). split; [easy|]. split; [easy|]. exists s', s, r. auto 10. Qed.
Lemma same_block_trans a b c : same_but_block a b -> same_but_block b c -> same_but_block a c.
Proof.
  intros (V & N & s & s' & r & E & E' & T & F & J & W) (V2 & N2 & t & t' & r2 & G & G' & T2 & F2 & J2 & W2). rewrite E' in G. injection G as <- <-.
  split; [congruence|]. split; [congruence|]. exists s, t', r. repeat (split; [assumption || congruence|]). congruence.
Qed.
Lemma instruction_step lm st s st' es : ordinary lm st -> plain s -> ~ is_declaration s -> visit_statement st s = (Ok st', es) ->
  exists xs, gives s xs es /\ same_but_block st st' /\ statements_of st' = (statements_of st ++ xs)%list.
Proof.
  intros O P N H. destruct (statement_contribution lm st s st' es O P H) as (c & C & _ & S & E & _).
  exists (new_statements c). split; [|split; [|exact S]].
  - destruct C as [l n t id ty D|l n t id ty e D L|s e L|l g sg ops vs i G|l n ops ps vs ws i Ei|l n code]; cbn in N; try tauto; cbn [new_statements new_errors] in *; subst es.
    + right. eexists. split; [reflexivity|]. split; [reflexivity|]. now constructor.
    + left. eexists. split; [reflexivity|]. split; [reflexivity|]. now constructor.
    + left. eexists. split; [reflexivity|]. split; [reflexivity|]. now constructor.
    + left. eexists. split; [reflexivity|]. split; [reflexivity|]. now constructor.
  - clear C S E c. apply statement_effect in H. destruct (ordinary_scopes lm st O) as (s0 & r & Es).
    assert (K : forall x, same_but_block st (map_current (with_statement x) st)).
    { intros x. unfold map_current. rewrite Es. split; [reflexivity|]. split; [reflexivity|]. exists s0, (with_statement x s0), r. cbn. auto 10. }
    destruct H; cbn in N; try tauto; try apply K. exact (same_block_refl lm st O).
Qed.
Lemma block_matches lm st st' : ordinary lm st -> ordinary lm st' -> same_but_block st st' ->
  matches same_name stay lm (fun _ => True) False (variables_of st) (variables_of st) (statements_of st) (statements_of st') st st'.
Proof.
  intros O O' (V & N & s & s' & r & E & E' & T & F & J & W). split.
  - split; [exact O|exact O'|]. intros n _. change (same_name n) with n. replace (resolve_variable st' n) with (resolve_variable st n).
    + destruct (resolve_variable st n); cbn; try reflexivity; [|apply renamed_same]. unfold image. symmetry. apply kept_value, stay_kept.
    + unfold resolve_variable. rewrite E, E'. cbn [resolve_variable_in]. now rewrite T.
  - exact V.
  - intros n _. change (same_name n) with n. unfold names_here. rewrite E, E', T. reflexivity.
  - intros k. unfold stay. now rewrite N.
  - exists []. unfold variables_of. rewrite E, E', W. cbn. now rewrite !app_nil_r.
  - exists []. cbn. now rewrite !app_nil_r.
  - contradiction.
Qed.
(** The rest of the program after such states *)
Lemma same_rest lm l ss st st' : ordinary lm st -> ordinary lm st' -> same_but_block st st' ->
  match visit_block l st ss, visit_block l st' ss with
  | (Ok st2, es2), (Ok st2', es2') => es2' = es2 /\ variables_of st2' = variables_of st2 /\
      exists xs, statements_of st2 = (statements_of st ++ xs)%list /\ statements_of st2' = (statements_of st' ++ xs)%list
  | (UB k, _), (UB k', _) => k = k'
  | (Ok _, _), _ | _, (Ok _, _) => False
  | _, _ => True
  end.
Proof.
  intros O O' S. assert (W : Forall (within (fun _ => True)) ss).
  { apply Forall_forall. intros s _. split; [intros e _|]; apply Forall_forall; intros; exact I. }
  assert (L := matches_block same_name stay lm (fun _ => True) (fun a b _ _ E => E) False _ _ _ _ l ss _ _ (block_matches lm st st' O O' S) W).
  rewrite rename_same_statements in L. destruct (visit_block l st ss) as [[a|e|w|k] es], (visit_block l st' ss) as [[a'|e'|w'|k'] es']; destruct L as [L1 L2]; cbn in L1; try contradiction; auto.
  cbn [snd] in L2. apply renamed_same_errors in L2. split; [exact L2|]. destruct L1 as [_ _ _ _ (vs & Ev1 & Ev2) (xs & Ex1 & Ex2) _].
  rewrite (map_same _ vs stay_variable) in Ev2. rewrite (map_same _ xs stay_statement) in Ex2. split; [congruence|]. exists xs. auto.
Qed.
Lemma gives_unique s xs es : gives s xs es -> (es = [] <-> xs <> []).
Proof. intros [(x & -> & -> & _)|(e & -> & -> & _)]; split; congruence. Qed.

Lemma instruction_removed lm st p ss1 s ss2 st' r' : analyses lm st -> grammar_program p -> prog_statements p = (ss1 ++ s :: ss2)%list -> ~ is_declaration s ->
  analyze_ast st p = Ok (st', r') ->
  exists st'' r, analyze_ast st (with_statements (ss1 ++ ss2) p) = Ok (st'', r) /\ one_more_instruction s r r'.
Proof.
  intros H Hp Ep N A. pose proof (analyses_ordinary lm st H) as O.
  destruct (visit_version (api_version st) (prog_version p) (prog_version_loc p)) as [rv es0] eqn:Ev. destruct (visit_version_ok _ _ _ _ _ Ev) as [v ->].
  unfold grammar_program in Hp. rewrite Ep in Hp. pose proof Hp as Hp0. apply Forall_app in Hp. destruct Hp as [Hp1 Hp2]. inversion Hp2 as [|? ? Hs Hp3]; subst.
  set (p' := with_statements _ p). assert (Hp' : grammar_program p') by (apply Forall_app; auto).
  assert (Hpp : grammar_program p) by (unfold grammar_program; rewrite Ep; exact Hp0).
  destruct (analyze_cases lm st p v es0 H Hpp Ev) as [(st3 & es & B & E)|(k & es & _ & E)]; [|congruence]. rewrite A in E. injection E as <- ->.
  rewrite Ep, visit_block_app in B. apply lbind_ok in B. destruct B as (st1 & es1 & es2 & B1 & B2 & ->). rewrite visit_block_cons in B2. apply lbind_ok in B2. destruct B2 as (st2 & es2' & es3 & B2 & B3 & ->).
  assert (O1 : ordinary lm st1) by (eapply ordinary_extends; [exact O|]; eapply block_extends, block_run_iff, B1).
  assert (O2 : ordinary lm st2) by (eapply ordinary_extends; [exact O1|]; eapply effect_extends, statement_effect, B2).
  destruct (instruction_step lm st1 s st2 es2' O1 (proj1 Hs) N B2) as (xs & G & S & Es).
  pose proof (same_rest lm (prog_block_loc p) ss2 st1 st2 O1 O2 S) as K. rewrite B3 in K.
  destruct (visit_block (prog_block_loc p) st1 ss2) as [[st4|e|w|k] es4] eqn:B4; try contradiction. destruct K as (-> & Ev' & ys & Ey1 & Ey2).
  destruct (analyze_cases lm st p' v es0 H Hp' Ev) as [(st5 & es & B & E)|(k & es & B & E)].
  - cbn [p' with_statements prog_statements prog_block_loc] in B. rewrite visit_block_app, B1 in B. cbn [lbind] in B. rewrite B4 in B. injection B as <- <-.
    eexists _, _. split; [exact E|]. exists (es0 ++ es1)%list, es2', es4, (statements_of st1), xs, ys. split; [exact G|]. cbn [res_errors]. rewrite !app_assoc. split; [reflexivity|]. split; [reflexivity|].
    eexists _, _. split; [reflexivity|]. split; [reflexivity|]. cbn. split; [reflexivity|]. split; [reflexivity|]. split; [reflexivity|]. split; [exact Ev'|]. split; [exact Ey1|].
    rewrite Ey2, Es, <- app_assoc. reflexivity.
  - cbn [p' with_statements prog_statements prog_block_loc] in B. rewrite visit_block_app, B1 in B. cbn [lbind] in B. rewrite B4 in B. discriminate B.
Qed.
Lemma instruction_swap lm st p ss1 s t ss2 st' r' : analyses lm st -> grammar_program p -> prog_statements p = (ss1 ++ s :: t :: ss2)%list -> ~ is_declaration s -> ~ is_declaration t ->
  analyze_ast st p = Ok (st', r') ->
  exists st'' r, analyze_ast st (with_statements (ss1 ++ t :: s :: ss2) p) = Ok (st'', r) /\ instructions_swapped s t r' r.
Proof.
  intros H Hp Ep N N' A. pose proof (analyses_ordinary lm st H) as O.
  destruct (visit_version (api_version st) (prog_version p) (prog_version_loc p)) as [rv es0] eqn:Ev. destruct (visit_version_ok _ _ _ _ _ Ev) as [v ->].
  unfold grammar_program in Hp. rewrite Ep in Hp. pose proof Hp as Hp0. apply Forall_app in Hp. destruct Hp as [Hp1 Hp2]. inversion Hp2 as [|? ? Hs Hp3]; subst. inversion Hp3 as [|? ? Ht Hp4]; subst.
  set (p' := with_statements _ p). assert (Hp' : grammar_program p') by (apply Forall_app; split; [exact Hp1|]; constructor; [exact Ht|]; constructor; [exact Hs|exact Hp4]).
  assert (Hpp : grammar_program p) by (unfold grammar_program; rewrite Ep; exact Hp0).
  destruct (analyze_cases lm st p v es0 H Hpp Ev) as [(st3 & es & B & E)|(k & es & _ & E)]; [|congruence]. rewrite A in E. injection E as <- ->.
  rewrite Ep, visit_block_app in B. apply lbind_ok in B. destruct B as (st1 & es1 & es2 & B1 & B2 & ->). rewrite !visit_block_cons in B2.
  apply lbind_ok in B2. destruct B2 as (st2 & ea & es3 & B2 & B3 & ->). rewrite visit_block_cons in B3. apply lbind_ok in B3. destruct B3 as (st4 & eb & ec & B3 & B4 & ->).
  assert (O1 : ordinary lm st1) by (eapply ordinary_extends; [exact O|]; eapply block_extends, block_run_iff, B1).
  assert (O2 : ordinary lm st2) by (eapply ordinary_extends; [exact O1|]; eapply effect_extends, statement_effect, B2).
  assert (O4 : ordinary lm st4) by (eapply ordinary_extends; [exact O2|]; eapply effect_extends, statement_effect, B3).
  destruct (instruction_step lm st1 s st2 ea O1 (proj1 Hs) N B2) as (xs & Gs & S1 & E1).
  destruct (instruction_step lm st2 t st4 eb O2 (proj1 Ht) N' B3) as (ys & Gt & S2 & E2).
  (* t first *)
  pose proof (same_rest lm None [t] st1 st2 O1 O2 S1) as K. rewrite !visit_block_cons, B3 in K. cbn [visit_block lbind lift] in K. unfold lift in K. cbn [lbind] in K.
  destruct (visit_statement st1 t) as [[st5|e|w|k] e5] eqn:B5; cbn [lbind] in K; try contradiction. rewrite !app_nil_r in K. destruct K as (<- & _ & zs & Z1 & Z2).
  assert (zs = ys) by (rewrite Z2 in E2; now apply app_inv_head in E2). subst zs.
  assert (O5 : ordinary lm st5) by (eapply ordinary_extends; [exact O1|]; eapply effect_extends, statement_effect, B5).
  destruct (instruction_step lm st1 t st5 eb O1 (proj1 Ht) N' B5) as (zs & _ & S5 & _).
  pose proof (same_rest lm None [s] st1 st5 O1 O5 S5) as K. rewrite !visit_block_cons, B2 in K. cbn [visit_block lbind lift] in K. unfold lift in K. cbn [lbind] in K.
  destruct (visit_statement st5 s) as [[st6|e|w|k] e6] eqn:B6; cbn [lbind] in K; try contradiction. rewrite !app_nil_r in K. destruct K as (-> & _ & us & U1 & U2).
  assert (us = xs) by (rewrite U1 in E1; now apply app_inv_head in E1). subst us.
  assert (O6 : ordinary lm st6) by (eapply ordinary_extends; [exact O5|]; eapply effect_extends, statement_effect, B6).
  destruct (instruction_step lm st5 s st6 ea O5 (proj1 Hs) N B6) as (us & _ & S6 & _).
  assert (S46 : same_but_block st4 st6).
  { eapply same_block_trans; [apply same_block_sym; eapply same_block_trans; [exact S1|exact S2]|]. eapply same_block_trans; eauto. }
  pose proof (same_rest lm (prog_block_loc p) ss2 st4 st6 O4 O6 S46) as K. rewrite B4 in K.
  destruct (visit_block (prog_block_loc p) st6 ss2) as [[st7|e|w|k] e7] eqn:B7; try contradiction. destruct K as (-> & Ev' & ws & W1 & W2).
  assert (B : visit_block (prog_block_loc p) st (ss1 ++ t :: s :: ss2) = (Ok st7, (es1 ++ eb ++ ea ++ ec)%list)).
  { rewrite visit_block_app, B1. cbn [lbind]. rewrite visit_block_cons, B5. cbn [lbind]. rewrite visit_block_cons, B6. cbn [lbind]. rewrite B7. reflexivity. }
  destruct (analyze_cases lm st p' v es0 H Hp' Ev) as [(st8 & es & B' & E)|(k & es & B' & E)]; cbn [p' with_statements prog_statements prog_block_loc] in B'; rewrite B in B'; [|discriminate B'].
  injection B' as <- <-. eexists _, _. split; [exact E|]. exists (es0 ++ es1)%list, ea, eb, ec, (statements_of st1), xs, ys, ws. split; [exact Gs|]. split; [exact Gt|].
  cbn [res_errors]. rewrite !app_assoc. split; [reflexivity|]. split; [reflexivity|].
  eexists _, _. split; [reflexivity|]. split; [reflexivity|]. cbn. split; [reflexivity|]. split; [reflexivity|]. split; [reflexivity|]. split; [exact Ev'|].
  rewrite W1, W2, E2, E1, U2, Z1, <- !app_assoc. auto.
Qed.
Lemma instructions_reordered lm st p ds ss ts st' r' : analyses lm st -> grammar_program p -> prog_statements p = (ds ++ ss)%list -> Forall (fun s => ~ is_declaration s) ss ->
  Permutation ss ts -> analyze_ast st p = Ok (st', r') ->
  exists st'' r, analyze_ast st (with_statements (ds ++ ts) p) = Ok (st'', r) /\ Permutation (res_errors r') (res_errors r) /\
    results_with r' r (fun q q' => sp_variables q' = sp_variables q /\ Permutation (blk_statements (sp_block q)) (blk_statements (sp_block q'))).
Proof.
  intros H Hp Ep F P A.
  assert (X : forall ss ts, Permutation ss ts -> forall p ds st' r', grammar_program p -> prog_statements p = (ds ++ ss)%list -> Forall (fun s => ~ is_declaration s) ss -> analyze_ast st p = Ok (st', r') ->
    forall p', p' = with_statements (ds ++ ts) p -> exists st'' r, analyze_ast st p' = Ok (st'', r) /\ Permutation (res_errors r') (res_errors r) /\
      results_with r' r (fun q q' => sp_variables q' = sp_variables q /\ Permutation (blk_statements (sp_block q)) (blk_statements (sp_block q')))).
  2: { eapply X; eauto. }
  clear -H. intros ss ts P. induction P as [|s ss ts P IH|s t ss|ss ts us P1 IH1 P2 IH2]; intros p ds st' r' Hp Ep F A p' ->.
  - exists st', r'. replace (with_statements (ds ++ []) p) with p by (destruct p; cbn in *; now subst). split; [exact A|]. split; [reflexivity|].
    destruct (analyze_ast_inv _ _ _ _ A) as (v & e1 & e2 & s & rest & _ & _ & _ & -> & _). eexists _, _. split; [reflexivity|]. split; [reflexivity|]. auto 10.
  - inversion F; subst. eapply (IH p (ds ++ [s])%list); eauto; [now rewrite <- app_assoc|]. f_equal. now rewrite <- app_assoc.
  - inversion F as [|? ? N1 F1]; subst. inversion F1 as [|? ? N2 F2]; subst.
    destruct (instruction_swap lm st p ds _ _ ss st' r' H Hp Ep N1 N2 A) as (st'' & r & E & es1 & es & fs & es2 & xs1 & xs & ys & xs2 & _ & _ & E1 & E2 & q & q' & Q1 & Q2 & V1 & V2 & V3 & W & X1 & X2).
    exists st'', r. split; [exact E|]. rewrite E1, E2. split; [apply Permutation_app_head; rewrite !app_assoc; apply Permutation_app_tail, Permutation_app_comm|].
    exists q, q'. repeat (split; [assumption|]). rewrite X1, X2. apply Permutation_app_head. rewrite !app_assoc. apply Permutation_app_tail, Permutation_app_comm.
  - destruct (IH1 p ds st' r' Hp Ep F A _ eq_refl) as (st1 & r1 & E1 & P3 & q & q1 & Q & Q1 & V1 & V2 & V3 & W & X1).
    destruct (IH2 (with_statements (ds ++ ts) p) ds st1 r1) with (p' := with_statements (ds ++ us) p) as (st2 & r2 & E2 & P4 & q1' & q2 & Q1' & Q2 & V1' & V2' & V3' & W' & X2); try reflexivity.
    + unfold grammar_program in *. cbn. rewrite Ep in Hp. apply Forall_app in Hp. destruct Hp as [G1 G2]. apply Forall_app. split; [exact G1|]. eapply Permutation_Forall; eauto.
    + eapply Permutation_Forall; eauto.
    + exact E1.
    + exists st2, r2. split; [exact E2|]. split; [eapply Permutation_trans; eauto|]. rewrite Q1 in Q1'. injection Q1' as <-. exists q, q2. split; [exact Q|]. split; [exact Q2|].
      split; [congruence|]. split; [congruence|]. split; [congruence|]. split; [congruence|]. eapply Permutation_trans; eauto.
Qed.
