(** Effects of statements and blocks on the analyzer (C35-C44, C58, C60, C62). *)
From Coq Require Import SpecFloat ZifyBool.
From Verif Require Import Base ModelUtils ModelVersion ModelError ModelTypes ModelOverload ModelFunctions
  ModelInstructionSet ModelAst ModelAnalyzer ModelSemantic SpecTypes SpecFunctions SpecInstructions SpecAnalyzer
  ProofsTypes ProofsFunctions ProofsFolding ProofsExpr ProofsInstructions ProofsGates.
Local Open Scope string_scope.

(** ** Logged computations *)
Lemma lbind_ok {A B} (m : logged A) (f : A -> logged B) b es : lbind m f = (Ok b, es) ->
  exists a e1 e2, m = (Ok a, e1) /\ f a = (Ok b, e2) /\ es = (e1 ++ e2)%list.
Proof.
  destruct m as [[a|e|w|k] e1]; cbn [lbind]; try discriminate. destruct (f a) as [r e2] eqn:E.
  intros [= -> <-]. exists a, e1, e2. auto.
Qed.
Lemma lbind_err {A B} (m : logged A) (f : A -> logged B) e es : lbind m f = (Err e, es) ->
  m = (Err e, es) \/ exists a e1 e2, m = (Ok a, e1) /\ f a = (Err e, e2) /\ es = (e1 ++ e2)%list.
Proof.
  destruct m as [[a|e'|w|k] e1]; cbn [lbind]; try discriminate.
  - destruct (f a) as [r e2] eqn:E. intros [= -> <-]. right. exists a, e1, e2. auto.
  - intros [= -> ->]. now left.
Qed.
Lemma lift_ok {A} (m : outcome error A) a es : lift m = (Ok a, es) -> m = Ok a /\ es = [].
Proof. intros [= -> <-]. auto. Qed.
Lemma catch_log_inv {A} l (d : A) m a es : catch_log l d m = (Ok a, es) ->
  m = (Ok a, es) \/ exists e es1, m = (Err e, es1) /\ a = d /\ es = (es1 ++ [error_context l e])%list.
Proof.
  destruct m as [[x|e|w|k] e1]; cbn [catch_log]; try discriminate.
  - auto.
  - intros [= <- <-]. right. eauto.
Qed.
Lemma catch_log_not_err {A} l (d : A) m e es : catch_log l d m <> (Err e, es).
Proof. destruct m as [[x|e'|w|k] e1]; cbn [catch_log]; discriminate. Qed.
Lemma log_context_ok {A} l (m : logged A) a es : log_context l m = (Ok a, es) -> m = (Ok a, es).
Proof. unfold log_context. destruct m as [[x|e|w|k] e1]; cbn; try discriminate. auto. Qed.

(** Logs stay empty *)
Definition quiet {A} (m : logged A) : Prop := snd m = [].
Lemma quiet_lift {A} (m : outcome error A) : quiet (lift m). Proof. reflexivity. Qed.
Lemma quiet_lbind {A B} (m : logged A) (f : A -> logged B) : quiet m -> (forall a, quiet (f a)) -> quiet (lbind m f).
Proof.
  unfold quiet. intros H1 H2. destruct m as [[a|e|w|k] e1]; cbn [lbind]; try exact H1. cbn in H1. subst e1.
  specialize (H2 a). destruct (f a) as [r e2]. exact H2.
Qed.
Lemma quiet_context {A} l (m : logged A) : quiet m -> quiet (log_context l m).
Proof. exact (fun H => H). Qed.

(** ** Annotations *)
Lemma annotation_operands_no_err st l es e log : visit_annotation_operands st l es <> (Err e, log).
Proof.
  revert log. induction es as [|a es IH]; intros log; cbn [visit_annotation_operands]; [discriminate|]. intros H.
  apply lbind_err in H. destruct H as [H|(v & e1 & e2 & _ & H & _)]; [exact (catch_log_not_err _ _ _ _ _ H)|].
  apply lbind_err in H. destruct H as [H|(vs & e3 & e4 & _ & H & _)]; [exact (IH _ H)|]. discriminate.
Qed.
Lemma annotated_no_err st l e log : visit_annotated st l <> (Err e, log).
Proof.
  revert log. induction l as [|a l IH]; intros log; cbn [visit_annotated]; [discriminate|]. intros H.
  apply lbind_err in H. destruct H as [H|(v & e1 & e2 & _ & H & _)].
  - unfold visit_annotation_data in H. apply lbind_err in H. destruct H as [H|(v & e1 & e2 & _ & H & _)]; [|discriminate].
    exact (annotation_operands_no_err _ _ _ _ _ H).
  - apply lbind_err in H. destruct H as [H|(vs & e3 & e4 & _ & H & _)]; [exact (IH _ H)|]. discriminate.
Qed.

Fixpoint gate_ind_full (P : gate -> Prop)
  (H1 : forall l n ps an, P (Gate l n None ps an))
  (H2 : forall l n g ps an, P g -> P (Gate l n (Some g) ps an)) (g : gate) : P g :=
  match g with
  | Gate l n None ps an => H1 l n ps an
  | Gate l n (Some g') ps an => H2 l n g' ps an (gate_ind_full P H1 H2 g')
  end.

Lemma visit_gate_unfold st l name inner params annots : visit_gate st (Gate l name inner params annots) =
  log_context l
    (let* inner' := match inner with
                    | None => lift (Ok None)
                    | Some g' => let* r := visit_gate st g' in lift (Ok (Some r))
                    end in
     let* ps := lift (visit_expression_list st params) in
     let* ps' := lift (resolve_parameters name ps) in
     let* _ := lift (check_gate inner') in
     let* ans := visit_annotated st annots in
     lift (Ok (SemGate l name inner' ps' ans))).
Proof. reflexivity. Qed.

Lemma quiet_gate st g : plain_gate g -> quiet (visit_gate st g).
Proof.
  induction g as [l n ps an|l n g ps an IH] using gate_ind_full; intros [-> H]; rewrite visit_gate_unfold; apply quiet_context;
    (apply quiet_lbind; [try apply quiet_lift|intros i; apply quiet_lbind; [apply quiet_lift|intros vs; apply quiet_lbind; [apply quiet_lift|
     intros ws; apply quiet_lbind; [apply quiet_lift|intros _; reflexivity]]]]).
  apply quiet_lbind; [now apply IH|]. intros r. apply quiet_lift.
Qed.

(** ** Updates of the current scope *)
Definition map_current (f : scope -> scope) (st : analyzer) : analyzer :=
  match scopes st with
  | [] => st
  | s :: rest => mkAnalyzer (api_version st) (f s :: rest) (next_id st)
  end.
Definition with_statement (x : sem_statement) (s : scope) : scope :=
  mkScope (sc_variables_table s) (sc_functions s) (sc_instructions s) (block_add x (sc_block s)) (sc_variables s).
Definition with_variable (v : sem_variable) (s : scope) : scope :=
  mkScope (sc_variables_table s) (sc_functions s) (sc_instructions s) (sc_block s) (sc_variables s ++ [v])%list.
Definition with_entry (n : string) (v : value) (s : scope) : scope :=
  mkScope (sc_variables_table s ++ [(n, v)])%list (sc_functions s) (sc_instructions s) (sc_block s) (sc_variables s).

Lemma add_statement_inv st x st' : add_statement st x = Ok st' -> scopes st <> [] /\ st' = map_current (with_statement x) st.
Proof.
  unfold add_statement, update_current, map_current. destruct (scopes st); [discriminate|]. cbn [bind]. intros [= <-].
  split; [discriminate|reflexivity].
Qed.
Lemma add_statement_not_err st x e : add_statement st x <> Err e.
Proof. unfold add_statement, update_current. destruct (scopes st); discriminate. Qed.
Lemma add_variable_inv st v st' : add_variable st v = Ok st' -> scopes st <> [] /\ st' = map_current (with_variable v) st.
Proof.
  unfold add_variable, update_current, map_current. destruct (scopes st); [discriminate|]. cbn [bind]. intros [= <-].
  split; [discriminate|reflexivity].
Qed.
Lemma add_variable_not_err st x e : add_variable st x <> Err e.
Proof. unfold add_variable, update_current. destruct (scopes st); discriminate. Qed.
Lemma table_find_In {A} n (t : list (string * A)) : table_find n t = None <-> ~ In n (map fst t).
Proof.
  induction t as [|[m a] t IH]; cbn; [tauto|]. destruct (String.eqb_spec m n) as [->|N].
  - split; [discriminate|]. intros H. destruct H. now left.
  - rewrite IH. split; [intros H [E|E]; auto|]. auto.
Qed.
Lemma register_variable_inv st n v :
  (exists st', register_variable st n v = Ok st' /\ scopes st <> [] /\ ~ In n (names_here st) /\ st' = map_current (with_entry n v) st) \/
  (exists e, register_variable st n v = Err e /\ In n (names_here st) /\ location e = None) \/
  (scopes st = [] /\ exists k, register_variable st n v = UB k).
Proof.
  unfold register_variable, update_current, map_current, names_here. destruct (scopes st) as [|s rest]; [right; right; eauto|].
  unfold variable_add. destruct (table_find n (sc_variables_table s)) eqn:E; cbn [bind].
  - right; left. eexists. split; [reflexivity|]. split; [|reflexivity].
    destruct (in_dec string_dec n (map fst (sc_variables_table s))) as [I|I]; [exact I|]. apply table_find_In in I. congruence.
  - left. eexists. split; [reflexivity|]. split; [discriminate|]. split; [now apply table_find_In|reflexivity].
Qed.

Lemma build_type_spec t : (exists ty, build_semantic_type t = Ok ty /\ declares_type t ty) \/
  (exists e, build_semantic_type t = Err e /\ location e = None /\ forall ty, ~ declares_type t ty).
Proof.
  destruct t as [l n sz]. unfold build_semantic_type. cbn [ty_name ty_size].
  destruct (String.eqb_spec n "qubit") as [->|N1]; [|destruct (String.eqb_spec n "bit") as [->|N2]].
  - unfold build_type. destruct sz as [z|]; [|left; eexists; split; [reflexivity|constructor]].
    destruct (Z.ltb_spec 0 z); [left; eexists; split; [reflexivity|now constructor]|].
    right. eexists. split; [reflexivity|]. split; [reflexivity|]. intros ty H'. inversion H'; lia.
  - unfold build_type. destruct sz as [z|]; [|left; eexists; split; [reflexivity|constructor]].
    destruct (Z.ltb_spec 0 z); [left; eexists; split; [reflexivity|now constructor]|].
    right. eexists. split; [reflexivity|]. split; [reflexivity|]. intros ty H'. inversion H'; lia.
  - right. eexists. split; [reflexivity|]. split; [reflexivity|]. intros ty H'. inversion H'; congruence.
Qed.
Lemma declares_type_declared t ty id n : declares_type t ty -> declared (mkVariable id n ty).
Proof. intros H. destruct H; cbn; auto. Qed.

(** ** Effect of one statement *)
Inductive effect (st : analyzer) : statement -> analyzer -> list error -> Prop :=
| eff_bad_type l n t an e : (forall ty, ~ declares_type t ty) -> location e = None ->
    effect st (SVariable l n t an) (fresh st) [error_context l e]
| eff_declare l n t an ty ans es : declares_type t ty -> visit_annotated (fresh st) an = (Ok ans, es) ->
    scopes st <> [] -> ~ In n (names_here st) ->
    effect st (SVariable l n t an)
      (map_current (fun s => with_entry n (VVar (mkVariable (next_id st) n ty))
                              (with_variable (mkSemVariable (mkVariable (next_id st) n ty) ans) s)) (fresh st)) es
| eff_redeclare l n t an ty ans es e : declares_type t ty -> visit_annotated (fresh st) an = (Ok ans, es) ->
    scopes st <> [] -> In n (names_here st) -> location e = None ->
    effect st (SVariable l n t an)
      (map_current (with_variable (mkSemVariable (mkVariable (next_id st) n ty) ans)) (fresh st)) (es ++ [error_context l e])
| eff_gate l g ops an sg es1 vs i ws ans es2 : visit_gate st g = (Ok sg, es1) -> visit_expression_list st ops = Ok vs ->
    resolve_instruction st (gate_resolution_name sg) vs = Ok (i, ws) -> check_gate_operands ws = Ok tt ->
    visit_annotated st an = (Ok ans, es2) -> scopes st <> [] ->
    effect st (SGateInstr l g ops an) (map_current (with_statement (SemGateInstr l i sg ws ans)) st) (es1 ++ es2)
| eff_non_gate l n ops ps an vs i ws pvs pws ans es : visit_expression_list st ops = Ok vs ->
    resolve_instruction st n vs = Ok (i, ws) -> visit_expression_list st ps = Ok pvs -> resolve_parameters n pvs = Ok pws ->
    check_non_gate_operands n ws = Ok tt -> visit_annotated st an = (Ok ans, es) -> scopes st <> [] ->
    effect st (SNonGate l n ops ps an) (map_current (with_statement (SemNonGate l i n ws pws ans)) st) es
| eff_asm l n c an ans es : visit_annotated st an = (Ok ans, es) -> scopes st <> [] ->
    effect st (SAsm l n c an) (map_current (with_statement (SemAsm l n c ans)) st) es
| eff_fails l s e es : l = statement_loc s -> (plain s -> es = []) -> (forall l n t an, s <> SVariable l n t an) ->
    effect st s st (es ++ [error_context l e]).

Lemma statement_effect st s st' es : visit_statement st s = (Ok st', es) -> effect st s st' es.
Proof.
  destruct s as [l n t an|l g ops an|l n ops ps an|l n c an]; cbn [visit_statement]; intros H.
  - unfold visit_variable in H. apply catch_log_inv in H. destruct H as [H|(e & es1 & H & -> & ->)].
    + apply lbind_ok in H. destruct H as (ty & e1 & e2 & E1 & H & ->). apply lift_ok in E1. destruct E1 as [Et ->].
      apply lbind_ok in H. destruct H as (ans & e3 & e4 & E2 & H & ->).
      apply lbind_ok in H. destruct H as (st1 & e5 & e6 & E3 & H & ->). apply lift_ok in E3. destruct E3 as [Ea ->].
      apply add_variable_inv in Ea. destruct Ea as [Ns ->].
      assert (D : declares_type t ty).
      { destruct (build_type_spec t) as [(ty' & B & D)|(e & B & _)]; [|congruence]. rewrite Et in B. injection B as <-. exact D. }
      assert (NE : names_here (map_current (with_variable (mkSemVariable (mkVariable (next_id st) n ty) ans)) (fresh st)) = names_here st).
      { unfold names_here, map_current, fresh. cbn. destruct (scopes st) eqn:Es; cbn; rewrite ?Es; reflexivity. }
      cbn [app].
      apply catch_log_inv in H. destruct H as [H|(e & es1 & H & -> & ->)].
      * apply lift_ok in H. destruct H as [Hr ->]. rewrite app_nil_r.
        destruct (register_variable_inv (map_current (with_variable (mkSemVariable (mkVariable (next_id st) n ty) ans)) (fresh st)) n
                   (VVar (mkVariable (next_id st) n ty))) as [(st2 & Er & _ & Ni & ->)|[(e & Er & _)|(_ & k & Er)]]; try congruence.
        rewrite Er in Hr. injection Hr as <-. rewrite NE in Ni.
        replace (map_current (with_entry n _) _) with
          (map_current (fun s => with_entry n (VVar (mkVariable (next_id st) n ty))
                              (with_variable (mkSemVariable (mkVariable (next_id st) n ty) ans) s)) (fresh st)).
        2:{ unfold map_current, fresh. cbn. destruct (scopes st) eqn:Es; cbn; rewrite ?Es; reflexivity. }
        now constructor.
      * injection H as Hr <-.
        destruct (register_variable_inv (map_current (with_variable (mkSemVariable (mkVariable (next_id st) n ty) ans)) (fresh st)) n
                   (VVar (mkVariable (next_id st) n ty))) as [(st2 & Er & _)|[(e' & Er & Ni & Le)|(_ & k & Er)]]; try congruence.
        assert (e' = e) by congruence. subst e'. rewrite NE in Ni. now constructor.
    + apply lbind_err in H. destruct H as [H|(ty & e1 & e2 & E1 & H & ->)].
      * injection H as Et <-. destruct (build_type_spec t) as [(ty' & B & D)|(e' & B & L & D)]; [congruence|].
        assert (e' = e) by congruence. subst. cbn [app]. now constructor.
      * exfalso. apply lbind_err in H. destruct H as [H|(ans & e3 & e4 & E2 & H & ->)]; [exact (annotated_no_err _ _ _ _ H)|].
        apply lbind_err in H. destruct H as [H|(st1 & e5 & e6 & E3 & H & ->)]; [injection H as H _; exact (add_variable_not_err _ _ _ H)|].
        exact (catch_log_not_err _ _ _ _ _ H).
  - unfold visit_gate_instruction in H. apply catch_log_inv in H. destruct H as [H|(e & es1 & H & -> & ->)].
    + apply lbind_ok in H. destruct H as (sg & e1 & e2 & E1 & H & ->).
      apply lbind_ok in H. destruct H as (vs & e3 & e4 & E2 & H & ->). apply lift_ok in E2. destruct E2 as [E2 ->].
      apply lbind_ok in H. destruct H as ([i ws] & e5 & e6 & E3 & H & ->). apply lift_ok in E3. destruct E3 as [E3 ->].
      apply lbind_ok in H. destruct H as ([] & e7 & e8 & E4 & H & ->). apply lift_ok in E4. destruct E4 as [E4 ->].
      apply lbind_ok in H. destruct H as (ans & e9 & e10 & E5 & H & ->). apply lift_ok in H. destruct H as [H ->].
      apply add_statement_inv in H. destruct H as [Ns ->]. cbn [app fst snd] in *. rewrite app_nil_r. econstructor; eauto.
    + apply eff_fails; [reflexivity| |discriminate]. intros [Pg ->].
      match type of H with ?m = _ => assert (Q : quiet m) end.
      { apply quiet_lbind; [now apply quiet_gate|]. intros sg. apply quiet_lbind; [apply quiet_lift|]. intros vs.
        apply quiet_lbind; [apply quiet_lift|]. intros r. apply quiet_lbind; [apply quiet_lift|]. intros _. now apply quiet_lbind. }
      rewrite H in Q. exact Q.
  - unfold visit_non_gate_instruction in H. apply catch_log_inv in H. destruct H as [H|(e & es1 & H & -> & ->)].
    + apply lbind_ok in H. destruct H as (vs & e1 & e2 & E1 & H & ->). apply lift_ok in E1. destruct E1 as [E1 ->].
      apply lbind_ok in H. destruct H as ([i ws] & e3 & e4 & E2 & H & ->). apply lift_ok in E2. destruct E2 as [E2 ->].
      apply lbind_ok in H. destruct H as (pvs & e5 & e6 & E3 & H & ->). apply lift_ok in E3. destruct E3 as [E3 ->].
      apply lbind_ok in H. destruct H as (pws & e7 & e8 & E4 & H & ->). apply lift_ok in E4. destruct E4 as [E4 ->].
      apply lbind_ok in H. destruct H as ([] & e9 & e10 & E5 & H & ->). apply lift_ok in E5. destruct E5 as [E5 ->].
      apply lbind_ok in H. destruct H as (ans & e11 & e12 & E6 & H & ->). apply lift_ok in H. destruct H as [H ->].
      apply add_statement_inv in H. destruct H as [Ns ->]. cbn [app fst snd] in *. rewrite app_nil_r. econstructor; eauto.
    + apply eff_fails; [reflexivity| |discriminate]. intros ->.
      match type of H with ?m = _ => assert (Q : quiet m) end.
      { apply quiet_lbind; [apply quiet_lift|]. intros vs. apply quiet_lbind; [apply quiet_lift|]. intros r.
        apply quiet_lbind; [apply quiet_lift|]. intros pvs. apply quiet_lbind; [apply quiet_lift|]. intros pws.
        apply quiet_lbind; [apply quiet_lift|]. intros _. now apply quiet_lbind. }
      rewrite H in Q. exact Q.
  - unfold visit_asm_declaration in H. apply catch_log_inv in H. destruct H as [H|(e & es1 & H & -> & ->)].
    + apply lbind_ok in H. destruct H as (ans & e1 & e2 & E1 & H & ->). apply lift_ok in H. destruct H as [H ->].
      apply add_statement_inv in H. destruct H as [Ns ->]. rewrite app_nil_r. now constructor.
    + exfalso. apply lbind_err in H. destruct H as [H|(ans & e1 & e2 & E1 & H & ->)]; [exact (annotated_no_err _ _ _ _ H)|].
      injection H as H _. exact (add_statement_not_err _ _ _ H).
Qed.

(** visit_statement catches every analysis error, so the handler of visit_block
    never runs. *)
Lemma visit_statement_not_err st s e es : visit_statement st s <> (Err e, es).
Proof. destruct s; cbn [visit_statement]; apply catch_log_not_err. Qed.
Lemma visit_block_cons l st s ss : visit_block l st (s :: ss) = (let* st' := visit_statement st s in visit_block l st' ss).
Proof.
  cbn [visit_block]. f_equal. unfold catch_log. destruct (visit_statement st s) as [[a|e|w|k] es] eqn:E; try reflexivity.
  destruct (visit_statement_not_err _ _ _ _ E).
Qed.

(** ** Blocks *)
Inductive block_run : analyzer -> list statement -> analyzer -> list error -> Prop :=
| run_nil st : block_run st [] st []
| run_cons st s st1 es1 ss st2 es2 : visit_statement st s = (Ok st1, es1) -> block_run st1 ss st2 es2 ->
    block_run st (s :: ss) st2 (es1 ++ es2).
Lemma block_run_iff l st ss st' es : visit_block l st ss = (Ok st', es) <-> block_run st ss st' es.
Proof.
  revert st es. induction ss as [|s ss IH]; intros st es.
  - cbn. split; [intros [= <- <-]; constructor|]. intros H. inversion H. reflexivity.
  - rewrite visit_block_cons. split.
    + intros H. apply lbind_ok in H. destruct H as (st1 & e1 & e2 & H1 & H2 & ->). econstructor; [exact H1|]. now apply IH.
    + intros H. inversion H as [|? ? st1 es1 ? ? es2 H1 H2]; subst. rewrite H1. cbn [lbind]. apply IH in H2. now rewrite H2.
Qed.
Lemma block_run_app st ss1 ss2 st' es : block_run st (ss1 ++ ss2) st' es <->
  exists st1 es1 es2, block_run st ss1 st1 es1 /\ block_run st1 ss2 st' es2 /\ es = (es1 ++ es2)%list.
Proof.
  revert st es. induction ss1 as [|s ss1 IH]; intros st es; cbn [app].
  - split; [intros H; exists st, [], es; split; [constructor|auto]|]. intros (st1 & es1 & es2 & H1 & H2 & ->). inversion H1; subst. exact H2.
  - split.
    + intros H. inversion H as [|? ? st1 e1 ? ? e2 H1 H2]; subst. apply IH in H2. destruct H2 as (st2 & e3 & e4 & H3 & H4 & ->).
      exists st2, (e1 ++ e3)%list, e4. split; [exact (run_cons _ _ _ _ _ _ _ H1 H3)|]. split; [exact H4|]. apply app_assoc.
    + intros (st1 & es1 & es2 & H1 & H2 & ->). inversion H1 as [|? ? st2 e1 ? ? e2 H3 H4]; subst. rewrite <- app_assoc.
      econstructor; [exact H3|]. apply IH. exists st1, e2, es2. auto.
Qed.

(** ** Preservation *)
Lemma fresh_scopes st : scopes (fresh st) = scopes st. Proof. reflexivity. Qed.
Lemma map_current_scopes f st : scopes (map_current f st) = match scopes st with [] => [] | s :: r => f s :: r end.
Proof. unfold map_current. destruct (scopes st) eqn:E; [exact E|reflexivity]. Qed.

(** What no statement changes: the scopes below the current one, and the
    functions and instructions of the current one. Its table only grows, by
    entries for declared variables; so do its variables and its statements. *)
Record extends (s s' : scope) : Prop := {
  ext_functions : sc_functions s' = sc_functions s;
  ext_instructions : sc_instructions s' = sc_instructions s;
  ext_table : exists t, sc_variables_table s' = (sc_variables_table s ++ t)%list /\
    Forall (fun e => exists x, snd e = VVar x /\ declared x) t;
  ext_variables : exists vs, sc_variables s' = (sc_variables s ++ vs)%list;
  ext_statements : exists xs, blk_statements (sc_block s') = (blk_statements (sc_block s) ++ xs)%list }.
Definition state_extends (st st' : analyzer) : Prop :=
  api_version st' = api_version st /\
  match scopes st, scopes st' with
  | [], [] => True
  | s :: r, s' :: r' => extends s s' /\ r' = r
  | _, _ => False
  end.
Lemma extends_refl s : extends s s.
Proof.
  constructor; try reflexivity; exists []; rewrite app_nil_r; auto.
Qed.
Lemma extends_trans a b c : extends a b -> extends b c -> extends a c.
Proof.
  intros [F1 I1 (t1 & T1 & D1) (v1 & V1) (x1 & X1)] [F2 I2 (t2 & T2 & D2) (v2 & V2) (x2 & X2)]. constructor; try congruence.
  - exists (t1 ++ t2)%list. rewrite T2, T1, app_assoc. split; [reflexivity|]. now apply Forall_app.
  - exists (v1 ++ v2)%list. rewrite V2, V1, app_assoc. reflexivity.
  - exists (x1 ++ x2)%list. rewrite X2, X1, app_assoc. reflexivity.
Qed.
Lemma state_extends_refl st : state_extends st st.
Proof. split; [reflexivity|]. destruct (scopes st); auto using extends_refl. Qed.
Lemma state_extends_trans a b c : state_extends a b -> state_extends b c -> state_extends a c.
Proof.
  intros [A1 H1] [A2 H2]. split; [congruence|]. destruct (scopes a), (scopes b), (scopes c); try contradiction; auto.
  destruct H1 as [H1 ->], H2 as [H2 ->]. split; [eapply extends_trans; eauto|reflexivity].
Qed.
Lemma map_current_extends f st : (forall s, extends s (f s)) -> state_extends st (map_current f st).
Proof.
  intros H. unfold state_extends, map_current. destruct (scopes st) eqn:E; cbn; rewrite ?E; auto.
Qed.
Lemma fresh_extends st : state_extends st (fresh st).
Proof. exact (state_extends_refl st). Qed.
Lemma with_statement_extends x s : extends s (with_statement x s).
Proof.
  constructor; try reflexivity; cbn.
  - exists []. rewrite app_nil_r. auto.
  - exists []. now rewrite app_nil_r.
  - now exists [x].
Qed.
Lemma with_variable_extends v s : extends s (with_variable v s).
Proof.
  constructor; try reflexivity; cbn.
  - exists []. rewrite app_nil_r. auto.
  - now exists [v].
  - exists []. now rewrite app_nil_r.
Qed.
Lemma with_entry_extends n x s : declared x -> extends s (with_entry n (VVar x) s).
Proof.
  intros D. constructor; try reflexivity; cbn.
  - exists [(n, VVar x)]. split; [reflexivity|]. constructor; [cbn; eauto|constructor].
  - exists []. now rewrite app_nil_r.
  - exists []. now rewrite app_nil_r.
Qed.

Lemma effect_extends st s st' es : effect st s st' es -> state_extends st st'.
Proof.
  intros H. destruct H as [l n t an e _ _|l n t an ty ans es D _ _ _|l n t an ty ans es e D _ _ _ _|l g ops an sg es1 vs i ws ans es2 _ _ _ _ _ _
    |l n ops ps an vs i ws pvs pws ans es _ _ _ _ _ _ _|l n c an ans es _ _|l s e es _ _ _].
  - apply fresh_extends.
  - apply (state_extends_trans _ (fresh st)); [apply fresh_extends|]. apply map_current_extends. intros s.
    eapply extends_trans; [apply with_variable_extends|]. apply with_entry_extends. eapply declares_type_declared; eauto.
  - apply (state_extends_trans _ (fresh st)); [apply fresh_extends|]. apply map_current_extends, with_variable_extends.
  - apply map_current_extends, with_statement_extends.
  - apply map_current_extends, with_statement_extends.
  - apply map_current_extends, with_statement_extends.
  - apply state_extends_refl.
Qed.
Lemma block_extends st ss st' es : block_run st ss st' es -> state_extends st st'.
Proof.
  induction 1 as [|st s st1 es1 ss st2 es2 H _ IH]; [apply state_extends_refl|].
  eapply state_extends_trans; [|exact IH]. eapply effect_extends, statement_effect, H.
Qed.

Lemma global_scope_last st inner g : scopes st = (inner ++ [g])%list -> global_scope st = Ok g.
Proof.
  unfold global_scope. intros ->. induction inner as [|s l IH]; [reflexivity|]. cbn [app last_scope].
  destruct (l ++ [g])%list eqn:E; [destruct l; discriminate|]. exact IH.
Qed.
Lemma ordinary_extends lm st st' : ordinary lm st -> state_extends st st' -> ordinary lm st'.
Proof.
  intros ((st0 & g0 & g & E0 & G0 & G & F) & (st0' & g0' & inner & g' & E0' & G0' & Es & In & Ig) & N) [_ X].
  rewrite E0 in E0'. injection E0' as <-. rewrite G0 in G0'. injection G0' as <-.
  rewrite (global_scope_last _ _ _ Es) in G. injection G as <-.
  assert (X' : exists inner2 g2, scopes st' = (inner2 ++ [g2])%list /\ Forall (fun s => sc_instructions s = []) inner2 /\
             sc_instructions g2 = sc_instructions g0 /\ sc_functions g2 = sc_functions g0).
  { rewrite Es in X. destruct inner as [|s inner]; cbn [app] in X.
    - destruct (scopes st') as [|s' r'] eqn:Es'; [contradiction|]. destruct X as [[Xf Xi _ _ _] ->].
      exists [], s'. cbn. split; [reflexivity|]. split; [constructor|]. split; congruence.
    - destruct (scopes st') as [|s' r'] eqn:Es'; [contradiction|]. destruct X as [[Xf Xi _ _ _] ->].
      exists (s' :: inner), g'. split; [reflexivity|]. split; [|split; congruence].
      inversion In; subst. constructor; [congruence|assumption]. }
  destruct X' as (inner2 & g2 & Es2 & In2 & Ig2 & F2). split; [|split].
  - exists st0, g0, g2. split; [exact E0|]. split; [exact G0|]. split; [eapply global_scope_last; eauto|exact F2].
  - exists st0, g0, inner2, g2. auto.
  - destruct (scopes st) as [|s r], (scopes st') as [|s' r']; try contradiction; [constructor|].
    destruct X as [[_ _ (t & T & D) _ _] ->]. inversion N; subst. constructor; [|assumption]. rewrite T. apply Forall_app. split; [assumption|].
    eapply Forall_impl; [|exact D]. cbn. intros [n v] (x & Ex & Dx). cbn [snd] in Ex |- *. rewrite Ex. exact Dx.
Qed.

Lemma visit_version_ok api v l r es : visit_version api v l = (r, es) -> exists v', r = Ok v'.
Proof.
  unfold visit_version. destruct (existsb _ v); cbn; [intros [= <- _]; eauto|]. destruct (negb _); cbn; intros [= <- _]; eauto.
Qed.
Lemma analyze_ast_inv st p st' r : analyze_ast st p = Ok (st', r) ->
  exists v es1 es2 s rest,
    visit_version (api_version st) (prog_version p) (prog_version_loc p) = (Ok v, es1) /\
    block_run st (prog_statements p) st' es2 /\ scopes st' = s :: rest /\
    r = mkResult (Some (mkSemProgram (api_version st) v (prog_version_loc p) (sc_block s) (sc_variables s))) (es1 ++ es2) /\
    ((es1 ++ es2)%list = [] -> program_well_formed (mkSemProgram (api_version st) v (prog_version_loc p) (sc_block s) (sc_variables s)) = true).
Proof.
  unfold analyze_ast. destruct (visit_program st p) as [[[st1 sp]|e|w|k] es] eqn:E; try discriminate. intros H.
  unfold visit_program in E. apply lbind_ok in E. destruct E as (v & e1 & e2 & Ev & E & ->).
  apply lbind_ok in E. destruct E as (st2 & e3 & e4 & Eb & E & ->). apply lbind_ok in E. destruct E as (sc & e5 & e6 & Es & E & ->).
  apply lift_ok in Es. destruct Es as [Es ->]. apply lift_ok in E. destruct E as [E ->]. injection E as <- <-.
  unfold current_scope in Es. destruct (scopes st2) as [|s rest] eqn:Sc; [discriminate|]. injection Es as ->.
  cbn [app] in H. rewrite app_nil_r in H. apply block_run_iff in Eb.
  exists v, e1, e3, sc, rest. destruct (e1 ++ e3)%list as [|x l].
  - destruct (program_well_formed _) eqn:W; [|discriminate]. injection H as <- <-. auto.
  - injection H as <- <-. split; [exact Ev|]. split; [exact Eb|]. split; [exact Sc|]. split; [reflexivity|discriminate].
Qed.
