(** Lemmas for C85: a result written as a program is analysed to the same result. *)
From Coq Require Import SpecFloat ZifyBool.
From Verif Require Import Base ModelUtils ModelVersion ModelError ModelTypes ModelOverload ModelFunctions ModelInstructionSet ModelAst ModelAnalyzer ModelSemantic
  SpecUtils SpecTypes SpecFunctions SpecInstructions SpecAnalyzer SpecMachine SpecFolded
  ProofsVersion ProofsTypes ProofsFunctions ProofsFolding ProofsExpr ProofsInstructions ProofsGates ProofsAnalyzer ProofsAnalyzer2 ProofsAnalyzer3 ProofsAnalyzer5 ProofsAnalyzer7 ProofsContext ProofsMachine.
Local Open Scope string_scope.

(** ** Values *)
Definition known (st : analyzer) (v : value) : Prop :=
  match v with
  | VInt z => fits z
  | VVar x => resolve_variable st (var_name x) = Ok (VVar x)
  | VIndex x idx => resolve_variable st (var_name x) = Ok (VVar x) /\ (kind (var_type x) = TQubitArray \/ kind (var_type x) = TBitArray) /\
                    Forall (fun i => 0 <= i < tsize (var_type x))%Z idx
  | _ => True
  end.
Lemma call_mul_f lm a b : call lm "operator*" [VFloat a; VFloat b] = Ok (VFloat (SFmul prec emax a b)).
Proof. overloads. run_call. reflexivity. Qed.
Lemma call_sub_f lm a b : call lm "operator-" [VFloat a; VFloat b] = Ok (VFloat (SFsub prec emax a b)).
Proof. overloads. run_call. reflexivity. Qed.
Lemma call_neg_f lm a : call lm "operator-" [VFloat a] = Ok (VFloat (SFopp a)).
Proof. overloads. run_call. reflexivity. Qed.
Lemma call_neg_i lm z : (- 2 ^ 63 < z < 2 ^ 63)%Z -> call lm "operator-" [VInt z] = Ok (VInt (- z)).
Proof. intros H. change (VInt z) with (value_of_number (NInt z)). rewrite call_neg. cbn [int_of]. unfold op_neg_i, int_result, ret_int64, in_int64, int64_min, int64_max. destruct ((_ <=? _)%Z && (_ <=? _)%Z)%bool eqn:E; [reflexivity|]. lia. Qed.
Lemma call_min lm : call lm "operator-" [VInt (- (2 ^ 63 - 1)); VInt 1] = Ok (VInt (- 2 ^ 63)).
Proof. overloads. run_call. reflexivity. Qed.

Lemma in_range_ok is n : Forall (fun i => 0 <= i < n)%Z is -> check_out_of_range is n = Ok tt.
Proof. induction 1 as [|i is H _ IH]; [reflexivity|]. cbn [check_out_of_range]. destruct ((i <? 0) || (n <=? i))%Z eqn:E; [lia|exact IH]. Qed.
Lemma items_visit st idx : mapM (visit_entry st) (map (fun i => IItem None (EInt None i)) idx) = Ok (map (fun i => [i]) idx).
Proof. induction idx as [|i idx IH]; [reflexivity|]. cbn [map mapM]. rewrite IH. reflexivity. Qed.
Lemma concat_ones (idx : list Z) : concat (map (fun i => [i]) idx) = idx.
Proof. induction idx as [|i idx IH]; [reflexivity|]. cbn. now rewrite IH. Qed.

Section State.
  Variables (lm : libm) (st : analyzer).
  Hypothesis Hst : ordinary lm st.
  Lemma visit_infinity : visit st write_infinity = Ok (VFloat (S754_infinity false)).
  Proof. unfold write_infinity. cbn [visit with_context bind expr_loc]. rewrite (resolve_function_call lm st _ _ (proj1 Hst)). cbn [binop_name]. rewrite call_mul_f. reflexivity. Qed.
  Lemma write_visits v : known st v -> visit st (write_value v) = Ok v.
  Proof.
    destruct v as [b|z|f|x|x idx]; cbn [known write_value].
    - reflexivity.
    - unfold fits. intros H. unfold write_int. destruct (Z.leb_spec 0 z) as [L|L]; [reflexivity|]. destruct (Z.eqb_spec z (- 2 ^ 63)) as [->|N].
      + cbn [visit with_context bind expr_loc]. rewrite !(resolve_function_call lm st _ _ (proj1 Hst)). cbn [unop_name binop_name].
        rewrite call_neg_i by lia. cbn [with_context bind]. rewrite (resolve_function_call lm st _ _ (proj1 Hst)). apply call_min.
      + cbn [visit with_context bind expr_loc]. rewrite !(resolve_function_call lm st _ _ (proj1 Hst)). cbn [unop_name]. rewrite call_neg_i by lia. do 2 f_equal. lia.
    - intros _. destruct f as [[]|[]| |[] m e]; cbn [write_float]; try reflexivity.
      + cbn [visit with_context bind expr_loc]. rewrite !(resolve_function_call lm st _ _ (proj1 Hst)). cbn [unop_name]. now rewrite call_neg_f.
      +
        change (visit st (EUnary None UMinus write_infinity)) with (let! v := with_context None (visit st write_infinity) in resolve_function st "operator-" [v]).
        rewrite visit_infinity. cbn [with_context bind]. rewrite (resolve_function_call lm st _ _ (proj1 Hst)). now rewrite call_neg_f.
      + exact visit_infinity.
      + change (visit st (EBinary None BSub write_infinity write_infinity)) with
          (let! v := with_context None (visit st write_infinity) in let! w := with_context None (visit st write_infinity) in resolve_function st "operator-" [v; w]).
        rewrite visit_infinity. cbn [with_context bind]. rewrite (resolve_function_call lm st _ _ (proj1 Hst)). now rewrite call_sub_f.
      + cbn [visit with_context bind expr_loc]. rewrite !(resolve_function_call lm st _ _ (proj1 Hst)). cbn [unop_name]. now rewrite call_neg_f.
    - intros H. exact H.
    - intros (R & K & F). rewrite visit_index_unfold. cbn [visit expr_loc]. rewrite R. cbn [with_context bind]. rewrite items_visit. cbn [bind]. rewrite concat_ones, (in_range_ok _ _ F).
      destruct K as [-> | ->]; reflexivity.
  Qed.
  Lemma write_visits_list vs : Forall (known st) vs -> visit_expression_list st (map write_value vs) = Ok vs.
  Proof.
    unfold visit_expression_list. induction 1 as [|v vs K _ IH]; [reflexivity|]. cbn [map mapM]. rewrite IH. unfold visit_expression. rewrite (write_visits v K). reflexivity.
  Qed.
End State.

(** ** Parameters *)
Lemma type_check_sym a b : type_check a b = type_check b a.
Proof. unfold type_check. destruct a as [ka na], b as [kb nb]. cbn. destruct ka, kb; cbn; try reflexivity; now rewrite Z.eqb_sym. Qed.
Lemma promote_again v t w : promote v t = Ok (Some w) -> ordinary_value v -> t = make_type (kind t) -> promote w t = Ok (Some w) /\ exists tw, type_of w = Ok tw /\ check_promote tw t = true.
Proof.
  unfold promote. intros H O T. apply bind_ok_inv in H. destruct H as (tv & Et & H). destruct (type_check t tv) eqn:C.
  - injection H as <-. rewrite Et. cbn [bind]. rewrite C. split; [reflexivity|]. exists tv. split; [reflexivity|]. unfold check_promote. rewrite type_check_sym, C. reflexivity.
  - rewrite T in *. destruct (kind t) eqn:K; cbn [kind make_type] in H; try discriminate.
    + destruct v as [b|z|f|x|x idx]; try discriminate; [injection H as <-; cbn; split; [reflexivity|eauto]|].
      exfalso. cbn in Et. injection Et as <-. cbn in O. unfold declared in O. destruct (type_check (var_type x) (make_type TBool)) eqn:B; [|discriminate].
      unfold type_check in B. cbn in B. destruct (kind (var_type x)); cbn in *; try discriminate; tauto.
    + destruct v as [b|z|f|x|x idx]; try discriminate; injection H as <-; cbn; (split; [reflexivity|eauto]).
Qed.
Lemma char_type c t : type_of_char c = Ok t -> t = make_type (kind t).
Proof.
  unfold type_of_char. repeat match goal with |- context [Ascii.eqb ?a ?b] => destruct (Ascii.eqb a b); [intros [= <-]; reflexivity|] end. discriminate.
Qed.
Lemma params_again n : forall spec vs ws, Forall ordinary_value vs -> List.length spec = List.length vs -> resolve_params_loop n spec vs = Ok ws ->
  List.length ws = List.length vs /\ resolve_params_loop n spec ws = Ok ws.
Proof.
  induction spec as [|c spec IH]; intros [|v vs] ws O L; cbn [resolve_params_loop] in *; try discriminate; [intros [= <-]; now split|].
  inversion O as [|? ? Ov Os]; subst. intros H. apply bind_ok_inv in H. destruct H as (tp & Et & H). apply bind_ok_inv in H. destruct H as (t & Ec & H).
  destruct (check_promote tp t) eqn:C; cbn [negb] in H; [|discriminate]. apply bind_ok_inv in H. destruct H as (o & Eo & H). apply bind_ok_inv in H. destruct H as (l & El & H). injection H as <-.
  assert (P : exists w, promote v t = Ok (Some w)).
  { apply (check_promote_agrees v tp t Et); [|exact C]. destruct v as [b|z|f|x|x idx]; cbn in Ov |- *; try (left; exact I); right; cbn in Et.
    - injection Et as <-. unfold declared in Ov. destruct (kind (var_type x)); cbn in *; tauto.
    - destruct Ov as [K _]. destruct (_ =? 1)%Z; [|injection Et as <-; destruct K as [-> | ->]; exact I].
      unfold element_type_of, type_check in Et. destruct K as [K|K]; rewrite K in Et; cbn in Et; injection Et as <-; exact I. }
  destruct P as (w & P). rewrite Eo in P. injection P as ->. injection L as L. destruct (IH vs l Os L El) as [Ll El'].
  destruct (promote_again v t w Eo Ov (char_type c t Ec)) as (Pw & tw & Etw & Cw). split; [cbn; now rewrite Ll|].
  rewrite Etw, Ec. cbn [bind]. rewrite Cw. cbn [negb]. rewrite Pw, El'. reflexivity.
Qed.
Lemma count_length n m : forall l spec, param_types_with_count n m l = Some spec -> String.length spec = m.
Proof.
  induction l as [|[k [[s|] o]] l IH]; intros spec; cbn [param_types_with_count]; [discriminate| |]; destruct (k =? n); try apply IH.
  - destruct (Nat.eqb_spec (String.length s) m); [now intros [= <-]|apply IH].
  - destruct (Nat.eqb m 0); [discriminate|apply IH].
Qed.
Lemma string_list_length s : List.length (list_ascii_of_string s) = String.length s.
Proof. induction s; cbn; congruence. Qed.
Lemma parameters_again n vs ws : Forall ordinary_value vs -> resolve_parameters n vs = Ok ws -> List.length ws = List.length vs /\ resolve_parameters n ws = Ok ws.
Proof.
  intros O. unfold resolve_parameters. cbv zeta. destruct (is_non_gate n).
  - destruct (get_non_gate_param_types_with_param_count n (List.length vs)) as [spec|] eqn:E.
    + intros H. apply params_again in H; [|exact O|rewrite string_list_length; exact (count_length _ _ _ _ E)]. destruct H as [-> H]. rewrite E. auto.
    + destruct (Nat.eqb_spec (List.length vs) 0) as [Z|Z]; [|discriminate]. intros [= <-]. rewrite Z in *. cbn [List.length]. rewrite E. auto.
  - intros H. apply bind_ok_inv in H. destruct H as ([spec|] & E & H); rewrite E; cbn [bind].
    + destruct (Nat.eqb_spec (List.length vs) (String.length spec)) as [Z|Z]; cbn [negb] in H; [|discriminate].
      apply params_again in H; [|exact O|now rewrite string_list_length]. destruct H as [L H]. split; [exact L|]. rewrite L, Z, Nat.eqb_refl. exact H.
    + destruct (Nat.eqb_spec (List.length vs) 0) as [Z|Z]; [|discriminate]. injection H as <-. split; [now rewrite Z|reflexivity].
Qed.

(** ** Gates *)
Definition rewritten_gate (lm : libm) (sg : sem_gate) : Prop :=
  forall st, ordinary lm st -> Forall (known st) (gate_values sg) -> visit_gate st (write_gate sg) = (Ok sg, []).
Lemma gate_again lm st : ordinary lm st -> forall g sg es, plain_gate g -> visit_gate st g = (Ok sg, es) -> rewritten_gate lm sg.
Proof.
  intros Ho. induction g as [l n ps an|l n g ps an IH] using gate_ind_full; intros sg es [-> Pl] H; rewrite visit_gate_unfold in H; apply log_context_ok in H;
    apply lbind_ok in H; destruct H as (i & e1 & e2 & E1 & H & _);
    apply lbind_ok in H; destruct H as (vs & e3 & e4 & E2 & H & _);
    apply lbind_ok in H; destruct H as (ws & e5 & e6 & E3 & H & _);
    apply lbind_ok in H; destruct H as (u & e7 & e8 & E4 & H & _);
    apply lbind_ok in H; destruct H as (ans & e9 & e10 & E5 & H & _);
    apply lift_ok in H; destruct H as [H _]; injection H as <-; apply lift_ok in E2; destruct E2 as [E2 _]; apply lift_ok in E3; destruct E3 as [E3 _];
    apply lift_ok in E4; destruct E4 as [E4 _]; injection E5 as <- _;
    intros st2 Ho2 K; cbn [gate_values annotation_values flat_map] in K; rewrite app_nil_r in K; apply Forall_app in K; destruct K as [Kg Kp];
    match goal with |- visit_gate _ (write_gate (SemGate ?l ?n ?i ?ps _)) = _ => change (write_gate (SemGate l n i ps [])) with (Gate l n (option_map write_gate i) (map write_value ps) []) end;
    rewrite visit_gate_unfold, (write_visits_list lm st2 Ho2 ws Kp);
    destruct (parameters_again n vs ws (visit_list_ordinary lm st Ho _ _ E2) E3) as [_ E3'].
  - apply lift_ok in E1. destruct E1 as [[= <-] _]. cbn [lbind lift option_map]. rewrite E3'. cbn [lbind lift app]. reflexivity.
  - apply lbind_ok in E1. destruct E1 as (sg' & e11 & e12 & E1 & H & _). apply lift_ok in H. destruct H as [[= <-] _].
    change (option_map write_gate (Some sg')) with (Some (write_gate sg')). cbv iota. rewrite (IH sg' e11 Pl E1 st2 Ho2 Kg). cbn [lbind lift app]. rewrite E3'. cbn [lbind lift app]. rewrite E4. reflexivity.
Qed.

(** ** Statements *)
Definition rewritten (lm : libm) (x : sem_statement) : Prop :=
  forall st, ordinary lm st -> scopes st <> [] -> Forall (known st) (statement_values x) ->
    visit_statement st (write_statement x) = (Ok (map_current (with_statement x) st), []).
Lemma add_statement_ok st x : scopes st <> [] -> add_statement st x = Ok (map_current (with_statement x) st).
Proof. unfold add_statement, update_current, map_current. destruct (scopes st); [congruence|reflexivity]. Qed.
Lemma resolve_again lm st st2 n vs i ws : ordinary lm st -> ordinary lm st2 -> Forall ordinary_value vs -> resolve_instruction st n vs = Ok (i, ws) ->
  ws = vs /\ resolve_instruction st2 n ws = Ok (i, ws).
Proof.
  intros Ho Ho2 O E. pose proof (ordinary_typed_list _ O) as T. apply (resolve_instruction_default lm st Ho n vs i ws T) in E.
  destruct E as (-> & E). split; [reflexivity|]. apply (resolve_instruction_default lm st2 Ho2 n vs i vs T). now split.
Qed.
(** What a statement without errors adds *)
Inductive adds (lm : libm) (st : analyzer) : statement -> analyzer -> Prop :=
| adds_variable l n t ty : declares_type t ty -> ~ In n (names_here st) -> scopes st <> [] ->
    adds lm st (SVariable l n t []) (map_current (fun s => with_entry n (VVar (mkVariable (next_id st) n ty))
                              (with_variable (mkSemVariable (mkVariable (next_id st) n ty) []) s)) (fresh st))
| adds_statement s x : rewritten lm x -> (forall l n t an, s <> SVariable l n t an) -> scopes st <> [] -> adds lm st s (map_current (with_statement x) st).
Lemma statement_adds lm st s st' : ordinary lm st -> plain s -> visit_statement st s = (Ok st', []) -> adds lm st s st'.
Proof.
  intros Ho Pl H. apply statement_effect in H. remember (@nil error) as log eqn:Elog.
  destruct H as [l n t an e N Le|l n t an ty ans es D A Ns Ni|l n t an ty ans es e D A Ns Ni Le|l g ops an sg es1 vs i ws ans es2 G V R C A Ns
    |l n ops ps an vs i ws pvs pws ans es V R P RP C A Ns|l n c an ans es A Ns|l s e es El P Nv]; cbn [plain] in Pl.
  - discriminate.
  - subst an. injection A as <- _. now constructor.
  - apply app_eq_nil in Elog. destruct Elog; discriminate.
  - destruct Pl as [Pg ->]. injection A as <- _. apply adds_statement; [|discriminate|exact Ns]. intros st2 Ho2 Ns2 K. cbn [statement_values annotation_values flat_map] in K.
    rewrite app_nil_r in K. apply Forall_app in K. destruct K as [Kg Ko]. pose proof (visit_list_ordinary lm st Ho _ _ V) as Vo.
    destruct (resolve_again lm st st2 _ _ _ _ Ho Ho2 Vo R) as [-> R2]. cbn [write_statement visit_statement]. unfold visit_gate_instruction.
    rewrite (gate_again lm st Ho g sg es1 Pg G st2 Ho2 Kg). cbn [lbind]. rewrite (write_visits_list lm st2 Ho2 vs Ko). cbn [lbind lift]. rewrite R2. cbn [lbind lift snd fst].
    rewrite C. cbn [lbind lift visit_annotated app]. now rewrite (add_statement_ok _ _ Ns2).
  - subst an. injection A as <- _. apply adds_statement; [|discriminate|exact Ns]. intros st2 Ho2 Ns2 K. cbn [statement_values annotation_values flat_map] in K.
    rewrite app_nil_r in K. apply Forall_app in K. destruct K as [Ko Kp]. pose proof (visit_list_ordinary lm st Ho _ _ V) as Vo.
    destruct (resolve_again lm st st2 _ _ _ _ Ho Ho2 Vo R) as [-> R2]. cbn [write_statement visit_statement]. unfold visit_non_gate_instruction.
    rewrite (write_visits_list lm st2 Ho2 vs Ko). cbn [lbind lift]. rewrite R2. cbn [lbind lift snd fst]. rewrite (write_visits_list lm st2 Ho2 pws Kp). cbn [lbind lift].
    destruct (parameters_again n pvs pws (visit_list_ordinary lm st Ho _ _ P) RP) as [_ RP2]. rewrite RP2. cbn [lbind lift].
    rewrite C. cbn [lbind lift visit_annotated app]. now rewrite (add_statement_ok _ _ Ns2).
  - subst an. injection A as <- _. apply adds_statement; [|discriminate|exact Ns]. intros st2 Ho2 Ns2 K. cbn [write_statement visit_statement]. unfold visit_asm_declaration.
    cbn [lbind lift visit_annotated app]. now rewrite (add_statement_ok _ _ Ns2).
  - apply app_eq_nil in Elog. destruct Elog; discriminate.
Qed.

(** ** Declarations *)
Definition with_block (b : block) (s : scope) : scope := mkScope (sc_variables_table s) (sc_functions s) (sc_instructions s) b (sc_variables s).
Definition reblock (b : block) (st : analyzer) : analyzer := map_current (with_block b) st.
Lemma write_type_declares t ty : declares_type t ty -> build_semantic_type (write_type ty) = Ok ty.
Proof.
  intros D. assert (D' : declares_type (write_type ty) ty) by (destruct D; cbn; now constructor).
  destruct (build_type_spec (write_type ty)) as [(ty' & B & D2)|(e & _ & _ & N)]; [|destruct (N ty D')].
  rewrite B. f_equal. destruct D; cbn in D2; inversion D2; reflexivity.
Qed.
Lemma declaration_again b st n t ty : declares_type t ty -> ~ In n (names_here st) -> scopes st <> [] ->
  visit_statement (reblock b st) (write_variable (mkSemVariable (mkVariable (next_id st) n ty) [])) =
    (Ok (reblock b (map_current (fun s => with_entry n (VVar (mkVariable (next_id st) n ty))
                              (with_variable (mkSemVariable (mkVariable (next_id st) n ty) []) s)) (fresh st))), []).
Proof.
  intros D N Ns. unfold names_here in N. destruct st as [av sc id]. cbn [scopes next_id] in *. destruct sc as [|s rest]; [congruence|].
  cbn [write_variable sv_var var_name var_type visit_statement]. unfold visit_variable. cbv zeta. rewrite (write_type_declares t ty D).
  unfold reblock, map_current, fresh. cbn [scopes next_id api_version lbind lift visit_annotated app].
  unfold add_variable, update_current. cbn [scopes bind lbind lift next_id api_version].
  unfold register_variable, update_current. cbn [scopes bind next_id api_version sc_variables_table with_block with_variable].
  unfold variable_add. apply table_find_In in N. rewrite N. reflexivity.
Qed.

Definition add_all (xs : list sem_statement) (b : block) : block := fold_left (fun b x => block_add x b) xs b.
Definition variables_found (s : scope) : Prop :=
  forall v, In v (sc_variables s) -> table_find (var_name (sv_var v)) (sc_variables_table s) = Some (VVar (sv_var v)).
Lemma run_again lm st ss st' log : block_run st ss st' log -> log = [] -> ordinary lm st -> Forall plain ss -> forall s rest, scopes st = s :: rest ->
  exists s' vs xs, scopes st' = s' :: rest /\ api_version st' = api_version st /\ sc_variables s' = (sc_variables s ++ vs)%list /\ sc_block s' = add_all xs (sc_block s) /\ Forall (rewritten lm) xs /\
    (forall b, block_run (reblock b st) (map write_variable vs) (reblock b st') []) /\ (variables_found s -> variables_found s').
Proof.
  induction 1 as [st|st x st1 es1 ss st2 es2 V R IH]; intros El Ho Pl s rest Sc.
  - exists s, [], []. rewrite app_nil_r. do 5 (split; [reflexivity || assumption || constructor|]). split; [intros b; constructor|auto].
  - apply app_eq_nil in El. destruct El as [-> ->]. inversion Pl as [|? ? P1 P2]; subst.
    assert (Ho1 : ordinary lm st1) by (eapply ordinary_extends; [exact Ho|]; eapply effect_extends, statement_effect, V).
    pose proof (statement_adds lm st x st1 Ho P1 V) as A. destruct A as [l n t ty D N Ns|x y Ry _ Ns].
    + specialize (IH eq_refl Ho1 P2). unfold map_current at 1, fresh at 1 in IH. cbn [scopes] in IH. rewrite Sc in IH. cbn [scopes] in IH. destruct (IH _ _ eq_refl) as (s' & vs & xs & S1 & S0 & S2 & S3 & S4 & S5 & S6).
      exists s', (mkSemVariable (mkVariable (next_id st) n ty) [] :: vs), xs. split; [exact S1|]. split; [rewrite S0; unfold map_current, fresh; cbn [scopes]; rewrite Sc; reflexivity|].
      split; [rewrite S2; cbn [sc_variables with_entry with_variable]; now rewrite <- app_assoc|].
      split; [exact S3|]. split; [exact S4|]. split.
      * intros b. cbn [map]. change (@nil error) with (@nil error ++ @nil error)%list. econstructor; [apply (declaration_again b st n t ty D N Ns)|apply S5].
      * intros F. apply S6. intros v Iv. cbn [sc_variables sc_variables_table with_entry with_variable] in *. unfold names_here in N. rewrite Sc in N. apply in_app_iff in Iv. destruct Iv as [Iv|[<-|[]]].
        -- specialize (F v Iv). clear -F. induction (sc_variables_table s) as [|[m a] tb IHt]; cbn in *; [discriminate|]. destruct (m =? var_name (sv_var v)); auto.
        -- cbn [sv_var var_name]. apply table_find_In in N. clear -N. induction (sc_variables_table s) as [|[m a] tb IHt]; cbn in *; [now rewrite String.eqb_refl|]. destruct (m =? n); [discriminate|auto].
    + specialize (IH eq_refl Ho1 P2). unfold map_current at 1 in IH. rewrite Sc in IH. cbn [scopes] in IH. destruct (IH _ _ eq_refl) as (s' & vs & xs & S1 & S0 & S2 & S3 & S4 & S5 & S6).
      exists s', vs, (y :: xs). split; [exact S1|]. split; [rewrite S0; unfold map_current; rewrite Sc; reflexivity|]. split; [exact S2|]. split; [exact S3|]. split; [now constructor|]. split; [|exact S6].
      intros b. specialize (S5 b). replace (reblock b (map_current (with_statement y) st)) with (reblock b st) in S5; [exact S5|].
      unfold reblock, map_current. rewrite Sc. reflexivity.
Qed.

(** ** Instructions *)
Lemma known_statement st x v : known st v -> known (map_current (with_statement x) st) v.
Proof.
  assert (E : forall n, resolve_variable (map_current (with_statement x) st) n = resolve_variable st n).
  { intros n. unfold resolve_variable. rewrite map_current_scopes. destruct (scopes st); reflexivity. }
  destruct v; cbn [known]; rewrite ?E; auto.
Qed.
Lemma statements_again lm xs : forall st s rest, ordinary lm st -> scopes st = s :: rest -> Forall (rewritten lm) xs -> Forall (known st) (flat_map statement_values xs) ->
  block_run st (map write_statement xs) (map_current (fun s => with_block (add_all xs (sc_block s)) s) st) [].
Proof.
  induction xs as [|x xs IH]; intros st s rest Ho Sc F K.
  - cbn [map]. replace (map_current _ st) with st; [constructor|]. destruct st as [av sc id]. cbn in Sc. subst sc. unfold map_current. cbn. destruct s. reflexivity.
  - inversion F as [|? ? Fx Fs]; subst. cbn [flat_map] in K. apply Forall_app in K. destruct K as [Kx Ks].
    assert (V : visit_statement st (write_statement x) = (Ok (map_current (with_statement x) st), [])) by (apply Fx; [exact Ho|rewrite Sc; discriminate|exact Kx]).
    cbn [map]. change (@nil error) with (@nil error ++ @nil error)%list. econstructor; [exact V|].
    assert (Ho1 : ordinary lm (map_current (with_statement x) st)) by (eapply ordinary_extends; [exact Ho|]; eapply effect_extends, statement_effect, V).
    specialize (IH (map_current (with_statement x) st) (with_statement x s) rest Ho1).
    replace (map_current (fun s0 => with_block (add_all (x :: xs) (sc_block s0)) s0) st) with
      (map_current (fun s0 => with_block (add_all xs (sc_block s0)) s0) (map_current (with_statement x) st)).
    + apply IH; [unfold map_current; now rewrite Sc|exact Fs|]. eapply Forall_impl; [|exact Ks]. intros v. apply known_statement.
    + unfold map_current. rewrite Sc. reflexivity.
Qed.

(** ** Results *)
Lemma add_all_statements xs : forall b, blk_statements (add_all xs b) = (blk_statements b ++ xs)%list.
Proof.
  induction xs as [|x xs IH]; intros b; cbn [add_all fold_left]; [now rewrite app_nil_r|]. fold (add_all xs (block_add x b)). rewrite IH. cbn. now rewrite <- app_assoc.
Qed.
Lemma visit_version_again api v l w : visit_version api v l = (Ok w, []) -> visit_version api w l = (Ok w, []).
Proof.
  intros H. pose proof H as H0. unfold visit_version in H. apply catch_log_inv in H. destruct H as [H|(e & es1 & H & _ & E)]; [|destruct es1; discriminate].
  apply lift_ok in H. destruct H as [H _]. destruct (existsb _ v); [discriminate|]. destruct (negb _); [discriminate|]. injection H as <-. exact H0.
Qed.
Lemma block_run_join st ss1 st1 ss2 st2 : block_run st ss1 st1 [] -> block_run st1 ss2 st2 [] -> block_run st (ss1 ++ ss2)%list st2 [].
Proof.
  intros H H2. remember (@nil error) as log eqn:El in H. induction H as [|st s st1 es1 ss st3 es2 V R IH]; [exact H2|].
  apply app_eq_nil in El. destruct El as [-> ->]. cbn [app]. change (@nil error) with (@nil error ++ @nil error)%list. econstructor; [exact V|]. now apply IH.
Qed.
Lemma analyze_written lm api st p st' q : machine_libm lm -> default_analyzer lm api = Ok st -> Forall plain (prog_statements p) -> machine_program p ->
  analyze_ast st p = Ok (st', mkResult (Some q) []) -> analyze_ast st (write_result q) = Ok (st', mkResult (Some q) []).
Proof.
  intros Hlm D Pl Mp A. pose proof (default_ordinary _ _ _ D) as Ho. pose proof (accepted_fine _ _ _ _ _ _ D A) as Fine.
  pose proof (result_machine lm api [] st p st' _ q Hlm (SpecHull.analysed_nothing _ _ _ D) (Forall_nil _) Mp A eq_refl) as Mq.
  destruct (default_analyzer_inv _ _ _ D) as (av & _ & _ & ->).
  destruct (analyze_ast_inv _ _ _ _ A) as (v & es1 & es2 & s' & rest & Vv & R & Sc' & Er & W). injection Er as -> Es. symmetry in Es. apply app_eq_nil in Es. destruct Es as [-> ->].
  destruct (run_again lm _ _ _ _ R eq_refl Ho Pl (default_scope lm) [] eq_refl) as (s'' & vs & xs & S1 & S0 & S2 & S3 & S4 & S5 & S6).
  rewrite S1 in Sc'. injection Sc' as <- <-. change (sc_variables (default_scope lm)) with (@nil sem_variable) in S2. cbn [app] in S2.
  set (b0 := sc_block (default_scope lm)) in *. specialize (S5 b0). change (reblock b0 (mkAnalyzer av [default_scope lm] 0)) with (mkAnalyzer av [default_scope lm] 0) in S5.
  assert (F : variables_found s'') by (apply S6; intros x []). clear S6.
  assert (Ho' : ordinary lm (reblock b0 st')) by (eapply ordinary_extends; [exact Ho|]; eapply block_extends, S5).
  assert (X : blk_statements (sc_block s'') = xs) by (rewrite S3, add_all_statements; reflexivity).
  assert (K : Forall (known (reblock b0 st')) (flat_map statement_values xs)).
  { cbn [sp_block] in *. unfold result_values in Mq. cbn [sp_block sp_variables] in Mq. rewrite X in Mq. apply Forall_app in Mq. destruct Mq as [Mq _].
    destruct Fine as (Fs & _ & _ & _). cbn [sp_block program_variables sp_variables] in Fs. rewrite X in Fs. rewrite Forall_forall in *. intros w Iw. specialize (Mq w Iw).
    apply in_flat_map in Iw. destruct Iw as (x & Ix & Iw). specialize (Fs x Ix). destruct Fs as [Fs _]. rewrite Forall_forall in Fs. specialize (Fs w Iw).
    assert (RV : forall y, In y (map sv_var (sc_variables s'')) -> resolve_variable (reblock b0 st') (var_name y) = Ok (VVar y)).
    { intros y Iy. apply in_map_iff in Iy. destruct Iy as (z & <- & Iz). specialize (F z Iz). unfold resolve_variable, reblock, map_current. rewrite S1.
      cbn [scopes resolve_variable_in with_block sc_variables_table]. unfold variable_resolve. rewrite F. reflexivity. }
    destruct w as [b|z|f|y|y idx]; cbn [known reference_fine machine_value] in *; auto. destruct Fs as (Iy & Ka & Fi). auto. }
  assert (B2 : block_run (reblock b0 st') (map write_statement xs) st' []).
  { assert (Sb : scopes (reblock b0 st') = with_block b0 s'' :: []) by (unfold reblock, map_current; rewrite S1; reflexivity).
    pose proof (statements_again lm xs (reblock b0 st') _ _ Ho' Sb S4 K) as B. replace (map_current _ (reblock b0 st')) with st' in B; [exact B|].
    destruct st' as [av' sc' id']. cbn [scopes] in S1. subst sc'. unfold reblock, map_current. cbn [scopes api_version next_id]. unfold with_block. cbn [sc_variables_table sc_functions sc_instructions sc_block sc_variables]. change (sc_block (default_scope lm)) with b0 in S3. rewrite <- S3. destruct s''. reflexivity. }
  pose proof (block_run_join _ _ _ _ _ S5 B2) as B. apply (block_run_iff None) in B.
  unfold analyze_ast, visit_program, write_result. cbn [prog_version prog_version_loc prog_statements prog_block_loc sp_version sp_version_loc sp_variables sp_block].
  rewrite (visit_version_again _ _ _ _ Vv). cbn [lbind]. rewrite S2, X, B. cbn [lbind]. unfold current_scope. rewrite S1. cbn [lbind lift app bind].
  specialize (W eq_refl). cbn [app]. rewrite S2. rewrite S2 in W. cbn [api_version] in *. now rewrite W.
Qed.
