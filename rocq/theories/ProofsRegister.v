(** Proofs for C104: analyzers built through the API. *)
From Verif Require Import Base ModelUtils ModelVersion ModelError ModelTypes ModelOverload ModelFunctions ModelInstructionSet ModelAst ModelAnalyzer ModelSemantic
  SpecTypes SpecFunctions SpecInstructions SpecAnalyzer SpecRegister
  ProofsTypes ProofsFunctions ProofsFolding ProofsExpr ProofsInstructions ProofsGates ProofsAnalyzer ProofsAnalyzer6.
From Verif Require ProofsExtend ProofsGateShapes.
Local Open Scope string_scope.

(** ** What the tables are *)

Definition holds (st : analyzer) (hf : list (registration core_function)) (his : list (list (registration instruction))) : Prop :=
  Forall2 (fun s hi => sc_instructions s = register_all hi) (scopes st) his /\ his <> [] /\
  exists g, global_scope st = Ok g /\ sc_functions g = register_all hf.

Lemma register_all_snoc {T} (h : list (registration T)) n t ps : register_all (h ++ [(n, t, ps)]) = add_overload n t ps (register_all h).
Proof. unfold register_all. rewrite fold_left_app. reflexivity. Qed.

Lemma update_last_spec l f l' : update_last l f = Ok l' -> exists inner g, l = (inner ++ [g])%list /\ l' = (inner ++ [f g])%list.
Proof.
  revert l'. induction l as [|s l IH]; intros l'; [discriminate|]. cbn [update_last]. destruct l as [|s2 l].
  - intros [= <-]. exists [], s. auto.
  - intros E. apply bind_ok_inv in E. destruct E as (l'' & E & [= <-]). destruct (IH _ E) as (inner & g & -> & ->). exists (s :: inner), g. auto.
Qed.
Lemma last_scope_app inner g : last_scope (inner ++ [g]) = Ok g.
Proof. induction inner as [|s inner IH]; [reflexivity|]. cbn [app last_scope]. destruct (inner ++ [g])%list eqn:E; [destruct inner; discriminate|exact IH]. Qed.
Lemma last_scope_inv l g : last_scope l = Ok g -> exists inner, l = (inner ++ [g])%list.
Proof.
  induction l as [|s l IH]; [discriminate|]. cbn [last_scope]. destruct l as [|s2 l].
  - intros [= ->]. exists []. reflexivity.
  - intros E. destruct (IH E) as [inner ->]. exists (s :: inner). reflexivity.
Qed.

(** The current scope is replaced by one with the same functions. *)
Lemma holds_current st hf his s s' rest hi his' v k :
  holds st hf his -> scopes st = s :: rest -> his = hi :: his' -> sc_functions s' = sc_functions s ->
  forall hi', sc_instructions s' = register_all hi' -> holds (mkAnalyzer v (s' :: rest) k) hf (hi' :: his').
Proof.
  intros (F & _ & g & G & Hg) E -> Ef hi' Ei. unfold holds. cbn [scopes]. rewrite E in F. inversion F; subst. split; [constructor; assumption|].
  split; [discriminate|]. unfold global_scope in *. cbn [scopes]. rewrite E in G. destruct rest as [|s2 rest].
  - cbn in G. injection G as <-. exists s'. split; [reflexivity|congruence].
  - exists g. split; [exact G|exact Hg].
Qed.
Lemma holds_head st hf his : holds st hf his -> exists s rest hi his', scopes st = s :: rest /\ his = hi :: his' /\ sc_instructions s = register_all hi.
Proof.
  intros (F & N & _). destruct F as [|s hi rest his' E F]; [destruct (N eq_refl)|]. exists s, rest, hi, his'. auto.
Qed.

Lemma built_holds st hf his : built st hf his -> holds st hf his.
Proof.
  induction 1 as [v st E|st hf his n ps f st' B IH E|st hf hi his i st' B IH E|st hf his n v st' B IH E|st hf his p st' r B IH E|st hf his B IH|st hf hi hi' his st' B IH E].
  - unfold new_analyzer in E. apply bind_ok_inv in E. destruct E as (v30 & _ & E). destruct (version_eqb v v30); [|discriminate]. injection E as <-.
    split; [constructor; [reflexivity|constructor]|]. split; [discriminate|]. exists empty_scope. split; reflexivity.
  - unfold register_function in E. apply bind_ok_inv in E. destruct E as (l & El & [= <-]). destruct IH as (F & N & g & G & Hg).
    destruct (update_last_spec _ _ _ El) as (inner & g' & Es & ->). unfold global_scope in G. rewrite Es, last_scope_app in G. injection G as ->.
    unfold holds, global_scope. cbn [scopes]. rewrite last_scope_app. split; [|split; [exact N|]].
    + rewrite Es in F. clear - F. revert his F. induction inner as [|s inner IH]; intros his F; inversion F as [|? ? ? ? E F']; subst; constructor; auto.
    + eexists. split; [reflexivity|]. cbn [sc_functions]. rewrite Hg. symmetry. apply register_all_snoc.
  - unfold register_instruction in E. apply update_current_inv in E. destruct E as (s & s' & rest & Es & [= <-] & ->).
    destruct (holds_head _ _ _ IH) as (s0 & rest0 & hi0 & his0 & Es0 & Eh & Ei). rewrite Es in Es0. injection Es0 as <- <-. injection Eh as <- <-.
    eapply holds_current; [exact IH|exact Es|reflexivity|reflexivity|]. cbn [sc_instructions]. unfold instruction_add. rewrite Ei. symmetry. apply register_all_snoc.
  - unfold register_variable in E. apply update_current_inv in E. destruct E as (s & s' & rest & Es & E' & ->). apply bind_ok_inv in E'. destruct E' as (t & _ & [= <-]).
    destruct (holds_head _ _ _ IH) as (s0 & rest0 & hi0 & his0 & Es0 & -> & Ei). rewrite Es in Es0. injection Es0 as <- <-.
    eapply holds_current; [exact IH|exact Es|reflexivity|reflexivity|exact Ei].
  - apply analyze_ast_inv in E. destruct E as (_ & _ & es & s' & rest & _ & R & Es' & _ & _). apply block_extends in R. destruct R as [_ R].
    destruct (holds_head _ _ _ IH) as (s0 & rest0 & hi0 & his0 & Es0 & -> & Ei). rewrite Es0, Es' in R. destruct R as [X ->].
    destruct st' as [v' sc' k']. cbn [scopes] in Es'. subst sc'.
    eapply holds_current; [exact IH|exact Es0|reflexivity|exact (ext_functions _ _ X)|]. rewrite (ext_instructions _ _ X). exact Ei.
  - destruct IH as (F & N & g & G & Hg). split; [|split; [discriminate|]].
    + constructor; [reflexivity|exact F].
    + exists g. split; [|exact Hg]. unfold global_scope, push_scope in *. cbn [scopes last_scope]. destruct (scopes st); [discriminate|exact G].
  - unfold pop_scope in E. destruct IH as (F & N & g & G & Hg). unfold global_scope in G. inversion F as [|s ? rest ? Ei F' Es]; subst.
    rewrite <- Es in E. injection E as <-. inversion F' as [|s2 ? rest2 ? Ei2 F2]; subst. split; [exact F'|]. split; [discriminate|].
    exists g. split; [|exact Hg]. unfold global_scope. cbn [scopes]. rewrite <- Es in G. exact G.
Qed.

(** ** What is chosen *)

Lemma resolve_one {T} (h : list (registration T)) n vs t ws : Forall typed vs -> (resolve (register_all h) n vs = Ok (t, ws) <-> chosen n vs [h] t ws).
Proof.
  intros Ht. rewrite resolve_ok_iff by exact Ht. split.
  - intros (h1 & ps & h2 & -> & P & N). now constructor.
  - intros C. inversion C as [h1 ? ps h2 ? ? P N|? ? ? ? _ C']; subst; [exists h1, ps, h2; auto|inversion C'].
Qed.
Lemma resolve_none {T} (h : list (registration T)) n vs : Forall typed vs ->
  ((exists e, resolve (register_all h) n vs = Err e) <-> Forall (fun r => ~ applicable n vs r) h).
Proof.
  intros Ht. destruct (PropertiesTypes.C17_success_iff_applicable T h n vs Ht) as [_ S]. rewrite S. split.
  - intros N. apply Forall_forall. intros r I A. apply N, Exists_exists. eauto.
  - intros F X. apply Exists_exists in X. destruct X as (r & I & A). rewrite Forall_forall in F. exact (F r I A).
Qed.

Section Built.
  Variables (st : analyzer) (hf : list (registration core_function)) (his : list (list (registration instruction))).
  Hypothesis B : built st hf his.

  Lemma function_spec n vs : Forall typed vs ->
    (forall f ws, chosen n vs [hf] f ws -> resolve_function st n vs = f ws) /\
    (Forall (fun r => ~ applicable n vs r) hf -> exists e, resolve_function st n vs = Err e).
  Proof.
    intros Ht. destruct (built_holds _ _ _ B) as (_ & _ & g & G & Hg). unfold resolve_function. rewrite G. cbn [bind]. unfold function_resolve. rewrite Hg. split.
    - intros f ws C. apply resolve_one in C; [|exact Ht]. rewrite C. reflexivity.
    - intros N. apply resolve_none in N; [|exact Ht]. destruct N as [e ->]. cbn. eauto.
  Qed.

  Lemma instruction_spec n vs : Forall typed vs ->
    (forall i ws, resolve_instruction st n vs = Ok (i, ws) <-> chosen n vs his i ws) /\
    ((exists e, resolve_instruction st n vs = Err e) <-> Forall (Forall (fun r => ~ applicable n vs r)) his).
  Proof.
    intros Ht. destruct (built_holds _ _ _ B) as (F & _ & _). clear B. unfold resolve_instruction. induction F as [|s hi l his' E F [IH1 IH2]]; cbn [resolve_instruction_in].
    - destruct (types_of_typed vs Ht) as [ts ->]. cbn [bind]. split.
      + intros i ws. split; [discriminate|]. intros C. inversion C.
      + split; [constructor|eauto].
    - rewrite E. destruct (resolve_total hi n vs Ht) as [[[i' ws'] R]|[e R]]; rewrite R.
      + pose proof (proj1 (resolve_one hi n vs i' ws' Ht) R) as C'. split.
        * intros i ws. split.
          -- intros [= <- <-]. inversion C' as [h1 ? ps h2 ? ? P N|? ? ? ? _ C2]; subst; [now constructor|inversion C2].
          -- intros C. inversion C as [h1 ? ps h2 ? ? P N|? ? ? ? N C2]; subst.
             ++ rewrite <- R. apply (proj2 (resolve_one _ n vs i ws Ht)). now constructor.
             ++ apply (resolve_none hi n vs Ht) in N. destruct N as [e N]. congruence.
        * split; [intros [e X]; discriminate|]. intros N. inversion N as [|? ? N1 _]; subst. apply (resolve_none hi n vs Ht) in N1. destruct N1 as [e N1]. congruence.
      + pose proof (proj1 (resolve_none hi n vs Ht) (ex_intro _ e R)) as N. split.
        * intros i ws. rewrite (IH1 i ws). split.
          -- intros C. now apply chosen_outer.
          -- intros C. inversion C as [h1 ? ps h2 ? ? P N'|? ? ? ? _ C2]; subst; [|exact C2]. exfalso.
             rewrite Forall_forall in N. apply (N (n, i, ps)); [apply in_or_app; right; left; reflexivity|]. split; [reflexivity|eauto].
        * rewrite IH2. split; [intros H; now constructor|intros H; now inversion H].
  Qed.

  Lemma call_spec e n args vs : calls e n args -> visit_expression_list st args = Ok vs -> visit_expression st e = with_context (expr_loc e) (resolve_function st n vs).
  Proof.
    intros C V. unfold visit_expression at 1. f_equal. unfold visit_expression_list in V. destruct C as [l n|l n args|l op a|l op a b|l a b c].
    - injection V as <-. reflexivity.
    - cbn [visit]. change (mapM (fun a => with_context (expr_loc a) (visit st a)) args) with (mapM (visit_expression st) args). rewrite V. reflexivity.
    - cbn [mapM] in V. apply bind_ok_inv in V. destruct V as (v1 & E1 & [= <-]). unfold visit_expression in E1. cbn [visit]. rewrite E1. cbn [bind]. now rewrite ProofsExtend.unary_name.
    - cbn [mapM] in V. apply bind_ok_inv in V. destruct V as (v1 & E1 & V). apply bind_ok_inv in V. destruct V as (vs' & V & [= <-]). apply bind_ok_inv in V. destruct V as (v2 & E2 & [= <-]).
      unfold visit_expression in E1, E2. cbn [visit]. rewrite E1. cbn [bind]. rewrite E2. cbn [bind]. now rewrite ProofsExtend.binary_name.
    - cbn [mapM] in V. apply bind_ok_inv in V. destruct V as (v1 & E1 & V). apply bind_ok_inv in V. destruct V as (vs' & V & [= <-]). apply bind_ok_inv in V. destruct V as (v2 & E2 & V).
      apply bind_ok_inv in V. destruct V as (vs2 & V & [= <-]). apply bind_ok_inv in V. destruct V as (v3 & E3 & [= <-]).
      unfold visit_expression in E1, E2, E3. cbn [visit]. rewrite E1. cbn [bind]. rewrite E2. cbn [bind]. rewrite E3. reflexivity.
  Qed.

  Lemma gate_spec l lg n ks a ps pvs ops vs : In (n, (ks, a)) gates -> visit_expression_list st ps = Ok pvs -> Forall2 fits_param pvs ks ->
    visit_expression_list st ops = Ok vs -> Forall typed vs ->
    (forall i vs' z, chosen n vs his i vs' -> Forall (fun v => addresses Qubits v z) vs' ->
       exists st' ws, visit_statement st (SGateInstr l (Gate lg n None ps []) ops []) = (Ok st', []) /\ stored_params pvs ks ws /\
         statements_of st' = (statements_of st ++ [SemGateInstr l i (SemGate lg n None ws []) vs' []])%list) /\
    (Forall (Forall (fun r => ~ applicable n vs r)) his ->
       exists e, visit_statement st (SGateInstr l (Gate lg n None ps []) ops []) = (Ok st, [e])).
  Proof.
    intros G P F O Ht. destruct (instruction_spec n vs Ht) as [R1 R2]. assert (Kn : exists a, In (n, (ks, a)) gates) by eauto.
    destruct (ProofsGateShapes.stored_exists pvs ks (gates_param_kinds n ks (or_introl Kn)) F) as [ws S].
    assert (Oo : Forall ordinary_value pvs).
    { clear -F. induction F as [|v k vs ks [C _] _ IH]; constructor; auto using const_ordinary. }
    destruct (resolve_parameters_known n ks pvs (or_introl Kn) Oo) as [_ Rp]. apply Rp in S as S'.
    destruct (disjoint_names n) as [D _]. destruct (D (in_map fst _ _ G)) as [D1 D2].
    assert (V : visit_statement st (SGateInstr l (Gate lg n None ps []) ops []) = catch_log l st (lift (
       let! r := resolve_instruction st n vs in let! _ := check_gate_operands (snd r) in
       add_statement st (SemGateInstr l (fst r) (SemGate lg n None ws []) (snd r) [])))).
    { rewrite visit_gate_statement_pure by (constructor; assumption). unfold pure_gate_statement. cbn [pure_gate bind]. rewrite P. cbn [bind]. rewrite S'. cbn [bind check_gate with_context].
      rewrite O. reflexivity. }
    rewrite V. clear V. split.
    - intros i vs' z C A. apply R1 in C. rewrite C. cbn [bind fst snd]. rewrite (operands_same_size vs' z A). cbn [bind].
      destruct (holds_head _ _ _ (built_holds _ _ _ B)) as (s & rest & hi & his' & Es & _ & _).
      unfold add_statement, update_current. rewrite Es. cbn [bind]. eexists _, ws. split; [reflexivity|]. split; [now apply stored_all_iff|].
      unfold statements_of. rewrite Es. cbn [scopes sc_block]. destruct s as [vt ft it b v]. cbn [sc_block block_add blk_statements]. reflexivity.
    - intros N. apply R2 in N. destruct N as [e N]. rewrite N. cbn. eauto.
  Qed.
End Built.

(** ** The default analyzer *)

Lemma built_functions l : forall st hf his st', built st hf his -> forallb (fun e => ok_spec (snd (fst e))) l = true ->
  foldM (fun st e => register_function_spec st (fst (fst e)) (snd (fst e)) (snd e)) st l = Ok st' ->
  built st' (hf ++ map (fun e => (fst (fst e), snd e, spec_types (snd (fst e)))) l)%list his.
Proof.
  induction l as [|[[n spec] f] l IH]; intros st hf his st' B H E; cbn [foldM map] in *.
  - injection E as <-. now rewrite app_nil_r.
  - cbn [forallb fst snd] in *. apply andb_true_iff in H. destruct H as [H1 H2]. apply bind_ok_inv in E. destruct E as (st1 & E1 & E).
    unfold register_function_spec in E1. rewrite (ok_spec_types _ H1) in E1. cbn [bind] in E1.
    pose proof (built_function _ _ _ _ _ _ _ B E1) as B1. specialize (IH _ _ _ _ B1 H2 E). now rewrite <- app_assoc in IH.
Qed.
Lemma built_instructions l : forall st hf hi st', built st hf [hi] -> forallb (fun e => ok_spec (snd e)) l = true ->
  foldM (fun st e => register_instruction_spec st (fst e) (Some (snd e))) st l = Ok st' ->
  built st' hf [(hi ++ map (fun e => (fst e, mkInstruction (fst e) (spec_types (snd e)), spec_types (snd e))) l)%list].
Proof.
  induction l as [|[n spec] l IH]; intros st hf hi st' B H E; cbn [foldM map] in *.
  - injection E as <-. now rewrite app_nil_r.
  - cbn [forallb fst snd] in *. apply andb_true_iff in H. destruct H as [H1 H2]. apply bind_ok_inv in E. destruct E as (st1 & E1 & E).
    unfold register_instruction_spec, make_instruction in E1. rewrite (ok_spec_types _ H1) in E1. cbn [bind] in E1.
    pose proof (built_instruction _ _ _ _ _ _ B E1) as B1. specialize (IH _ _ _ _ B1 H2 E). now rewrite <- app_assoc in IH.
Qed.
Lemma built_default lm api st : default_analyzer lm api = Ok st -> built st (function_history lm) [instruction_history].
Proof.
  intros E. unfold default_analyzer in E. apply bind_ok_inv in E. destruct E as (v & _ & E). apply bind_ok_inv in E. destruct E as (st0 & E0 & E).
  apply bind_ok_inv in E. destruct E as (st1 & E1 & E). apply bind_ok_inv in E. destruct E as (st2 & E2 & E).
  pose proof (built_new v st0 E0) as B0.
  assert (B1 : built st1 [] [[]]).
  { unfold register_default_constants in E1. clear E E2 E0. revert st0 B0 E1. generalize default_constants. intros l. induction l as [|e l IH]; intros st0 B0 E1; cbn [foldM] in E1.
    - now injection E1 as <-.
    - apply bind_ok_inv in E1. destruct E1 as (sta & Ea & E1). apply (IH sta); [|exact E1]. eapply built_variable; eauto. }
  pose proof (built_functions (default_functions lm) st1 [] [[]] st2 B1 ltac:(reflexivity) E2) as B2.
  exact (built_instructions default_instructions st2 _ [] st B2 ltac:(reflexivity) E).
Qed.

(** ** Constants *)

Definition current_entry (st : analyzer) (n : string) (v : value) : Prop :=
  exists s rest, scopes st = s :: rest /\ table_find n (sc_variables_table s) = Some v.
Lemma table_find_app_left {A} n (t t' : list (string * A)) v : table_find n t = Some v -> table_find n (t ++ t') = Some v.
Proof. induction t as [|[m w] t IH]; [discriminate|]. cbn. destruct (m =? n); auto. Qed.
Lemma goes_on_entry st st' n v : goes_on st st' -> current_entry st n v -> current_entry st' n v.
Proof.
  induction 1 as [st|st st1 st2 m ps f _ IH E|st st1 st2 i _ IH E|st st1 st2 m w _ IH E|st st1 st2 p r _ IH E]; intros C; try exact C;
    destruct (IH C) as (s & rest & Es & T); clear IH C.
  - unfold register_function in E. apply bind_ok_inv in E. destruct E as (l & El & [= <-]). unfold current_entry. cbn [scopes]. rewrite Es in El. cbn [update_last] in El.
    destruct rest as [|s2 rest].
    + injection El as <-. eexists _, []. split; [reflexivity|exact T].
    + apply bind_ok_inv in El. destruct El as (l' & _ & [= <-]). eauto.
  - unfold register_instruction in E. apply update_current_inv in E. destruct E as (s' & s2 & rest' & Es' & [= <-] & ->). rewrite Es in Es'. injection Es' as <- <-.
    eexists _, rest. split; [reflexivity|exact T].
  - unfold register_variable in E. apply update_current_inv in E. destruct E as (s' & s2 & rest' & Es' & E & ->). rewrite Es in Es'. injection Es' as <- <-.
    apply bind_ok_inv in E. destruct E as (t & Et & [= <-]). unfold variable_add in Et. eexists _, rest. split; [reflexivity|]. cbn [sc_variables_table].
    destruct (table_find m (sc_variables_table s)); [discriminate|]. injection Et as <-. now apply table_find_app_left.
  - apply analyze_ast_inv in E. destruct E as (_ & _ & es & s' & rest' & _ & R & Es' & _ & _). apply block_extends in R. destruct R as [_ R]. rewrite Es, Es' in R. destruct R as [X ->].
    exists s', rest. split; [exact Es'|]. destruct (ext_table _ _ X) as (t & -> & _). now apply table_find_app_left.
Qed.
Lemma constant_stays st n v st1 st2 : register_variable st n v = Ok st1 -> goes_on st1 st2 ->
  (forall l, visit_expression st2 (EIdent l n) = Ok v) /\ (forall w, exists e, register_variable st2 n w = Err e).
Proof.
  intros E G. assert (C : current_entry st1 n v).
  { unfold register_variable in E. apply update_current_inv in E. destruct E as (s & s' & rest & Es & E & ->). apply bind_ok_inv in E. destruct E as (t & Et & [= <-]).
    unfold variable_add in Et. destruct (table_find n (sc_variables_table s)) eqn:T; [discriminate|]. injection Et as <-.
    eexists _, rest. split; [reflexivity|]. cbn [sc_variables_table]. clear - T. induction (sc_variables_table s) as [|[m w] t IH]; cbn in *; [now rewrite String.eqb_refl|].
    destruct (m =? n); [discriminate|auto]. }
  destruct (goes_on_entry _ _ _ _ G C) as (s & rest & Es & T). split.
  - intros l. unfold visit_expression. cbn [visit]. unfold resolve_variable. rewrite Es. cbn [resolve_variable_in]. unfold variable_resolve. rewrite T. reflexivity.
  - intros w. unfold register_variable, update_current. rewrite Es. unfold variable_add. rewrite T. cbn. eauto.
Qed.
Lemma chosen_unique {T} n vs (hs : list (list (registration T))) t ws t' ws' : Forall typed vs -> chosen n vs hs t ws -> chosen n vs hs t' ws' -> t = t' /\ ws = ws'.
Proof.
  intros Ht C. induction C as [h1 t ps h2 rest ws P N|h rest t ws N C IH]; intros C'.
  - assert (E : resolve (register_all (h1 ++ (n, t, ps) :: h2)) n vs = Ok (t, ws)) by (apply resolve_one; [exact Ht|now constructor]).
    inversion C' as [h1' ? ps' h2' ? ? P' N' E'|? ? ? ? N' _]; subst.
    + assert (E2 : resolve (register_all (h1' ++ (n, t', ps') :: h2')) n vs = Ok (t', ws')) by (apply resolve_one; [exact Ht|now constructor]).
      rewrite E' in E2. rewrite E in E2. injection E2 as <- <-. auto.
    + apply (resolve_none _ n vs Ht) in N'. destruct N' as [e N']. congruence.
  - inversion C' as [h1' ? ps' h2' ? ? P' N' E'|? ? ? ? _ C2]; subst; [|auto].
    assert (E2 : resolve (register_all (h1' ++ (n, t', ps') :: h2')) n vs = Ok (t', ws')) by (apply resolve_one; [exact Ht|now constructor]).
    apply (resolve_none _ n vs Ht) in N. destruct N as [e N]. congruence.
Qed.
