(** Locations of the values of a result (C81). *)
From Coq Require Import ZifyBool ZifyNat.
From Verif Require Import Base ModelUtils ModelVersion ModelError ModelTypes ModelOverload ModelFunctions ModelInstructionSet ModelAst ModelAnalyzer ModelSemantic ModelLocated
  SpecTypes SpecFunctions SpecInstructions SpecAnalyzer SpecLocated ProofsTypes ProofsFunctions ProofsFolding ProofsExpr ProofsInstructions ProofsGates
  ProofsAnalyzer ProofsAnalyzer2 ProofsRename ProofsContext.
Local Open Scope string_scope.

Lemma erase_bare v : erase (bare v) = v.
Proof. destruct v; try reflexivity. unfold erase. cbn. rewrite map_map. cbn. now rewrite map_id. Qed.

(** ** Without the locations it is the same analysis *)
Section Erasure.
  Variable keep : bool.

  Lemma erase_copy l v : erase (copy_location keep l v) = erase v.
  Proof. reflexivity. Qed.
  Lemma erase_promote v t : promote (erase v) t = map_outcome (option_map erase) (lpromote keep v t).
  Proof.
    unfold promote, lpromote. destruct (type_of (erase v)) as [tv|e|w|k]; cbn [bind map_outcome]; try reflexivity. destruct (type_check t tv); [reflexivity|].
    destruct v as [l []]; cbn [erase lv_node]; unfold map_outcome; cbn [bind]; f_equal; destruct (kind t); try reflexivity. destruct (type_check tv (make_type TBool)); reflexivity.
  Qed.
  Lemma erase_promote_args : forall args ps, promote_args (map erase args) ps = map_outcome (option_map (map erase)) (lpromote_args keep args ps).
  Proof.
    induction args as [|a args IH]; intros [|p ps]; cbn [promote_args lpromote_args map]; try reflexivity.
    eapply map_bind; [apply erase_promote|]. intros [a'|]; cbn [option_map]; [|reflexivity]. eapply map_bind; [apply IH|]. intros [l|]; reflexivity.
  Qed.
  Definition erase_pair {T} (x : T * list lvalue) : T * list value := (fst x, map erase (snd x)).
  Lemma erase_resolve_loop {T} (os : list (overload T)) args : resolve_loop os (map erase args) = map_outcome (option_map erase_pair) (lresolve_loop keep os args).
  Proof.
    induction os as [|o os IH]; cbn [resolve_loop lresolve_loop]; [reflexivity|]. rewrite map_length. destruct (negb _); [exact IH|].
    eapply map_bind; [apply erase_promote_args|]. intros [l|]; cbn [option_map]; [reflexivity|exact IH].
  Qed.
  Lemma erase_resolve {T} (t : table T) n args : resolve t n (map erase args) = map_outcome erase_pair (lresolve keep t n args).
  Proof.
    unfold resolve, lresolve. destruct (table_find n t) as [r|]; [|reflexivity]. unfold resolve_overload. eapply map_bind; [apply erase_resolve_loop|].
    intros [x|]; cbn [option_map]; [reflexivity|]. destruct (types_of (map erase args)); reflexivity.
  Qed.
  Lemma erase_resolve_instruction st n args : resolve_instruction st n (map erase args) = map_outcome erase_pair (lresolve_instruction keep st n args).
  Proof.
    unfold resolve_instruction, lresolve_instruction. induction (scopes st) as [|s l IH]; cbn [resolve_instruction_in lresolve_instruction_in].
    - destruct (types_of (map erase args)); reflexivity.
    - rewrite erase_resolve. destruct (lresolve keep (sc_instructions s) n args); cbn; try reflexivity. exact IH.
  Qed.
  Lemma erase_resolve_function st n args : resolve_function st n (map erase args) = map_outcome erase (lresolve_function st n args).
  Proof. unfold lresolve_function. destruct (resolve_function st n (map erase args)); cbn; try reflexivity. now rewrite erase_bare. Qed.
  Lemma erase_const_int l r : const_int_of l (map_outcome erase r) = lconst_int_of keep l r.
  Proof.
    unfold const_int_of, lconst_int_of. destruct r as [v|e|w|k]; cbn [map_outcome bind]; try reflexivity. rewrite erase_promote.
    destruct (lpromote keep v (make_type TInt)) as [[[lw []]|]|e|w|k]; reflexivity.
  Qed.
  Lemma erase_finish l r : with_context l (map_outcome erase r) = map_outcome erase (finish keep l r).
  Proof. unfold finish. destruct r; reflexivity. Qed.
  Lemma mapM_erase {A B C} (f : A -> outcome error B) (g : A -> outcome error C) (h : C -> B) l : Forall (fun a => f a = map_outcome h (g a)) l ->
    mapM f l = map_outcome (map h) (mapM g l).
  Proof. induction 1 as [|a l H _ IH]; cbn [mapM]; [reflexivity|]. rewrite H. destruct (g a); cbn [map_outcome bind]; try reflexivity. rewrite IH. destruct (mapM g l); reflexivity. Qed.

  Lemma lvisit_index_unfold st l b idx : lvisit keep st (EIndex l b idx) = with_context l
    (let! v := finish keep (expr_loc b) (lvisit keep st b) in
     match lv_node v with
     | LVar x =>
         match kind (var_type x) with
         | TQubitArray | TBitArray =>
             let! is := mapM (lvisit_entry keep st) idx in let! _ := check_out_of_range (map snd (concat is)) (tsize (var_type x)) in Ok (mkLValue None (LIndex x (concat is)))
         | _ => let! t := type_of (erase v) in Err (mk_error ("indexation is not supported for value of type '" ++ type_to_string t ++ "'"))
         end
     | _ => UB NullDereference
     end).
  Proof. reflexivity. Qed.
  Lemma lvisit_item_unfold st l e : lvisit_entry keep st (IItem l e) = let! z := lconst_int_of keep (expr_loc e) (lvisit keep st e) in Ok [(copied keep None l, z)].
  Proof. reflexivity. Qed.
  Lemma lvisit_range_unfold st l a b : lvisit_entry keep st (IRange l a b) =
    let! z1 := lconst_int_of keep (expr_loc a) (lvisit keep st a) in let! z2 := lconst_int_of keep (expr_loc b) (lvisit keep st b) in
    let! zs := expand_range l z1 z2 in Ok (map (fun z => (copied keep None l, z)) zs).
  Proof. reflexivity. Qed.
  Lemma visit_item_unfold st l e : visit_entry st (IItem l e) = let! z := const_int_of (expr_loc e) (visit st e) in Ok [z].
  Proof. reflexivity. Qed.
  Lemma visit_range_unfold st l a b : visit_entry st (IRange l a b) =
    let! z1 := const_int_of (expr_loc a) (visit st a) in let! z2 := const_int_of (expr_loc b) (visit st b) in expand_range l z1 z2.
  Proof. reflexivity. Qed.
  Lemma erase_visit st e : visit st e = map_outcome erase (lvisit keep st e).
  Proof.
    apply (expr_ind_full (fun e => visit st e = map_outcome erase (lvisit keep st e)) (fun i => visit_entry st i = map_outcome (map snd) (lvisit_entry keep st i))); clear e.
    - reflexivity.
    - reflexivity.
    - reflexivity.
    - intros l n. cbn [visit lvisit]. destruct (resolve_variable st n); cbn; try reflexivity. now rewrite erase_bare.
    - intros l b idx Hb Hi. rewrite visit_index_unfold, lvisit_index_unfold, Hb, erase_finish. pose proof (mapM_erase _ _ _ _ Hi) as Hm.
      destruct (finish keep (expr_loc b) (lvisit keep st b)) as [[lv []]|e|w|k]; cbn [map_outcome bind erase lv_node with_context]; try reflexivity.
      destruct (kind (var_type v)); try reflexivity; rewrite Hm;
        (destruct (mapM (lvisit_entry keep st) idx) as [is|e|w|k]; cbn [map_outcome bind with_context]; try reflexivity;
         rewrite <- (List.concat_map snd); destruct (check_out_of_range _ _); reflexivity).
    - intros l n. cbn [visit lvisit]. exact (erase_resolve_function st n []).
    - intros l n args H. cbn [visit lvisit]. 
      rewrite (mapM_erase (fun a => with_context (expr_loc a) (visit st a)) (fun a => finish keep (expr_loc a) (lvisit keep st a)) erase).
      + eapply map_bind; [reflexivity|]. intros vs. apply erase_resolve_function.
      + eapply Forall_impl; [|exact H]. cbn beta. intros a ->. apply erase_finish.
    - intros l o a Ha. cbn [visit lvisit]. rewrite Ha, erase_finish. eapply map_bind; [reflexivity|]. intros v. exact (erase_resolve_function st _ [v]).
    - intros l o a b Ha Hb. cbn [visit lvisit]. rewrite Ha, Hb, !erase_finish. eapply map_bind; [reflexivity|]. intros v. eapply map_bind; [reflexivity|]. intros w. exact (erase_resolve_function st _ [v; w]).
    - intros l c a b Hc Ha Hb. cbn [visit lvisit]. rewrite Hc, Ha, Hb, !erase_finish. eapply map_bind; [reflexivity|]. intros x. eapply map_bind; [reflexivity|]. intros v.
      eapply map_bind; [reflexivity|]. intros w. exact (erase_resolve_function st _ [x; v; w]).
    - intros l e He. rewrite visit_item_unfold, lvisit_item_unfold, He, erase_const_int. destruct (lconst_int_of keep (expr_loc e) (lvisit keep st e)); reflexivity.
    - intros l a b Ha Hb. rewrite visit_range_unfold, lvisit_range_unfold, Ha, Hb, !erase_const_int. destruct (lconst_int_of keep (expr_loc a) (lvisit keep st a)); cbn [bind]; try reflexivity.
      destruct (lconst_int_of keep (expr_loc b) (lvisit keep st b)); cbn [bind]; try reflexivity. destruct (expand_range l a0 a1) as [zs| | |]; cbn; try reflexivity. rewrite map_map. cbn. now rewrite map_id.
  Qed.
  Lemma erase_visit_expression st e : visit_expression st e = map_outcome erase (lvisit_expression keep st e).
  Proof. unfold visit_expression, lvisit_expression. rewrite erase_visit. apply erase_finish. Qed.
  Lemma erase_visit_list st es : visit_expression_list st es = map_outcome (map erase) (lvisit_expression_list keep st es).
  Proof. apply mapM_erase. apply Forall_forall. intros e _. apply erase_visit_expression. Qed.

  Lemma erase_params_loop n : forall spec vs, resolve_params_loop n spec (map erase vs) = map_outcome (map erase) (lresolve_params_loop keep n spec vs).
  Proof.
    induction spec as [|c spec IH]; intros [|v vs]; cbn [resolve_params_loop lresolve_params_loop map]; try reflexivity.
    destruct (type_of (erase v)) as [tp|e|w|k]; cbn [bind map_outcome]; try reflexivity. destruct (type_of_char c) as [t|e|w|k]; cbn [bind map_outcome]; try reflexivity.
    destruct (negb (check_promote tp t)); [reflexivity|].
    eapply map_bind; [apply erase_promote|]. intros o. eapply map_bind; [apply IH|]. intros l. destruct o; reflexivity.
  Qed.
  Lemma erase_parameters n vs : resolve_parameters n (map erase vs) = map_outcome (map erase) (lresolve_parameters keep n vs).
  Proof.
    unfold resolve_parameters, lresolve_parameters. rewrite map_length. destruct (is_non_gate n).
    - destruct (get_non_gate_param_types_with_param_count n (List.length vs)); [apply erase_params_loop|]. destruct (Nat.eqb _ _); reflexivity.
    - destruct (get_instruction_param_types n) as [[s|]|e|w|k]; cbn [bind]; try reflexivity; [|destruct (Nat.eqb _ _); reflexivity].
      destruct (negb _); [reflexivity|]. apply erase_params_loop.
  Qed.

  (** *** Logged computations *)
  Definition emap {A B} (g : A -> B) (m : logged A) : logged B := (map_outcome g (fst m), snd m).
  Lemma emap_bind {A A' B B'} (g : A -> A') (h : B -> B') (m : logged A) m' (k : A -> logged B) k' :
    m' = emap g m -> (forall a, k' (g a) = emap h (k a)) -> lbind m' k' = emap h (lbind m k).
  Proof. intros -> H. destruct m as [[a|e|w|c] es]; cbn; try reflexivity. rewrite H. destruct (k a) as [r es']. reflexivity. Qed.
  Lemma emap_lift {A B} (g : A -> B) m m' : m' = map_outcome g m -> lift m' = emap g (lift m).
  Proof. intros ->. reflexivity. Qed.
  Lemma emap_catch {A B} (g : A -> B) l d d' m m' : m' = emap g m -> d' = g d -> catch_log l d' m' = emap g (catch_log l d m).
  Proof. intros -> ->. destruct m as [[a|e|w|c] es]; reflexivity. Qed.
  Lemma emap_context {A B} (g : A -> B) l m m' : m' = emap g m -> log_context l m' = emap g (log_context l m).
  Proof. intros ->. destruct m as [[a|e|w|c] es]; reflexivity. Qed.
  Definition here {A} (x : A) : A := x.
  Lemma emap_same {A} (m : logged A) : m = emap here m.
  Proof. destruct m as [[a|e|w|c] es]; reflexivity. Qed.

  Lemma lvisit_gate_unfold st l name inner params annots : lvisit_gate keep st (Gate l name inner params annots) =
    log_context l
      (let* inner' := match inner with
                      | None => lift (Ok None)
                      | Some g' => let* r := lvisit_gate keep st g' in lift (Ok (Some r))
                      end in
       let* ps := lift (lvisit_expression_list keep st params) in
       let* ps' := lift (lresolve_parameters keep name ps) in
       let* _ := lift (check_gate (option_map erase_gate inner')) in
       let* ans := visit_annotated st annots in
       lift (Ok (LGate l name inner' ps' ans))).
  Proof. destruct inner; reflexivity. Qed.
  Lemma erase_visit_gate st g : visit_gate st g = emap erase_gate (lvisit_gate keep st g).
  Proof.
    assert (T : forall l name params annots inner inner', inner' = emap (option_map erase_gate) inner ->
      log_context l (let* inner' := inner' in
        let* ps := lift (visit_expression_list st params) in
        let* ps' := lift (resolve_parameters name ps) in
        let* _ := lift (check_gate inner') in
        let* ans := visit_annotated st annots in
        lift (Ok (SemGate l name inner' ps' ans))) =
      emap erase_gate (log_context l (let* inner' := inner in
        let* ps := lift (lvisit_expression_list keep st params) in
        let* ps' := lift (lresolve_parameters keep name ps) in
        let* _ := lift (check_gate (option_map erase_gate inner')) in
        let* ans := visit_annotated st annots in
        lift (Ok (LGate l name inner' ps' ans))))).
    { intros l n ps an inner inner' E. apply emap_context. eapply emap_bind; [exact E|]. intros i. eapply emap_bind; [apply emap_lift, erase_visit_list|]. intros vs.
      eapply emap_bind; [apply emap_lift, erase_parameters|]. intros ws. eapply emap_bind; [apply (@emap_same unit)|]. intros _. eapply emap_bind; [apply (@emap_same (list sem_annotation))|]. intros ans. reflexivity. }
    induction g as [l n ps an|l n g ps an IH] using gate_ind_full; rewrite visit_gate_unfold, lvisit_gate_unfold; apply T.
    - reflexivity.
    - eapply emap_bind; [exact IH|]. reflexivity.
  Qed.

  Lemma erase_add st s : add_statement st (erase_statement s) = map_outcome fst (ladd_statement st s).
  Proof. unfold ladd_statement. destruct (add_statement st (erase_statement s)); reflexivity. Qed.
  Lemma erase_visit_statement st s : visit_statement st s = emap fst (lvisit_statement keep st s).
  Proof.
    destruct s as [l n t an|l g ops an|l n ops ps an|l n c an]; cbn [visit_statement lvisit_statement].
    - destruct (visit_variable st l n t an) as [[st'|e|w|k] es]; try reflexivity. cbn. unfold emap. cbn. now rewrite app_nil_r.
    - apply emap_catch; [|reflexivity]. eapply emap_bind; [apply erase_visit_gate|]. intros g'. eapply emap_bind; [apply emap_lift, erase_visit_list|]. intros vs.
      eapply emap_bind; [apply emap_lift, erase_resolve_instruction|]. intros r. eapply emap_bind; [apply (@emap_same unit)|]. intros _. eapply emap_bind; [apply (@emap_same (list sem_annotation))|]. intros ans.
      apply emap_lift. apply (erase_add st (LGateInstr l (fst r) g' (snd r) ans)).
    - apply emap_catch; [|reflexivity]. eapply emap_bind; [apply emap_lift, erase_visit_list|]. intros vs.
      eapply emap_bind; [apply emap_lift, erase_resolve_instruction|]. intros r. eapply emap_bind; [apply emap_lift, erase_visit_list|]. intros pvs. eapply emap_bind; [apply emap_lift, erase_parameters|]. intros pws.
      eapply emap_bind; [apply (@emap_same unit)|]. intros _. eapply emap_bind; [apply (@emap_same (list sem_annotation))|]. intros ans.
      apply emap_lift. apply (erase_add st (LNonGate l (fst r) n (snd r) pws ans)).
    - apply emap_catch; [|reflexivity]. eapply emap_bind; [apply (@emap_same (list sem_annotation))|]. intros ans. apply emap_lift. apply (erase_add st (LAsm l n c ans)).
  Qed.
  Lemma erase_visit_block l : forall ss st, visit_block l st ss = emap fst (lvisit_block keep l st ss).
  Proof.
    induction ss as [|s ss IH]; intros st; [reflexivity|]. cbn [visit_block lvisit_block]. eapply emap_bind; [apply emap_catch; [apply erase_visit_statement|reflexivity]|].
    intros r. rewrite IH. destruct (lvisit_block keep l (fst r) ss) as [[x|e|w|k] es]; cbn; try reflexivity. unfold emap. cbn. now rewrite app_nil_r.
  Qed.
  Lemma erase_analyze st p : analyze_ast st p = map_outcome fst (lanalyze_ast keep st p).
  Proof.
    assert (H : visit_program st p = emap fst (lvisit_program keep st p)).
    { unfold visit_program, lvisit_program. eapply emap_bind; [apply (@emap_same version)|]. intros v. eapply emap_bind; [apply erase_visit_block|]. intros r.
      eapply emap_bind; [apply (@emap_same scope)|]. intros sc. reflexivity. }
    unfold analyze_ast, lanalyze_ast. rewrite H. destruct (lvisit_program keep st p) as [[[[st' sp] ls]|e|w|k] es]; cbn [emap map_outcome bind fst snd]; try reflexivity.
    destruct es; [|reflexivity]. destruct (program_well_formed sp); reflexivity.
  Qed.
End Erasure.
