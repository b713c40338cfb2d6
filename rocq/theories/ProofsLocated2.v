(** Locations of the values of a result (C81): where they come from. *)
From Coq Require Import ZifyBool ZifyNat.
From Verif Require Import Base ModelUtils ModelVersion ModelError ModelTypes ModelOverload ModelFunctions ModelInstructionSet ModelAst ModelAnalyzer ModelSemantic ModelLocated
  SpecTypes SpecFunctions SpecInstructions SpecAnalyzer SpecLocated ProofsTypes ProofsFunctions ProofsFolding ProofsExpr ProofsInstructions ProofsGates ProofsIndex
  ProofsAnalyzer ProofsAnalyzer2 ProofsLocated.
Local Open Scope string_scope.

Lemma Forall2_impl {A B} (P Q : A -> B -> Prop) l m : (forall a b, P a b -> Q a b) -> Forall2 P l m -> Forall2 Q l m.
Proof. intros H. induction 1; constructor; auto. Qed.

Section Where.
  Variable keep : bool.

  Lemma copied_none l : copied keep None l = l.
  Proof. destruct l; [reflexivity|]. cbn. destruct keep; reflexivity. Qed.
  Lemma copied_own l : copied keep l l = l.
  Proof. destruct l; [reflexivity|]. cbn. destruct keep; reflexivity. Qed.

  (** w is v, perhaps as another constant *)
  Definition moved (v w : lvalue) : Prop := lv_loc w = lv_loc v /\ forall x is, lv_node v = LIndex x is -> lv_node w = LIndex x is.
  Lemma promote_moved v t w : lpromote keep v t = Ok (Some w) -> moved v w.
  Proof.
    unfold lpromote. destruct (type_of (erase v)) as [tv| | |]; cbn [bind]; try discriminate. destruct (type_check t tv); [intros [= <-]; split; auto|].
    intros H. injection H as H. destruct v as [l nd]. cbn [lv_node lv_loc] in *.
    destruct (kind t), nd; cbn [option_map] in H; try discriminate; try (injection H as <-; split; cbn; [apply copied_none|discriminate]).
    destruct (type_check tv (make_type TBool)); [|discriminate]. injection H as <-. split; cbn; [apply copied_own|discriminate].
  Qed.
  Lemma promote_args_moved : forall args ps ws, lpromote_args keep args ps = Ok (Some ws) -> Forall2 moved args ws.
  Proof.
    induction args as [|a args IH]; intros [|p ps] ws; cbn [lpromote_args]; try discriminate; try (intros [= <-]; constructor).
    intros H. apply bind_ok_inv in H. destruct H as ([a'|] & Ea & H); [|discriminate]. apply bind_ok_inv in H. destruct H as ([l|] & El & H); [|discriminate]. injection H as <-.
    constructor; [exact (promote_moved _ _ _ Ea)|exact (IH _ _ El)].
  Qed.
  Lemma resolve_moved {T} (t : table T) n args x : lresolve keep t n args = Ok x -> Forall2 moved args (snd x).
  Proof.
    unfold lresolve. destruct (table_find n t) as [r|]; [|discriminate]. intros H. apply bind_ok_inv in H. destruct H as ([y|] & Ey & H).
    - injection H as <-. revert Ey. induction (rev r) as [|o os IH]; cbn [lresolve_loop]; [discriminate|]. destruct (negb _); [exact IH|]. intros H. apply bind_ok_inv in H.
      destruct H as ([l|] & El & H); [|exact (IH H)]. injection H as <-. exact (promote_args_moved _ _ _ El).
    - destruct (types_of (map erase args)); discriminate.
  Qed.
  Lemma resolve_instruction_moved st n args x : lresolve_instruction keep st n args = Ok x -> Forall2 moved args (snd x).
  Proof.
    unfold lresolve_instruction. induction (scopes st) as [|s l IH]; cbn [lresolve_instruction_in]; [destruct (types_of (map erase args)); discriminate|].
    destruct (lresolve keep (sc_instructions s) n args) as [y|e|w|k] eqn:E; try discriminate; [|exact IH]. intros [= <-]. exact (resolve_moved _ _ _ _ E).
  Qed.

  (** ** Expressions *)
  Lemma bare_loc (m : outcome error value) v : map_outcome bare m = Ok v -> lv_loc v = None.
  Proof. destruct m; cbn; try discriminate. intros [= <-]. reflexivity. Qed.
  Lemma visit_unlocated st e v : lvisit keep st e = Ok v -> lv_loc v = None.
  Proof.
    destruct e as [l b|l z|l f|l n|l b idx|l n [args|]|l o a|l o a b|l c a b].
    1-3: cbn; now intros [= <-].
    - apply bare_loc.
    - rewrite lvisit_index_unfold. unfold with_context. set (m := bind _ _). destruct m as [y| | |] eqn:E; try discriminate. intros [= <-]. subst m.
      apply bind_ok_inv in E. destruct E as (u & _ & E). destruct (lv_node u) as [| | |x|]; try discriminate.
      assert (T : forall m : outcome error type, (let! t := m in Err (mk_error ("indexation is not supported for value of type '" ++ type_to_string t ++ "'"))) <> Ok y) by (intros []; discriminate).
      destruct (kind (var_type x)); try (exfalso; exact (T _ E));
        (apply bind_ok_inv in E; destruct E as (is & _ & E); apply bind_ok_inv in E; destruct E as ([] & _ & E); injection E as <-; reflexivity).
    - cbn [lvisit]. intros H. apply bind_ok_inv in H. destruct H as (vs & _ & H). exact (bare_loc _ _ H).
    - apply bare_loc.
    - cbn [lvisit]. intros H. apply bind_ok_inv in H. destruct H as (v1 & _ & H). exact (bare_loc _ _ H).
    - cbn [lvisit]. intros H. apply bind_ok_inv in H. destruct H as (v1 & _ & H). apply bind_ok_inv in H. destruct H as (v2 & _ & H). exact (bare_loc _ _ H).
    - cbn [lvisit]. intros H. apply bind_ok_inv in H. destruct H as (v0 & _ & H). apply bind_ok_inv in H. destruct H as (v1 & _ & H). apply bind_ok_inv in H. destruct H as (v2 & _ & H). exact (bare_loc _ _ H).
  Qed.
  Lemma visit_entry_indices st i part : lvisit_entry keep st i = Ok part -> entry_indices i part.
  Proof.
    destruct i as [l e|l a b].
    - rewrite lvisit_item_unfold. intros H. apply bind_ok_inv in H. destruct H as (z & _ & [= <-]). split; [discriminate|]. split; [|reflexivity]. intros x [<-|[]]. apply copied_none.
    - rewrite lvisit_range_unfold. intros H. apply bind_ok_inv in H. destruct H as (z1 & _ & H). apply bind_ok_inv in H. destruct H as (z2 & _ & H). apply bind_ok_inv in H. destruct H as (zs & E & [= <-]).
      unfold expand_range in E. destruct (z2 <? z1)%Z eqn:L; [discriminate|]. destruct (z2 =? int64_max)%Z; [discriminate|]. injection E as <-. split; [|split].
      + intros X. apply map_eq_nil in X. apply (f_equal (@List.length Z)) in X. rewrite zseq_length in X. cbn in X. lia.
      + intros x I. apply in_map_iff in I. destruct I as (z & <- & _). apply copied_none.
      + exists z1. intros k x N. rewrite nth_error_map in N. destruct (nth_error (zseq z1 _) k) as [z|] eqn:Ez; [|discriminate]. injection N as <-. cbn [snd]. exact (zseq_nth _ _ _ _ Ez).
  Qed.
  Lemma visit_expression_value st e v : lvisit_expression keep st e = Ok v -> value_of_expr e v.
  Proof.
    unfold lvisit_expression, finish, with_context. set (m := bind _ _). destruct m as [y| | |] eqn:E; try discriminate. intros [= <-]. subst m.
    apply bind_ok_inv in E. destruct E as (u & E & [= <-]). split.
    - cbn [copy_location lv_loc]. rewrite (visit_unlocated _ _ _ E). apply copied_none.
    - destruct e as [l b|l z|l f|l n|l b idx|l n a|l o a|l o a b|l c a b]; try exact I. cbn [copy_location lv_node]. rewrite lvisit_index_unfold in E. unfold with_context in E.
      set (m := bind _ _) in E. destruct m as [y| | |] eqn:M; try discriminate. injection E as ->. subst m.
      apply bind_ok_inv in M. destruct M as (w & _ & M). destruct (lv_node w) as [| | |x|]; try discriminate.
      assert (T : forall m : outcome error type, (let! t := m in Err (mk_error ("indexation is not supported for value of type '" ++ type_to_string t ++ "'"))) <> Ok u) by (intros []; discriminate).
      destruct (kind (var_type x)); try (exfalso; exact (T _ M));
        (apply bind_ok_inv in M; destruct M as (is & Mi & M); apply bind_ok_inv in M; destruct M as ([] & _ & M); injection M as <-; exists x, (concat is); split; [reflexivity|];
         exists is; split; [reflexivity|]; apply mapM_ok in Mi; eapply Forall2_impl; [|exact Mi]; intros i part; apply visit_entry_indices).
  Qed.
  Lemma visit_list_values st es vs : lvisit_expression_list keep st es = Ok vs -> Forall2 value_of_expr es vs.
  Proof. intros H. apply mapM_ok in H. eapply Forall2_impl; [|exact H]. intros e v. apply visit_expression_value. Qed.
  Lemma moved_value e v w : value_of_expr e v -> moved v w -> value_of_expr e w.
  Proof.
    intros [L N] [Lm Nm]. split; [congruence|]. destruct e; try exact I. destruct N as (x & is & E & P). exists x, is. split; [exact (Nm _ _ E)|exact P].
  Qed.
  Lemma moved_values es vs ws : Forall2 value_of_expr es vs -> Forall2 moved vs ws -> Forall2 value_of_expr es ws.
  Proof. intros F. revert ws. induction F as [|e v es vs H _ IH]; intros ws M; inversion M; subst; constructor; [eapply moved_value; eauto|auto]. Qed.

  (** ** Parameters *)
  Lemma params_loop_moved n : forall spec vs ws, Forall ordinary_value (map erase vs) -> List.length spec = List.length vs -> lresolve_params_loop keep n spec vs = Ok ws -> Forall2 moved vs ws.
  Proof.
    induction spec as [|c spec IH]; intros [|v vs] ws O L; cbn [lresolve_params_loop] in *; try discriminate; [intros [= <-]; constructor|].
    cbn [map] in O. inversion O as [|? ? Ov Os]; subst. intros H. apply bind_ok_inv in H. destruct H as (tp & Et & H). apply bind_ok_inv in H. destruct H as (t & _ & H).
    destruct (check_promote tp t) eqn:C; cbn [negb] in H; [|discriminate]. apply bind_ok_inv in H. destruct H as (o & Eo & H). apply bind_ok_inv in H. destruct H as (l & El & H). injection H as <-.
    assert (P : exists w, promote (erase v) t = Ok (Some w)).
    { apply (check_promote_agrees (erase v) tp t Et); [|exact C]. destruct (erase v) as [b|z|f|x|x idx]; cbn in Ov |- *; try (left; exact I); right; cbn in Et.
      - injection Et as <-. unfold declared in Ov. destruct (kind (var_type x)); cbn in *; tauto.
      - destruct Ov as [K _]. destruct (_ =? 1)%Z; [|injection Et as <-; destruct K as [-> | ->]; exact I].
        unfold element_type_of, type_check in Et. destruct K as [K|K]; rewrite K in Et; cbn in Et; injection Et as <-; exact I. }
    destruct P as (w & P). rewrite (erase_promote keep), Eo in P. destruct o as [v'|]; [|discriminate]. constructor; [exact (promote_moved _ _ _ Eo)|]. apply (IH vs l Os); [now injection L|exact El].
  Qed.
  Lemma param_count n m : forall l spec, param_types_with_count n m l = Some spec -> String.length spec = m.
  Proof.
    induction l as [|[k [[s|] o]] l IH]; intros spec; cbn [param_types_with_count]; [discriminate| |]; destruct (k =? n); try apply IH.
    - destruct (Nat.eqb_spec (String.length s) m); [now intros [= <-]|apply IH].
    - destruct (Nat.eqb m 0); [discriminate|apply IH].
  Qed.
  Lemma string_list_length s : List.length (list_ascii_of_string s) = String.length s.
  Proof. induction s; cbn; congruence. Qed.
  Lemma parameters_moved n vs ws : Forall ordinary_value (map erase vs) -> lresolve_parameters keep n vs = Ok ws -> Forall2 moved vs ws.
  Proof.
    intros O. unfold lresolve_parameters. destruct (is_non_gate n).
    - destruct (get_non_gate_param_types_with_param_count n (List.length vs)) as [spec|] eqn:E.
      + apply params_loop_moved; [exact O|]. rewrite string_list_length. exact (param_count _ _ _ _ E).
      + destruct (Nat.eqb_spec (List.length vs) 0) as [Z|Z]; [|discriminate]. intros [= <-]. destruct vs; [constructor|discriminate].
    - intros H. apply bind_ok_inv in H. destruct H as ([spec|] & _ & H).
      + destruct (Nat.eqb_spec (List.length vs) (String.length spec)) as [Z|Z]; cbn [negb] in H; [|discriminate]. revert H. apply params_loop_moved; [exact O|]. now rewrite string_list_length.
      + destruct (Nat.eqb_spec (List.length vs) 0) as [Z|Z]; [|discriminate]. injection H as <-. destruct vs; [constructor|discriminate].
  Qed.

  Section State.
    Variables (lm : libm) (st : analyzer).
    Hypothesis Hst : ordinary lm st.
    Lemma visit_list_ordinary_values es vs : lvisit_expression_list keep st es = Ok vs -> Forall ordinary_value (map erase vs).
    Proof. intros H. apply (visit_list_ordinary lm st Hst es). rewrite (erase_visit_list keep), H. reflexivity. Qed.
    Lemma parameters_values n es vs ws : lvisit_expression_list keep st es = Ok vs -> lresolve_parameters keep n vs = Ok ws -> Forall2 value_of_expr es ws.
    Proof. intros V R. exact (moved_values _ _ _ (visit_list_values _ _ _ V) (parameters_moved _ _ _ (visit_list_ordinary_values _ _ V) R)). Qed.
    Lemma operands_values n es vs x : lvisit_expression_list keep st es = Ok vs -> lresolve_instruction keep st n vs = Ok x -> Forall2 value_of_expr es (snd x).
    Proof. intros V R. exact (moved_values _ _ _ (visit_list_values _ _ _ V) (resolve_instruction_moved _ _ _ _ R)). Qed.

    Lemma visit_gate_of g : forall g' es, lvisit_gate keep st g = (Ok g', es) -> gate_of g g'.
    Proof.
      induction g as [l n ps an|l n g ps an IH] using gate_ind_full; intros g' es; rewrite lvisit_gate_unfold; intros H; apply log_context_ok in H;
        apply lbind_ok in H; destruct H as (i & e1 & e2 & Hi & H & _); apply lbind_ok in H; destruct H as (vs & e3 & e4 & Hv & H & _); apply lift_ok in Hv; destruct Hv as [Hv _];
        apply lbind_ok in H; destruct H as (ws & e5 & e6 & Hw & H & _); apply lift_ok in Hw; destruct Hw as [Hw _];
        apply lbind_ok in H; destruct H as (u & e7 & e8 & _ & H & _); apply lbind_ok in H; destruct H as (ans & e9 & e10 & _ & H & _); apply lift_ok in H; destruct H as [[= <-] _].
      - apply lift_ok in Hi. destruct Hi as [[= <-] _]. constructor. eapply parameters_values; eauto.
      - apply lbind_ok in Hi. destruct Hi as (r & e11 & e12 & Hr & Hi & _). apply lift_ok in Hi. destruct Hi as [[= <-] _]. constructor; [eapply IH; eauto|eapply parameters_values; eauto].
    Qed.

    Lemma statements_added x st' ls : ladd_statement st x = Ok (st', ls) -> ls = [x] /\ statements_of st' = (statements_of st ++ [erase_statement x])%list.
    Proof.
      unfold ladd_statement. intros H. apply bind_ok_inv in H. destruct H as (st1 & A & [= <- <-]). split; [reflexivity|]. apply add_statement_inv in A. destruct A as [N ->].
      rewrite statements_of_map. unfold statements_of. destruct (scopes st); [congruence|reflexivity].
    Qed.
    Lemma visit_statement_of s st' ls es : lvisit_statement keep st s = (Ok (st', ls), es) ->
      (ls = [] \/ exists x, ls = [x] /\ statement_of s x) /\ statements_of st' = (statements_of st ++ map erase_statement ls)%list.
    Proof.
      destruct s as [l n t an|l g ops an|l n ops ps an|l n c an]; cbn [lvisit_statement]; intros H.
      - apply lbind_ok in H. destruct H as (st1 & e1 & e2 & H & H' & _). apply lift_ok in H'. destruct H' as [[= <- <-] _]. split; [now left|]. cbn [map]. rewrite app_nil_r.
        pose proof (statement_effect st (SVariable l n t an) st1 e1 H) as E. inversion E; subst; rewrite ?statements_of_map; unfold fresh, statements_of; cbn [scopes]; try reflexivity;
          destruct (scopes st); reflexivity.
      - apply catch_log_inv in H. destruct H as [H|(e & es1 & _ & [= -> ->] & _)]; [|split; [now left|cbn [map]; now rewrite app_nil_r]].
        apply lbind_ok in H. destruct H as (g' & e1 & e2 & Hg & H & _). apply lbind_ok in H. destruct H as (vs & e3 & e4 & Hv & H & _). apply lift_ok in Hv. destruct Hv as [Hv _].
        apply lbind_ok in H. destruct H as (x & e5 & e6 & Hx & H & _). apply lift_ok in Hx. destruct Hx as [Hx _]. apply lbind_ok in H. destruct H as (u & e7 & e8 & _ & H & _).
        apply lbind_ok in H. destruct H as (ans & e9 & e10 & _ & H & _). apply lift_ok in H. destruct H as [H _]. destruct (statements_added _ _ _ H) as [-> S]. split; [right; eexists; split; [reflexivity|]|exact S].
        constructor; [eapply visit_gate_of; eauto|eapply operands_values; eauto].
      - apply catch_log_inv in H. destruct H as [H|(e & es1 & _ & [= -> ->] & _)]; [|split; [now left|cbn [map]; now rewrite app_nil_r]].
        apply lbind_ok in H. destruct H as (vs & e3 & e4 & Hv & H & _). apply lift_ok in Hv. destruct Hv as [Hv _].
        apply lbind_ok in H. destruct H as (x & e5 & e6 & Hx & H & _). apply lift_ok in Hx. destruct Hx as [Hx _].
        apply lbind_ok in H. destruct H as (pvs & e1 & e2 & Hp & H & _). apply lift_ok in Hp. destruct Hp as [Hp _].
        apply lbind_ok in H. destruct H as (pws & e11 & e12 & Hpw & H & _). apply lift_ok in Hpw. destruct Hpw as [Hpw _]. apply lbind_ok in H. destruct H as (u & e7 & e8 & _ & H & _).
        apply lbind_ok in H. destruct H as (ans & e9 & e10 & _ & H & _). apply lift_ok in H. destruct H as [H _]. destruct (statements_added _ _ _ H) as [-> S]. split; [right; eexists; split; [reflexivity|]|exact S].
        constructor; [eapply operands_values; eauto|eapply parameters_values; eauto].
      - apply catch_log_inv in H. destruct H as [H|(e & es1 & _ & [= -> ->] & _)]; [|split; [now left|cbn [map]; now rewrite app_nil_r]].
        apply lbind_ok in H. destruct H as (ans & e9 & e10 & _ & H & _). apply lift_ok in H. destruct H as [H _]. destruct (statements_added _ _ _ H) as [-> S]. split; [right; eexists; split; [reflexivity|]|exact S].
        constructor.
    Qed.
  End State.

  Lemma visit_block_of lm l : forall ss st st' ls es, ordinary lm st -> lvisit_block keep l st ss = (Ok (st', ls), es) ->
    some_of ss ls /\ statements_of st' = (statements_of st ++ map erase_statement ls)%list.
  Proof.
    induction ss as [|s ss IH]; intros st st' ls es O H; cbn [lvisit_block] in H.
    - apply lift_ok in H. destruct H as [[= <- <-] _]. split; [constructor|]. cbn [map]. now rewrite app_nil_r.
    - apply lbind_ok in H. destruct H as ([st1 l1] & e1 & e2 & H1 & H & _). apply lbind_ok in H. destruct H as ([st2 l2] & e3 & e4 & H2 & H & _). apply lift_ok in H. destruct H as [[= <- <-] _]. cbn [fst snd] in *.
      apply catch_log_inv in H1. destruct H1 as [H1|(e & es1 & H1 & _)].
      + destruct (visit_statement_of lm st O _ _ _ _ H1) as [C S]. assert (V : visit_statement st s = (Ok st1, e1)) by (rewrite (erase_visit_statement keep), H1; reflexivity).
        assert (O1 : ordinary lm st1) by (eapply ordinary_extends; [exact O|eapply effect_extends, statement_effect, V]). destruct (IH _ _ _ _ O1 H2) as [F S2].
        rewrite S2, S, map_app, app_assoc. split; [|reflexivity]. destruct C as [->|(x & -> & Sx)]; cbn [app]; [now apply some_none|now apply some_one].
      + exfalso. apply (visit_statement_not_err st s e es1). rewrite (erase_visit_statement keep), H1. reflexivity.
  Qed.
  Lemma analyze_of lm st p st' r ls q : ordinary lm st -> lanalyze_ast keep st p = Ok (st', r, ls) -> res_root r = Some q ->
    blk_statements (sp_block q) = (statements_of st ++ map erase_statement ls)%list /\ some_of (prog_statements p) ls.
  Proof.
    intros O. unfold lanalyze_ast. destruct (lvisit_program keep st p) as [[[[st1 sp] ls1]|e|w|k] es] eqn:E; try discriminate. intros H Q.
    assert (X : st1 = st' /\ ls1 = ls /\ sp = q).
    { destruct es; [destruct (program_well_formed sp); [|discriminate]|]; injection H as <- <- <-; cbn in Q; injection Q as ->; auto. }
    destruct X as (-> & -> & ->). clear H Q. unfold lvisit_program in E. apply lbind_ok in E. destruct E as (v & e1 & e2 & _ & E & _). apply lbind_ok in E. destruct E as ([st2 l2] & e3 & e4 & Eb & E & _).
    apply lbind_ok in E. destruct E as (sc & e5 & e6 & Es & E & _). apply lift_ok in Es. destruct Es as [Es _]. apply lift_ok in E. destruct E as [E _]. cbn [fst snd] in *. injection E as -> <- ->.
    destruct (visit_block_of lm _ _ _ _ _ _ O Eb) as [F S]. split; [|exact F]. cbn [sp_block]. rewrite <- S. unfold statements_of. unfold current_scope in Es. destruct (scopes st'); [discriminate|]. now injection Es as ->.
  Qed.
End Where.
