(** Nodes in memory (C97): annotations, gates, statements and programs. *)
From Coq Require Import ZifyBool ZifyNat.
From Verif Require Import Base ModelUtils ModelVersion ModelError ModelTypes ModelOverload ModelFunctions ModelInstructionSet ModelAst ModelAnalyzer ModelSemantic ModelLocated
  SpecTypes SpecFunctions SpecInstructions SpecAnalyzer ProofsTypes ProofsFunctions ProofsFolding ProofsExpr ProofsInstructions ProofsGates
  ProofsAnalyzer ProofsAnalyzer2 ProofsLocated ModelNodes SpecNodes ProofsNodes.
Local Open Scope list_scope.

Lemma agrees_catch {A B} h0 h l d d' (m : hm A) (p : logged B) R : agrees h0 (m h) p R -> (forall h', keeps h0 h' -> R h' d d') -> agrees h0 (hcatch l d m h) (catch_log l d' p) R.
Proof.
  intros (G & E & M) D. unfold hcatch, catch_log. destruct (m h) as [h1 [[a|e|w|u] es]], p as [[b|e'|w'|u'] es']; cbn in G, E, M; try contradiction; subst;
    (split; [exact G|]; split; [reflexivity|]); cbn; first [exact M|reflexivity|exact (D h1 G)].
Qed.

Section Keep.
  Variable keep : bool.
  Variables (m : hanalyzer) (st : analyzer).

  (** ** Annotations *)
  Definition As (n : nat) (h : heap) (l : list addr) (ans : list sem_annotation) : Prop := omap (read_annotation h) l = Some ans /\ owned n h l.
  Definition Es (n : nat) (h : heap) (l : list addr) (vs : list value) : Prop := exists ws, vs = map erase ws /\ Vs n h l ws.
  Lemma hvisit_operands_agrees l : forall es h, knows h m st -> agrees h (hvisit_annotation_operands keep m l es h) (visit_annotation_operands st l es) (Es (List.length h)).
  Proof.
    induction es as [|e es IH]; intros h K; cbn [hvisit_annotation_operands visit_annotation_operands]; [apply agrees_ret; [apply keeps_refl|]; exists []; split; [reflexivity|apply Vs_nil]|].
    eapply agrees_then.
    - apply (agrees_catch h h l None None _ _ (fun h' x y => match x, y with Some a, Some v => exists w, v = erase w /\ V (List.length h) h' a w | None, None => True | _, _ => False end)); [|auto].
      rewrite (erase_visit keep). pose proof (hvisit_both keep m st e h K) as H. destruct (lvisit keep st e) as [v|x|w|u]; cbn [map_outcome bind].
      + change (lift (Ok (Some (erase v)))) with (lbind (lift (Ok v : outcome error lvalue)) (fun v => lift (Ok (Some (erase v)) : outcome error (option value)))). eapply agrees_then; [exact H|]. intros h1 a b _ X. apply agrees_ret; [apply keeps_refl|]. eauto.
      + change (lift (Err x)) with (lbind (lift (Err x : outcome error lvalue)) (fun v => lift (Ok (Some (erase v)) : outcome error (option value)))). eapply agrees_then; [exact H|]. intros h1 a b _ X. apply agrees_ret; [apply keeps_refl|]. eauto.
      + change (lift (Throw w)) with (lbind (lift (Throw w : outcome error lvalue)) (fun v => lift (Ok (Some (erase v)) : outcome error (option value)))). eapply agrees_then; [exact H|]. intros h1 a b _ X. apply agrees_ret; [apply keeps_refl|]. eauto.
      + change (lift (UB u)) with (lbind (lift (UB u : outcome error lvalue)) (fun v => lift (Ok (Some (erase v)) : outcome error (option value)))). eapply agrees_then; [exact H|]. intros h1 a b _ X. apply agrees_ret; [apply keeps_refl|]. eauto.
    - intros h1 x y K1 X. eapply agrees_then; [apply IH, (knows_keeps _ _ _ _ K1 K)|]. intros h2 as_ vs K2 (ws & -> & Y). apply agrees_ret; [apply keeps_refl|].
      destruct x as [a|], y as [v|]; try contradiction.
      + destruct X as (w & -> & X). exists (w :: ws). split; [reflexivity|]. exact (V_cons _ _ _ _ _ _ _ (keeps_length _ _ K1) K2 X Y).
      + exists ws. split; [reflexivity|]. destruct Y as [Y1 Y2]. split; [exact Y1|]. exact (owned_le _ _ _ _ (keeps_length _ _ K1) Y2).
  Qed.
  Lemma hvisit_annotated_agrees : forall l h, knows h m st -> agrees h (hvisit_annotated keep m l h) (visit_annotated st l) (As (List.length h)).
  Proof.
    induction l as [|a l IH]; intros h K; cbn [hvisit_annotated visit_annotated]; [apply agrees_ret; [apply keeps_refl|]; split; [reflexivity|apply owned_nil]|].
    eapply agrees_then.
    - unfold hvisit_annotation_data, visit_annotation_data. instantiate (1 := fun h' x y => As (List.length h) h' [x] [y]). eapply agrees_then; [apply hvisit_operands_agrees, K|].
      intros h1 as_ vs K1 (ws & -> & R & O). split; [apply keeps_snoc|]. split; [reflexivity|]. split.
      + cbn. unfold read_annotation. rewrite nth_snoc. now rewrite (reads_keeps _ _ _ _ (keeps_snoc _ _) R).
      + apply owned_new; [exact (keeps_length _ _ K1)|exact O].
    - intros h1 x y K1 [R O]. eapply agrees_then; [apply IH, (knows_keeps _ _ _ _ K1 K)|]. intros h2 as_ ans K2 [R2 O2]. apply agrees_ret; [apply keeps_refl|]. split.
      + apply (omap_app _ [x] as_ [y] ans); [|exact R2]. exact (same_annotations _ _ (keeps_stays _ _ K2) _ _ R).
      + exact (owned_seq _ _ _ [x] _ (keeps_length _ _ K1) O K2 O2).
  Qed.

  (** ** Parameters *)
  Lemma hparams_loop_agrees n : forall spec l h vs, omap (read_value h) l = Some vs -> agrees h (hresolve_params_loop keep n spec l h) (lift (lresolve_params_loop keep n spec vs)) (promoted_list h l).
  Proof.
    induction spec as [|c spec IH]; intros l h vs R; cbn [hresolve_params_loop lresolve_params_loop]; [apply agrees_ret; [apply keeps_refl|apply promoted_nil]|].
    destruct l as [|a l]; cbn [omap] in R; [injection R as <-; apply agrees_throw, keeps_refl|]. destruct (read_value h a) as [v|] eqn:Ra; [|discriminate]. destruct (omap (read_value h) l) as [vs'|] eqn:Rl; [|discriminate]. injection R as <-.
    rewrite (peek_bind _ _ _ v) by exact Ra. rewrite lift_bind. eapply agrees_then; [apply agrees_lift, keeps_refl|]. intros ? ? tp _ (-> & -> & _). rewrite lift_bind. eapply agrees_then; [apply agrees_lift, keeps_refl|]. intros ? ? t _ (-> & -> & _).
    destruct (negb (check_promote tp t)); [apply agrees_err, keeps_refl|]. rewrite lift_bind. eapply agrees_then; [apply hpromote_agrees, Ra|]. intros h1 x y K X.
    rewrite lift_bind. eapply agrees_then; [apply IH, (reads_keeps _ _ _ _ K Rl)|]. intros h2 l' ws K2 Y. apply agrees_ret; [apply keeps_refl|].
    destruct x as [a'|], y as [v'|]; try contradiction; [exact (promoted_cons _ _ _ _ _ _ _ _ _ _ Ra K X K2 Y)|exact (promoted_skip _ _ _ _ _ _ _ K Y)].
  Qed.
  Lemma hparameters_agrees n l h vs : omap (read_value h) l = Some vs -> agrees h (hresolve_parameters keep n l h) (lift (lresolve_parameters keep n vs)) (promoted_list h l).
  Proof.
    intros R. unfold hresolve_parameters, lresolve_parameters. rewrite <- (omap_length _ _ _ R). destruct (is_non_gate n).
    - destruct (get_non_gate_param_types_with_param_count n (List.length l)); [apply hparams_loop_agrees, R|]. destruct (Nat.eqb _ _); [apply agrees_ret; [apply keeps_refl|apply promoted_nil]|apply agrees_err, keeps_refl].
    - rewrite lift_bind. eapply agrees_then; [apply agrees_lift, keeps_refl|]. intros ? ? [s|] _ (-> & -> & _).
      + destruct (negb _); [apply agrees_err, keeps_refl|apply hparams_loop_agrees, R].
      + destruct (Nat.eqb _ _); [apply agrees_ret; [apply keeps_refl|apply promoted_nil]|apply agrees_err, keeps_refl].
  Qed.

  (** ** Gates *)
  Definition G (n : nat) (h : heap) (a : addr) (g : lgate) : Prop := read_any_gate h a = Some g /\ owned n h [a].
  Lemma gate_keeps h h' a g : keeps h h' -> read_any_gate h a = Some g -> read_any_gate h' a = Some g.
  Proof. intros K. apply same_any_gate; [apply keeps_stays, K|exact (keeps_length _ _ K)]. Qed.
  Lemma hvisit_gate_unfold l name inner params annots : hvisit_gate keep m (Gate l name inner params annots) =
    hcontext l
      (let^ inner' := match inner with
                      | None => hret None
                      | Some g' => let^ r := hvisit_gate keep m g' in hret (Some r)
                      end in
       let^ ps := hvisit_expression_list keep m params in
       let^ ps' := hresolve_parameters keep name ps in
       let^ ig := match inner' with
                  | None => hret None
                  | Some a => let^ g := peek (fun h => read_any_gate h a) in hret (Some (erase_gate g))
                  end in
       let^ _ := hlift (lift (check_gate ig)) in
       let^ ans := hvisit_annotated keep m annots in
       alloc (mkCell l (NGate name inner' ps' ans))).
  Proof. destruct inner; reflexivity. Qed.
  Lemma gate_rest l name params annots (inner : option addr) (ginner : option lgate) h h1 : keeps h h1 -> knows h1 m st ->
    match inner, ginner with Some a, Some g => G (List.length h) h1 a g | None, None => True | _, _ => False end ->
    agrees h1 ((let^ ps := hvisit_expression_list keep m params in
       let^ ps' := hresolve_parameters keep name ps in
       let^ ig := match inner with
                  | None => hret None
                  | Some a => let^ g := peek (fun h => read_any_gate h a) in hret (Some (erase_gate g))
                  end in
       let^ _ := hlift (lift (check_gate ig)) in
       let^ ans := hvisit_annotated keep m annots in
       alloc (mkCell l (NGate name inner ps' ans))) h1)
      (let* ps := lift (lvisit_expression_list keep st params) in
       let* ps' := lift (lresolve_parameters keep name ps) in
       let* _ := lift (check_gate (option_map erase_gate ginner)) in
       let* ans := visit_annotated st annots in
       lift (Ok (LGate l name ginner ps' ans))) (G (List.length h)).
  Proof.
    intros K0 Kn I. pose proof (keeps_length _ _ K0) as L0. eapply agrees_then; [apply hvisit_list_agrees, Kn|]. intros h2 ps vs K1 [R O]. eapply agrees_then; [apply hparameters_agrees, R|]. intros h3 ps' ws K2 Y.
    pose proof (keeps_trans _ _ _ K1 K2) as K12.
    pose proof (promoted_Vs (List.length h1) _ _ _ _ _ (keeps_length _ _ K1) O Y) as [Rp Op].
    assert (Chk : forall R, agrees h3 ((let^ _ := hlift (lift (check_gate (option_map erase_gate ginner))) in let^ ans := hvisit_annotated keep m annots in alloc (mkCell l (NGate name inner ps' ans))) h3)
      (let* _ := lift (check_gate (option_map erase_gate ginner)) in let* ans := visit_annotated st annots in lift (Ok (LGate l name ginner ws ans))) R ->
      agrees h3 ((let^ ig := match inner with
                  | None => hret None
                  | Some a => let^ g := peek (fun h => read_any_gate h a) in hret (Some (erase_gate g))
                  end in let^ _ := hlift (lift (check_gate ig)) in let^ ans := hvisit_annotated keep m annots in alloc (mkCell l (NGate name inner ps' ans))) h3)
      (let* _ := lift (check_gate (option_map erase_gate ginner)) in let* ans := visit_annotated st annots in lift (Ok (LGate l name ginner ws ans))) R).
    { intros Rr X. destruct inner as [a|], ginner as [g|]; try contradiction.
      - destruct I as [Ra _]. rewrite bind_assoc, (peek_bind _ _ _ g) by exact (gate_keeps _ _ _ _ K12 Ra). rewrite ret_bind. exact X.
      - rewrite ret_bind. exact X. }
    apply Chk. clear Chk. eapply agrees_then; [apply agrees_lift, keeps_refl|]. intros h3' u1 u2 _ (-> & _). eapply agrees_then; [apply hvisit_annotated_agrees; exact (knows_keeps _ _ _ _ K12 Kn)|].
    intros h4 ans sans K3 [Ra Oa]. split; [apply keeps_snoc|]. split; [reflexivity|]. cbn [fst snd lift alloc].
    assert (Own : owned (List.length h) h4 (children (NGate name inner ps' ans))).
    { cbn [children]. pose proof (owned_seq _ _ _ _ _ (keeps_length _ _ K12) Op K3 Oa) as Opa.
      destruct inner as [a|], ginner as [g|]; try contradiction.
      - destruct I as [_ Og]. apply (owned_seq _ h1 h4 [a]); [exact L0|exact Og|exact (keeps_trans _ _ _ K12 K3)|exact Opa].
      - cbn [app]. exact (owned_le _ _ _ _ L0 Opa). }
    split; [|apply owned_new; [|exact Own]].
    - unfold read_any_gate. rewrite app_length, Nat.add_1_r. cbn [read_gate]. rewrite nth_snoc. pose proof (keeps_snoc h4 (mkCell l (NGate name inner ps' ans))) as K4.
      rewrite (reads_keeps _ _ _ _ K4 (reads_keeps _ _ _ _ K3 Rp)), (same_annotations _ _ (keeps_stays _ _ K4) _ _ Ra).
      destruct inner as [a|], ginner as [g|]; try contradiction; [|reflexivity]. destruct I as [Rg _]. pose proof (gate_keeps _ _ _ _ (keeps_trans _ _ _ K12 K3) Rg) as Rg4.
      rewrite (same_gate _ _ (keeps_stays _ _ K4) (keeps_length _ _ K4) (List.length h4) (List.length h4) a g); [reflexivity|lia|exact Rg4].
    - pose proof (keeps_length _ _ K12). pose proof (keeps_length _ _ K3). lia.
  Qed.
  Lemma hvisit_gate_agrees g : forall h, knows h m st -> agrees h (hvisit_gate keep m g h) (lvisit_gate keep st g) (G (List.length h)).
  Proof.
    induction g as [l n ps an|l n g ps an IH] using gate_ind_full; intros h K; rewrite hvisit_gate_unfold, lvisit_gate_unfold; apply agrees_context.
    - eapply agrees_then; [instantiate (1 := fun h' x y => h' = h /\ x = None /\ y = None); apply agrees_ret; [apply keeps_refl|auto]|]. intros ? ? ? _ (-> & -> & ->). apply (gate_rest l n ps an None None h h); [apply keeps_refl|exact K|exact Logic.I].
    - eapply agrees_then.
      + instantiate (1 := fun h' x y => match x, y with Some a, Some g => G (List.length h) h' a g | None, None => True | _, _ => False end). eapply agrees_then; [apply IH, K|]. intros h1 a b _ X. apply agrees_ret; [apply keeps_refl|exact X].
      + intros h1 x y K1 X. apply (gate_rest l n ps an x y h h1 K1 (knows_keeps _ _ _ _ K1 K) X).
  Qed.
End Keep.
