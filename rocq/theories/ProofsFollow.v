(** What follows a program sees only the variables of its result (C116). *)
From Verif Require Import Base ModelVersion ModelError ModelTypes ModelOverload ModelFunctions ModelAst
  ModelAnalyzer ModelSemantic
  SpecPlace SpecUtils SpecTypes SpecFunctions SpecInstructions SpecAnalyzer SpecHull SpecMachine SpecEvaluate SpecMeaning SpecFollow
  ProofsMerge ProofsSplit ProofsJoin SpecMeaning.

Section Follow.
  Variable lm : libm.
  Lemma variables_grow vars ss vars' xs : block_means lm vars ss vars' xs -> exists vs, vars' = (vars ++ vs)%list.
  Proof.
    induction 1 as [vars|vars l n t ty ss vars' xs D N1 N2 B IH|vars s x ss vars' xs M B IH]; [exists []; now rewrite app_nil_r| |exact IH].
    destruct IH as (vs & ->). exists (mkVariable (List.length vars) n ty :: vs). now rewrite <- app_assoc.
  Qed.
  Lemma going_on_demands p1 ss p2 : grammar_program (going_on p1 ss) -> machine_program (going_on p1 ss) -> ordered_locations (going_on p1 ss) ->
    grammar_program p2 -> machine_program p2 -> ordered_locations p2 -> grammar_program (going_on p2 ss) /\ machine_program (going_on p2 ss) /\ ordered_locations (going_on p2 ss).
  Proof.
    unfold grammar_program, machine_program, ordered_locations. cbn [going_on prog_statements]. rewrite !Forall_app. intros [_ G] [_ M] O G2 M2 O2. split; [now split|]. split; [now split|].
    intros s l Hs E. apply in_app_or in Hs. destruct Hs as [Hs|Hs]; [exact (O2 s l Hs E)|]. apply (O s l); [apply in_or_app; now right|exact E].
  Qed.
  Lemma going_on_first p1 ss : grammar_program (going_on p1 ss) -> machine_program (going_on p1 ss) -> ordered_locations (going_on p1 ss) -> grammar_program p1 /\ machine_program p1 /\ ordered_locations p1.
  Proof.
    unfold grammar_program, machine_program, ordered_locations. cbn [going_on prog_statements]. rewrite !Forall_app. intros [G _] [M _] O. split; [exact G|]. split; [exact M|]. intros s l Hs. apply O. apply in_or_app. now left.
  Qed.
  (** A program begins with programs that are accepted. *)
  Lemma beginning api p ss q : ordered_locations p -> program_means lm api (going_on p ss) q -> exists q', program_means lm api p q'.
  Proof.
    intros O [vars [xs bl] V B S]. cbn [going_on prog_statements prog_version blk_statements] in *. apply block_split in B. destruct B as (mid & xs1 & xs2 & -> & B1 & B2).
    destruct (hull_exists xs1 (places_kept lm _ O _ _ _ B1)) as (l1 & S1). eexists. exact (program_of lm api p mid (mkBlock xs1 l1) V B1 S1).
  Qed.
  Lemma same_sequel api p1 p2 ss q1 q2 q : (forall q', program_means lm api p1 q' -> q' = q1) -> program_means lm api p2 q2 -> sp_variables q1 = sp_variables q2 ->
    ordered_locations p1 -> ordered_locations (going_on p2 ss) ->
    program_means lm api (going_on p1 ss) q -> exists r, program_means lm api (going_on p2 ss) r /\ continued_alike q1 q q2 r.
  Proof.
    intros U P2 Ev O1 O2 [vars [xs bl] V B S]. cbn [going_on prog_statements prog_version blk_statements] in *. apply block_split in B. destruct B as (mid & xs1 & zs & -> & B1 & Bz).
    destruct (hull_exists xs1 (places_kept lm _ O1 _ _ _ B1)) as (l1 & S1). pose proof (U _ (program_of lm api p1 mid (mkBlock xs1 l1) V B1 S1)) as <-.
    destruct P2 as [mid2 [xs2 l2] V2 B2 S2]. cbn [sp_variables blk_statements] in *. assert (mid2 = mid) as ->.
    { apply (f_equal (map sv_var)) in Ev. rewrite !map_map in Ev. cbn [sv_var] in Ev. now rewrite !map_id in Ev. }
    assert (B : block_means lm [] (prog_statements p2 ++ ss) vars (xs2 ++ zs)) by (apply block_split; eauto 7).
    destruct (hull_exists (xs2 ++ zs) (places_kept lm _ O2 _ _ _ B)) as (l3 & S3).
    eexists. split; [exact (program_of lm api (going_on p2 ss) vars (mkBlock (xs2 ++ zs) l3) V2 B S3)|]. unfold continued_alike. cbn [going_on sp_api_version sp_version sp_version_loc sp_block sp_variables blk_statements prog_version prog_version_loc].
    destruct (variables_grow _ _ _ _ Bz) as (vs & ->). split; [exists (map (fun x => mkSemVariable x []) vs); now rewrite !map_app|]. split; [exists zs; now split|]. now repeat split.
  Qed.
End Follow.
