(** Single qubits and bits as registers of one (C109). *)
From Coq Require Import ZArith Lia ZifyBool ZifyNat.
From Verif Require Import Base ModelVersion ModelError ModelTypes ModelOverload ModelFunctions ModelAst
  ModelAnalyzer ModelSemantic
  SpecPlace SpecUtils SpecTypes SpecFunctions SpecInstructions SpecAnalyzer SpecHull SpecDiagnosis SpecMachine SpecEvaluate SpecMeaning SpecResize SpecSingle.
Local Open Scope string_scope.

Section Single.
  Variables (lm : libm) (single : string -> bool).
  Notation w := (widen_variable single).

  Lemma w_name x : var_name (w x) = var_name x.
  Proof. unfold widen_variable. destruct (kind (var_type x)), (single (var_name x)); reflexivity. Qed.
  Lemma w_kept x : single (var_name x) = false -> w x = x.
  Proof. unfold widen_variable. intros ->. destruct (kind (var_type x)); reflexivity. Qed.
  Lemma w_array x : kind (var_type x) = TQubitArray \/ kind (var_type x) = TBitArray -> w x = x.
  Proof. unfold widen_variable. intros [-> | ->]; reflexivity. Qed.
  Lemma declares_widened n t id ty' : declares_type (widen_declared single n t) ty' <-> exists ty, declares_type t ty /\ mkVariable id n ty' = w (mkVariable id n ty).
  Proof.
    unfold widen_declared. destruct t as [l m [k|]]; cbn [ty_size ty_loc ty_name].
    - split.
      + intros D. exists ty'. split; [exact D|]. unfold widen_variable. inversion D; reflexivity.
      + intros (ty & D & E). unfold widen_variable in E. inversion D; subst; cbn [var_type kind var_name] in E; injection E as ->; constructor; assumption.
    - destruct (single n) eqn:Es.
      + split.
        * intros D. inversion D; subst; eexists; (split; [constructor|]); unfold widen_variable; cbn [var_type kind var_name var_id]; rewrite Es; reflexivity.
        * intros (ty & D & E). unfold widen_variable in E. inversion D; subst; cbn [var_type kind var_name var_id] in E; rewrite Es in E; injection E as ->; constructor; lia.
      + split.
        * intros D. exists ty'. split; [exact D|]. symmetry. now apply w_kept.
        * intros (ty & D & E). rewrite w_kept in E by exact Es. injection E as ->. exact D.
  Qed.

  Definition unindexed (e : expr) : Prop := match e with EIndex _ (EIdent _ n) _ => single n = false | _ => True end.
  Lemma widened_means vars e : unindexed e -> forall v', operand_means lm (map w vars) e v' <-> exists v, operand_means lm vars e v /\ v' = widen_value single v.
  Proof.
    intros U v'. split.
    - intros M. inversion M as [l x' Hx|l l' x' es zs Hx K I F]; subst; apply in_map_iff in Hx; destruct Hx as (x & <- & Hx); rewrite w_name.
      + exists (VVar x). split; [now constructor|reflexivity].
      + cbn [unindexed] in U. rewrite w_name in U. rewrite w_kept in * by exact U. exists (VIndex x zs). split; [now constructor|]. cbn [widen_value]. now rewrite w_kept.
    - intros (v & M & ->). destruct M as [l x Hx|l l' x es zs Hx K I F]; cbn [widen_value].
      + rewrite <- (w_name x). constructor. now apply in_map.
      + rewrite <- (w_name x). pose proof (w_array x K) as E. apply some_elements; [now apply in_map|now rewrite E|exact I|now rewrite E].
  Qed.
  Lemma widened_all vars es : Forall unindexed es -> forall vs', Forall2 (operand_means lm (map w vars)) es vs' <-> exists vs, Forall2 (operand_means lm vars) es vs /\ vs' = map (widen_value single) vs.
  Proof.
    induction 1 as [|e es H _ IH]; intros vs'; split.
    - intros F. inversion F. exists []. split; [constructor|reflexivity].
    - intros (vs & F & ->). inversion F. constructor.
    - intros F. inversion F as [|? v' ? ws' M F']; subst. apply (widened_means vars e H) in M. destruct M as (v & M & ->). apply IH in F'. destruct F' as (vs & F' & ->). exists (v :: vs). split; [now constructor|reflexivity].
    - intros (vs & F & ->). inversion F as [|? v ? ws M F']; subst. cbn [map]. constructor; [apply (widened_means vars e H); eauto|apply IH; eauto].
  Qed.
  Definition indexable (v : value) : Prop := match v with VIndex x _ => kind (var_type x) = TQubitArray \/ kind (var_type x) = TBitArray | _ => True end.
  Lemma operands_indexable vars es vs : Forall2 (operand_means lm vars) es vs -> Forall indexable vs.
  Proof. induction 1 as [|e v es vs M _ IH]; constructor; [|exact IH]. destruct M; cbn [indexable]; auto. Qed.
  Lemma widened_addresses c v k : indexable v -> addresses c v k <-> addresses c (widen_value single v) k.
  Proof.
    assert (W : forall x, w x = x \/ (kind (var_type x) = TQubit /\ var_type (w x) = mkType TQubitArray 1) \/ (kind (var_type x) = TBit /\ var_type (w x) = mkType TBitArray 1)).
    { intros x. unfold widen_variable. destruct (kind (var_type x)), (single (var_name x)); auto. }
    destruct v as [| | |x|x zs]; cbn [widen_value indexable]; try tauto; intros X; [|now rewrite (w_array x X)]. destruct (W x) as [E|[[K E]|[K E]]]; [rewrite E; tauto| |].
    - split; intros A; inversion A; subst; try congruence; try (rewrite E in *; discriminate).
      + replace 1%Z with (tsize (var_type (w x))) by (rewrite E; reflexivity). constructor. now rewrite E.
      + rewrite E. constructor. exact K.
    - split; intros A; inversion A; subst; try congruence; try (rewrite E in *; discriminate).
      + replace 1%Z with (tsize (var_type (w x))) by (rewrite E; reflexivity). constructor. now rewrite E.
      + rewrite E. constructor. exact K.
  Qed.
  Lemma widened_forall (P : value -> Prop) vs : (forall v, indexable v -> P v <-> P (widen_value single v)) -> Forall indexable vs -> Forall P vs <-> Forall P (map (widen_value single) vs).
  Proof.
    intros H Kn. induction Kn as [|v vs Hv _ IH]; [split; constructor|]. cbn [map]. split; intros F; inversion F; subst; constructor; try (now apply IH); now apply (H v Hv).
  Qed.
  Lemma widened_forall2 {A} (P : A -> value -> Prop) vs : (forall c v, indexable v -> P c v <-> P c (widen_value single v)) -> Forall indexable vs -> forall cs, Forall2 P cs vs <-> Forall2 P cs (map (widen_value single) vs).
  Proof.
    intros H Kn. induction Kn as [|v vs Hv _ IH]; intros cs; [cbn [map]; tauto|]. cbn [map]. split; intros F; inversion F; subst; constructor; try (now apply IH); now apply (H _ v Hv).
  Qed.
  Lemma widened_instruction vars s : Forall unindexed (operands_of s) -> forall x', instruction_means lm (map w vars) (widen_statement single s) x' <-> exists x, instruction_means lm vars s x /\ x' = widen_instruction single x.
  Proof.
    intros U x'. destruct s as [l n t an|l g ops an|l n ops ps an|l n c an]; cbn [widen_statement operands_of] in *; split.
    - intros M. inversion M.
    - intros (x & M & ->). inversion M.
    - intros M. inversion M as [? ? ? sg base name vs k G O A| |]; subst. apply (widened_all vars _ U) in O. destruct O as (ws & O & ->). pose proof (operands_indexable _ _ _ O) as Kv.
      exists (SemGateInstr l (instruction_for name ws) sg ws []). split; [|reflexivity]. eapply gate_applied; [exact G|exact O|]. apply (widened_forall (fun v => addresses Qubits v k)); [intros; now apply widened_addresses|exact Kv|exact A].
    - intros (x & M & ->). inversion M as [? ? ? sg base name vs k G O A| |]; subst. pose proof (operands_indexable _ _ _ O) as Kv. cbn [widen_instruction instruction_for instr_name].
      eapply gate_applied; [exact G|apply (widened_all vars _ U); eauto|]. apply (widened_forall (fun v => addresses Qubits v k)) in A; [exact A|intros; now apply widened_addresses|exact Kv].
    - intros M. inversion M as [|? ? ? ? ks cs vs ws I O P A Me|]; subst. apply (widened_all vars _ U) in O. destruct O as (us & O & ->). pose proof (operands_indexable _ _ _ O) as Kv.
      exists (SemNonGate l (instruction_for n us) n us ws []). split; [|reflexivity]. eapply non_gate_applied; [exact I|exact O|exact P| |].
      + apply (widened_forall2 (fun c v => exists k, addresses c v k)); [|exact Kv|exact A]. intros c v Hv. split; intros (k & Hk); exists k; now apply (widened_addresses c v k Hv).
      + intros En. destruct (Me En) as (k & Hk). exists k. apply (widened_forall2 (fun c v => addresses c v k)); [intros; now apply widened_addresses|exact Kv|exact Hk].
    - intros (x & M & ->). inversion M as [|? ? ? ? ks cs vs ws I O P A Me|]; subst. pose proof (operands_indexable _ _ _ O) as Kv. cbn [widen_instruction instruction_for instr_name].
      eapply non_gate_applied; [exact I|apply (widened_all vars _ U); eauto|exact P| |].
      + apply (widened_forall2 (fun c v => exists k, addresses c v k)) in A; [exact A| |exact Kv]. intros c v Hv. split; intros (k & Hk); exists k; now apply (widened_addresses c v k Hv).
      + intros En. destruct (Me En) as (k & Hk). exists k. apply (widened_forall2 (fun c v => addresses c v k)) in Hk; [exact Hk|intros; now apply widened_addresses|exact Kv].
    - intros M. inversion M; subst. eexists. split; [constructor|reflexivity].
    - intros (x & M & ->). inversion M; subst. constructor.
  Qed.
  Lemma widened_names vars : map var_name (map w vars) = map var_name vars.
  Proof. rewrite map_map. apply map_ext. apply w_name. Qed.
  Lemma widened_block ss : Forall (fun s => Forall unindexed (operands_of s)) ss -> forall vars vars'' xs', block_means lm (map w vars) (map (widen_statement single) ss) vars'' xs' <->
    exists vars' xs, block_means lm vars ss vars' xs /\ vars'' = map w vars' /\ xs' = map (widen_instruction single) xs.
  Proof.
    induction 1 as [|s ss H _ IH]; intros vars vars'' xs'; cbn [map].
    - split; [intros B; inversion B; subst; exists vars, []; split; [constructor|auto]|]. intros (vars' & xs & B & -> & ->). inversion B; subst. constructor.
    - split.
      + intros B. inversion B as [|l n t' ty' ? ? ? D N1 N2 B' E|s0 x' ? ? xs0 M B']; subst.
        * destruct s as [l0 n0 t an| | |]; try discriminate. cbn [widen_statement] in E. injection E as El En Et Ea. subst l0 n0 t' an. apply (declares_widened _ _ (List.length vars)) in D. destruct D as (ty & D & Ev).
          rewrite map_length in B'. rewrite Ev in B'. change (map w vars ++ [w (mkVariable (List.length vars) n ty)])%list with (map w vars ++ map w [mkVariable (List.length vars) n ty])%list in B'. rewrite <- map_app in B'.
          apply IH in B'. destruct B' as (vars' & xs & B' & -> & ->). exists vars', xs. split; [|auto]. rewrite widened_names in N2. eapply declaration; eauto.
        * apply (widened_instruction vars s H) in M. destruct M as (x & M & ->). apply IH in B'. destruct B' as (vars' & xs & B' & -> & ->). exists vars', (x :: xs). split; [now apply instruction_of|auto].
      + intros (vars' & xs & B & -> & ->). inversion B as [|l n t ty ? ? ? D N1 N2 B'|s0 x ? ? xs0 M B']; subst.
        * cbn [widen_statement]. destruct (w (mkVariable (List.length vars) n ty)) as [id n' ty'] eqn:Ev. assert (E1 : id = List.length vars /\ n' = n).
          { unfold widen_variable in Ev. cbn [var_type var_name var_id] in Ev. destruct (kind ty), (single n); injection Ev as <- <- _; auto. }
          destruct E1 as [-> ->]. eapply (declaration lm (map w vars) l n _ ty'); [apply (declares_widened n t (List.length vars)); exists ty; split; [exact D|now rewrite Ev]|exact N1|now rewrite widened_names|].
          rewrite map_length, <- Ev. change (map w vars ++ [w (mkVariable (List.length vars) n ty)])%list with (map w vars ++ map w [mkVariable (List.length vars) n ty])%list. rewrite <- map_app. apply IH. eauto.
        * cbn [map]. apply instruction_of; [apply (widened_instruction vars s H); eauto|apply IH; eauto].
  Qed.
  Lemma locations_widened xs : statement_locations (map (widen_instruction single) xs) = statement_locations xs.
  Proof. unfold statement_locations. induction xs as [|x xs IH]; [reflexivity|]. cbn [map flat_map]. rewrite IH. destruct x; reflexivity. Qed.
  Lemma widened_program api p : used_whole single p -> forall q', program_means lm api (widen_program single p) q' <-> exists q, program_means lm api p q /\ q' = widen_result single q.
  Proof.
    intros U q'. assert (F : Forall (fun s => Forall unindexed (operands_of s)) (prog_statements p)).
    { apply Forall_forall. intros s Hs. apply Forall_forall. intros e He. destruct e; try exact I. match goal with |- unindexed (EIndex _ ?b _) => destruct b; try exact I end. eapply U; eauto. }
    split.
    - intros [vars [xs' bl] V B S]. cbn [blk_statements widen_program prog_statements prog_version prog_version_loc] in *. apply (widened_block _ F []) in B. destruct B as (vars' & xs & B & -> & ->).
      exists (mkSemProgram api (prog_version p) (prog_version_loc p) (mkBlock xs bl) (map (fun x => mkSemVariable x []) vars')). split.
      + apply program_of; [exact V|exact B|]. unfold spans_statements in *. cbn [blk_loc blk_statements] in *. now rewrite locations_widened in S.
      + unfold widen_result. cbn [sp_api_version sp_version sp_version_loc sp_block sp_variables blk_statements blk_loc]. now rewrite !map_map.
    - intros (q & [vars b V B S] & ->). unfold widen_result. cbn [sp_api_version sp_version sp_version_loc sp_block sp_variables]. rewrite map_map.
      replace (map (fun x => mkSemVariable (w (sv_var (mkSemVariable x []))) (sv_annots (mkSemVariable x []))) vars) with (map (fun x => mkSemVariable x []) (map w vars)) by (rewrite map_map; reflexivity).
      apply (program_of lm api (widen_program single p) (map w vars) (mkBlock (map (widen_instruction single) (blk_statements b)) (blk_loc b))); [exact V| |].
      + cbn [blk_statements widen_program prog_statements]. apply (widened_block _ F []). eauto.
      + unfold spans_statements in *. cbn [blk_loc blk_statements] in *. now rewrite locations_widened.
  Qed.

  (** ** What is asked of programs *)
  Lemma grammar_widened p : grammar_program p -> grammar_program (widen_program single p).
  Proof.
    unfold grammar_program. cbn [widen_program prog_statements]. rewrite !Forall_forall. intros H s Hs. apply in_map_iff in Hs. destruct Hs as (s0 & <- & H0). specialize (H _ H0). destruct s0; exact H.
  Qed.
  Lemma machine_widened p : machine_program p -> machine_program (widen_program single p).
  Proof.
    unfold machine_program. cbn [widen_program prog_statements]. rewrite !Forall_forall. intros H s Hs. apply in_map_iff in Hs. destruct Hs as (s0 & <- & H0). specialize (H _ H0). destruct s0 as [l n t an|l g ops an|l n ops ps an|l n c an]; try exact H.
    destruct H as [H1 H2]. split; [exact H1|]. cbn [widen_statement]. intros z. unfold widen_declared. destruct (ty_size t) as [k|] eqn:Et; [rewrite Et; apply H2|]. destruct (single n); cbn [ty_size]; [|now rewrite Et].
    intros [= <-]. unfold fits. lia.
  Qed.
  Lemma ordered_widened p : ordered_locations p -> ordered_locations (widen_program single p).
  Proof.
    intros H s l Hs. cbn [widen_program prog_statements] in Hs. apply in_map_iff in Hs. destruct Hs as (s0 & <- & H0). intros E. apply (H s0 l H0). destruct s0; exact E.
  Qed.
End Single.
