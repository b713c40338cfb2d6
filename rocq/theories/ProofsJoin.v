(** Programs one behind the other (C112). *)
From Coq Require Import ZArith Lia ZifyBool ZifyNat.
From Verif Require Import Base ModelVersion ModelError ModelTypes ModelOverload ModelFunctions ModelAst
  ModelAnalyzer ModelSemantic
  SpecPlace SpecUtils SpecError SpecTypes SpecFunctions SpecInstructions SpecAnalyzer SpecHull SpecDiagnosis SpecMachine SpecEvaluate SpecMeaning SpecResize SpecRename SpecJoin
  ProofsHull ProofsSpelled ProofsMerge ProofsSplit.
Local Open Scope string_scope.

Section Join.
  Variables (lm : libm) (pre : list variable).
  Notation on := (Nat.add (List.length pre)).
  Notation rv := (rename_variable same_name on).
  Notation rval := (rename_value same_name on).
  Notation rins := (rename_sem_statement same_name on).

  Lemma rv_name x : var_name (rv x) = var_name x.
  Proof. reflexivity. Qed.
  Lemma constants_kept ps ks ws : parameters_mean lm ps ks ws -> map rval ws = ws.
  Proof. induction 1 as [|e q k w es ks ws _ St _ IH]; [reflexivity|]. cbn [map]. rewrite IH. destruct w; reflexivity. Qed.
  Lemma gate_kept g sg base name n : gate_means lm g sg base name n -> rename_sem_gate same_name on sg = sg.
  Proof.
    induction 1 as [l n ps ks a ws _ P|l g sg base name _ IH|l g sg base name ps ws _ IH P|l g sg base name _ IH]; cbn [rename_sem_gate option_map map]; rewrite ?IH; try reflexivity; now rewrite (constants_kept _ _ _ P).
  Qed.
  Lemma kinds_kept v : operand_kind (rval v) = operand_kind v.
  Proof. destruct v; reflexivity. Qed.
  Lemma instruction_kept name vs : instruction_for name (map rval vs) = instruction_for name vs.
  Proof. unfold instruction_for. f_equal. rewrite map_map. apply map_ext. intros v. now rewrite kinds_kept. Qed.
  Lemma addresses_kept c v n : addresses c (rval v) n <-> addresses c v n.
  Proof.
    split; intros A.
    - destruct v as [| | |x|x zs]; cbn [rename_value] in A; try exact A.
      + inversion A as [? E|? E|? E|? E| |]; subst; cbn [rename_variable var_type] in *; now constructor.
      + inversion A as [| | | |? ? E|? ? E]; subst; cbn [rename_variable var_type] in *; now constructor.
    - destruct A as [x E|x E|x E|x E|x zs E|x zs E]; cbn [rename_value].
      + now constructor.
      + change (tsize (var_type x)) with (tsize (var_type (rv x))). now constructor.
      + now constructor.
      + change (tsize (var_type x)) with (tsize (var_type (rv x))). now constructor.
      + now constructor.
      + now constructor.
  Qed.
  Lemma classes_kept (R R' : operand_class -> value -> Prop) vs : (forall c v, R c v -> R' c (rval v)) -> forall cs, Forall2 R cs vs -> Forall2 R' cs (map rval vs).
  Proof. intros H cs F. induction F; cbn [map]; constructor; auto. Qed.
  Lemma classes_back (R R' : operand_class -> value -> Prop) vs : (forall c v, R c (rval v) -> R' c v) -> forall cs, Forall2 R cs (map rval vs) -> Forall2 R' cs vs.
  Proof. intros H. induction vs as [|v vs IH]; intros cs F; cbn [map] in F; inversion F; subst; constructor; auto. Qed.

  (** ** What is said of the second program alone is said of it behind the first. *)
  Lemma behind_operand vars e v : operand_means lm vars e v -> operand_means lm (pre ++ map rv vars) e (rval v).
  Proof.
    intros M. assert (X : forall x, In x vars -> In (rv x) (pre ++ map rv vars)%list) by (intros x Hx; apply in_or_app; right; now apply in_map).
    destruct M as [l x Hx|l l' x es zs Hx Kx I F].
    - exact (whole_variable lm _ l (rv x) (X x Hx)).
    - exact (some_elements lm _ l l' (rv x) es zs (X x Hx) Kx I F).
  Qed.
  Lemma behind_operands vars es vs : Forall2 (operand_means lm vars) es vs -> Forall2 (operand_means lm (pre ++ map rv vars)) es (map rval vs).
  Proof. induction 1; cbn [map]; constructor; [now apply behind_operand|assumption]. Qed.
  Lemma behind_instruction vars s x : instruction_means lm vars s x -> instruction_means lm (pre ++ map rv vars) s (rins x).
  Proof.
    intros M. destruct M as [l g ops sg base name vs n G O A|l n ops ps ks cs vs ws I O P A Me|l n code]; cbn [rename_sem_statement map].
    - rewrite (gate_kept _ _ _ _ _ G), <- (instruction_kept name vs). eapply gate_applied with (k := n); [exact G|now apply behind_operands|]. apply Forall_map. eapply Forall_impl; [|exact A]. intros v Hv. apply (proj2 (addresses_kept _ _ _)). eassumption.
    - rewrite (constants_kept _ _ _ P), <- (instruction_kept n vs). eapply non_gate_applied; [exact I|now apply behind_operands|exact P| |].
      + revert A. apply classes_kept. intros c v (z & Hz). exists z. apply (proj2 (addresses_kept _ _ _)). eassumption.
      + intros E. destruct (Me E) as (z & Hz). exists z. revert Hz. apply classes_kept. intros c v Hv. apply (proj2 (addresses_kept _ _ _)). eassumption.
    - constructor.
  Qed.
  Lemma behind_snoc vars n ty : (pre ++ map rv (vars ++ [mkVariable (List.length vars) n ty]))%list = ((pre ++ map rv vars) ++ [mkVariable (List.length (pre ++ map rv vars)) n ty])%list.
  Proof. rewrite map_app, app_assoc. f_equal. cbn [map]. f_equal. unfold rename_variable. cbn [var_id var_name var_type]. now rewrite app_length, map_length. Qed.
  Lemma behind_names vars n : In n (map var_name (pre ++ map rv vars)) <-> In n (map var_name pre) \/ In n (map var_name vars).
  Proof. rewrite map_app, map_map, in_app_iff. reflexivity. Qed.
  Lemma behind_block ss : (forall n, In n (map var_name pre) -> ~ In n (declared_names ss)) -> forall vars vars' xs, block_means lm vars ss vars' xs -> block_means lm (pre ++ map rv vars) ss (pre ++ map rv vars') (map rins xs).
  Proof.
    induction ss as [|s ss IH]; intros N vars vars' xs B; inversion B as [|l n t ty ? ? ? D N1 N2 B'|s0 x ? ? xs0 M B']; subst; cbn [map]; [constructor| |].
    - eapply declaration; [exact D|exact N1| |].
      + intros X. apply behind_names in X. destruct X as [X|X]; [|contradiction]. apply (N n X). now left.
      + rewrite <- behind_snoc. apply IH; [|exact B']. intros n0 H X. apply (N n0 H). now right.
    - apply instruction_of; [now apply behind_instruction|]. apply IH; [|exact B']. intros n0 H X. apply (N n0 H). unfold declared_names in *. cbn [flat_map]. apply in_or_app. now right.
  Qed.

  (** ** And the other way round *)
  Lemma alone_operand vars e v' : (forall n, In n (map var_name pre) -> ~ In n (expr_names e)) -> operand_means lm (pre ++ map rv vars) e v' -> exists v, operand_means lm vars e v /\ v' = rval v.
  Proof.
    intros N M. assert (X : forall x, In x (pre ++ map rv vars)%list -> In (var_name x) (expr_names e) -> exists y, In y vars /\ x = rv y).
    { intros x Hx He. apply in_app_or in Hx. destruct Hx as [Hx|Hx]; [exfalso; apply (N (var_name x)); [now apply in_map|exact He]|]. apply in_map_iff in Hx. destruct Hx as (y & <- & Hy). eauto. }
    destruct M as [l x Hx|l l' x es zs Hx Kx I F]; (destruct (X x Hx) as (y & Hy & ->); [now left|]).
    - exists (VVar y). split; [exact (whole_variable lm _ l y Hy)|reflexivity].
    - exists (VIndex y zs). split; [exact (some_elements lm _ l l' y es zs Hy Kx I F)|reflexivity].
  Qed.
  Lemma alone_operands vars es : (forall n e, In n (map var_name pre) -> In e es -> ~ In n (expr_names e)) -> forall vs', Forall2 (operand_means lm (pre ++ map rv vars)) es vs' -> exists vs, Forall2 (operand_means lm vars) es vs /\ vs' = map rval vs.
  Proof.
    induction es as [|e es IH]; intros N vs' H; inversion H as [|? v' ? vs0 M H']; subst; [exists []; split; [constructor|reflexivity]|].
    destruct (alone_operand vars e v') as (v & Hv & ->); [intros n Hn; apply (N n e Hn); now left|exact M|]. destruct (IH (fun n e' Hn He => N n e' Hn (or_intror He)) _ H') as (vs & Hvs & ->). exists (v :: vs). split; [now constructor|reflexivity].
  Qed.
  Lemma alone_instruction vars s x' : (forall n, In n (map var_name pre) -> ~ mentions s n) -> instruction_means lm (pre ++ map rv vars) s x' -> exists x, instruction_means lm vars s x /\ x' = rins x.
  Proof.
    intros N M. inversion M as [l g ops sg base name vs' n G O A|l n ops ps ks cs vs' ws I O P A Me|l n code]; subst.
    - destruct (alone_operands vars ops) with (vs' := vs') as (vs & Hvs & ->); [intros n0 e Hn He X; apply (N n0 Hn); exists e; split; [|exact X]; cbn [statement_exprs]; apply in_or_app; right; apply in_or_app; now left|exact O|].
      exists (SemGateInstr l (instruction_for name vs) sg vs []). split; [|cbn [rename_sem_statement map]; now rewrite (gate_kept _ _ _ _ _ G), instruction_kept].
      eapply gate_applied with (k := n); [exact G|exact Hvs|]. rewrite Forall_map in A. eapply Forall_impl; [|exact A]. intros v Hv. apply (proj1 (addresses_kept _ _ _)). eassumption.
    - destruct (alone_operands vars ops) with (vs' := vs') as (vs & Hvs & ->); [intros n0 e Hn He X; apply (N n0 Hn); exists e; split; [|exact X]; cbn [statement_exprs]; apply in_or_app; now left|exact O|].
      exists (SemNonGate l (instruction_for n vs) n vs ws []). split; [|cbn [rename_sem_statement map]; now rewrite (constants_kept _ _ _ P), instruction_kept].
      eapply non_gate_applied; [exact I|exact Hvs|exact P| |].
      + revert A. apply classes_back. intros c v (z & Hz). exists z. apply (proj1 (addresses_kept _ _ _)). eassumption.
      + intros E. destruct (Me E) as (z & Hz). exists z. revert Hz. apply classes_back. intros c v Hv. apply (proj1 (addresses_kept _ _ _)). eassumption.
    - exists (SemAsm l n code []). split; [constructor|reflexivity].
  Qed.
  Lemma alone_block ss : (forall n, In n (map var_name pre) -> Forall (fun s => ~ mentions s n) ss) -> forall vars w xs', block_means lm (pre ++ map rv vars) ss w xs' ->
    exists vars' xs, block_means lm vars ss vars' xs /\ w = (pre ++ map rv vars')%list /\ xs' = map rins xs.
  Proof.
    induction ss as [|s ss IH]; intros N vars w xs' B; inversion B as [|l n t ty ? ? ? D N1 N2 B'|s0 x ? ? xs0 M B']; subst.
    - exists vars, []. split; [constructor|auto].
    - rewrite <- behind_snoc in B'. destruct (IH (fun n0 H => Forall_inv_tail (N n0 H)) _ _ _ B') as (vars' & xs & Bx & -> & ->). exists vars', xs. split; [|auto].
      eapply declaration; [exact D|exact N1| |exact Bx]. intros X. apply N2, behind_names. now right.
    - destruct (alone_instruction vars s x (fun n H => Forall_inv (N n H)) M) as (x0 & Mx & ->). destruct (IH (fun n H => Forall_inv_tail (N n H)) _ _ _ B') as (vars' & xs & Bx & -> & ->). exists vars', (x0 :: xs). split; [now apply instruction_of|auto].
  Qed.
End Join.

(** ** Programs *)
Section Programs.
  Variable lm : libm.

  Lemma hull_exists xs : Forall (fun x => forall l, place_of_result x = Some l -> ordered (loc_range l)) xs -> exists l, spans_statements (mkBlock xs l).
  Proof.
    induction xs as [|x xs IH] using rev_ind; intros F; [exists None; reflexivity|]. apply Forall_app in F. destruct F as [F1 F2]. inversion F2 as [|? ? H _]; subst.
    destruct (IH F1) as (l & S). exists (blk_loc (block_add x (mkBlock xs l))). refine (block_add_spans x (mkBlock xs l) _ S). intros l0 E. apply H. destruct x; exact E.
  Qed.
  Lemma places_kept ss : (forall s l, In s ss -> place_of_statement s = Some l -> ordered (loc_range l)) -> forall vars vars' xs, block_means lm vars ss vars' xs -> Forall (fun x => forall l, place_of_result x = Some l -> ordered (loc_range l)) xs.
  Proof.
    induction ss as [|s ss IH]; intros O vars vars' xs B; inversion B as [|l n t ty ? ? ? D N1 N2 B'|s0 x ? ? xs0 M B']; subst; [constructor| |].
    - eapply IH; [|exact B']. intros s l0 Hs. apply O. now right.
    - constructor; [|eapply IH; [|exact B']; intros s0 l0 Hs; apply O; now right]. intros l E. apply (O s l); [now left|]. destruct M; exact E.
  Qed.
  Lemma joined_program api p1 p2 q : apart p1 p2 -> version_same (prog_version p2) (prog_version p1) -> ordered_locations p1 -> ordered_locations p2 ->
    program_means lm api (append_programs p1 p2) q <-> exists q1 q2, program_means lm api p1 q1 /\ program_means lm api p2 q2 /\ joined_results q1 q2 q.
  Proof.
    intros A V O1 O2. split.
    - intros [vars [xs bl] V1 B S]. cbn [append_programs prog_statements prog_version blk_statements] in *. apply block_split in B. destruct B as (mid & xs1 & xs2 & -> & B1 & B2).
      pose proof (names_declared lm _ _ _ _ B1) as Nm. cbn [map app] in Nm.
      destruct (alone_block lm mid (prog_statements p2)) with (vars := @nil variable) (w := vars) (xs' := xs2) as (vars' & xs & Bx & -> & ->).
      { intros n Hn. rewrite Nm in Hn. apply (A n Hn). }
      { cbn [map]. rewrite app_nil_r. exact B2. }
      destruct (hull_exists xs1 (places_kept _ O1 _ _ _ B1)) as (l1 & S1). destruct (hull_exists xs (places_kept _ O2 _ _ _ Bx)) as (l2 & S2).
      exists (mkSemProgram api (prog_version p1) (prog_version_loc p1) (mkBlock xs1 l1) (map (fun x => mkSemVariable x []) mid)), (mkSemProgram api (prog_version p2) (prog_version_loc p2) (mkBlock xs l2) (map (fun x => mkSemVariable x []) vars')).
      split; [exact (program_of lm api p1 mid (mkBlock xs1 l1) V1 B1 S1)|]. split; [refine (program_of lm api p2 vars' (mkBlock xs l2) _ Bx S2); intros i; rewrite V; apply V1|].
      unfold joined_results. cbn [sp_api_version sp_version sp_version_loc sp_block sp_variables blk_statements]. rewrite map_length. do 3 (split; [reflexivity|]). split; [|split; [reflexivity|exact S]].
      rewrite map_app, !map_map. reflexivity.
    - intros (q1 & q2 & [mid b1 V1 B1 S1] & [vars' b2 V2 B2 S2] & E1 & E2 & E3 & E4 & E5 & S). cbn [sp_api_version sp_version sp_version_loc sp_block sp_variables] in *. rewrite map_length in *.
      pose proof (names_declared lm _ _ _ _ B1) as Nm. cbn [map app] in Nm.
      pose proof (behind_block lm mid (prog_statements p2)) as H. specialize (H ltac:(intros n Hn; rewrite Nm in Hn; apply (A n Hn)) [] vars' (blk_statements b2) B2). cbn [map] in H. rewrite app_nil_r in H.
      destruct q as [qa qv qvl qb qvars]. cbn [sp_api_version sp_version sp_version_loc sp_block sp_variables] in *. subst qa qv qvl.
      replace qvars with (map (fun x => mkSemVariable x []) (mid ++ map (rename_variable same_name (Nat.add (List.length mid))) vars')) by (rewrite E4, map_app, !map_map; reflexivity).
      apply (program_of lm api (append_programs p1 p2)); [exact V1| |exact S]. cbn [append_programs prog_statements]. apply block_split. rewrite E5. eauto 7.
  Qed.
  Lemma joined_demands p1 p2 : grammar_program p1 -> machine_program p1 -> ordered_locations p1 -> grammar_program p2 -> machine_program p2 -> ordered_locations p2 ->
    grammar_program (append_programs p1 p2) /\ machine_program (append_programs p1 p2) /\ ordered_locations (append_programs p1 p2).
  Proof.
    unfold grammar_program, machine_program, ordered_locations. cbn [append_programs prog_statements]. intros. split; [now apply Forall_app|]. split; [now apply Forall_app|].
    intros s l Hs. apply in_app_or in Hs. destruct Hs; eauto.
  Qed.
End Programs.
