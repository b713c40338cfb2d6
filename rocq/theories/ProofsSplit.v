(** One register as two (C111). *)
From Coq Require Import ZArith Lia ZifyBool ZifyNat.
From Verif Require Import Base ModelVersion ModelError ModelTypes ModelOverload ModelFunctions ModelAst
  ModelAnalyzer ModelSemantic
  SpecPlace SpecUtils SpecTypes SpecFunctions SpecInstructions SpecAnalyzer SpecHull SpecDiagnosis SpecMachine SpecEvaluate SpecMeaning SpecResize
  ProofsSpelled ProofsMerge SpecMeaning SpecMerge.
Local Open Scope string_scope.

Section Split.
  Variables (lm : libm) (a b : string) (m k : Z) (before : nat) (K : type_kind).
  Hypotheses (Km : (0 < m)%Z) (Kk : (0 < k)%Z) (KK : K = TQubitArray \/ K = TBitArray) (Nab : a <> b).
  Notation mv := (merge_variable a m k before).
  Notation mval := (merge_value a b m k before).
  Notation merged := (merged a b m k before).
  Notation both := (both a b m k before K).

  Definition first_operand (e : expr) : Prop := match e with EIndex _ (EIdent _ n) es => n = a -> Forall (entry_of_b m) es | _ => True end.

  Lemma from_to_within x y : Forall (fun z => x <= z <= y)%Z (from_to x y).
  Proof. unfold from_to. apply Forall_map, Forall_forall. intros i Hi. apply in_seq in Hi. lia. Qed.
  Lemma split_entries es : Forall (entry_of_b k) es -> forall zs', indices_mean lm (map (shift_entry m) es) zs' ->
    exists zs, zs' = map (Z.add m) zs /\ indices_mean lm es zs /\ Forall (fun z => 0 <= z < k)%Z zs.
  Proof.
    induction 1 as [|i es B _ IH]; intros zs' H; cbn [map] in H.
    - inversion H; subst. exists []. repeat constructor.
    - destruct i as [l e|l e1 e2]; cbn [entry_of_b shift_entry] in *.
      + destruct B as (l1 & z & -> & B). cbn [shift_number] in H. inversion H as [|? ? z' ? zs I H'|]; subst. apply number_index in I. subst z'. destruct (IH _ H') as (zs0 & -> & M & F).
        exists (z :: zs0). split; [reflexivity|]. split; [constructor; [now apply number_index|exact M]|now constructor].
      + destruct B as [(l1 & x & -> & B1) (l2 & y & -> & B2)]. cbn [shift_number] in H. inversion H as [| |? ? ? x' y' ? zs I1 I2 L H']; subst. apply number_index in I1, I2. subst x' y'. destruct (IH _ H') as (zs0 & -> & M & F).
        exists (from_to x y ++ zs0)%list. split; [now rewrite map_app, from_to_shift|]. split; [constructor; [now apply number_index|now apply number_index|lia|exact M]|].
        apply Forall_app. split; [|exact F]. eapply Forall_impl; [|apply from_to_within]. cbn beta. lia.
  Qed.
  Lemma within_entries es : Forall (entry_of_b m) es -> forall zs, indices_mean lm es zs -> Forall (fun z => 0 <= z < m)%Z zs.
  Proof.
    induction 1 as [|i es B _ IH]; intros zs H; [inversion H; constructor|]. destruct i as [l e|l e1 e2]; cbn [entry_of_b] in B.
    - destruct B as (l1 & z & -> & B). inversion H as [|? ? z' ? zs0 I H'|]; subst. apply number_index in I. subst z'. constructor; auto.
    - destruct B as [(l1 & x & -> & B1) (l2 & y & -> & B2)]. inversion H as [| |? ? ? x' y' ? zs0 I1 I2 L H']; subst. apply number_index in I1, I2. subst x' y'. apply Forall_app. split; [|auto]. eapply Forall_impl; [|apply from_to_within]. cbn beta. lia.
  Qed.
  Lemma merged_from vars x' : In x' (merged vars) -> exists x, In x vars /\ x' = mv x /\ var_name x <> b.
  Proof. unfold ProofsMerge.merged. intros H. apply in_map_iff in H. destruct H as (x & <- & H). apply filter_In in H. destruct H as [H1 H2]. exists x. split; [exact H1|]. split; [reflexivity|]. unfold kept in H2. destruct (String.eqb_spec (var_name x) b); [discriminate|assumption]. Qed.
  Lemma elements_of vars l l' n es v : operand_means lm vars (EIndex l (EIdent l' n) es) v -> exists x zs, v = VIndex x zs /\ In x vars /\ var_name x = n /\ (kind (var_type x) = TQubitArray \/ kind (var_type x) = TBitArray) /\ indices_mean lm es zs /\ Forall (fun z => 0 <= z < tsize (var_type x))%Z zs.
  Proof. clear. intros M. inversion M; subst. eauto 9. Qed.
  Lemma split_operand vars e v' : both vars -> mergeable_operand a b k e -> first_operand e -> operand_means lm (merged vars) (merge_operand a b m e) v' -> exists v, operand_means lm vars e v /\ v' = mval v.
  Proof.
    intros B U W M. destruct e as [| | |l n|l e0 es| | | |]; cbn [merge_operand] in M; try (inversion M; fail).
    - inversion M as [l0 x' Hx E|]; subst. destruct (merged_from _ _ Hx) as (x & Hx0 & -> & Nb). exists (VVar x). split; [|reflexivity]. rewrite mv_name. now constructor.
    - destruct e0 as [| | |l' n| | | | |]; try (inversion M; fail). cbn [mergeable_operand first_operand] in *. destruct (String.eqb_spec n b) as [->|Nb].
      + destruct (elements_of _ _ _ _ _ _ M) as (x' & zs' & -> & Hx & En & Kx & I & F). destruct (merged_from _ _ Hx) as (x & Hx0 & -> & _). rewrite mv_name in En.
        assert (Ex : x = xa a m before K). { apply (only_a _ _ _ _ _ _ _ B); [exact Hx0|]. congruence. } subst x. destruct (split_entries es (U eq_refl) zs' I) as (zs & -> & I' & F').
        destruct (proj1 (in_map_iff _ _ _) (both_b _ _ _ _ _ _ _ B)) as (xb & Eb & Hb). pose proof (only_b _ _ _ _ _ _ _ B xb Hb Eb) as T. exists (VIndex xb zs). rewrite <- Eb at 1. split.
        * apply some_elements; [exact Hb|rewrite T; exact KK|exact I'|rewrite T; exact F'].
        * cbn [merge_value]. rewrite Eb, String.eqb_refl, T, mv_a. reflexivity.
      + destruct (elements_of _ _ _ _ _ _ M) as (x' & zs' & -> & Hx & En & Kx & I & F). destruct (merged_from _ _ Hx) as (x & Hx0 & -> & Nx). rewrite mv_name in En. subst n. exists (VIndex x zs'). split; [|cbn [merge_value]; now rewrite (proj2 (String.eqb_neq _ _) Nx)].
        destruct (String.eqb_spec (var_name x) a) as [Ea|Ea].
        * pose proof (only_a _ _ _ _ _ _ _ B x Hx0 Ea) as T. apply some_elements; [exact Hx0|rewrite T; exact KK|exact I|]. rewrite T. cbn [xa var_type tsize]. eapply within_entries; [apply W; exact Ea|exact I].
        * rewrite (mv_other a m k before x Ea) in *. now apply some_elements.
  Qed.
  Lemma split_operands vars es : both vars -> Forall (mergeable_operand a b k) es -> Forall first_operand es -> forall vs', Forall2 (operand_means lm (merged vars)) (map (merge_operand a b m) es) vs' ->
    exists vs, Forall2 (operand_means lm vars) es vs /\ vs' = map mval vs.
  Proof.
    intros B. induction es as [|e es IH]; intros U W vs' H; cbn [map] in H; inversion H as [|? v' ? vs0 M H']; subst; [exists []; split; [constructor|reflexivity]|].
    inversion U; inversion W; subst. destruct (split_operand vars e v') as (v & Hv & ->); try assumption. destruct (IH ltac:(assumption) ltac:(assumption) _ H') as (vs & Hvs & ->). exists (v :: vs). split; [now constructor|reflexivity].
  Qed.
  Lemma split_addresses c v n : indexed_value a v -> addresses c (mval v) n -> addresses c v n.
  Proof.
    assert (T : forall x, kind (var_type (mv x)) = kind (var_type x)) by (intros x; unfold merge_variable; destruct (var_name x =? a); [reflexivity|]; destruct (_ <? _)%nat; reflexivity).
    destruct v as [| | |x|x zs]; cbn [merge_value indexed_value]; intros N A; try exact A.
    - inversion A as [? E|? E|? E|? E| |]; subst; rewrite (mv_other a m k before x N) in *; now constructor.
    - destruct (var_name x =? b); inversion A as [| | | |? ? E|? ? E]; subst; rewrite ?map_length; constructor; try (rewrite T in E); exact E.
  Qed.
  Lemma split_instruction vars s x' : both vars -> Forall (mergeable_operand a b k) (operands_of s) -> Forall first_operand (operands_of s) -> instruction_means lm (merged vars) (merge_statement a b m s) x' ->
    exists x, instruction_means lm vars s x /\ x' = merge_instruction a b m k before x.
  Proof.
    intros B U W M. destruct s as [l n t an|l g ops an|l n ops ps an|l n c an]; cbn [merge_statement operands_of] in *; [inversion M| | |].
    - inversion M as [? ? ? sg base name vs' n G O A| |]; subst. destruct (split_operands vars ops B U W vs' O) as (vs & Hvs & ->). pose proof (operands_indexed _ _ _ _ _ _ _ U Hvs) as I. rewrite map_length in G.
      exists (SemGateInstr l (instruction_for name vs) sg vs []). split; [|cbn [merge_instruction]; now rewrite merged_for]. eapply gate_applied; [exact G|exact Hvs|]. rewrite Forall_map in A. rewrite Forall_forall in *. intros v Hv. apply split_addresses; auto.
    - inversion M as [|? ? ? ? ks cs vs' ws In0 O P A Me|]; subst. destruct (split_operands vars ops B U W vs' O) as (vs & Hvs & ->). pose proof (operands_indexed _ _ _ _ _ _ _ U Hvs) as I.
      assert (Q : forall R : operand_class -> value -> Prop, (forall c v, indexed_value a v -> R c (mval v) -> R c v) -> forall cs, Forall2 R cs (map mval vs) -> Forall2 R cs vs).
      { intros R HR. clear -I HR. induction I as [|v vs Hv _ IH]; intros cs H; inversion H; subst; constructor; [now apply HR|now apply IH]. }
      exists (SemNonGate l (instruction_for n vs) n vs ws []). split; [|cbn [merge_instruction]; now rewrite merged_for]. eapply non_gate_applied; [exact In0|exact Hvs|exact P| |].
      + apply (Q (fun c v => exists k, addresses c v k)); [|exact A]. intros c v Hv (z & Hz). exists z. now apply split_addresses.
      + intros En. destruct (Me En) as (z & Hz). exists z. apply (Q (fun c v => addresses c v z)); [|exact Hz]. intros c v Hv. now apply split_addresses.
    - inversion M; subst. eexists. split; [constructor|reflexivity].
  Qed.
  Lemma merged_snoc vars n ty : both vars -> n <> a -> n <> b -> merged (vars ++ [mkVariable (List.length vars) n ty]) = (merged vars ++ [mkVariable (List.length (merged vars)) n ty])%list.
  Proof.
    intros B Na Nb. unfold ProofsMerge.merged. rewrite filter_app, map_app. f_equal. cbn [filter]. unfold kept at 1. cbn [var_name]. rewrite (proj2 (String.eqb_neq _ _) Nb). cbn [negb map]. f_equal. unfold merge_variable. cbn [var_name var_id var_type].
    rewrite (proj2 (String.eqb_neq _ _) Na), (proj2 (Nat.ltb_lt _ _) (beyond _ _ _ _ _ _ _ B)), map_length. f_equal. rewrite <- (one_less _ _ _ _ _ _ _ B). reflexivity.
  Qed.
  Lemma both_snoc vars n ty : both vars -> n <> a -> n <> b -> both (vars ++ [mkVariable (List.length vars) n ty])%list.
  Proof.
    intros [B1 B2 B3 B4 B5 B6] Na Nb. split.
    - apply in_or_app. now left.
    - rewrite map_app. apply in_or_app. now left.
    - intros x Hx Ex. apply in_app_or in Hx. destruct Hx as [Hx|[<-|[]]]; [auto|]. cbn [var_name] in Ex. contradiction.
    - intros x Hx Ex. apply in_app_or in Hx. destruct Hx as [Hx|[<-|[]]]; [auto|]. cbn [var_name] in Ex. contradiction.
    - rewrite filter_app, !app_length. cbn [filter]. unfold kept at 2. cbn [var_name]. rewrite (proj2 (String.eqb_neq _ _) Nb). cbn [negb List.length]. lia.
    - rewrite app_length. lia.
  Qed.
  Lemma split_block ss : Forall (fun s => Forall (mergeable_operand a b k) (operands_of s) /\ Forall first_operand (operands_of s)) ss -> ~ In b (declared_names ss) -> forall vars vars'' xs', both vars ->
    block_means lm (merged vars) (map (merge_statement a b m) ss) vars'' xs' -> exists vars' xs, block_means lm vars ss vars' xs /\ vars'' = merged vars' /\ xs' = map (merge_instruction a b m k before) xs.
  Proof.
    induction 1 as [|s ss [U W] _ IH]; intros Nd vars vars'' xs' B H; cbn [map] in H.
    - inversion H; subst. exists vars, []. split; [constructor|]. auto.
    - unfold declared_names in Nd. cbn [flat_map] in Nd. fold (declared_names ss) in Nd. assert (Nd' : ~ In b (declared_names ss)) by (intros X; apply Nd, in_or_app; now right).
      inversion H as [|l n t ty ? ? ? D N1 N2 H' Es|s0 x ? ? xs0 M H']; subst.
      + destruct s as [l0 n0 t0 an0| | |]; try discriminate Es. injection Es as El En Et Ean. subst l0 n0 t0 an0. cbn [app] in Nd.
        assert (Na : n <> a). { intros ->. apply N2. rewrite <- (mv_name a m k before (xa a m before K)) at 1. apply in_map, merged_in; [apply (both_a _ _ _ _ _ _ _ B)|exact Nab]. }
        assert (Nb : n <> b) by (intros ->; apply Nd; now left).
        rewrite <- (merged_snoc vars n ty B Na Nb) in H'. destruct (IH Nd' _ _ _ (both_snoc vars n ty B Na Nb) H') as (vars' & xs & Bx & -> & ->). exists vars', xs. split; [|auto].
        eapply declaration; [exact D|exact N1| |exact Bx]. intros X. apply N2. apply in_map_iff in X. destruct X as (y & <- & Hy). rewrite <- (mv_name a m k before y). apply in_map, merged_in; assumption.
      + destruct (split_instruction vars s x B U W M) as (x0 & Mx & ->). destruct (IH Nd' _ _ _ B H') as (vars' & xs & Bx & -> & ->). exists vars', (x0 :: xs). split; [now apply instruction_of|auto].
  Qed.
End Split.

(** ** Programs *)
Section Programs.
  Variables (lm : libm) (a b : string) (m k : Z).
  Hypotheses (Km : (0 < m)%Z) (Kk : (0 < k)%Z) (Nab : a <> b).

  Lemma names_declared ss : forall vars vars' xs, block_means lm vars ss vars' xs -> map var_name vars' = (map var_name vars ++ declared_names ss)%list.
  Proof.
    induction ss as [|s ss IH]; intros vars vars' xs B; inversion B as [|l n t ty ? ? ? D N1 N2 B'|s0 x ? ? xs0 M B']; subst; unfold declared_names; cbn [flat_map]; [now rewrite app_nil_r| |].
    - rewrite (IH _ _ _ B'), map_app, <- app_assoc. reflexivity.
    - rewrite (IH _ _ _ B'). destruct M; reflexivity.
  Qed.
  Lemma together K mid n : n = List.length mid -> (forall x, In x mid -> var_name x <> a /\ var_name x <> b /\ var_id x < n) ->
    let v2 := ((mid ++ [mkVariable (List.length mid) a (mkType K m)]) ++ [mkVariable (List.length (mid ++ [mkVariable (List.length mid) a (mkType K m)])) b (mkType K k)])%list in
    merged a b m k n v2 = (mid ++ [mkVariable (List.length mid) a (mkType K (m + k))])%list /\ both a b m k n K v2.
  Proof.
    intros Lm Nmid v2.
    assert (Kb : filter (kept b) mid = mid).
    { clear -Nmid. induction mid as [|x mid IH]; [reflexivity|]. cbn [filter]. unfold kept at 1. rewrite (proj2 (String.eqb_neq _ _) (proj1 (proj2 (Nmid x (or_introl eq_refl))))). cbn [negb]. f_equal. apply IH. intros y Hy. apply Nmid. now right. }
    assert (Mm : map (merge_variable a m k n) mid = mid).
    { clear -Nmid. induction mid as [|x mid IH]; [reflexivity|]. cbn [map]. f_equal; [|apply IH; intros y Hy; apply Nmid; now right]. destruct (Nmid x (or_introl eq_refl)) as (H1 & _ & H3). unfold merge_variable. rewrite (proj2 (String.eqb_neq _ _) H1). destruct (Nat.ltb_spec n (var_id x)); [lia|reflexivity]. }
    assert (F2 : filter (kept b) v2 = (mid ++ [mkVariable (List.length mid) a (mkType K m)])%list).
    { unfold v2. rewrite !filter_app, Kb. cbn [filter]. unfold kept. cbn [var_name]. rewrite (proj2 (String.eqb_neq _ _) Nab), String.eqb_refl. cbn [negb]. now rewrite app_nil_r. }
    split.
    - unfold merged. rewrite F2, map_app, Mm. cbn [map]. f_equal. f_equal. unfold merge_variable. cbn [var_name var_id var_type kind]. now rewrite String.eqb_refl.
    - split; unfold xa.
      + unfold v2. rewrite Lm. apply in_or_app. left. apply in_or_app. right. now left.
      + unfold v2. rewrite map_app. apply in_or_app. right. now left.
      + intros x Hx Ex. unfold v2 in Hx. rewrite Lm. apply in_app_or in Hx. destruct Hx as [Hx|[<-|[]]]; [|cbn [var_name] in Ex; congruence]. apply in_app_or in Hx. destruct Hx as [Hx|[<-|[]]]; [destruct (Nmid x Hx) as [Y _]; contradiction|reflexivity].
      + intros x Hx Ex. unfold v2 in Hx. apply in_app_or in Hx. destruct Hx as [Hx|[<-|[]]]; [|reflexivity]. apply in_app_or in Hx. destruct Hx as [Hx|[<-|[]]]; [destruct (Nmid x Hx) as (_ & Y & _); contradiction|cbn [var_name] in Ex; congruence].
      + rewrite F2. unfold v2. rewrite !app_length. cbn [List.length]. lia.
      + unfold v2. rewrite !app_length. cbn [List.length]. lia.
  Qed.
  Lemma split_program api p before la lb lta ltb type behind q' : two_registers a b m k p before la lb lta ltb type behind -> mergeable a b k behind -> first_elements a m behind ->
    ~ In b constant_names -> ~ In b (declared_names before) -> ~ In b (declared_names behind) ->
    program_means lm api (one_register a b m k p before la lta type behind) q' -> exists q, program_means lm api p q /\ q' = merge_result a b m k (declared before) q.
  Proof.
    intros T U W C N1 N2 [vars [xs bl] V B S]. cbn [blk_statements one_register prog_statements] in B. apply block_split in B. destruct B as (mid & xs1 & xs2 & -> & B1 & B2).
    inversion B2 as [|? ? ? ty ? ? ? D Na1 Na2 B3|? ? ? ? ? M]; subst; [|inversion M].
    pose proof (declared_length _ _ _ _ _ B1) as Lm. cbn [List.length Nat.add] in Lm. destruct (declared_ids _ _ _ _ _ B1 (Forall_nil _)) as [_ Im]. pose proof (names_declared _ _ _ _ B1) as Nm. cbn [map app] in Nm.
    assert (KT : exists K, (K = TQubitArray \/ K = TBitArray) /\ ty = mkType K (m + k) /\ declares_type (mkAstType lta type (Some m)) (mkType K m) /\ declares_type (mkAstType ltb type (Some k)) (mkType K k)).
    { inversion D; subst; [exists TQubitArray|exists TBitArray]; (split; [auto|]); (split; [reflexivity|]); split; now constructor. }
    destruct KT as (K & KK & -> & Da & Db).
    assert (Nmid : forall x, In x mid -> var_name x <> a /\ var_name x <> b /\ var_id x < declared before).
    { intros x Hx. split; [intros E; apply Na2; rewrite <- E; now apply in_map|]. split; [intros E; apply N1; rewrite <- Nm, <- E; now apply in_map|]. rewrite Forall_forall in Im. specialize (Im x Hx). lia. }
    destruct (together K mid (declared before) (eq_sym Lm) Nmid) as [E2 Bo]. rewrite <- E2 in B3.
    assert (F : Forall (fun s => Forall (mergeable_operand a b k) (operands_of s) /\ Forall (first_operand a m) (operands_of s)) behind) by (apply Forall_forall; intros s Hs; split; apply Forall_forall; intros e He; [eapply U; eauto|exact (W s e Hs He)]).
    destruct (split_block lm a b m k (declared before) K KK Nab behind F N2 _ _ _ Bo B3) as (vars' & xs & B4 & -> & ->).
    assert (X1 : xs1 = map (merge_instruction a b m k (declared before)) xs1) by (symmetry; apply (untouched lm a b m k (declared before) before [] mid xs1 B1 (incl_nil_l _) Nmid (Forall_nil _))).
    exists (mkSemProgram api (prog_version p) (prog_version_loc p) (mkBlock (xs1 ++ xs) bl) (map (fun x => mkSemVariable x []) vars')). split.
    - apply (program_of lm api p vars' (mkBlock (xs1 ++ xs) bl)); [exact V| |].
      + rewrite T. cbn [blk_statements]. apply block_split. exists mid, xs1, xs. split; [reflexivity|]. split; [exact B1|]. eapply declaration; [exact Da|exact Na1|exact Na2|]. eapply declaration; [exact Db|exact C| |exact B4].
        rewrite map_app, Nm. intros X. apply in_app_or in X. destruct X as [X|[X|[]]]; [contradiction|]. cbn [var_name] in X. congruence.
      + unfold spans_statements in *. cbn [blk_loc blk_statements] in *. rewrite X1, <- map_app, (locations_merged a b m k) in S. exact S.
    - unfold merge_result. cbn [sp_api_version sp_version sp_version_loc sp_block sp_variables blk_statements blk_loc one_register prog_version prog_version_loc]. rewrite map_app, <- X1. f_equal.
      unfold merged. clear. induction vars' as [|x vars IH]; [reflexivity|]. cbn [map filter sv_var]. change (kept b x) with (negb (var_name x =? b)). destruct (negb (var_name x =? b)); cbn [map sv_var sv_annots]; now rewrite IH.
  Qed.
End Programs.
