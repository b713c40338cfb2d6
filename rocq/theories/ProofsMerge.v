(** Two registers as one (C111). *)
From Coq Require Import ZArith Lia ZifyBool ZifyNat.
From Verif Require Import Base ModelVersion ModelError ModelTypes ModelOverload ModelFunctions ModelAst
  ModelAnalyzer ModelSemantic
  SpecPlace SpecUtils SpecTypes SpecFunctions SpecInstructions SpecAnalyzer SpecHull SpecDiagnosis SpecMachine SpecEvaluate SpecMeaning SpecResize
  ProofsSpelled SpecMeaning SpecMerge.
Local Open Scope string_scope.

Section Merge.
  Variables (lm : libm) (a b : string) (m k : Z) (before : nat) (K : type_kind).
  Hypotheses (Km : (0 < m)%Z) (Kk : (0 < k)%Z) (Kfit : fits (m + k)) (KK : K = TQubitArray \/ K = TBitArray) (Nab : a <> b).
  Notation mv := (merge_variable a m k before).
  Notation mval := (merge_value a b m k before).
  Definition xa : variable := mkVariable before a (mkType K m).
  Definition kept (x : variable) : bool := negb (var_name x =? b).
  Definition merged (vars : list variable) : list variable := map mv (filter kept vars).
  (** The variables once a and b are declared *)
  Record both (vars : list variable) : Prop := {
    both_a : In xa vars;
    both_b : In b (map var_name vars);
    only_a : forall x, In x vars -> var_name x = a -> x = xa;
    only_b : forall x, In x vars -> var_name x = b -> var_type x = mkType K k;
    one_less : S (List.length (filter kept vars)) = List.length vars;
    beyond : before < List.length vars }.

  Lemma mv_name x : var_name (mv x) = var_name x.
  Proof. unfold merge_variable. destruct (String.eqb_spec (var_name x) a); [cbn [var_name]; congruence|]. destruct (_ <? _)%nat; reflexivity. Qed.
  Lemma mv_other x : var_name x <> a -> var_type (mv x) = var_type x.
  Proof. unfold merge_variable. intros N. destruct (String.eqb_spec (var_name x) a); [contradiction|]. destruct (_ <? _)%nat; reflexivity. Qed.
  Lemma mv_a : mv xa = mkVariable before a (mkType K (m + k)).
  Proof. unfold merge_variable, xa. cbn [var_name var_id var_type kind]. now rewrite String.eqb_refl. Qed.
  Lemma merged_in vars x : In x vars -> var_name x <> b -> In (mv x) (merged vars).
  Proof. intros H N. unfold merged. apply in_map. apply filter_In. split; [exact H|]. unfold kept. now rewrite (proj2 (String.eqb_neq _ _) N). Qed.

  (** ** Operands *)
  Lemma from_to_shift x y : from_to (m + x) (m + y) = map (Z.add m) (from_to x y).
  Proof. unfold from_to. rewrite map_map. replace (m + y - (m + x) + 1)%Z with (y - x + 1)%Z by lia. apply map_ext. intros i. lia. Qed.
  Lemma shifted_number e z : number_of_b k e -> index_means lm e z -> index_means lm (shift_number m e) (m + z) /\ (0 <= z < k)%Z.
  Proof. intros (l & y & -> & B) H. apply number_index in H. subst z. split; [|exact B]. cbn [shift_number]. now apply number_index. Qed.
  Lemma shifted_entries es zs : indices_mean lm es zs -> Forall (entry_of_b k) es -> indices_mean lm (map (shift_entry m) es) (map (Z.add m) zs).
  Proof.
    induction 1 as [|l e z es zs I _ IH|l e1 e2 x y es zs I1 I2 Hxy _ IH]; intros F; cbn [map]; [constructor| |]; inversion F as [|? ? B F']; subst; cbn [entry_of_b] in B; cbn [shift_entry].
    - constructor; [now apply shifted_number|auto].
    - destruct B as [B1 B2]. rewrite map_app, <- from_to_shift. constructor; [now apply shifted_number|now apply shifted_number|lia|auto].
  Qed.
  Lemma merged_operand vars e v : both vars -> mergeable_operand a b k e -> operand_means lm vars e v -> operand_means lm (merged vars) (merge_operand a b m e) (mval v).
  Proof.
    intros B U M. destruct M as [l x Hx|l l' x es zs Hx Kx I F].
    - cbn [mergeable_operand] in U. destruct U as [_ U]. cbn [merge_operand merge_value]. rewrite <- (mv_name x). constructor. now apply merged_in.
    - cbn [mergeable_operand merge_operand merge_value] in *. destruct (String.eqb_spec (var_name x) b) as [E|E].
      + pose proof (only_b _ B x Hx E) as T. rewrite T in *. cbn [kind tsize] in *. rewrite <- mv_a. replace a with (var_name (mv xa)) at 1 by (rewrite mv_name; reflexivity). apply some_elements.
        * apply merged_in; [apply both_a; exact B|exact Nab].
        * rewrite mv_a. exact KK.
        * apply shifted_entries; auto.
        * rewrite mv_a. cbn [var_type tsize]. rewrite Forall_map. eapply Forall_impl; [|exact F]. cbn beta. lia.
      + rewrite <- (mv_name x). apply some_elements; [now apply merged_in| |exact I|].
        * destruct (String.eqb_spec (var_name x) a) as [Ea|Ea]; [|now rewrite mv_other]. rewrite (only_a _ B x Hx Ea), mv_a. exact KK.
        * destruct (String.eqb_spec (var_name x) a) as [Ea|Ea]; [|now rewrite mv_other]. rewrite (only_a _ B x Hx Ea) in *. rewrite mv_a. cbn [var_type tsize xa] in *. eapply Forall_impl; [|exact F]. cbn beta. lia.
  Qed.
  Lemma merged_operands vars es vs : both vars -> Forall (mergeable_operand a b k) es -> Forall2 (operand_means lm vars) es vs -> Forall2 (operand_means lm (merged vars)) (map (merge_operand a b m) es) (map mval vs).
  Proof. intros B U M. revert U. induction M; intros U; inversion U; subst; cbn [map]; constructor; [now apply merged_operand|auto]. Qed.
  (** A value of a and b is one with indices. *)
  Definition indexed_value (v : value) : Prop := match v with VVar x => var_name x <> a | _ => True end.
  Lemma operands_indexed vars es vs : Forall (mergeable_operand a b k) es -> Forall2 (operand_means lm vars) es vs -> Forall indexed_value vs.
  Proof. intros U M. revert U. induction M as [|e v es vs M _ IH]; intros U; inversion U as [|? ? U1 U2]; subst; constructor; [|auto]. destruct M; [|exact I]. exact (proj1 U1). Qed.
  Lemma merged_kind v : indexed_value v -> operand_kind (mval v) = operand_kind v.
  Proof.
    destruct v as [| | |x|x zs]; try reflexivity; cbn [indexed_value merge_value].
    - intros N. cbn [operand_kind const_kind]. now rewrite mv_other.
    - intros _. destruct (String.eqb_spec (var_name x) b) as [E|E].
      + destruct zs as [|z [|z' zs]]; reflexivity.
      + assert (T : kind (var_type (mv x)) = kind (var_type x)) by (unfold merge_variable; destruct (var_name x =? a); [reflexivity|]; destruct (_ <? _)%nat; reflexivity). destruct zs as [|z [|z' zs]]; cbn [operand_kind const_kind]; now rewrite T.
  Qed.
  Lemma merged_for name vs : Forall indexed_value vs -> instruction_for name (map mval vs) = instruction_for name vs.
  Proof. intros F. unfold instruction_for. f_equal. rewrite map_map. induction F as [|v vs H _ IH]; [reflexivity|]. cbn [map]. now rewrite (merged_kind v H), IH. Qed.
  Lemma merged_addresses c v n : indexed_value v -> addresses c v n -> addresses c (mval v) n.
  Proof.
    intros N A. destruct A as [x E|x E|x E|x E|x zs E|x zs E]; cbn [merge_value indexed_value] in *.
    - constructor. now rewrite mv_other.
    - rewrite <- (mv_other x N). constructor. now rewrite mv_other.
    - constructor. now rewrite mv_other.
    - rewrite <- (mv_other x N). constructor. now rewrite mv_other.
    - destruct (var_name x =? b); [rewrite <- (map_length (Z.add m) zs); constructor; exact E|]. constructor. unfold merge_variable. destruct (var_name x =? a); [exact E|]. destruct (_ <? _)%nat; exact E.
    - destruct (var_name x =? b); [rewrite <- (map_length (Z.add m) zs); constructor; exact E|]. constructor. unfold merge_variable. destruct (var_name x =? a); [exact E|]. destruct (_ <? _)%nat; exact E.
  Qed.

  (** ** Statements *)
  Lemma merged_instruction vars s x : both vars -> Forall (mergeable_operand a b k) (operands_of s) -> instruction_means lm vars s x -> instruction_means lm (merged vars) (merge_statement a b m s) (merge_instruction a b m k before x).
  Proof.
    intros B U M. destruct M as [l g ops sg base name vs n G O A|l n ops ps ks cs vs ws I O P A Me|l n code]; cbn [operands_of merge_statement merge_instruction] in *.
    - pose proof (operands_indexed _ _ _ U O) as W. rewrite <- (merged_for name vs W). eapply gate_applied; [rewrite map_length; exact G|now apply merged_operands|]. rewrite Forall_map. rewrite Forall_forall in *. intros v Hv. apply merged_addresses; auto.
    - pose proof (operands_indexed _ _ _ U O) as W. rewrite <- (merged_for n vs W).
      assert (Q : forall R : operand_class -> value -> Prop, (forall c v, indexed_value v -> R c v -> R c (mval v)) -> Forall2 R cs vs -> Forall2 R cs (map mval vs)).
      { intros R HR H. clear -W H HR. revert W. induction H as [|c v cs vs Hc _ IH]; intros W; cbn [map]; constructor; inversion W; subst; [now apply HR|now apply IH]. }
      eapply non_gate_applied; [exact I|now apply merged_operands|exact P| |].
      + apply (Q (fun c v => exists k, addresses c v k)); [|exact A]. intros c v Hv (z & Hz). exists z. now apply merged_addresses.
      + intros En. destruct (Me En) as (z & Hz). exists z. apply (Q (fun c v => addresses c v z)); [|exact Hz]. intros c v Hv. now apply merged_addresses.
    - constructor.
  Qed.
  Lemma merged_block ss : Forall (fun s => Forall (mergeable_operand a b k) (operands_of s)) ss -> forall vars vars' xs, both vars -> block_means lm vars ss vars' xs ->
    block_means lm (merged vars) (map (merge_statement a b m) ss) (merged vars') (map (merge_instruction a b m k before) xs).
  Proof.
    induction 1 as [|s ss U _ IH]; intros vars vars' xs B H; inversion H as [|l n t ty ? ? ? D N1 N2 H'|s0 x ? ? xs0 M H']; subst; cbn [map].
    - constructor.
    - cbn [merge_statement]. assert (Na : n <> a) by (intros ->; apply N2; change a with (var_name xa); apply in_map, both_a, B). assert (Nb : n <> b) by (intros ->; apply N2, both_b, B).
      assert (E : merged (vars ++ [mkVariable (List.length vars) n ty]) = (merged vars ++ [mkVariable (List.length (merged vars)) n ty])%list).
      { unfold merged. rewrite filter_app, map_app. f_equal. cbn [filter]. unfold kept at 1. cbn [var_name]. rewrite (proj2 (String.eqb_neq _ _) Nb). cbn [negb map]. f_equal. unfold merge_variable. cbn [var_name var_id var_type].
        rewrite (proj2 (String.eqb_neq _ _) Na), (proj2 (Nat.ltb_lt _ _) (beyond _ B)), map_length. f_equal. rewrite <- (one_less _ B). reflexivity. }
      eapply declaration; [exact D|exact N1| |].
      + intros X. apply N2. unfold merged in X. rewrite map_map in X. apply in_map_iff in X. destruct X as (y & <- & Hy). rewrite mv_name. apply in_map. apply filter_In in Hy. apply Hy.
      + rewrite <- E. apply IH; [|exact H']. destruct B as [B1 B2 B3 B4 B5 B6]. split.
        * apply in_or_app. now left.
        * rewrite map_app. apply in_or_app. now left.
        * intros x Hx Ex. apply in_app_or in Hx. destruct Hx as [Hx|[<-|[]]]; [auto|]. cbn [var_name] in Ex. contradiction.
        * intros x Hx Ex. apply in_app_or in Hx. destruct Hx as [Hx|[<-|[]]]; [auto|]. cbn [var_name] in Ex. contradiction.
        * rewrite filter_app, !app_length. cbn [filter List.length]. unfold kept at 2. cbn [var_name]. rewrite (proj2 (String.eqb_neq _ _) Nb). cbn [negb List.length]. lia.
        * rewrite app_length. cbn [List.length]. lia.
    - apply instruction_of; [now apply merged_instruction|now apply IH].
  Qed.
End Merge.

(** ** Programs *)
Section Programs.
  Variables (lm : libm) (a b : string) (m k : Z).
  Hypotheses (Kfit : fits (m + k)) (Nab : a <> b).

  Lemma block_split ss1 ss2 : forall vars vars' xs, block_means lm vars (ss1 ++ ss2) vars' xs <-> exists mid xs1 xs2, xs = (xs1 ++ xs2)%list /\ block_means lm vars ss1 mid xs1 /\ block_means lm mid ss2 vars' xs2.
  Proof.
    induction ss1 as [|s ss1 IH]; intros vars vars' xs; cbn [app].
    - split; [intros B; exists vars, [], xs; split; [reflexivity|]; split; [constructor|exact B]|]. intros (mid & xs1 & xs2 & -> & B1 & B2). inversion B1; subst. exact B2.
    - split.
      + intros B. inversion B as [|l n t ty ? ? ? D N1 N2 B'|s0 x ? ? xs0 M B']; subst; apply IH in B'; destruct B' as (mid & xs1 & xs2 & -> & B1 & B2).
        * exists mid, xs1, xs2. split; [reflexivity|]. split; [eapply declaration; eauto|exact B2].
        * exists mid, (x :: xs1), xs2. split; [reflexivity|]. split; [now apply instruction_of|exact B2].
      + intros (mid & xs1 & xs2 & -> & B1 & B2). inversion B1 as [|l n t ty ? ? ? D N1 N2 B'|s0 x ? ? xs0 M B']; subst.
        * eapply declaration; eauto. apply IH. eauto 6.
        * cbn [app]. apply instruction_of; [exact M|]. apply IH. eauto 6.
  Qed.
  Lemma declared_length ss : forall vars vars' xs, block_means lm vars ss vars' xs -> List.length vars' = List.length vars + declared ss.
  Proof.
    induction ss as [|s ss IH]; intros vars vars' xs B; inversion B as [|l n t ty ? ? ? D N1 N2 B'|s0 x ? ? xs0 M B']; subst; unfold declared; cbn [filter List.length]; [lia| |].
    - rewrite (IH _ _ _ B'), app_length. cbn [List.length]. unfold declared. lia.
    - rewrite (IH _ _ _ B'). unfold declared. destruct M; reflexivity.
  Qed.
  Lemma declared_ids ss : forall vars vars' xs, block_means lm vars ss vars' xs -> Forall (fun x => var_id x < List.length vars) vars -> incl vars vars' /\ Forall (fun x => var_id x < List.length vars') vars'.
  Proof.
    induction ss as [|s ss IH]; intros vars vars' xs B F; inversion B as [|l n t ty ? ? ? D N1 N2 B'|s0 x ? ? xs0 M B']; subst; [split; [apply incl_refl|exact F]| |eauto].
    destruct (IH _ _ _ B') as [I1 I2]; [|split; [intros x Hx; apply I1, in_or_app; now left|exact I2]].
    apply Forall_app. split; [eapply Forall_impl; [|exact F]|constructor; [|constructor]]; rewrite app_length; cbn [List.length var_id]; intros; lia.
  Qed.
  Lemma untouched before ss : forall vars vars' xs, block_means lm vars ss vars' xs -> incl vars vars' -> (forall x, In x vars' -> var_name x <> a /\ var_name x <> b /\ var_id x < before) ->
    Forall (fun x => var_id x < List.length vars) vars -> map (merge_instruction a b m k before) xs = xs.
  Proof.
    induction ss as [|s ss IH]; intros vars vars' xs B I H F; inversion B as [|l n t ty ? ? ? D N1 N2 B'|s0 x ? ? xs0 M B']; subst; [reflexivity| |].
    - assert (F' : Forall (fun x => var_id x < List.length (vars ++ [mkVariable (List.length vars) n ty])%list) (vars ++ [mkVariable (List.length vars) n ty])%list)
        by (apply Forall_app; split; [eapply Forall_impl; [|exact F]|constructor; [|constructor]]; rewrite app_length; cbn [List.length var_id]; intros; lia).
      eapply (IH _ _ _ B'); [exact (proj1 (declared_ids _ _ _ _ B' F'))|exact H|exact F'].
    - cbn [map]. f_equal; [|eapply IH; eauto].
      assert (V : forall ops vs, Forall2 (operand_means lm vars) ops vs -> map (merge_value a b m k before) vs = vs).
      { induction 1 as [|e v es vs Mv _ IHv]; [reflexivity|]. cbn [map]. f_equal; [|exact IHv].
        assert (Mx : forall y, In y vars -> merge_variable a m k before y = y /\ var_name y <> b).
        { intros y Hy. destruct (H y (I y Hy)) as (H1 & H2 & H3). split; [|exact H2]. unfold merge_variable. rewrite (proj2 (String.eqb_neq _ _) H1). destruct (Nat.ltb_spec before (var_id y)); [lia|reflexivity]. }
        destruct Mv as [l y Hy|l l' y es' zs Hy _ _ _]; cbn [merge_value]; destruct (Mx y Hy) as [-> Ny]; [reflexivity|]. now rewrite (proj2 (String.eqb_neq _ _) Ny). }
      destruct M as [l g ops sg base name vs n G O A|l n ops ps ks cs vs ws In O P A Me|]; cbn [merge_instruction]; [| |reflexivity]; now rewrite (V _ _ O).
  Qed.
  Lemma locations_merged before xs : statement_locations (map (merge_instruction a b m k before) xs) = statement_locations xs.
  Proof. unfold statement_locations. induction xs as [|x xs IH]; [reflexivity|]. cbn [map flat_map]. rewrite IH. destruct x; reflexivity. Qed.
  Lemma merged_program api p before la lb lta ltb type behind q : two_registers a b m k p before la lb lta ltb type behind -> mergeable a b k behind ->
    program_means lm api p q -> program_means lm api (one_register a b m k p before la lta type behind) (merge_result a b m k (declared before) q).
  Proof.
    intros T U [vars [xs bl] V B S]. cbn [blk_statements] in B. rewrite T in B. apply block_split in B. destruct B as (mid & xs1 & xs2 & -> & B1 & B2).
    inversion B2 as [|? ? ? tya ? ? ? Da Na1 Na2 B3|? ? ? ? ? M]; subst; [|inversion M]. inversion B3 as [|? ? ? tyb ? ? ? Db Nb1 Nb2 B4|? ? ? ? ? M]; subst; [|inversion M].
    pose proof (declared_length _ _ _ _ B1) as Lm. cbn [List.length Nat.add] in Lm. destruct (declared_ids _ _ _ _ B1 (Forall_nil _)) as [_ Im].
    assert (KT : exists K, (K = TQubitArray \/ K = TBitArray) /\ tya = mkType K m /\ tyb = mkType K k /\ (0 < m)%Z /\ (0 < k)%Z /\ declares_type (mkAstType lta type (Some (m + k)%Z)) (mkType K (m + k))).
    { inversion Da; subst; inversion Db; subst; [exists TQubitArray|exists TBitArray]; (split; [auto|]); (split; [reflexivity|]); (split; [reflexivity|]); (split; [assumption|]); (split; [assumption|]); constructor; lia. }
    destruct KT as (K & KK & -> & -> & Km & Kk & Dm).
    assert (Nmid : forall x, In x mid -> var_name x <> a /\ var_name x <> b /\ var_id x < declared before).
    { intros x Hx. split; [intros E; apply Na2; rewrite <- E; now apply in_map|]. split; [intros E; apply Nb2; rewrite map_app; apply in_or_app; left; rewrite <- E; now apply in_map|]. rewrite Forall_forall in Im. specialize (Im x Hx). lia. }
    pose (v2 := ((mid ++ [mkVariable (List.length mid) a (mkType K m)]) ++ [mkVariable (List.length (mid ++ [mkVariable (List.length mid) a (mkType K m)])) b (mkType K k)])%list). fold v2 in B4.
    assert (Kb : filter (kept b) mid = mid).
    { clear -Nmid. induction mid as [|x mid IH]; [reflexivity|]. cbn [filter]. unfold kept at 1. rewrite (proj2 (String.eqb_neq _ _) (proj1 (proj2 (Nmid x (or_introl eq_refl))))). cbn [negb]. f_equal. apply IH. intros y Hy. apply Nmid. now right. }
    assert (Mm : map (merge_variable a m k (declared before)) mid = mid).
    { clear -Nmid. induction mid as [|x mid IH]; [reflexivity|]. cbn [map]. f_equal; [|apply IH; intros y Hy; apply Nmid; now right]. destruct (Nmid x (or_introl eq_refl)) as (H1 & _ & H3). unfold merge_variable. rewrite (proj2 (String.eqb_neq _ _) H1). destruct (Nat.ltb_spec (declared before) (var_id x)); [lia|reflexivity]. }
    assert (F2 : filter (kept b) v2 = (mid ++ [mkVariable (List.length mid) a (mkType K m)])%list).
    { unfold v2. rewrite !filter_app, Kb. cbn [filter]. unfold kept. cbn [var_name]. rewrite (proj2 (String.eqb_neq _ _) Nab), String.eqb_refl. cbn [negb]. now rewrite app_nil_r. }
    assert (E2 : merged a b m k (declared before) v2 = (mid ++ [mkVariable (List.length mid) a (mkType K (m + k))])%list).
    { unfold merged. rewrite F2, map_app, Mm. cbn [map]. f_equal. f_equal. unfold merge_variable. cbn [var_name var_id var_type kind]. now rewrite String.eqb_refl. }
    assert (Bo : both a b m k (declared before) K v2).
    { split; unfold xa.
      - unfold v2. rewrite <- Lm. apply in_or_app. left. apply in_or_app. right. now left.
      - unfold v2. rewrite map_app. apply in_or_app. right. now left.
      - intros x Hx Ex. unfold v2 in Hx. rewrite <- Lm. apply in_app_or in Hx. destruct Hx as [Hx|[<-|[]]]; [|cbn [var_name] in Ex; congruence]. apply in_app_or in Hx. destruct Hx as [Hx|[<-|[]]]; [destruct (Nmid x Hx) as [Y _]; contradiction|reflexivity].
      - intros x Hx Ex. unfold v2 in Hx. apply in_app_or in Hx. destruct Hx as [Hx|[<-|[]]]; [|reflexivity]. apply in_app_or in Hx. destruct Hx as [Hx|[<-|[]]]; [destruct (Nmid x Hx) as (_ & Y & _); contradiction|cbn [var_name] in Ex; congruence].
      - rewrite F2. unfold v2. rewrite !app_length. cbn [List.length]. lia.
      - unfold v2. rewrite !app_length, Lm. cbn [List.length]. lia. }
    assert (F : Forall (fun s => Forall (mergeable_operand a b k) (operands_of s)) behind) by (apply Forall_forall; intros s Hs; apply Forall_forall; intros e He; eapply U; eauto).
    pose proof (merged_block lm a b m k (declared before) K Km Kk KK Nab behind F v2 vars xs2 Bo B4) as B5. rewrite E2 in B5.
    assert (B6 : block_means lm [] (prog_statements (one_register a b m k p before la lta type behind)) (merged a b m k (declared before) vars) (map (merge_instruction a b m k (declared before)) (xs1 ++ xs2))).
    { cbn [one_register prog_statements]. apply block_split. rewrite map_app. rewrite (untouched (declared before) before [] mid xs1 B1 (incl_nil_l _) Nmid (Forall_nil _)).
      eexists mid, xs1, _. split; [reflexivity|]. split; [exact B1|]. eapply declaration; [exact Dm|exact Na1|exact Na2|exact B5]. }
    replace (merge_result a b m k (declared before) (mkSemProgram api (prog_version p) (prog_version_loc p) (mkBlock (xs1 ++ xs2) bl) (map (fun x => mkSemVariable x []) vars)))
      with (mkSemProgram api (prog_version (one_register a b m k p before la lta type behind)) (prog_version_loc (one_register a b m k p before la lta type behind)) (mkBlock (map (merge_instruction a b m k (declared before)) (xs1 ++ xs2)) bl) (map (fun x => mkSemVariable x []) (merged a b m k (declared before) vars))).
    - apply program_of; [exact V|exact B6|]. unfold spans_statements in *. cbn [blk_loc blk_statements] in *. now rewrite locations_merged.
    - unfold merge_result. cbn [sp_api_version sp_version sp_version_loc sp_block sp_variables blk_statements blk_loc one_register prog_version prog_version_loc]. f_equal. unfold merged. clear. induction vars as [|x vars IH]; [reflexivity|].
      cbn [map filter sv_var]. change (kept b x) with (negb (var_name x =? b)). destruct (negb (var_name x =? b)); cbn [map sv_var sv_annots]; now rewrite IH.
  Qed.

  (** ** What is asked of programs *)
  Lemma shifted_fits z : fits m -> (0 <= z < k)%Z -> fits (m + z).
  Proof. unfold fits in *. lia. Qed.
  Lemma merged_literals e : fits m -> mergeable_operand a b k e -> machine_literals e -> machine_literals (merge_operand a b m e).
  Proof.
    intros Fm U L. destruct e as [| | | |l b0 es| | | |]; try exact L. destruct b0 as [| | |l' n| | | | |]; try exact L. cbn [merge_operand mergeable_operand] in *. destruct (String.eqb_spec n b) as [E|E]; [|exact L]. specialize (U E).
    apply index_literals in L. apply index_literals. split; [split; intros ? ? W; inversion W|]. rewrite Forall_map. eapply Forall_impl; [|exact U]. intros [li e|li e1 e2]; cbn [entry_of_b shift_entry entry_literals].
    - intros (l1 & z & -> & B). cbn [shift_number]. apply number_literals. now apply shifted_fits.
    - intros [(l1 & z & -> & B) (l2 & z2 & -> & B2)]. cbn [shift_number]. split; apply number_literals; now apply shifted_fits.
  Qed.
  Lemma merged_indexed e : mergeable_operand a b k e -> indexed_expr e = true -> indexed_expr (merge_operand a b m e) = true.
  Proof.
    intros U L. destruct e as [| | | |l b0 es| | | |]; try exact L. destruct b0 as [| | |l' n| | | | |]; try exact L. cbn [merge_operand mergeable_operand] in *. destruct (String.eqb_spec n b) as [E|E]; [|exact L]. specialize (U E).
    cbn [indexed_expr] in *. rewrite map_length. rewrite !andb_true_iff in *. destruct L as [L1 L2]. split; [exact L1|]. clear -U. induction U as [|i es H _ IH]; [reflexivity|]. cbn [map forallb]. rewrite IH.
    destruct i as [li e|li e1 e2]; cbn [entry_of_b] in H; [destruct H as (? & ? & -> & _)|destruct H as [(? & ? & -> & _) (? & ? & -> & _)]]; reflexivity.
  Qed.
  Lemma merged_demands p before la lb lta ltb type behind : two_registers a b m k p before la lb lta ltb type behind -> mergeable a b k behind -> grammar_program p -> machine_program p -> ordered_locations p ->
    let p' := one_register a b m k p before la lta type behind in grammar_program p' /\ machine_program p' /\ ordered_locations p'.
  Proof.
    intros T U G M O p'. unfold grammar_program, machine_program, ordered_locations in *. rewrite T in *. unfold p', one_register. cbn [prog_statements]. apply Forall_app in G, M. destruct G as [G1 G2], M as [M1 M2]. inversion G2 as [|? ? Ga G3]; inversion M2 as [|? ? Ma M3]; subst. inversion G3 as [|? ? Gb G4]; inversion M3 as [|? ? Mb M4]; subst.
    assert (Fm : fits m) by (apply (proj2 Ma); reflexivity).
    assert (X : forall s, In s behind -> (grammar_statement (merge_statement a b m s) /\ machine_statement (merge_statement a b m s)) /\ place_of_statement (merge_statement a b m s) = place_of_statement s).
    { intros s Hs. rewrite Forall_forall in G4, M4. specialize (G4 s Hs). specialize (M4 s Hs). specialize (U s).
      assert (Y : forall ops, (forall e, In e ops -> mergeable_operand a b k e) -> (forallb indexed_expr ops = true -> forallb indexed_expr (map (merge_operand a b m) ops) = true) /\ (Forall machine_literals ops -> Forall machine_literals (map (merge_operand a b m) ops))).
      { intros ops H. induction ops as [|e ops IH]; [auto|]. destruct IH as [I1 I2]; [intros; apply H; now right|]. cbn [map forallb]. rewrite !andb_true_iff. split.
        - intros [H1 H2]. split; [apply merged_indexed; auto; apply H; now left|auto].
        - intros H0. inversion H0; subst. constructor; [apply merged_literals; auto; apply H; now left|auto]. }
      destruct s as [l n t an|l g ops an|l n ops ps an|l n c an]; [auto| | |auto]; (split; [|reflexivity]); destruct (Y ops (fun e He => U e Hs He)) as [L1 L2]; unfold grammar_statement, machine_statement in *; cbn [merge_statement statement_exprs SpecAnalyzer.plain] in *;
        destruct G4 as (P1 & P2 & P3), M4 as [Q1 Q2]; rewrite !forallb_app, !andb_true_iff in *; rewrite !Forall_app in *; tauto. }
    split; [|split].
    - apply Forall_app. split; [exact G1|]. constructor; [exact Ga|]. apply Forall_map. apply Forall_forall. intros s Hs. apply X, Hs.
    - apply Forall_app. split; [exact M1|]. constructor; [split; [exact (proj1 Ma)|intros z [= <-]; exact Kfit]|]. apply Forall_map. apply Forall_forall. intros s Hs. apply X, Hs.
    - intros s l Hs E. apply in_app_or in Hs. destruct Hs as [Hs|[<-|Hs]].
      + apply (O s l); [apply in_or_app; now left|exact E].
      + eapply O; [apply in_or_app; right; left; reflexivity|exact E].
      + apply in_map_iff in Hs. destruct Hs as (s0 & <- & H0). rewrite (proj2 (X s0 H0)) in E. apply (O s0 l); [apply in_or_app; right; right; now right|exact E].
  Qed.
End Programs.
