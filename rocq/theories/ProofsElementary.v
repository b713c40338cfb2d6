(** Programs whose instructions act on single elements (C113). *)
From Coq Require Import ZArith Lia ZifyBool ZifyNat.
From Verif Require Import Base ModelVersion ModelError ModelTypes ModelOverload ModelFunctions ModelAst
  ModelAnalyzer ModelSemantic
  SpecPlace SpecUtils SpecError SpecTypes SpecFunctions SpecInstructions SpecAnalyzer SpecHull SpecDiagnosis SpecMachine SpecEvaluate SpecMeaning SpecResize SpecRename
  ProofsSpelled ProofsUnroll ProofsMerge ProofsSplit ProofsJoin SpecMeaning SpecElementary.
Local Open Scope string_scope.

Section Elementary.
  Variable lm : libm.

  (** Registers have sizes a machine can count to. *)
  Definition good_variable (x : variable) : Prop := kind (var_type x) = TQubitArray \/ kind (var_type x) = TBitArray -> (0 < tsize (var_type x))%Z /\ fits (tsize (var_type x)).
  Definition singles (pre : list statement) (vars : list variable) : Prop :=
    forall x, In x vars -> kind (var_type x) = TQubit \/ kind (var_type x) = TBit -> exists l t, In (SVariable l (var_name x) t []) pre /\ ty_size t = None.
  Definition element_expr (w : value) : expr :=
    match w with
    | VVar x => EIdent None (var_name x)
    | VIndex x (z :: _) => EIndex None (EIdent None (var_name x)) [IItem None (EInt None z)]
    | _ => EInt None 0
    end.

  Lemma counted_elements c v k : (forall x, v = VVar x -> good_variable x) -> addresses c v k -> k = Z.of_nat (List.length (elements v)).
  Proof.
    intros G A. destruct A as [x E|x E|x E|x E|x zs E|x zs E]; cbn [elements]; rewrite ?E; rewrite ?map_length; try reflexivity;
      unfold from_to; rewrite map_length, seq_length; (destruct (G x eq_refl) as [P _]; [auto|lia]).
  Qed.
  Lemma indices_some es zs : es <> [] -> indices_mean lm es zs -> zs <> [].
  Proof.
    intros N I. destruct I as [|l e z es zs _ _|l e1 e2 x y es zs _ _ H _]; [contradiction|discriminate|]. unfold from_to. destruct (Z.to_nat (y - x + 1)) eqn:E; [lia|discriminate].
  Qed.
  Lemma element_means vars pre e v c k w : Forall good_variable vars -> singles pre vars -> operand_means lm vars e v -> addresses c v k -> In w (elements v) ->
    operand_means lm vars (element_expr w) w /\ addresses c w 1 /\ single_operand pre (element_expr w) /\ machine_literals (element_expr w) /\ indexed_expr (element_expr w) = true.
  Proof.
    intros G Si M A H. assert (Lit : forall n z, fits z -> machine_literals (EIndex None (EIdent None n) [IItem None (EInt None z)])).
    { intros n z F. apply index_literals. split; [split; intros ? ? W; inversion W|]. constructor; [|constructor]. now apply number_literals. }
    assert (Id : forall n, machine_literals (EIdent None n)) by (intros n; split; intros ? ? W; inversion W).
    rewrite Forall_forall in G. destruct M as [l x Hx|l l' x es zs Hx Kx I F].
    - assert (One : (kind (var_type x) = TQubit \/ kind (var_type x) = TBit) -> w = VVar x -> addresses c w 1 -> operand_means lm vars (element_expr w) w /\ addresses c w 1 /\ single_operand pre (element_expr w) /\ machine_literals (element_expr w) /\ indexed_expr (element_expr w) = true).
      { intros K -> A1. cbn [element_expr]. split; [now constructor|]. split; [exact A1|]. split; [|auto]. left. destruct (Si x Hx K) as (l1 & t & H1 & H2). eauto 9. }
      assert (Many : (kind (var_type x) = TQubitArray \/ kind (var_type x) = TBitArray) -> (forall z, addresses c (VIndex x [z]) 1) -> In w (map (fun z => VIndex x [z]) (from_to 0 (tsize (var_type x) - 1))) -> operand_means lm vars (element_expr w) w /\ addresses c w 1 /\ single_operand pre (element_expr w) /\ machine_literals (element_expr w) /\ indexed_expr (element_expr w) = true).
      { intros K A1 Hw. apply in_map_iff in Hw. destruct Hw as (z & <- & Hz). pose proof (from_to_within 0 (tsize (var_type x) - 1)) as Wi. rewrite Forall_forall in Wi. specialize (Wi z Hz). destruct (G x Hx K) as [_ Fx]. cbn [element_expr].
        split; [apply some_elements; [exact Hx|exact K|constructor; [now apply number_index|constructor]|constructor; [lia|constructor]]|]. split; [apply A1|]. split; [right; eauto 9|]. split; [|reflexivity]. apply Lit. unfold fits in *. lia. }
      inversion A as [? E|? E|? E|? E| |]; subst; cbn [elements] in H; rewrite E in H.
      + destruct H as [<-|[]]. apply One; auto.
      + apply Many; auto. intros z. exact (addr_qubit_index x [z] E).
      + destruct H as [<-|[]]. apply One; auto.
      + apply Many; auto. intros z. exact (addr_bit_index x [z] E).
    - cbn [elements] in H. apply in_map_iff in H. destruct H as (z & <- & Hz). rewrite Forall_forall in F. specialize (F z Hz). destruct (G x Hx Kx) as [_ Fx]. cbn [element_expr].
      split; [apply some_elements; [exact Hx|exact Kx|constructor; [now apply number_index|constructor]|constructor; [lia|constructor]]|].
      split; [inversion A as [| | | |? ? E|? ? E]; subst; [exact (addr_qubit_index x [z] E)|exact (addr_bit_index x [z] E)]|]. split; [right; eauto 9|]. split; [|reflexivity]. apply Lit. unfold fits in *. lia.
  Qed.
  Lemma elements_some vars e v c k : Forall good_variable vars -> operand_means lm vars e v -> indexed_expr e = true -> addresses c v k -> (0 < List.length (elements v))%nat.
  Proof.
    intros G M X A. rewrite Forall_forall in G. destruct M as [l x Hx|l l' x es zs Hx Kx I F].
    - assert (P : k = Z.of_nat (List.length (elements (VVar x)))) by (eapply counted_elements; [|exact A]; intros y [= <-]; auto). inversion A as [? E|? E|? E|? E| |]; subst; try (destruct (G x Hx ltac:(auto))); lia.
    - cbn [elements]. rewrite map_length. cbn [indexed_expr] in X. rewrite !andb_true_iff in X. destruct X as [[X _] _]. destruct zs; [|cbn [List.length]; lia]. exfalso. eapply indices_some; [|exact I|reflexivity]. intros ->. discriminate X.
  Qed.

  (** ** Operands of one instruction *)
  Definition single_value (w : value) : Prop := (exists x, w = VVar x /\ kind (var_type x) <> TQubitArray /\ kind (var_type x) <> TBitArray) \/ (exists x z, w = VIndex x [z]).
  Lemma element_single v w : In w (elements v) -> single_value w.
  Proof.
    destruct v as [b|z|r|x|x zs]; cbn [elements]; try (intros []).
    - destruct (kind (var_type x)) eqn:K; intros H; try (destruct H as [<-|[]]; left; exists x; rewrite K; repeat split; discriminate); apply in_map_iff in H; destruct H as (z & <- & _); right; eauto.
    - intros H. apply in_map_iff in H. destruct H as (z & <- & _). right. eauto.
  Qed.
  Lemma singles_at i vs : (forall v, In v vs -> (i < List.length (elements v))%nat) -> Forall single_value (nth_elements i vs).
  Proof. intros H. apply Forall_map, Forall_forall. intros v Hv. eapply element_single, nth_In, H, Hv. Qed.
  Lemma classes_long (P : operand_class -> value -> Prop) i cs vs : Forall2 (fun c v => P c v /\ (i < List.length (elements v))%nat) cs vs -> Forall single_value (nth_elements i vs).
  Proof. intros H. apply singles_at. induction H as [|c v cs vs [_ L] _ IH]; intros w Hw; [destruct Hw|]. destruct Hw as [<-|Hw]; auto. Qed.
  Lemma operands_at vars pre es vs (cs : list operand_class) i : Forall good_variable vars -> singles pre vars -> Forall2 (operand_means lm vars) es vs -> Forall2 (fun c v => (exists k, addresses c v k) /\ (i < List.length (elements v))%nat) cs vs ->
    let ws := nth_elements i vs in Forall2 (operand_means lm vars) (map element_expr ws) ws /\ Forall2 (fun c w => addresses c w 1) cs ws /\
      Forall (fun e => single_operand pre e /\ machine_literals e /\ indexed_expr e = true) (map element_expr ws).
  Proof.
    intros G Si M. revert cs. induction M as [|e v es vs Mv _ IH]; intros cs C; inversion C as [|c ? cs' ? [[k A] L] C']; subst; cbn [nth_elements map]; [repeat constructor|].
    destruct (IH _ C') as (H1 & H2 & H3). destruct (element_means vars pre e v c k (nth i (elements v) v) G Si Mv A (nth_In _ _ L)) as (E1 & E2 & E3 & E4 & E5). repeat split; constructor; auto.
  Qed.

  Definition elementary_statements (s : statement) (x : sem_statement) : list statement :=
    match s, x with
    | SGateInstr l g _ an, SemGateInstr _ _ _ vs _ => map (fun i => SGateInstr l g (map element_expr (nth_elements i vs)) an) (seq 0 (width vs))
    | SNonGate l n _ ps an, SemNonGate _ _ _ vs _ _ => map (fun i => SNonGate l n (map element_expr (nth_elements i vs)) ps an) (seq 0 (width vs))
    | _, _ => [s]
    end.
  Lemma elementary_one vars pre s x : Forall good_variable vars -> singles pre vars -> grammar_statement s -> machine_statement s -> instruction_means lm vars s x ->
    Forall2 (instruction_means lm vars) (elementary_statements s x) (elementary_instructions x) /\
    Forall (fun s' => grammar_statement s' /\ machine_statement s' /\ place_of_statement s' = place_of_statement s /\ ~ is_declaration s' /\ Forall (single_operand pre) (operands_of s')) (elementary_statements s x) /\ elementary_instructions x <> [] /\
    Forall (fun y => Forall single_value (result_operands y)) (elementary_instructions x).
  Proof.
    intros G Si Gs Ms M. destruct M as [l g ops sg base name vs k Ga O A|l n ops ps ks cs vs ws In0 O P A Me|l n code]; cbn [elementary_statements elementary_instructions].
    - unfold grammar_statement, machine_statement in *. cbn [statement_exprs SpecAnalyzer.plain] in *. rewrite !forallb_app, !andb_true_iff in Gs. rewrite !Forall_app in Ms. destruct Gs as (P1 & (P2 & P3 & P4) & P5), Ms as [(Q1 & Q2 & Q3) _].
      assert (Len : forall v, In v vs -> k = Z.of_nat (List.length (elements v))).
      { intros v Hv. rewrite Forall_forall in A. eapply counted_elements; [|exact (A v Hv)]. intros y ->. rewrite Forall_forall in G. apply G. clear -O Hv. induction O as [|e v es vs Mv _ IH]; [destruct Hv|]. destruct Hv as [->|Hv]; [inversion Mv; assumption|auto]. }
      assert (Pos : (0 < width vs)%nat).
      { destruct O as [|e v es vs Mv _]; [cbn; lia|]. cbn [width]. inversion A; subst. cbn [forallb] in P3. apply andb_true_iff in P3. eapply elements_some; [exact G|exact Mv|apply P3|eassumption]. }
      assert (X : forall i, In i (seq 0 (width vs)) -> Forall2 (fun c v => (exists k, addresses c v k) /\ (i < List.length (elements v))%nat) (map (fun _ => Qubits) vs) vs).
      { intros i Hi. apply in_seq in Hi. assert (Li : forall v, In v vs -> (i < List.length (elements v))%nat).
        { intros v Hv. pose proof (Len v Hv) as E1. destruct vs as [|v0 vs]; [destruct Hv|]. pose proof (Len v0 (or_introl eq_refl)) as E2. cbn [width] in Hi. lia. }
        clear -A Li. induction A as [|v vs Av _ IH]; cbn [map]; constructor; [split; [eauto|apply Li; now left]|]. apply IH. intros w Hw. apply Li. now right. }
      split; [|split; [|split]].
      + assert (E : forall is, incl is (seq 0 (width vs)) -> Forall2 (instruction_means lm vars) (map (fun i => SGateInstr l g (map element_expr (nth_elements i vs)) []) is) (map (fun i => SemGateInstr l (instruction_for (instr_name (instruction_for name vs)) (nth_elements i vs)) sg (nth_elements i vs) []) is)); [|apply E, incl_refl].
        induction is as [|i is IH]; intros Hi; cbn [map]; constructor; [|apply IH; intros j Hj; apply Hi; now right]. destruct (operands_at vars pre ops vs _ i G Si O (X i (Hi i (or_introl eq_refl)))) as (H1 & H2 & _).
        apply gate_applied with (base := base) (name := name) (k := 1%Z); [|exact H1|].
        * replace (List.length (map element_expr (nth_elements i vs))) with (List.length ops); [exact Ga|]. unfold nth_elements. rewrite !map_length. clear -O. induction O; cbn [List.length]; congruence.
        * clear -H2. revert H2. unfold nth_elements. generalize (map (fun v => nth i (elements v) v) vs). intros ws. generalize vs. induction ws as [|w ws IH]; intros vs0 H; [constructor|]. destruct vs0; inversion H; subst. constructor; [assumption|eapply IH; eassumption].
      + apply Forall_map, Forall_forall. intros i Hi. destruct (operands_at vars pre ops vs _ i G Si O (X i Hi)) as (_ & _ & H3).
        assert (H4 : Forall machine_literals (map element_expr (nth_elements i vs)) /\ forallb indexed_expr (map element_expr (nth_elements i vs)) = true /\ Forall (single_operand pre) (map element_expr (nth_elements i vs))).
        { rewrite forallb_forall, !Forall_forall in *. split; [|split]; intros e He; apply H3, He. }
        destruct H4 as (H4 & H5 & H6). unfold grammar_statement, machine_statement. cbn [statement_exprs SpecAnalyzer.plain place_of_statement is_declaration operands_of]. rewrite !forallb_app, !andb_true_iff, !Forall_app. tauto.
      + destruct (width vs); [lia|discriminate].
      + apply Forall_map, Forall_forall. intros i Hi. cbn [result_operands]. eapply classes_long, (X i Hi).
    - unfold grammar_statement, machine_statement in *. cbn [statement_exprs SpecAnalyzer.plain] in *. rewrite !forallb_app, !andb_true_iff in Gs. rewrite !Forall_app in Ms. destruct Gs as (P1 & (P2 & P3 & P4) & P5), Ms as [(Q1 & Q2 & Q3) _].
      assert (Gv : forall y, In (VVar y) vs -> good_variable y).
      { intros y Hy. rewrite Forall_forall in G. apply G. clear -O Hy. induction O as [|e v es vs Mv _ IH]; [destruct Hy|]. destruct Hy as [->|Hy]; [inversion Mv; assumption|auto]. }
      assert (Cl : forall i, (i < width vs)%nat -> Forall2 (fun c v => (exists k, addresses c v k) /\ (i < List.length (elements v))%nat) cs vs).
      { intros i Hi. assert (Same : exists z, Forall2 (fun c v => addresses c v z) cs vs).
        { destruct (String.eqb_spec n "measure") as [En|En]; [exact (Me En)|]. assert (Cs : cs = [Qubits]).
          { clear -In0 En. cbn in In0. repeat (destruct In0 as [E|In0]; [injection E as <- <- <-; try contradiction; reflexivity|]). destruct In0. }
          subst cs. inversion A as [|? v ? ? (z & Hz) A']; subst. inversion A'; subst. exists z. repeat constructor. exact Hz. }
        destruct Same as (z & Hz). assert (Len : forall v, In v vs -> (i < List.length (elements v))%nat).
        { intros v Hv. assert (E0 : forall v, In v vs -> z = Z.of_nat (List.length (elements v))).
          { clear -Hz Gv. induction Hz as [|c v cs vs Hv _ IH]; intros w Hw; [destruct Hw|]. destruct Hw as [<-|Hw]; [|apply IH; [intros y Hy; apply Gv; now right|exact Hw]]. eapply counted_elements; [|exact Hv]. intros y ->. apply Gv. now left. }
          pose proof (E0 v Hv) as E1. destruct vs as [|v0 vs]; [destruct Hv|]. pose proof (E0 v0 (or_introl eq_refl)) as E2. cbn [width] in Hi. lia. }
        clear -Hz Len. induction Hz as [|c v cs vs Hv _ IH]; constructor; [split; [eauto|apply Len; now left]|]. apply IH. intros w Hw. apply Len. now right. }
      assert (Pos : (0 < width vs)%nat).
      { destruct O as [|e v es vs Mv _]; [cbn; lia|]. cbn [width]. inversion A as [|? ? ? ? (z & Hz) _]; subst. cbn [forallb] in P2. apply andb_true_iff in P2. eapply elements_some; [exact G|exact Mv|apply P2|exact Hz]. }
      split; [|split; [|split]].
      + assert (E : forall is, incl is (seq 0 (width vs)) -> Forall2 (instruction_means lm vars) (map (fun i => SNonGate l n (map element_expr (nth_elements i vs)) ps []) is) (map (fun i => SemNonGate l (instruction_for (instr_name (instruction_for n vs)) (nth_elements i vs)) n (nth_elements i vs) ws []) is)); [|apply E, incl_refl].
        induction is as [|i is IH]; intros Hi; cbn [map]; constructor; [|apply IH; intros j Hj; apply Hi; now right]. assert (Li : (i < width vs)%nat) by (specialize (Hi i (or_introl eq_refl)); apply in_seq in Hi; lia).
        destruct (operands_at vars pre ops vs cs i G Si O (Cl i Li)) as (H1 & H2 & _).
        apply non_gate_applied with (ks := ks) (cs := cs); [exact In0|exact H1|exact P| |intros _; eexists; exact H2]. clear -H2. induction H2; constructor; eauto.
      + apply Forall_map, Forall_forall. intros i Hi. assert (Li : (i < width vs)%nat) by (apply in_seq in Hi; lia). destruct (operands_at vars pre ops vs cs i G Si O (Cl i Li)) as (_ & _ & H3).
        assert (H4 : Forall machine_literals (map element_expr (nth_elements i vs)) /\ forallb indexed_expr (map element_expr (nth_elements i vs)) = true /\ Forall (single_operand pre) (map element_expr (nth_elements i vs))).
        { rewrite forallb_forall, !Forall_forall in *. split; [|split]; intros e He; apply H3, He. }
        destruct H4 as (H4 & H5 & H6). unfold grammar_statement, machine_statement. cbn [statement_exprs SpecAnalyzer.plain place_of_statement is_declaration operands_of]. rewrite !forallb_app, !andb_true_iff, !Forall_app. tauto.
      + destruct (width vs); [lia|discriminate].
      + apply Forall_map, Forall_forall. intros i Hi. cbn [result_operands]. assert (Li : (i < width vs)%nat) by (apply in_seq in Hi; lia). eapply classes_long, (Cl i Li).
    - split; [repeat constructor|]. split; [|split; [discriminate|repeat constructor]]. constructor; [|constructor]. split; [exact Gs|]. split; [exact Ms|]. split; [reflexivity|]. split; [auto|constructor].
  Qed.

  (** ** Programs *)
  Lemma singles_more pre pre' vars : singles pre vars -> singles (pre ++ pre') vars.
  Proof. intros S x Hx K. destruct (S x Hx K) as (l & t & H & E). exists l, t. split; [apply in_or_app; now left|exact E]. Qed.
  Lemma single_more pre pre' e : incl pre pre' -> single_operand pre e -> single_operand pre' e.
  Proof. intros I [(l & n & l' & t & -> & H & E)|H]; [left; exists l, n, l', t; auto|now right]. Qed.
  Lemma elementary_block ss : forall pre vars vars' xs, Forall good_variable vars -> singles pre vars -> Forall grammar_statement ss -> Forall machine_statement ss -> block_means lm vars ss vars' xs ->
    exists ss', block_means lm vars ss' vars' (flat_map elementary_instructions xs) /\ Forall (fun s' => grammar_statement s' /\ machine_statement s' /\ exists s, In s ss /\ place_of_statement s' = place_of_statement s) ss' /\
      Forall (fun x => elementary_instructions x <> [] /\ Forall (fun y => Forall single_value (result_operands y)) (elementary_instructions x)) xs /\ forall s e, In s ss' -> In e (operands_of s) -> single_operand (pre ++ ss') e.
  Proof.
    induction ss as [|s ss IH]; intros pre vars vars' xs G Si Gs Ms B; inversion B as [|l n t ty ? ? ? D N1 N2 B'|s0 x ? ? xs0 M B']; subst; inversion Gs as [|? ? G1 G2]; inversion Ms as [|? ? M1 M2]; subst.
    - exists []. split; [constructor|]. split; [constructor|]. split; [constructor|]. intros s e [].
    - destruct (IH (pre ++ [SVariable l n t []])%list (vars ++ [mkVariable (List.length vars) n ty])%list vars' xs) as (ss' & H1 & H2 & H3 & H4); try assumption.
      + apply Forall_app. split; [exact G|]. constructor; [|constructor]. destruct M1 as [_ M1]. intros K. cbn [var_type] in *. inversion D; subst; cbn [kind tsize] in *; try (destruct K; discriminate); (split; [assumption|apply M1; reflexivity]).
      + intros x Hx K. apply in_app_or in Hx. destruct Hx as [Hx|[<-|[]]]; [exact (singles_more _ _ _ Si x Hx K)|]. cbn [var_type var_name] in *. exists l, t. split; [apply in_or_app; right; now left|]. inversion D; subst; cbn [kind] in K; try (destruct K; discriminate); reflexivity.
      + exists (SVariable l n t [] :: ss'). split; [eapply declaration; eauto|]. split; [|split; [exact H3|]].
        * constructor; [split; [exact G1|]; split; [exact M1|]; eexists; split; [now left|reflexivity]|]. eapply Forall_impl; [|exact H2]. intros s' (X1 & X2 & s & X3 & X4). split; [exact X1|]. split; [exact X2|]. exists s. split; [now right|exact X4].
        * intros s e [<-|Hs] He; [destruct He|]. specialize (H4 s e Hs He). rewrite <- app_assoc in H4. exact H4.
    - destruct (IH pre vars vars' xs0) as (ss' & H1 & H2 & H3 & H4); try assumption. destruct (elementary_one vars pre s x G Si G1 M1 M) as (E1 & E2 & E3).
      exists (elementary_statements s x ++ ss')%list. split; [|split; [|split]].
      + cbn [flat_map]. apply block_app; [eapply Forall_impl; [|exact E2]; cbn beta; tauto|]. eauto.
      + apply Forall_app. split.
        * eapply Forall_impl; [|exact E2]. intros s' (X1 & X2 & X3 & _). split; [exact X1|]. split; [exact X2|]. exists s. split; [now left|exact X3].
        * eapply Forall_impl; [|exact H2]. intros s' (X1 & X2 & s0 & X3 & X4). split; [exact X1|]. split; [exact X2|]. exists s0. split; [now right|exact X4].
      + constructor; assumption.
      + intros s' e Hs He. apply in_app_or in Hs. destruct Hs as [Hs|Hs].
        * rewrite Forall_forall in E2. destruct (E2 s' Hs) as (_ & _ & _ & _ & F). rewrite Forall_forall in F. eapply single_more; [|exact (F e He)]. apply incl_appl, incl_refl.
        * eapply single_more; [|exact (H4 s' e Hs He)]. intros y Hy. apply in_app_or in Hy. apply in_or_app. destruct Hy; [now left|right; apply in_or_app; now right].
  Qed.
  Lemma same_places x y : In y (elementary_instructions x) -> place_of_result y = place_of_result x.
  Proof. destruct x as [l j g vs an|l j n vs ws an|l n c an]; cbn [elementary_instructions]; intros H; [apply in_map_iff in H; destruct H as (i & <- & _); reflexivity|apply in_map_iff in H; destruct H as (i & <- & _); reflexivity|destruct H as [<-|[]]; reflexivity]. Qed.
  Lemma same_head xs : Forall (fun x => elementary_instructions x <> []) xs -> hd_error (statement_locations xs) = hd_error (statement_locations (flat_map elementary_instructions xs)).
  Proof.
    unfold statement_locations. induction 1 as [|x xs N _ IH]; [reflexivity|]. cbn [flat_map]. rewrite flat_map_app. pose proof (same_places x) as P. destruct (elementary_instructions x) as [|y ys]; [contradiction|]. cbn [flat_map]. rewrite (P y (or_introl eq_refl)).
    destruct (place_of_result x) as [l|] eqn:E; [reflexivity|]. cbn [app]. replace (flat_map _ ys) with (@nil source_location); [exact IH|]. clear -P E. induction ys as [|z ys IH]; [reflexivity|]. cbn [flat_map]. rewrite (P z ltac:(right; now left)). cbn [app]. apply IH. intros w [<-|Hw]; apply P; [now left|right; now right].
  Qed.
  Lemma same_members xs : Forall (fun x => elementary_instructions x <> []) xs -> forall l, In l (statement_locations xs) <-> In l (statement_locations (flat_map elementary_instructions xs)).
  Proof.
    intros F l. unfold statement_locations. rewrite !in_flat_map. split.
    - intros (x & Hx & Hl). rewrite Forall_forall in F. specialize (F x Hx). destruct (elementary_instructions x) as [|y ys] eqn:E; [contradiction|]. exists y. split; [apply in_flat_map; exists x; rewrite E; split; [exact Hx|now left]|]. cbn beta in *. rewrite (same_places x y); [exact Hl|rewrite E; now left].
    - intros (y & Hy & Hl). apply in_flat_map in Hy. destruct Hy as (x & Hx & Hy). exists x. split; [exact Hx|]. cbn beta in *. rewrite (same_places x y Hy) in Hl. exact Hl.
  Qed.
  Lemma elementary_means api p q : grammar_program p -> machine_program p -> ordered_locations p -> program_means lm api p q ->
    exists p', (grammar_program p' /\ machine_program p' /\ ordered_locations p') /\ elementary_program p' /\ program_means lm api p' (elementary_result q) /\
      Forall (fun y => Forall single_value (result_operands y)) (blk_statements (sp_block (elementary_result q))).
  Proof.
    intros G M O [vars [xs bl] V B S]. cbn [blk_statements] in B. destruct (elementary_block (prog_statements p) [] [] vars xs (Forall_nil _) ltac:(intros x []) G M B) as (ss' & H1 & H2 & H3 & H4).
    assert (H5 : Forall (fun x => elementary_instructions x <> []) xs) by (eapply Forall_impl; [|exact H3]; cbn beta; tauto).
    exists (mkProgram (prog_version p) (prog_version_loc p) ss' (prog_block_loc p)). split; [split; [|split]|split; [|split]].
    - eapply Forall_impl; [|exact H2]. cbn beta. tauto.
    - eapply Forall_impl; [|exact H2]. cbn beta. tauto.
    - intros s l Hs E. rewrite Forall_forall in H2. destruct (H2 s Hs) as (_ & _ & s0 & X & Y). rewrite Y in E. exact (O s0 l X E).
    - exact H4.
    - refine (program_of lm api (mkProgram (prog_version p) (prog_version_loc p) ss' (prog_block_loc p)) vars (mkBlock (flat_map elementary_instructions xs) bl) V H1 _). eapply spans_same; [apply same_head; exact H5|apply same_members; exact H5|exact S].
    - cbn [elementary_result sp_block blk_statements]. apply Forall_flat_map. eapply Forall_impl; [|exact H3]. cbn beta. tauto.
  Qed.
End Elementary.

(** ** Taking apart once is enough *)
Lemma elements_again w : single_value w -> elements w = [w].
Proof. intros [(x & -> & K1 & K2)|(x & z & ->)]; cbn [elements map]; [|reflexivity]. destruct (kind (var_type x)); congruence || reflexivity. Qed.
Lemma operands_again vs : Forall single_value vs -> width vs = 1%nat /\ nth_elements 0 vs = vs.
Proof.
  intros F. split; [destruct F as [|v vs H _]; [reflexivity|]; cbn [width]; now rewrite (elements_again v H)|]. induction F as [|v vs H _ IH]; [reflexivity|]. cbn [nth_elements map]. rewrite (elements_again v H). cbn [nth]. f_equal. exact IH.
Qed.
Lemma elementary_again q : Forall (fun y => Forall single_value (result_operands y)) (blk_statements (sp_block (elementary_result q))) -> elementary_result (elementary_result q) = elementary_result q.
Proof.
  unfold elementary_result. cbn [sp_api_version sp_version sp_version_loc sp_block sp_variables blk_statements blk_loc]. intros F. f_equal. f_equal. induction (blk_statements (sp_block q)) as [|x xs IH]; [reflexivity|]. cbn [flat_map] in *. rewrite flat_map_app.
  apply Forall_app in F. destruct F as [F1 F2]. rewrite (IH F2). f_equal. clear IH F2. destruct x as [l j g vs an|l j n vs ws an|l n c an]; cbn [elementary_instructions] in *; [| |reflexivity];
    (induction (seq 0 (width vs)) as [|i is IHi]; [reflexivity|]); cbn [map flat_map] in *; inversion F1 as [|? ? H1 H2]; subst; rewrite (IHi H2); cbn [result_operands] in H1; destruct (operands_again _ H1) as [E1 E2]; cbn [elementary_instructions]; rewrite E1; cbn [seq map]; rewrite E2; reflexivity.
Qed.
