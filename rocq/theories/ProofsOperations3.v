(** The operations of programs with two registers as one (C117). *)
From Coq Require Import ZArith Lia ZifyBool ZifyNat.
From Verif Require Import Base ModelTypes ModelOverload ModelFunctions ModelAst ModelAnalyzer ModelSemantic
  SpecUtils SpecTypes SpecFunctions SpecInstructions SpecAnalyzer SpecEvaluate SpecMeaning SpecResize SpecFlat ProofsFlat SpecOperations ProofsOperations SpecMerge ProofsMerge SpecMeaning.
Local Open Scope string_scope.

Lemma declared_behind lm vars ss vars' xs : block_means lm vars ss vars' xs ->
  exists r, vars' = (vars ++ r)%list /\ Forall (fun y => (List.length vars <= var_id y)%nat /\ ~ In (var_name y) (map var_name vars)) r.
Proof.
  induction 1 as [vars|vars l n t ty ss vars' xs D N1 N2 B IH|vars s x ss vars' xs M B IH]; [exists []; now rewrite app_nil_r| |exact IH].
  destruct IH as (r & -> & F). exists (mkVariable (List.length vars) n ty :: r). rewrite <- app_assoc. split; [reflexivity|]. constructor; [cbn [var_id var_name]; auto|].
  eapply Forall_impl; [|exact F]. intros y [L N]. rewrite app_length in L. cbn [List.length] in L. split; [lia|]. intros I. apply N. rewrite map_app. apply in_or_app. now left.
Qed.

Section Merged.
  Variables (a b : string) (m k : Z) (before : nat) (K : type_kind) (pre post : list variable).
  Hypotheses (Nab : a <> b)
    (Pre : Forall (fun y => var_name y <> a /\ var_name y <> b /\ (var_id y < before)%nat) pre)
    (Post : Forall (fun y => var_name y <> a /\ var_name y <> b /\ (S before < var_id y)%nat) post).
  Let xa := mkVariable before a (mkType K m).
  Let xb := mkVariable (S before) b (mkType K k).
  Let xm := mkVariable before a (mkType K (m + k)).
  Let vars := (pre ++ xa :: xb :: post)%list.
  Notation mv := (merge_variable a m k before).
  Let merged := map mv (filter (fun y => negb (var_name y =? b)) vars).

  Lemma mv_pre : map mv (filter (fun y => negb (var_name y =? b)) pre) = pre.
  Proof.
    generalize Pre. generalize pre. intros l0 P0. induction P0 as [|y l (H1 & H2 & H3) _ IH]; [reflexivity|]. cbn [filter]. rewrite (proj2 (String.eqb_neq _ _) H2). cbn [negb map]. rewrite IH. f_equal.
    unfold merge_variable. rewrite (proj2 (String.eqb_neq _ _) H1). destruct (Nat.ltb_spec before (var_id y)); [lia|reflexivity].
  Qed.
  Lemma merged_is : merged = (pre ++ xm :: map mv post)%list.
  Proof.
    unfold merged, vars. rewrite filter_app, map_app, mv_pre. f_equal. cbn [filter var_name xa xb]. rewrite (proj2 (String.eqb_neq _ _) Nab), String.eqb_refl. cbn [negb map]. f_equal.
    - unfold merge_variable. cbn [var_name var_id var_type kind xa]. now rewrite String.eqb_refl.
    - f_equal. generalize Post. generalize post. intros l0 P0. induction P0 as [|y l (H1 & H2 & H3) _ IH]; [reflexivity|]. cbn [filter]. rewrite (proj2 (String.eqb_neq _ _) H2). cbn [negb]. now rewrite IH.
  Qed.
  Lemma mv_other x : var_name x <> a -> of_qubits (mv x) = of_qubits x /\ tsize (var_type (mv x)) = tsize (var_type x) /\ var_id (mv x) = (if (before <? var_id x)%nat then pred (var_id x) else var_id x).
  Proof. intros N. unfold merge_variable. rewrite (proj2 (String.eqb_neq _ _) N). destruct (before <? var_id x)%nat; auto. Qed.
  Lemma pre_sum (c : bool) i j : ((before <= i)%nat /\ (before <= j)%nat) \/ i = j -> filter (fun y => Bool.eqb (of_qubits y) c && (var_id y <? i)%nat) pre = filter (fun y => Bool.eqb (of_qubits y) c && (var_id y <? j)%nat) pre.
  Proof.
    intros H. generalize Pre. generalize pre. intros l0 P0. induction P0 as [|y l (H1 & H2 & H3) _ IH]; [reflexivity|]. cbn [filter]. rewrite IH. replace (var_id y <? j)%nat with (var_id y <? i)%nat; [reflexivity|]. destruct (Nat.ltb_spec (var_id y) i), (Nat.ltb_spec (var_id y) j); lia.
  Qed.
  Lemma post_sum (c : bool) i j : (i <= S before /\ j <= S before)%nat \/ (j = S i)%nat ->
    total (filter (fun y => Bool.eqb (of_qubits y) c && (var_id y <? i)%nat) (map mv post)) = total (filter (fun y => Bool.eqb (of_qubits y) c && (var_id y <? j)%nat) post).
  Proof.
    intros H. generalize Post. generalize post. intros l0 P0. induction P0 as [|y l (H1 & H2 & H3) _ IH]; [reflexivity|]. cbn [map filter]. destruct (mv_other y H1) as (-> & T & ->).
    replace (if (before <? var_id y)%nat then pred (var_id y) else var_id y) with (pred (var_id y)) by (destruct (Nat.ltb_spec before (var_id y)); lia).
    replace (pred (var_id y) <? i)%nat with (var_id y <? j)%nat by (destruct (Nat.ltb_spec (var_id y) j), (Nat.ltb_spec (pred (var_id y)) i); lia).
    destruct (Bool.eqb (of_qubits y) c && (var_id y <? j)%nat); [|exact IH]. rewrite !total_cons, T, IH. reflexivity.
  Qed.
  Lemma other_number x : In x vars -> var_name x <> a -> var_name x <> b -> first_number merged (mv x) = first_number vars x.
  Proof.
    intros Hx Na Nb. destruct (mv_other x Na) as (Q & _ & I). unfold first_number. rewrite Q, I, merged_is. unfold vars. rewrite !filter_app, !total_app. cbn [filter].
    change (of_qubits xm) with (of_qubits xa). change (of_qubits xb) with (of_qubits xa). cbn [var_id xm xa xb]. apply in_app_or in Hx. destruct Hx as [Hx|[<-|[<-|Hx]]]; [| now elim Na|now elim Nb|].
    - destruct (proj1 (Forall_forall _ _) Pre x Hx) as (_ & _ & L). destruct (Nat.ltb_spec before (var_id x)); [lia|]. replace (before <? var_id x)%nat with false by (symmetry; apply Nat.ltb_ge; lia). destruct (Nat.ltb_spec (S before) (var_id x)); [lia|]. rewrite !andb_false_r. f_equal. apply post_sum. lia.
    - destruct (proj1 (Forall_forall _ _) Post x Hx) as (_ & _ & L). destruct (Nat.ltb_spec before (var_id x)); [|lia]. destruct (Nat.ltb_spec before (pred (var_id x))); [|lia]. destruct (Nat.ltb_spec (S before) (var_id x)); [|lia]. rewrite !andb_true_r.
      rewrite (pre_sum (of_qubits x) (pred (var_id x)) (var_id x)) by lia. pose proof (post_sum (of_qubits x) (pred (var_id x)) (var_id x)) as P. destruct (Bool.eqb (of_qubits xa) (of_qubits x)); rewrite ?total_cons, P by lia; cbn [tsize var_type xm xa xb]; lia.
  Qed.
  Lemma register_numbers : first_number merged xm = first_number vars xa /\ first_number vars xb = (first_number vars xa + m)%Z.
  Proof.
    unfold first_number. rewrite merged_is. change (of_qubits xm) with (of_qubits xa). change (of_qubits xb) with (of_qubits xa). unfold vars. rewrite !filter_app, !total_app. cbn [filter].
    change (of_qubits xm) with (of_qubits xa). change (of_qubits xb) with (of_qubits xa). cbn [var_id xm xa xb]. rewrite Nat.ltb_irrefl, Bool.eqb_reflx, !andb_false_r.
    replace (S before <? before)%nat with false by (symmetry; apply Nat.ltb_ge; lia). replace (S before <? S before)%nat with false by (symmetry; apply Nat.ltb_ge; lia). replace (before <? S before)%nat with true by (symmetry; apply Nat.ltb_lt; lia). cbn [andb].
    pose proof (post_sum (of_qubits xa) before before) as P1. pose proof (post_sum (of_qubits xa) before (S before)) as P2. split.
    - f_equal. apply P1. lia.
    - rewrite (pre_sum (of_qubits xa) (S before) before) by lia. rewrite total_cons. cbn [tsize var_type xa]. rewrite <- P1, <- P2 by lia. lia.
  Qed.
  (** Operands as they are in the result *)
  Definition fine_operand (v : value) : Prop := match v with VVar x => In x vars /\ var_name x <> a /\ var_name x <> b | VIndex x _ => In x vars | _ => True end.
  Lemma named x : In x vars -> (var_name x = a -> x = xa) /\ (var_name x = b -> x = xb).
  Proof.
    intros H. unfold vars in H. apply in_app_or in H. destruct H as [H|[<-|[<-|H]]].
    - destruct (proj1 (Forall_forall _ _) Pre x H) as (H1 & H2 & _). split; intros E; contradiction.
    - split; intros E; [reflexivity|]. cbn in E. contradiction.
    - split; intros E; [|reflexivity]. cbn in E. now elim Nab.
    - destruct (proj1 (Forall_forall _ _) Post x H) as (H1 & H2 & _). split; intros E; contradiction.
  Qed.
  Lemma merged_places v : fine_operand v -> places merged (merge_value a b m k before v) = places vars v.
  Proof.
    destruct register_numbers as [R1 R2]. destruct v as [c|z|f|x|x zs]; cbn [fine_operand merge_value]; try reflexivity.
    - intros (Hx & Na & Nb). destruct (mv_other x Na) as (Q & T & _). cbn [places numbers_of]. now rewrite Q, T, other_number.
    - intros Hx. destruct (String.eqb_spec (var_name x) b) as [E|E].
      + apply (named x Hx) in E. subst x. cbn [places numbers_of xb var_type kind]. fold xm xb. rewrite R1, R2, !map_map. apply map_ext. intros z. change (of_qubits xm) with (of_qubits xb). f_equal. lia.
      + destruct (String.eqb_spec (var_name x) a) as [E'|E'].
        * apply (named x Hx) in E'. subst x. assert (Em : mv xa = xm) by (unfold merge_variable; cbn [xa var_name var_id var_type kind]; now rewrite String.eqb_refl). rewrite Em. cbn [places numbers_of]. rewrite R1. reflexivity.
        * destruct (mv_other x E') as (Q & _ & _). cbn [places numbers_of]. now rewrite Q, other_number.
  Qed.
  Lemma merged_statements xs : Forall (fun x => Forall fine_operand (result_operands x)) xs -> flat_map (operations_of merged) (map (merge_instruction a b m k before) xs) = flat_map (operations_of vars) xs.
  Proof.
    induction 1 as [|x xs F _ IH]; [reflexivity|]. cbn [map flat_map]. rewrite IH. f_equal.
    destruct x as [l j g vs an|l j n vs ws an|l n c an]; cbn [merge_instruction operations_of result_operands] in *; [| |reflexivity]; f_equal; apply applications_alike; (eapply Forall_impl; [|exact F]); intros v; apply merged_places.
  Qed.
End Merged.

Lemma means_variables lm vars ss vars' xs (P : variable -> Prop) (Q : variable -> Prop) : block_means lm vars ss vars' xs -> (forall x, In x vars' -> P x) ->
  (forall s l x, In s ss -> In (EIdent l (var_name x)) (operands_of s) -> In x vars' -> Q x) ->
  Forall (fun x => Forall (fun v => match v with VVar x => P x /\ Q x | VIndex x _ => P x | _ => True end) (result_operands x)) xs.
Proof.
  intros B HP. induction B as [vars|vars l n t ty ss vars' xs D N1 N2 B IH|vars s x ss vars' xs M B IH]; intros HQ; [constructor|apply IH; [exact HP|]; intros; eapply HQ; eauto; now right|].
  constructor; [|apply IH; [exact HP|]; intros; eapply HQ; eauto; now right].
  destruct (declared_behind _ _ _ _ _ B) as (r & -> & _).
  assert (A : forall ops vs, Forall2 (operand_means lm vars) ops vs -> (forall e, In e ops -> In e (operands_of s)) -> Forall (fun v => match v with VVar x => P x /\ Q x | VIndex x _ => P x | _ => True end) vs).
  { induction 1 as [|e v es vs Mv _ IHv]; intros I; constructor; [|apply IHv; intros e' He; apply I; now right].
    destruct Mv as [l y Hy|l l' y es' zs Hy _ _ _]; [split|]; try (apply HP, in_or_app; now left). eapply HQ; [now left|apply I; now left|apply in_or_app; now left]. }
  destruct M as [l g ops sg base name vs n G O Ad|l n ops ps ks cs vs ws In0 O Pa Ad Me|]; cbn [result_operands operands_of] in *; [| |constructor]; apply (A _ _ O); auto.
Qed.
Lemma merged_operations lm api p q a b m k before la lb lta ltb type behind : a <> b -> two_registers a b m k p before la lb lta ltb type behind -> mergeable a b k behind ->
  program_means lm api p q -> operations (merge_result a b m k (declared before) q) = operations q.
Proof.
  intros Nab T U [vars [xs bl] V B Sp]. cbn [blk_statements] in B. rewrite T in B. apply block_split in B. destruct B as (mid & xs1 & xs2 & -> & B1 & B2).
  inversion B2 as [|? ? ? tya ? ? ? Da Na1 Na2 B3|? ? ? ? ? M]; subst; [|inversion M]. inversion B3 as [|? ? ? tyb ? ? ? Db Nb1 Nb2 B4|? ? ? ? ? M]; subst; [|inversion M].
  pose proof (declared_length _ _ _ _ _ B1) as Lm. cbn [List.length Nat.add] in Lm. destruct (declared_ids _ _ _ _ _ B1 (Forall_nil _)) as [_ Im].
  assert (KT : exists K, tya = mkType K m /\ tyb = mkType K k) by (inversion Da; subst; inversion Db; subst; eauto). destruct KT as (K & -> & ->).
  destruct (declared_behind _ _ _ _ _ B4) as (post & -> & Post). rewrite app_length in Post, B4. cbn [List.length] in Post, B4. rewrite app_length. cbn [List.length].
  assert (Ev : (((mid ++ [mkVariable (List.length mid) a (mkType K m)]) ++ [mkVariable (List.length mid + 1) b (mkType K k)]) ++ post = mid ++ mkVariable (declared before) a (mkType K m) :: mkVariable (S (declared before)) b (mkType K k) :: post)%list).
  { rewrite <- !app_assoc. cbn [app]. now rewrite Lm, Nat.add_1_r. }
  assert (F1 : Forall (fun y => var_name y <> a /\ var_name y <> b /\ (var_id y < declared before)%nat) mid).
  { apply Forall_forall. intros x Hx. split; [intros E; apply Na2; rewrite <- E; now apply in_map|]. split; [intros E; apply Nb2; rewrite map_app; apply in_or_app; left; rewrite <- E; now apply in_map|]. rewrite Forall_forall in Im. specialize (Im x Hx). lia. }
  assert (F2 : Forall (fun y => var_name y <> a /\ var_name y <> b /\ (S (declared before) < var_id y)%nat) post).
  { eapply Forall_impl; [|exact Post]. intros y [L N]. rewrite app_length in L. rewrite !map_app in N. cbn [List.length map var_name] in *. split; [intros E; apply N; rewrite E; apply in_or_app; left; apply in_or_app; right; now left|]. split; [intros E; apply N; rewrite E; apply in_or_app; right; now left|lia]. }
  rewrite Ev in *. pose (all := (mid ++ mkVariable (declared before) a (mkType K m) :: mkVariable (S (declared before)) b (mkType K k) :: post)%list). fold all in B4 |- *.
  assert (X : Forall (fun x => Forall (fun v => match v with VVar x => In x all /\ (var_name x <> a /\ var_name x <> b) | VIndex x _ => In x all | _ => True end) (result_operands x)) (xs1 ++ xs2)).
  { apply Forall_app. split.
    - apply (means_variables lm [] before mid xs1 (fun x => In x all) (fun x => var_name x <> a /\ var_name x <> b) B1); [intros x Hx; apply in_or_app; now left|]. intros s l x _ _ Hx. destruct (proj1 (Forall_forall _ _) F1 x Hx) as (H1 & H2 & _). now split.
    - eapply (means_variables lm _ behind all xs2 (fun x => In x all) (fun x => var_name x <> a /\ var_name x <> b) B4); [auto|]. intros s l x Hs He _. exact (U s _ Hs He). }
  pose proof (merged_statements a b m k (declared before) K mid post Nab F1 F2 (xs1 ++ xs2)%list X) as E. fold all in E. unfold operations. cbn [merge_result sp_block blk_statements].
  match type of E with flat_map (operations_of ?v1) _ = _ => match goal with |- flat_map (operations_of ?w1) _ = flat_map (operations_of ?w2) _ => replace w1 with v1; [replace w2 with all; [exact E|]|] end end.
  - unfold result_variables. cbn [sp_variables]. rewrite map_map. symmetry. apply map_id.
  - clear. unfold result_variables. cbn [merge_result sp_variables]. rewrite map_map. cbn [sv_var]. generalize all as ys. induction ys as [|y ys IH]; [reflexivity|]. cbn [map filter sv_var]. destruct (var_name y =? b); cbn [negb map sv_var]; rewrite IH; reflexivity.
Qed.
