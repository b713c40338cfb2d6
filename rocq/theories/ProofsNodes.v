(** Nodes in memory (C97): heaps, trees and the analysis of expressions. *)
From Coq Require Import ZifyBool ZifyNat.
From Verif Require Import Base ModelUtils ModelVersion ModelError ModelTypes ModelOverload ModelFunctions ModelInstructionSet ModelAst ModelAnalyzer ModelSemantic ModelLocated
  SpecTypes SpecFunctions SpecInstructions SpecAnalyzer ProofsTypes ProofsFunctions ProofsFolding ProofsExpr ProofsInstructions ProofsGates
  ProofsAnalyzer ProofsAnalyzer2 ProofsLocated ModelNodes SpecNodes.
Local Open Scope list_scope.

(** ** Heaps that keep their nodes *)
Definition keeps (h h' : heap) : Prop := forall i c, nth_error h i = Some c -> nth_error h' i = Some c.
Lemma keeps_refl h : keeps h h.
Proof. intros i c E. exact E. Qed.
Lemma keeps_trans a b c : keeps a b -> keeps b c -> keeps a c.
Proof. intros H G i x E. apply G, H, E. Qed.
Lemma nth_some {A} (l : list A) n : (n < List.length l)%nat -> exists x, nth_error l n = Some x.
Proof. intros L. destruct (nth_error l n) eqn:E; [eauto|]. apply nth_error_None in E. lia. Qed.
Lemma nth_lt {A} (l : list A) n x : nth_error l n = Some x -> (n < List.length l)%nat.
Proof. intros E. apply nth_error_Some. now rewrite E. Qed.
Lemma keeps_length h h' : keeps h h' -> (List.length h <= List.length h')%nat.
Proof.
  intros K. destruct (Nat.le_gt_cases (List.length h) (List.length h')) as [|L]; [assumption|].
  destruct (nth_some _ _ L) as [x E]. apply K, nth_lt in E. lia.
Qed.
Lemma keeps_snoc h c : keeps h (h ++ [c]).
Proof. intros i x E. rewrite nth_error_app1; [exact E|]. exact (nth_lt _ _ _ E). Qed.
Lemma nth_put_same {A} (l : list A) a x : (a < List.length l)%nat -> nth_error (put a x l) a = Some x.
Proof. revert a. induction l as [|y l IH]; intros [|a] L; cbn in *; try lia; [reflexivity|]. apply IH. lia. Qed.
Lemma nth_put_other {A} (l : list A) a b x : a <> b -> nth_error (put a x l) b = nth_error l b.
Proof. revert a b. induction l as [|y l IH]; intros [|a] [|b] N; cbn; try reflexivity; try lia. apply IH. lia. Qed.
Lemma length_put {A} (l : list A) a x : List.length (put a x l) = List.length l.
Proof. revert a. induction l as [|y l IH]; intros [|a]; cbn; congruence. Qed.
Lemma keeps_put h0 h a c : keeps h0 h -> (List.length h0 <= a)%nat -> keeps h0 (put a c h).
Proof. intros K L i x E. rewrite nth_put_other; [exact (K _ _ E)|]. pose proof (nth_lt _ _ _ E). lia. Qed.
Lemma nth_snoc {A} (l : list A) x : nth_error (l ++ [x]) (List.length l) = Some x.
Proof. rewrite nth_error_app2 by lia. now rewrite Nat.sub_diag. Qed.

(** ** omap *)
Lemma omap_iff {A B} (f : A -> option B) l l' : omap f l = Some l' <-> Forall2 (fun a b => f a = Some b) l l'.
Proof.
  split.
  - revert l'. induction l as [|a l IH]; intros l'; cbn; [intros [= <-]; constructor|]. destruct (f a) eqn:E; [|discriminate]. destruct (omap f l); [|discriminate]. intros [= <-]. constructor; [exact E|]. now apply IH.
  - induction 1 as [|a b l l' E _ IH]; cbn; [reflexivity|]. now rewrite E, IH.
Qed.
Lemma omap_impl {A B} (f g : A -> option B) l l' : (forall a b, In a l -> f a = Some b -> g a = Some b) -> omap f l = Some l' -> omap g l = Some l'.
Proof.
  revert l'. induction l as [|a l IH]; intros l' H; cbn; [auto|]. destruct (f a) eqn:E; [|discriminate]. destruct (omap f l) eqn:F; [|discriminate]. intros [= <-].
  rewrite (H _ _ (or_introl eq_refl) E), (IH l0); [reflexivity| |reflexivity]. intros x y I. apply H. now right.
Qed.
Lemma omap_app {A B} (f : A -> option B) l m l' m' : omap f l = Some l' -> omap f m = Some m' -> omap f (l ++ m) = Some (l' ++ m')%list.
Proof. rewrite !omap_iff. apply Forall2_app. Qed.
Lemma omap_length {A B} (f : A -> option B) l l' : omap f l = Some l' -> List.length l = List.length l'.
Proof. rewrite omap_iff. induction 1; cbn; congruence. Qed.

(** ** What is read stays *)
(** [h'] has the same nodes as [h] for reading [P] *)
Lemma read_int_same h h' a z : nth_error h' a = nth_error h a -> read_int h a = Some z -> read_int h' a = Some z.
Proof. unfold read_int. now intros ->. Qed.
Section Stays.
  Variables h h' : heap.
  (** every node except blocks stays *)
  Variable S : forall i c, nth_error h i = Some c -> match c_node c with NBlock _ => True | _ => nth_error h' i = Some c end.
  Variable L : (List.length h <= List.length h')%nat.
  Lemma same_int a z : read_int h a = Some z -> read_int h' a = Some z.
  Proof. unfold read_int. destruct (nth_error h a) as [[l n]|] eqn:E; [|discriminate]. pose proof (S _ _ E) as X. destruct n; try discriminate. cbn in X. now rewrite X. Qed.
  Lemma same_value a v : read_value h a = Some v -> read_value h' a = Some v.
  Proof.
    unfold read_value. destruct (nth_error h a) as [[l n]|] eqn:E; [|discriminate]. pose proof (S _ _ E) as X. destruct n; try discriminate; cbn in X; rewrite X; auto.
    destruct (omap (read_int h) indices) eqn:O; [|discriminate]. rewrite (omap_impl _ _ _ _ (fun a b _ => same_int a b) O). auto.
  Qed.
  Lemma same_values l vs : omap (read_value h) l = Some vs -> omap (read_value h') l = Some vs.
  Proof. apply omap_impl. intros a b _. apply same_value. Qed.
  Lemma same_ints l vs : omap (read_int h) l = Some vs -> omap (read_int h') l = Some vs.
  Proof. apply omap_impl. intros a b _. apply same_int. Qed.
  Lemma same_annotation a v : read_annotation h a = Some v -> read_annotation h' a = Some v.
  Proof.
    unfold read_annotation. destruct (nth_error h a) as [[l n]|] eqn:E; [|discriminate]. pose proof (S _ _ E) as X. destruct n; try discriminate; cbn in X; rewrite X.
    destruct (omap (read_value h) operands) eqn:O; [|discriminate]. now rewrite (same_values _ _ O).
  Qed.
  Lemma same_annotations l vs : omap (read_annotation h) l = Some vs -> omap (read_annotation h') l = Some vs.
  Proof. apply omap_impl. intros a b _. apply same_annotation. Qed.
  Lemma same_gate : forall n m a g, (n <= m)%nat -> read_gate n h a = Some g -> read_gate m h' a = Some g.
  Proof.
    induction n as [|n IH]; intros [|m] a g Le; cbn [read_gate]; try discriminate; [lia|]. destruct (nth_error h a) as [[l nd]|] eqn:E; [|discriminate]. pose proof (S _ _ E) as X.
    destruct nd; try discriminate; cbn in X; rewrite X. destruct (omap (read_value h) params) eqn:O; [|discriminate]. rewrite (same_values _ _ O).
    destruct (omap (read_annotation h) annots) eqn:O'; [|discriminate]. rewrite (same_annotations _ _ O'). destruct gate as [b|]; [|auto].
    destruct (read_gate n h b) eqn:G; [|discriminate]. rewrite (IH m b l2); [auto|lia|exact G].
  Qed.
  Lemma same_any_gate a g : read_any_gate h a = Some g -> read_any_gate h' a = Some g.
  Proof. apply same_gate. exact L. Qed.
  Lemma same_statement a s : read_statement h a = Some s -> read_statement h' a = Some s.
  Proof.
    unfold read_statement. destruct (nth_error h a) as [[l n]|] eqn:E; [|discriminate]. pose proof (S _ _ E) as X. destruct n; try discriminate; cbn in X; rewrite X.
    - destruct (read_any_gate h gate) eqn:G; [|discriminate]. rewrite (same_any_gate _ _ G). destruct (omap (read_value h) operands) eqn:O; [|discriminate]. rewrite (same_values _ _ O).
      destruct (omap (read_annotation h) annots) eqn:O'; [|discriminate]. now rewrite (same_annotations _ _ O').
    - destruct (omap (read_value h) operands) eqn:O; [|discriminate]. rewrite (same_values _ _ O). destruct (omap (read_value h) params) eqn:P; [|discriminate]. rewrite (same_values _ _ P).
      destruct (omap (read_annotation h) annots) eqn:O'; [|discriminate]. now rewrite (same_annotations _ _ O').
    - destruct (omap (read_annotation h) annots) eqn:O'; [|discriminate]. now rewrite (same_annotations _ _ O').
  Qed.
  Lemma same_statements l vs : omap (read_statement h) l = Some vs -> omap (read_statement h') l = Some vs.
  Proof. apply omap_impl. intros a b _. apply same_statement. Qed.
  Lemma same_variable a s : read_variable h a = Some s -> read_variable h' a = Some s.
  Proof.
    unfold read_variable. destruct (nth_error h a) as [[l n]|] eqn:E; [|discriminate]. pose proof (S _ _ E) as X. destruct n; try discriminate; cbn in X; rewrite X.
    destruct (nth_error h typ) as [[lt nt]|] eqn:T; [|discriminate]. pose proof (S _ _ T) as Y. destruct nt; try discriminate; cbn in Y; rewrite Y.
    destruct (omap (read_annotation h) annots) eqn:O'; [|discriminate]. now rewrite (same_annotations _ _ O').
  Qed.
  Lemma same_variables l vs : omap (read_variable h) l = Some vs -> omap (read_variable h') l = Some vs.
  Proof. apply omap_impl. intros a b _. apply same_variable. Qed.
End Stays.
Lemma keeps_stays h h' : keeps h h' -> forall i c, nth_error h i = Some c -> match c_node c with NBlock _ => True | _ => nth_error h' i = Some c end.
Proof. intros K i c E. pose proof (K _ _ E). now destruct (c_node c). Qed.

(** ** Trees *)
Scheme tree_at_ind2 := Minimality for tree_at Sort Prop with trees_at_ind2 := Minimality for trees_at Sort Prop.
Combined Scheme tree_trees_ind from tree_at_ind2, trees_at_ind2.

Lemma trees_move h h' : (forall a ns, tree_at h a ns -> (forall b c, In b ns -> nth_error h b = Some c -> exists c', nth_error h' b = Some c' /\ children (c_node c') = children (c_node c)) -> tree_at h' a ns) /\
  (forall l ns, trees_at h l ns -> (forall b c, In b ns -> nth_error h b = Some c -> exists c', nth_error h' b = Some c' /\ children (c_node c') = children (c_node c)) -> trees_at h' l ns).
Proof.
  apply tree_trees_ind.
  - intros a c ns E _ IH H. destruct (H a c (or_introl eq_refl) E) as (c' & E' & C). apply (tree_node h' a c'); [exact E'|]. rewrite C. apply IH. intros b x I. apply H. now right.
  - intros _. constructor.
  - intros a l ns ms _ IH1 _ IH2 H. constructor; [apply IH1|apply IH2]; intros b c I; apply H; apply in_or_app; auto.
Qed.
Lemma trees_keeps h h' l ns : keeps h h' -> trees_at h l ns -> trees_at h' l ns.
Proof. intros K T. apply (proj2 (trees_move h h') _ _ T). intros b c _ E. exists c. split; [apply K, E|reflexivity]. Qed.
Lemma tree_keeps h h' a ns : keeps h h' -> tree_at h a ns -> tree_at h' a ns.
Proof. intros K T. apply (proj1 (trees_move h h') _ _ T). intros b c _ E. exists c. split; [apply K, E|reflexivity]. Qed.
Lemma trees_lt h : (forall a ns, tree_at h a ns -> Forall (fun b => (b < List.length h)%nat) ns) /\ (forall l ns, trees_at h l ns -> Forall (fun b => (b < List.length h)%nat) ns).
Proof.
  apply tree_trees_ind.
  - intros a c ns E _ IH. constructor; [exact (nth_lt _ _ _ E)|exact IH].
  - constructor.
  - intros. apply Forall_app. auto.
Qed.
Lemma trees_unique h : (forall a ns, tree_at h a ns -> forall ms, tree_at h a ms -> ns = ms) /\ (forall l ns, trees_at h l ns -> forall ms, trees_at h l ms -> ns = ms).
Proof.
  apply tree_trees_ind.
  - intros a c ns E _ IH ms T. inversion T; subst. match goal with H : nth_error h a = Some c0 |- _ => rewrite E in H; injection H as <- end. f_equal. auto.
  - intros ms T. now inversion T.
  - intros a l ns ms _ IH1 _ IH2 ks T. inversion T; subst. f_equal; auto.
Qed.
Lemma trees_app h l m ns ms : trees_at h l ns -> trees_at h m ms -> trees_at h (l ++ m) (ns ++ ms).
Proof. intros T1 T2. induction T1 using trees_at_ind2 with (P := fun _ _ => True); cbn; auto. rewrite <- app_assoc. constructor; auto. Qed.
Lemma trees_app_inv h l m ks : trees_at h (l ++ m) ks -> exists ns ms, ks = (ns ++ ms)%list /\ trees_at h l ns /\ trees_at h m ms.
Proof.
  revert ks. induction l as [|a l IH]; intros ks; cbn; [intros T; exists [], ks; repeat split; [constructor|exact T]|]. intros T. inversion T as [|? ? ns ks' T1 T2]; subst.
  destruct (IH _ T2) as (ns' & ms & -> & X & Y). exists (ns ++ ns')%list, ms. split; [apply app_assoc|]. split; [now constructor|exact Y].
Qed.
Lemma tree_single h a ns : trees_at h [a] ns <-> tree_at h a ns.
Proof. split; [intros T; inversion T as [|? ? x y T1 T2]; subst; inversion T2; subst; now rewrite app_nil_r|]. intros T. rewrite <- (app_nil_r ns). constructor; [exact T|constructor]. Qed.

(** Trees whose nodes are all different and made after the first [n] nodes *)
Definition owned (n : nat) (h : heap) (l : list addr) : Prop := exists ns, trees_at h l ns /\ NoDup ns /\ Forall (fun b => (n <= b)%nat) ns.
Lemma owned_nil n h : owned n h [].
Proof. exists []. repeat constructor. Qed.
Lemma owned_keeps n h h' l : keeps h h' -> owned n h l -> owned n h' l.
Proof. intros K (ns & T & D & F). exists ns. split; [exact (trees_keeps _ _ _ _ K T)|auto]. Qed.
Lemma owned_le n m h l : (m <= n)%nat -> owned n h l -> owned m h l.
Proof. intros L (ns & T & D & F). exists ns. split; [exact T|]. split; [exact D|]. eapply Forall_impl; [|exact F]. cbn. intros. lia. Qed.
Lemma nodup_app {A} (l m : list A) : NoDup l -> NoDup m -> (forall x, In x l -> In x m -> False) -> NoDup (l ++ m).
Proof. induction 1 as [|x l N _ IH]; intros M D; cbn; [exact M|]. constructor; [rewrite in_app_iff; intros [I|I]; [auto|exact (D x (or_introl eq_refl) I)]|]. apply IH; [exact M|]. intros y I. apply D. now right. Qed.
Lemma nodup_app_inv {A} (l m : list A) : NoDup (l ++ m) -> NoDup l /\ NoDup m /\ (forall x, In x l -> In x m -> False).
Proof.
  induction l as [|x l IH]; cbn; [intros D; split; [constructor|split; [exact D|contradiction]]|]. intros D. inversion D as [|? ? N D']; subst. destruct (IH D') as (A1 & A2 & A3).
  rewrite in_app_iff in N. split; [constructor; tauto|]. split; [exact A2|]. intros y [<-|I] J; [tauto|exact (A3 y I J)].
Qed.
Lemma owned_seq n h1 h2 l m : (n <= List.length h1)%nat -> owned n h1 l -> keeps h1 h2 -> owned (List.length h1) h2 m -> owned n h2 (l ++ m).
Proof.
  intros L (ns & T & D & F) K (ms & T' & D' & F'). exists (ns ++ ms)%list. split; [apply trees_app; [exact (trees_keeps _ _ _ _ K T)|exact T']|].
  split; [|apply Forall_app; split; [exact F|]; eapply Forall_impl; [|exact F']; cbn; intros; lia].
  apply nodup_app; auto. intros x I J. pose proof (proj1 (Forall_forall _ _) (proj2 (trees_lt h1) _ _ T) _ I). pose proof (proj1 (Forall_forall _ _) F' _ J). cbn in *. lia.
Qed.
Lemma owned_new n h l nd : (n <= List.length h)%nat -> owned n h (children nd) -> owned n (h ++ [mkCell l nd]) [List.length h].
Proof.
  intros L (ns & T & D & F). exists (List.length h :: ns). split; [apply tree_single; apply (tree_node _ _ (mkCell l nd)); [apply nth_snoc|]; exact (trees_keeps _ _ _ _ (keeps_snoc _ _) T)|].
  split; [constructor; [|exact D]|constructor; [exact L|exact F]]. intros I. pose proof (proj1 (Forall_forall _ _) (proj2 (trees_lt h) _ _ T) _ I). cbn in *. lia.
Qed.
Lemma owned_ge n h a : owned n h [a] -> (n <= a)%nat.
Proof. intros (ns & T & _ & F). apply tree_single in T. inversion T; subst. now inversion F. Qed.
Lemma owned_relocate n h a l c m : nth_error h a = Some c -> owned n h m -> owned n (put a (mkCell l (c_node c)) h) m.
Proof.
  intros E (ns & T & D & F). exists ns. split; [|auto]. apply (proj2 (trees_move h _) _ _ T). intros b x _ X. destruct (Nat.eq_dec a b) as [<-|N].
  - exists (mkCell l (c_node c)). split; [apply nth_put_same; exact (nth_lt _ _ _ E)|]. rewrite E in X. now injection X as <-.
  - exists x. split; [now rewrite nth_put_other|reflexivity].
Qed.

(** ** Computations in memory and without it *)
Definition agrees {A B} (h : heap) (m : heap * logged A) (p : logged B) (R : heap -> A -> B -> Prop) : Prop :=
  keeps h (fst m) /\ snd (snd m) = snd p /\
  match fst (snd m), fst p with
  | Ok a, Ok b => R (fst m) a b
  | Err e, Err e' => e = e'
  | Throw w, Throw w' => w = w'
  | UB k, UB k' => k = k'
  | _, _ => False
  end.
Lemma agrees_base {A B} h0 h (m : heap * logged A) (p : logged B) R : keeps h0 h -> agrees h m p R -> agrees h0 m p R.
Proof. intros K (G & E & M). split; [exact (keeps_trans _ _ _ K G)|]. split; assumption. Qed.
Lemma agrees_mono {A B} h (m : heap * logged A) (p : logged B) (R R' : heap -> A -> B -> Prop) : (forall h' a b, keeps h h' -> R h' a b -> R' h' a b) -> agrees h m p R -> agrees h m p R'.
Proof. intros H (G & E & M). split; [exact G|]. split; [exact E|]. destruct (fst (snd m)), (fst p); auto. Qed.
Lemma agrees_bind {A B C D} h0 h (m : hm A) (k : A -> hm C) (p : logged B) (k' : B -> logged D) R R' :
  agrees h0 (m h) p R -> (forall h1 a b, keeps h0 h1 -> R h1 a b -> agrees h0 (k a h1) (k' b) R') -> agrees h0 (hbind m k h) (lbind p k') R'.
Proof.
  intros (G & E & M) H. unfold hbind. destruct (m h) as [h1 [[a|e|w|u] es]], p as [[b|e'|w'|u'] es']; cbn in *; try contradiction; subst.
  - pose proof (H h1 a b G M) as (G' & E' & M'). destruct (k a h1) as [h2 [r es2]], (k' b) as [r' es2']; cbn in *. subst es2'. split; [exact G'|]. split; [reflexivity|exact M'].
  - split; [exact G|]. split; reflexivity.
  - split; [exact G|]. split; reflexivity.
  - split; [exact G|]. split; reflexivity.
Qed.
Lemma agrees_then {A B C D} h0 h (m : hm A) (k : A -> hm C) (p : logged B) (k' : B -> logged D) R R' :
  agrees h0 (m h) p R -> (forall h1 a b, keeps h0 h1 -> R h1 a b -> agrees h1 (k a h1) (k' b) R') -> agrees h0 (hbind m k h) (lbind p k') R'.
Proof. intros M H. eapply agrees_bind; [exact M|]. intros h1 a b K X. eapply agrees_base; [exact K|]. exact (H h1 a b K X). Qed.
Lemma agrees_lift {A} h0 h (p : logged A) : keeps h0 h -> agrees h0 (hlift p h) p (fun h' a b => h' = h /\ a = b /\ fst p = Ok b).
Proof. intros K. split; [exact K|]. split; [reflexivity|]. cbn. destruct (fst p); auto. Qed.
Lemma agrees_ret {A B} h0 h (a : A) (b : B) (R : heap -> A -> B -> Prop) : keeps h0 h -> R h a b -> agrees h0 (hret a h) (lift (Ok b)) R.
Proof. intros K X. split; [exact K|]. split; [reflexivity|exact X]. Qed.
Lemma agrees_err {A B} h0 h e (R : heap -> A -> B -> Prop) : keeps h0 h -> agrees h0 (hlift (lift (Err e)) h) (lift (Err e)) R.
Proof. intros K. split; [exact K|]. split; reflexivity. Qed.
Lemma agrees_throw {A B} h0 h e (R : heap -> A -> B -> Prop) : keeps h0 h -> agrees h0 (hlift (lift (Throw e)) h) (lift (Throw e)) R.
Proof. intros K. split; [exact K|]. split; reflexivity. Qed.
Lemma agrees_ub {A B} h0 h e (R : heap -> A -> B -> Prop) : keeps h0 h -> agrees h0 (hlift (lift (UB e)) h) (lift (UB e)) R.
Proof. intros K. split; [exact K|]. split; reflexivity. Qed.
(** a step that only reads *)
Lemma peek_bind {A C} (f : heap -> option A) (k : A -> hm C) h x : f h = Some x -> hbind (peek f) k h = k x h.
Proof. intros E. unfold hbind, peek. rewrite E. cbn. destruct (k x h) as [h' [r es]]. reflexivity. Qed.
Lemma alloc_bind {C} c (k : addr -> hm C) h : hbind (alloc c) k h = k (List.length h) (h ++ [c])%list.
Proof. unfold hbind, alloc. cbn. destruct (k _ _) as [h' [r es]]. reflexivity. Qed.
Lemma ret_bind {A C} (a : A) (k : A -> hm C) h : hbind (hret a) k h = k a h.
Proof. unfold hbind, hret, hlift. cbn. destruct (k _ _) as [h' [r es]]. reflexivity. Qed.
Lemma write_bind {C} a c (k : unit -> hm C) h : hbind (write a c) k h = k tt (put a c h).
Proof. unfold hbind, write. cbn. destruct (k _ _) as [h' [r es]]. reflexivity. Qed.
Lemma bind_assoc {A B C} (m : hm A) (f : A -> hm B) (g : B -> hm C) h : hbind (hbind m f) g h = hbind m (fun x => hbind (f x) g) h.
Proof. unfold hbind. destruct (m h) as [h1 [[a|e|w|u] es]]; cbn; try reflexivity. destruct (f a h1) as [h2 [[b|e|w|u] es2]]; cbn; try reflexivity. destruct (g b h2) as [h3 [r es3]]. now rewrite app_assoc. Qed.
Lemma lift_bind {A B} (m : outcome error A) (f : A -> outcome error B) : lift (bind m f) = lbind (lift m) (fun x => lift (f x)).
Proof. destruct m; reflexivity. Qed.
Lemma agrees_context {A B} h0 h l (m : hm A) (p : logged B) R : agrees h0 (m h) p R -> agrees h0 (hcontext l m h) (log_context l p) R.
Proof. intros (G & E & M). unfold hcontext, log_context. destruct (m h) as [h1 [[a|e|w|u] es]], p as [[b|e'|w'|u'] es']; unfold agrees; cbn in *; try contradiction; subst; (split; [exact G|split; [reflexivity|first [exact M|reflexivity]]]). Qed.
Lemma lift_context {A} l (m : outcome error A) : lift (with_context l m) = log_context l (lift m).
Proof. reflexivity. Qed.

Section Map.
  Context {X A B : Type} (f : X -> hm A) (g : X -> outcome error B) (P : heap -> Prop).
  Variable R : nat -> heap -> A -> B -> Prop.
  Variable Rs : nat -> heap -> list A -> list B -> Prop.
  Variable P_keeps : forall h h', keeps h h' -> P h -> P h'.
  Variable R_nil : forall n h, Rs n h [] [].
  Variable R_cons : forall n h1 h2 a b as_ bs, (n <= List.length h1)%nat -> keeps h1 h2 -> R n h1 a b -> Rs (List.length h1) h2 as_ bs -> Rs n h2 (a :: as_) (b :: bs).
  Lemma hmapM_agrees l : Forall (fun x => forall h, P h -> agrees h (f x h) (lift (g x)) (R (List.length h))) l ->
    forall h, P h -> agrees h (hmapM f l h) (lift (mapM g l)) (Rs (List.length h)).
  Proof.
    induction 1 as [|x l H _ IH]; intros h Ph; cbn [hmapM mapM]; [apply agrees_ret; [apply keeps_refl|apply R_nil]|]. rewrite lift_bind.
    eapply agrees_then; [apply H, Ph|]. intros h1 a b K X1. rewrite lift_bind. eapply agrees_then; [apply IH, (P_keeps _ _ K Ph)|]. intros h2 as_ bs K2 X2.
    apply agrees_ret; [apply keeps_refl|]. apply (R_cons _ h1 h2); [exact (keeps_length _ _ K)|exact K2|exact X1|exact X2].
  Qed.
End Map.

(** ** Values *)
Definition V (n : nat) (h : heap) (a : addr) (v : lvalue) : Prop := read_value h a = Some v /\ owned n h [a].
Definition Vs (n : nat) (h : heap) (l : list addr) (vs : list lvalue) : Prop := omap (read_value h) l = Some vs /\ owned n h l.
Definition Is (n : nat) (h : heap) (l : list addr) (zs : list (loc * Z)) : Prop := omap (read_int h) l = Some zs /\ owned n h l.
Lemma V_le n m h a v : (m <= n)%nat -> V n h a v -> V m h a v.
Proof. intros L [R O]. split; [exact R|exact (owned_le _ _ _ _ L O)]. Qed.
Lemma read_keeps h h' a v : keeps h h' -> read_value h a = Some v -> read_value h' a = Some v.
Proof. intros K. apply same_value, keeps_stays, K. Qed.
Lemma reads_keeps h h' a v : keeps h h' -> omap (read_value h) a = Some v -> omap (read_value h') a = Some v.
Proof. intros K. apply same_values, keeps_stays, K. Qed.
Lemma V_cons n h1 h2 a v l vs : (n <= List.length h1)%nat -> keeps h1 h2 -> V n h1 a v -> Vs (List.length h1) h2 l vs -> Vs n h2 (a :: l) (v :: vs).
Proof.
  intros L K [R O] [R2 O2]. split; [cbn [omap]; now rewrite (read_keeps _ _ _ _ K R), R2|]. exact (owned_seq n h1 h2 [a] l L O K O2).
Qed.
Lemma Vs_nil n h : Vs n h [] [].
Proof. split; [reflexivity|apply owned_nil]. Qed.
Lemma Is_app n h1 h2 l zs m ys : (n <= List.length h1)%nat -> keeps h1 h2 -> Is n h1 l zs -> Is (List.length h1) h2 m ys -> Is n h2 (l ++ m) (zs ++ ys).
Proof.
  intros L K [R O] [R2 O2]. split; [apply omap_app; [|exact R2]; exact (same_ints _ _ (keeps_stays _ _ K) _ _ R)|]. exact (owned_seq n h1 h2 l m L O K O2).
Qed.
Lemma Is_nil n h : Is n h [] [].
Proof. split; [reflexivity|apply owned_nil]. Qed.

Lemma alloc_agrees h l nd (R : heap -> addr -> lvalue -> Prop) v : R (h ++ [mkCell l nd])%list (List.length h) v -> agrees h (alloc (mkCell l nd) h) (lift (Ok v)) R.
Proof. intros X. split; [apply keeps_snoc|]. split; [reflexivity|exact X]. Qed.
Lemma V_scalar h l nd v : children nd = [] -> read_value (h ++ [mkCell l nd]) (List.length h) = Some v -> V (List.length h) (h ++ [mkCell l nd]) (List.length h) v.
Proof. intros C E. split; [exact E|]. apply owned_new; [lia|]. rewrite C. apply owned_nil. Qed.
Ltac scalar := apply alloc_agrees, V_scalar; [reflexivity|unfold read_value; now rewrite nth_snoc].

Lemma V_index n h l x as_ zs : (n <= List.length h)%nat -> Is n h as_ zs -> V n (h ++ [mkCell l (NIndex x as_)]) (List.length h) (mkLValue l (LIndex x zs)).
Proof.
  intros L [R O]. split; [|apply owned_new; [exact L|exact O]]. unfold read_value. rewrite nth_snoc. now rewrite (same_ints _ _ (keeps_stays _ _ (keeps_snoc _ _)) _ _ R).
Qed.
Lemma alloc_value_agrees v h : agrees h (alloc_value v h) (lift (Ok v)) (V (List.length h)).
Proof.
  destruct v as [l [b|z|f|x|x is]]; unfold alloc_value; cbn [lv_node lv_loc]; try scalar.
  change (lift (Ok (mkLValue l (LIndex x is)))) with (lift (let! js := Ok is in Ok (mkLValue l (LIndex x js)) : outcome error lvalue)). rewrite lift_bind.
  assert (E : Ok is = mapM (fun i : loc * Z => Ok i : outcome error (loc * Z)) is) by (clear; induction is as [|i is IH]; [reflexivity|]; cbn; now rewrite <- IH).
  rewrite E. clear E. eapply agrees_then.
  - apply (hmapM_agrees (fun i => alloc (mkCell (fst i) (NInt (snd i)))) (fun i => Ok i) (fun _ => True) (fun n h a z => Is n h [a] [z]) Is).
    + auto.
    + apply Is_nil.
    + intros n h1 h2 a b as_ bs L K X Y. exact (Is_app n h1 h2 [a] [b] as_ bs L K X Y).
    + apply Forall_forall. intros [li z] _ h1 _. split; [apply keeps_snoc|]. split; [reflexivity|]. split; [cbn; unfold read_int; now rewrite nth_snoc|]. apply owned_new; [lia|apply owned_nil].
    + exact Logic.I.
  - intros h1 as_ zs K X. split; [apply keeps_snoc|]. split; [reflexivity|]. apply V_index; [exact (keeps_length _ _ K)|exact X].
Qed.
Lemma clone_agrees a h v : read_value h a = Some v -> agrees h (clone a h) (lift (Ok v)) (V (List.length h)).
Proof. intros E. unfold clone. rewrite (peek_bind _ _ _ v E). apply alloc_value_agrees. Qed.

Section Keep.
  Variable keep : bool.
  Lemma copied_self l : copied keep l l = l.
  Proof. destruct l; [reflexivity|]. cbn. now destruct keep. Qed.
  Lemma copied_none l : copied keep None l = l.
  Proof. destruct l; [reflexivity|]. cbn. now destruct keep. Qed.
  Lemma put_same {A} (h : list A) a c : nth_error h a = Some c -> put a c h = h.
  Proof. revert a. induction h as [|x h IH]; intros [|a]; cbn; try discriminate; [intros [= ->]; reflexivity|]. intros E. now rewrite IH. Qed.

  (** *** Setting the location of a value just made *)
  Lemma hcopy_run {C} l a c (k : unit -> hm C) h : nth_error h a = Some c -> hbind (hcopy keep l a) k h = k tt (put a (mkCell (copied keep (c_loc c) l) (c_node c)) h).
  Proof. intros E. unfold hcopy. rewrite bind_assoc, (peek_bind _ _ _ c) by exact E. apply write_bind. Qed.
  Lemma read_cell h a v : read_value h a = Some v -> exists c, nth_error h a = Some c /\ c_loc c = lv_loc v.
  Proof.
    intros R. unfold read_value in R. destruct (nth_error h a) as [[l nd]|]; [|discriminate]. exists (mkCell l nd). split; [reflexivity|].
    destruct nd; try discriminate; try (injection R as <-; reflexivity). destruct (omap (read_int h) indices); [|discriminate]. now injection R as <-.
  Qed.
  Lemma V_copy n h a v c l : V n h a v -> nth_error h a = Some c -> V n (put a (mkCell (copied keep (c_loc c) l) (c_node c)) h) a (copy_location keep l v).
  Proof.
    intros [R O] E. split; [|exact (owned_relocate _ _ _ _ _ _ E O)]. unfold read_value in *. rewrite nth_put_same by exact (nth_lt _ _ _ E). rewrite E in R. destruct c as [lc nd]. cbn [c_loc c_node].
    destruct nd; try discriminate; try (injection R as <-; reflexivity).
    destruct (omap (read_int h) indices) as [zs|] eqn:Z; [|discriminate]. injection R as <-.
    rewrite (omap_impl (read_int h) (read_int (put a (mkCell (copied keep lc l) (NIndex x indices)) h)) indices zs); [reflexivity| |exact Z].
    intros b z _ Rb. assert (b <> a) by (intros ->; unfold read_int in Rb; rewrite E in Rb; discriminate). unfold read_int. rewrite nth_put_other by congruence. exact Rb.
  Qed.
  Lemma hfinish_agrees l (m : hm addr) p h : agrees h (m h) (lift p) (V (List.length h)) -> agrees h (hfinish keep l m h) (lift (finish keep l p)) (V (List.length h)).
  Proof.
    intros H. unfold hfinish, finish. rewrite lift_context. apply agrees_context. rewrite lift_bind. eapply agrees_bind; [exact H|]. intros h1 a v K X.
    destruct (read_cell _ _ _ (proj1 X)) as (c & E & _). rewrite (hcopy_run l a c) by exact E. apply agrees_ret; [|exact (V_copy _ _ _ _ _ _ X E)].
    apply keeps_put; [exact K|]. exact (owned_ge _ _ _ (proj2 X)).
  Qed.
  Lemma index_node_agrees l z h : agrees h (index_node keep l z h) (lift (Ok (copied keep None l, z))) (fun h' a b => Is (List.length h) h' [a] [b]).
  Proof.
    unfold index_node. rewrite alloc_bind. rewrite (hcopy_run l _ (mkCell None (NInt z))) by apply nth_snoc. cbn [c_loc c_node]. apply agrees_ret.
    - apply keeps_put; [apply keeps_snoc|lia].
    - split.
      + cbn. unfold read_int. rewrite nth_put_same; [reflexivity|]. rewrite app_length. cbn. lia.
      + apply (owned_relocate _ _ _ _ (mkCell None (NInt z))); [apply nth_snoc|]. apply owned_new; [lia|apply owned_nil].
  Qed.

  (** *** Promotion *)
  (** A promoted value: the node itself, or a new node *)
  Definition promoted (h : heap) (a : addr) (h' : heap) (a' : addr) (v' : lvalue) : Prop := read_value h' a' = Some v' /\ (a' = a \/ V (List.length h) h' a' v').
  Definition promotes (h : heap) (a : addr) (h' : heap) (x : option addr) (y : option lvalue) : Prop :=
    match x, y with Some a', Some v' => promoted h a h' a' v' | None, None => True | _, _ => False end.
  Lemma made_agrees h a v w nd : read_value h a = Some v -> children nd = [] ->
    (forall h', nth_error h' (List.length h) = Some (mkCell (lv_loc v) nd) -> read_value h' (List.length h) = Some (copy_location keep (lv_loc v) w)) ->
    agrees h (hbind (peek (fun h => nth_error h a)) (fun c => hbind (hcopy keep (c_loc c) (List.length h)) (fun _ => hret (Some (List.length h)))) (h ++ [mkCell None nd]))
      (lift (Ok (Some (copy_location keep (lv_loc v) w)))) (promotes h a).
  Proof.
    intros R C W. destruct (read_cell _ _ _ R) as (c & E & Lc). rewrite (peek_bind _ _ _ c) by (apply keeps_snoc, E).
    rewrite (hcopy_run _ _ (mkCell None nd)) by apply nth_snoc. cbn [c_loc c_node]. rewrite Lc, copied_none.
    assert (X : nth_error (put (List.length h) (mkCell (lv_loc v) nd) (h ++ [mkCell None nd])) (List.length h) = Some (mkCell (lv_loc v) nd)).
    { apply nth_put_same. rewrite app_length. cbn. lia. }
    apply agrees_ret; [apply keeps_put; [apply keeps_snoc|lia]|]. split; [exact (W _ X)|]. right. split; [exact (W _ X)|].
    apply (owned_relocate _ _ _ _ (mkCell None nd)); [apply nth_snoc|]. apply owned_new; [lia|]. rewrite C. apply owned_nil.
  Qed.
  Lemma self_agrees h a v : read_value h a = Some v ->
    agrees h (hbind (peek (fun h => nth_error h a)) (fun c => hbind (hcopy keep (c_loc c) a) (fun _ => hret (Some a))) h) (lift (Ok (Some (copy_location keep (lv_loc v) v)))) (promotes h a).
  Proof.
    intros R. destruct (read_cell _ _ _ R) as (c & E & Lc). rewrite (peek_bind _ _ _ c) by exact E. rewrite (hcopy_run _ _ c) by exact E. rewrite copied_self.
    replace (mkCell (c_loc c) (c_node c)) with c by now destruct c. rewrite put_same by exact E. unfold copy_location. rewrite copied_self. destruct v as [l n].
    apply agrees_ret; [apply keeps_refl|]. split; [exact R|now left].
  Qed.
  Lemma hpromote_agrees a t h v : read_value h a = Some v -> agrees h (hpromote keep a t h) (lift (lpromote keep v t)) (promotes h a).
  Proof.
    intros R. unfold hpromote, lpromote. rewrite (peek_bind _ _ _ v) by exact R. rewrite lift_bind. eapply agrees_then; [apply agrees_lift, keeps_refl|]. intros h1 ? tv _ (-> & -> & _).
    destruct (type_check t tv); [apply agrees_ret; [apply keeps_refl|]; split; [exact R|now left]|].
    destruct (kind t); rewrite ?ret_bind; cbn [option_map]; try (apply agrees_ret; [apply keeps_refl|exact Logic.I]);
      destruct v as [l [b|z|f|x|x is]]; cbn [lv_node]; rewrite ?ret_bind; cbn [option_map]; try (apply agrees_ret; [apply keeps_refl|exact Logic.I]).
    - rewrite bind_assoc, alloc_bind, !ret_bind. refine (made_agrees _ _ _ (mkLValue None (LInt (if b then 1 else 0)%Z)) (NInt (if b then 1 else 0)%Z) R eq_refl _). intros h' E. unfold read_value. rewrite E. unfold copy_location. cbn. now rewrite copied_none.
    - destruct (type_check tv (make_type TBool)); rewrite ?ret_bind; [exact (self_agrees _ _ _ R)|apply agrees_ret; [apply keeps_refl|exact Logic.I]].
    - rewrite bind_assoc, alloc_bind, !ret_bind. refine (made_agrees _ _ _ (mkLValue None (LFloat (float_of_bool b))) (NFloat (float_of_bool b)) R eq_refl _). intros h' E. unfold read_value. rewrite E. unfold copy_location. cbn. now rewrite copied_none.
    - rewrite bind_assoc, alloc_bind, !ret_bind. refine (made_agrees _ _ _ (mkLValue None (LFloat (float_of_Z z))) (NFloat (float_of_Z z)) R eq_refl _). intros h' E. unfold read_value. rewrite E. unfold copy_location. cbn [lv_loc lv_node]. now rewrite copied_none.
  Qed.

  (** Promoted lists: all nodes of the arguments, or new *)
  Definition promoted_list (h : heap) (l : list addr) (h' : heap) (l' : list addr) (vs : list lvalue) : Prop :=
    omap (read_value h') l' = Some vs /\
    forall ns, trees_at h l ns -> NoDup ns -> exists ms, trees_at h' l' ms /\ NoDup ms /\ Forall (fun b => In b ns \/ (List.length h <= b)%nat) ms.
  Lemma promoted_nil h l h' : promoted_list h l h' [] [].
  Proof. split; [reflexivity|]. intros ns _ _. exists []. split; [constructor|]. split; constructor. Qed.
  Lemma promoted_cons h a v l h1 a' v' h2 l' vs : read_value h a = Some v -> keeps h h1 -> promoted h a h1 a' v' -> keeps h1 h2 -> promoted_list h1 l h2 l' vs -> promoted_list h (a :: l) h2 (a' :: l') (v' :: vs).
  Proof.
    intros R K (R1 & X) K2 (R2 & Y). split; [cbn [omap]; now rewrite (read_keeps _ _ _ _ K2 R1), R2|]. intros ns T D. inversion T as [|? ? na nl Ta Tl]; subst.
    destruct (nodup_app_inv _ _ D) as (Da & Dl & Dis). destruct (Y nl (trees_keeps _ _ _ _ K Tl) Dl) as (ml & Tm & Dm & Fm).
    pose proof (proj1 (Forall_forall _ _) (proj1 (trees_lt h) _ _ Ta)) as La. pose proof (proj1 (Forall_forall _ _) (proj2 (trees_lt h) _ _ Tl)) as Ll. cbn in La, Ll.
    pose proof (keeps_length _ _ K) as K1. rewrite Forall_forall in Fm.
    destruct X as [->|(_ & (mx & Tx & Dx & Fx))].
    - exists (na ++ ml). split; [constructor; [exact (tree_keeps _ _ _ _ (keeps_trans _ _ _ K K2) Ta)|exact Tm]|]. split.
      + apply nodup_app; auto. intros x Ix Jx. destruct (Fm x Jx) as [I|L]; [exact (Dis _ Ix I)|]. pose proof (La _ Ix). lia.
      + apply Forall_app. split; apply Forall_forall; intros x Ix; [left; apply in_or_app; auto|]. destruct (Fm x Ix) as [I|L]; [left; apply in_or_app; auto|right; lia].
    - apply tree_single in Tx. pose proof (proj1 (Forall_forall _ _) (proj1 (trees_lt h1) _ _ Tx)) as Lx. cbn in Lx. rewrite Forall_forall in Fx.
      exists (mx ++ ml). split; [constructor; [exact (tree_keeps _ _ _ _ K2 Tx)|exact Tm]|]. split.
      + apply nodup_app; auto. intros x Ix Jx. destruct (Fm x Jx) as [I|L]; [pose proof (Ll _ I); pose proof (Fx _ Ix); lia|]. pose proof (Lx _ Ix). lia.
      + apply Forall_app. split; apply Forall_forall; intros x Ix; [right; exact (Fx _ Ix)|]. destruct (Fm x Ix) as [I|L]; [left; apply in_or_app; auto|right; lia].
  Qed.
  (** one argument is dropped *)
  Lemma promoted_skip h a l h1 h2 l' vs : keeps h h1 -> promoted_list h1 l h2 l' vs -> promoted_list h (a :: l) h2 l' vs.
  Proof.
    intros K (R2 & Y). split; [exact R2|]. intros ns T D. inversion T as [|? ? na nl Ta Tl]; subst. destruct (nodup_app_inv _ _ D) as (Da & Dl & Dis).
    destruct (Y nl (trees_keeps _ _ _ _ K Tl) Dl) as (ml & Tm & Dm & Fm). exists ml. split; [exact Tm|]. split; [exact Dm|]. eapply Forall_impl; [|exact Fm]. cbn. intros x [I|L]; [left; apply in_or_app; auto|right].
    pose proof (keeps_length _ _ K). lia.
  Qed.
  Lemma promoted_Vs n h l h' l' vs : (n <= List.length h)%nat -> owned n h l -> promoted_list h l h' l' vs -> Vs n h' l' vs.
  Proof.
    intros L (ns & T & D & F) (R & Y). split; [exact R|]. destruct (Y ns T D) as (ms & Tm & Dm & Fm). exists ms. split; [exact Tm|]. split; [exact Dm|]. rewrite Forall_forall in *. intros x Ix.
    destruct (Fm x Ix) as [I|Le]; [exact (F x I)|lia].
  Qed.
  Lemma promoted_later h h1 l h2 l' vs : keeps h h1 -> promoted_list h1 l h2 l' vs -> promoted_list h l h2 l' vs.
  Proof.
    intros K (R & Y). split; [exact R|]. intros ns T D. destruct (Y ns (trees_keeps _ _ _ _ K T) D) as (ms & Tm & Dm & Fm). exists ms. split; [exact Tm|]. split; [exact Dm|].
    eapply Forall_impl; [|exact Fm]. cbn. intros x [I|L]; [now left|right]. pose proof (keeps_length _ _ K). lia.
  Qed.
  Definition promotes_list (h : heap) (l : list addr) (h' : heap) (x : option (list addr)) (y : option (list lvalue)) : Prop :=
    match x, y with Some l', Some vs => promoted_list h l h' l' vs | None, None => True | _, _ => False end.
  Lemma hpromote_args_agrees : forall l ps h vs, omap (read_value h) l = Some vs -> agrees h (hpromote_args keep l ps h) (lift (lpromote_args keep vs ps)) (promotes_list h l).
  Proof.
    induction l as [|a l IH]; intros ps h vs R; cbn [omap] in R.
    - injection R as <-. cbn [hpromote_args lpromote_args]. apply agrees_ret; [apply keeps_refl|apply promoted_nil].
    - destruct (read_value h a) as [v|] eqn:Ra; [|discriminate]. destruct (omap (read_value h) l) as [vs'|] eqn:Rl; [|discriminate]. injection R as <-.
      destruct ps as [|p ps]; cbn [hpromote_args lpromote_args]; [apply agrees_throw, keeps_refl|]. rewrite lift_bind. eapply agrees_then; [apply hpromote_agrees, Ra|].
      intros h1 [a'|] [v'|] K X; try contradiction; [|apply agrees_ret; [apply keeps_refl|exact Logic.I]]. rewrite lift_bind. eapply agrees_then; [apply IH, (reads_keeps _ _ _ _ K Rl)|].
      intros h2 [l'|] [ws|] K2 Y; try contradiction; (apply agrees_ret; [apply keeps_refl|]); [|exact Logic.I]. exact (promoted_cons _ _ _ _ _ _ _ _ _ _ Ra K X K2 Y).
  Qed.
  Definition picks {T} (h : heap) (l : list addr) (h' : heap) (x : T * list addr) (y : T * list lvalue) : Prop := fst x = fst y /\ promoted_list h l h' (snd x) (snd y).
  Definition picks_opt {T} (h : heap) (l : list addr) (h' : heap) (x : option (T * list addr)) (y : option (T * list lvalue)) : Prop :=
    match x, y with Some x, Some y => picks h l h' x y | None, None => True | _, _ => False end.
  Lemma hresolve_loop_agrees {T} (os : list (overload T)) l : forall h vs, omap (read_value h) l = Some vs -> agrees h (hresolve_loop keep os l h) (lift (lresolve_loop keep os vs)) (picks_opt h l).
  Proof.
    induction os as [|o os IH]; intros h vs R; cbn [hresolve_loop lresolve_loop]; [apply agrees_ret; [apply keeps_refl|exact Logic.I]|]. rewrite <- (omap_length _ _ _ R).
    destruct (negb _); [apply IH, R|]. rewrite lift_bind. eapply agrees_then; [apply hpromote_args_agrees, R|]. intros h1 [l'|] [ws|] K X; try contradiction.
    - apply agrees_ret; [apply keeps_refl|]. split; [reflexivity|exact X].
    - eapply agrees_mono; [|apply IH, (reads_keeps _ _ _ _ K R)]. intros h2 [x|] [y|] K2 Y; try contradiction; [|exact Logic.I]. destruct Y as [E Y]. split; [exact E|]. exact (promoted_later _ _ _ _ _ _ K Y).
  Qed.
  Lemma hpack_run {C} l vs h (k : string -> hm C) : omap (read_value h) l = Some vs -> hbind (hpack l) k h = hbind (hlift (lift (types_of (map erase vs)))) (fun ts => k (types_to_string ts)) h.
  Proof.
    intros R. unfold hpack. rewrite bind_assoc, (peek_bind _ _ _ vs) by exact R. rewrite bind_assoc. unfold hbind, hlift, lift. destruct (types_of (map erase vs)); try reflexivity. cbn. destruct (k _ _) as [h' [r es]]. reflexivity.
  Qed.
  Lemma hresolve_agrees {T} (t : table T) n l h vs : omap (read_value h) l = Some vs -> agrees h (hresolve keep t n l h) (lift (lresolve keep t n vs)) (picks h l).
  Proof.
    intros R. unfold hresolve, lresolve. destruct (table_find n t) as [r|]; [|apply agrees_err, keeps_refl]. rewrite lift_bind. eapply agrees_then; [apply hresolve_loop_agrees, R|].
    intros h1 [x|] [y|] K X; try contradiction; [apply agrees_ret; [apply keeps_refl|exact X]|]. rewrite (hpack_run _ vs) by exact (reads_keeps _ _ _ _ K R). rewrite lift_bind.
    eapply agrees_then; [apply agrees_lift, keeps_refl|]. intros h2 ? ts _ (-> & -> & _). apply agrees_err, keeps_refl.
  Qed.

  (** ** The tables of an analyzer in memory *)
  Definition table_in (h : heap) (m : list (string * addr)) (t : variable_table) : Prop := Forall2 (fun x y => fst x = fst y /\ read_value h (snd x) = Some (bare (snd y))) m t.
  Definition knows_scope (h : heap) (m : hscope) (s : scope) : Prop :=
    hs_functions m = sc_functions s /\ hs_instructions m = sc_instructions s /\ table_in h (hs_table m) (sc_variables_table s).
  Definition knows (h : heap) (m : hanalyzer) (st : analyzer) : Prop := Forall2 (knows_scope h) (h_scopes m) (scopes st).
  Lemma Forall2_imp {A B} (P Q : A -> B -> Prop) l m : (forall a b, P a b -> Q a b) -> Forall2 P l m -> Forall2 Q l m.
  Proof. intros H. induction 1; constructor; auto. Qed.
  Lemma knows_keeps h h' m st : keeps h h' -> knows h m st -> knows h' m st.
  Proof. intros K. apply Forall2_imp. intros a b (F & I & T). split; [exact F|]. split; [exact I|]. revert T. apply Forall2_imp. intros x y (E & R). split; [exact E|]. exact (read_keeps _ _ _ _ K R). Qed.
  Lemma table_find_in h m t n : table_in h m t -> match table_find n m, table_find n t with Some a, Some v => read_value h a = Some (bare v) | None, None => True | _, _ => False end.
  Proof. induction 1 as [|[x a] [y v] m t [E R] _ IH]; cbn in *; [exact Logic.I|]. subst y. destruct (x =? n)%string; [exact R|exact IH]. Qed.

  Lemma hresolve_variable_agrees m st n h : knows h m st -> agrees h (hresolve_variable m n h) (lift (map_outcome bare (resolve_variable st n))) (V (List.length h)).
  Proof.
    unfold hresolve_variable, resolve_variable, knows. induction 1 as [|x s l l' (_ & _ & T) _ IH]; cbn [hresolve_variable_in resolve_variable_in]; [apply agrees_err, keeps_refl|].
    unfold variable_resolve. pose proof (table_find_in _ _ _ n T) as F. destruct (table_find n (hs_table x)), (table_find n (sc_variables_table s)); try contradiction; [|exact IH]. cbn. apply clone_agrees, F.
  Qed.
  Lemma last_in h : forall l l', Forall2 (knows_scope h) l l' -> match hlast_scope l, last_scope l' with Ok m, Ok s => knows_scope h m s | UB k, UB k' => k = k' | _, _ => False end.
  Proof. induction 1 as [|x s l l' H F IH]; cbn [hlast_scope last_scope]; [reflexivity|]. inversion F; subst; [exact H|exact IH]. Qed.
  Lemma hresolve_function_agrees m st n l vs h : knows h m st -> omap (read_value h) l = Some vs -> agrees h (hresolve_function m n l h) (lift (lresolve_function st n vs)) (V (List.length h)).
  Proof.
    intros Kn R. unfold hresolve_function, lresolve_function, resolve_function, global_scope. rewrite (peek_bind _ _ _ vs) by exact R. unfold map_outcome. match goal with |- agrees _ _ (lift (bind ?x ?f)) _ => rewrite (lift_bind x f) end. eapply agrees_then.
    - pose proof (last_in _ _ _ Kn) as Hl. instantiate (1 := fun h' a b => h' = h /\ a = b). destruct (hlast_scope (h_scopes m)) as [g|e|w|k], (last_scope (scopes st)) as [s|e'|w'|k']; try contradiction; cbn [bind].
      + destruct Hl as (-> & _). eapply agrees_mono; [|apply agrees_lift, keeps_refl]. cbn. intros h' a b _ (X & Y & _). auto.
      + subst. apply agrees_ub, keeps_refl.
    - intros h1 a v K (-> & ->). apply alloc_value_agrees.
  Qed.
  Lemma agrees_or {A B} h0 h (m n : hm A) (o o' : outcome error B) R : agrees h0 (m h) (lift o) R -> (forall h1, keeps h0 h1 -> agrees h0 (n h1) (lift o') R) ->
    agrees h0 (hor m n h) (lift (match o with Ok b => Ok b | Err _ => o' | Throw w => Throw w | UB k => UB k end)) R.
  Proof.
    intros (G & E & M) H. unfold hor. destruct (m h) as [h1 [[a|e|w|u] es]], o as [b|e'|w'|u']; cbn in G, E, M; try contradiction; subst; try (split; [exact G|]; split; [reflexivity|]; first [exact M|reflexivity]).
    pose proof (H h1 G) as (G' & E' & M'). destruct (n h1) as [h2 [r es2]]. cbn in G', E', M'. subst. split; [exact G'|]. split; [reflexivity|exact M'].
  Qed.
  Lemma hresolve_instruction_agrees m st n l h vs : knows h m st -> omap (read_value h) l = Some vs -> agrees h (hresolve_instruction keep m n l h) (lift (lresolve_instruction keep st n vs)) (picks h l).
  Proof.
    unfold hresolve_instruction, lresolve_instruction, knows. generalize (scopes st) (h_scopes m). intros sl ml F. revert h F.
    assert (G : forall ml sl h, Forall2 (fun x s => hs_instructions x = sc_instructions s) ml sl -> omap (read_value h) l = Some vs ->
      agrees h (hresolve_instruction_in keep ml n l h) (lift (lresolve_instruction_in keep sl n vs)) (picks h l)).
    { clear. induction ml as [|x ml IH]; intros sl h F R; inversion F as [|? s ? sl' E F']; subst; cbn [hresolve_instruction_in lresolve_instruction_in].
      - rewrite (hpack_run _ vs) by exact R. rewrite lift_bind. eapply agrees_then; [apply agrees_lift, keeps_refl|]. intros h2 ? ts _ (-> & -> & _). apply agrees_err, keeps_refl.
      - rewrite E. apply agrees_or; [apply hresolve_agrees, R|]. intros h1 K. eapply agrees_base; [exact K|]. eapply agrees_mono; [|apply IH; [exact F'|exact (reads_keeps _ _ _ _ K R)]].
        intros h2 a b _ (E2 & Y). split; [exact E2|]. exact (promoted_later _ _ _ _ _ _ K Y). }
    intros h F R. apply G; [|exact R]. revert F. apply Forall2_imp. intros a b (_ & E & _). exact E.
  Qed.

  (** ** Expressions *)
  Lemma hconst_int_agrees l (m : hm addr) p h : agrees h (m h) (lift p) (V (List.length h)) -> agrees h (hconst_int keep l m h) (lift (lconst_int_of keep l p)) (fun h' a b => a = b).
  Proof.
    intros H. unfold hconst_int, lconst_int_of. rewrite lift_bind. eapply agrees_then; [exact H|]. intros h1 a v K [R _]. rewrite lift_bind. eapply agrees_then; [apply hpromote_agrees, R|].
    intros h2 [b|] [w|] K2 X; try contradiction; [|apply agrees_err, keeps_refl]. destruct X as [Rb _]. rewrite (peek_bind _ _ _ w) by exact Rb. destruct (lv_node w); try (apply agrees_err, keeps_refl).
    apply agrees_ret; [apply keeps_refl|reflexivity].
  Qed.
  Lemma map_Is l : forall zs h, agrees h (hmapM (index_node keep l) zs h) (lift (Ok (map (fun z => (copied keep None l, z)) zs))) (Is (List.length h)).
  Proof.
    intros zs h. assert (E : Ok (map (fun z => (copied keep None l, z)) zs) = mapM (fun z => Ok (copied keep None l, z) : outcome error (loc * Z)) zs) by (clear; induction zs as [|z zs IH]; [reflexivity|]; cbn; now rewrite <- IH).
    rewrite E. apply (hmapM_agrees _ _ (fun _ => True) (fun n h a z => Is n h [a] [z]) Is).
    - auto.
    - apply Is_nil.
    - intros n h1 h2 a b as_ bs L K X Y. exact (Is_app n h1 h2 [a] [b] as_ bs L K X Y).
    - apply Forall_forall. intros z _ h1 _. apply index_node_agrees.
    - exact Logic.I.
  Qed.
  Lemma hvisit_index_unfold st l b idx : hvisit keep st (EIndex l b idx) =
    hcontext l
      (let^ a := hfinish keep (expr_loc b) (hvisit keep st b) in
       let^ v := peek (fun h => read_value h a) in
       match lv_node v with
       | LVar x =>
           match kind (var_type x) with
           | TQubitArray | TBitArray =>
               let^ is := hmapM (hvisit_entry keep st) idx in
               let^ zs := peek (fun h => omap (read_int h) (concat is)) in
               let^ _ := hlift (lift (check_out_of_range (map snd zs) (tsize (var_type x)))) in
               alloc (mkCell None (NIndex x (concat is)))
           | _ =>
               let^ t := hlift (lift (type_of (erase v))) in
               hlift (lift (Err (mk_error ("indexation is not supported for value of type '" ++ type_to_string t ++ "'")%string)))
           end
       | _ => hlift (lift (UB NullDereference))
       end).
  Proof. reflexivity. Qed.
  Lemma hvisit_item_unfold st l e : hvisit_entry keep st (IItem l e) = (let^ z := hconst_int keep (expr_loc e) (hvisit keep st e) in let^ a := index_node keep l z in hret [a]).
  Proof. reflexivity. Qed.
  Lemma hvisit_range_unfold st l a b : hvisit_entry keep st (IRange l a b) =
    (let^ z1 := hconst_int keep (expr_loc a) (hvisit keep st a) in let^ z2 := hconst_int keep (expr_loc b) (hvisit keep st b) in
     let^ zs := hlift (lift (expand_range l z1 z2)) in hmapM (index_node keep l) zs).
  Proof. reflexivity. Qed.
  Lemma V_later h h1 h' a v : keeps h h1 -> V (List.length h1) h' a v -> V (List.length h) h' a v.
  Proof. intros K. apply V_le. exact (keeps_length _ _ K). Qed.
  Section Visit.
    Variables (m : hanalyzer) (st : analyzer).
    Lemma hvisit_both : (forall e h, knows h m st -> agrees h (hvisit keep m e h) (lift (lvisit keep st e)) (V (List.length h))).
    Proof.
      intros e. apply (expr_ind_full (fun e => forall h, knows h m st -> agrees h (hvisit keep m e h) (lift (lvisit keep st e)) (V (List.length h)))
        (fun i => forall h, knows h m st -> agrees h (hvisit_entry keep m i h) (lift (lvisit_entry keep st i)) (Is (List.length h)))); clear e.
      - intros l b h _. cbn [hvisit lvisit]. scalar.
      - intros l b h _. cbn [hvisit lvisit]. scalar.
      - intros l b h _. cbn [hvisit lvisit]. scalar.
      - intros l n h K. cbn [hvisit lvisit]. apply hresolve_variable_agrees, K.
      - intros l b idx Hb Hi h K. rewrite hvisit_index_unfold, lvisit_index_unfold, lift_context. apply agrees_context. rewrite lift_bind. eapply agrees_then; [apply hfinish_agrees, Hb, K|].
        intros h1 a v K1 [R O]. rewrite (peek_bind _ _ _ v) by exact R.
        assert (Arr : forall x, agrees h1 ((let^ is := hmapM (hvisit_entry keep m) idx in
               let^ zs := peek (fun h => omap (read_int h) (concat is)) in
               let^ _ := hlift (lift (check_out_of_range (map snd zs) (tsize (var_type x)))) in
               alloc (mkCell None (NIndex x (concat is)))) h1)
             (lift (let! is := mapM (lvisit_entry keep st) idx in let! _ := check_out_of_range (map snd (concat is)) (tsize (var_type x)) in Ok (mkLValue None (LIndex x (concat is))))) (V (List.length h))).
        { intros x. rewrite lift_bind. eapply agrees_then.
          - apply (hmapM_agrees _ _ (fun h => knows h m st) Is (fun n h as_ bs => Is n h (concat as_) (concat bs))).
            + intros h2 h3 K2. apply knows_keeps, K2.
            + intros. apply Is_nil.
            + intros n h2 h3 as_ bs ass bss L K2 X Y. cbn [concat]. exact (Is_app _ _ _ _ _ _ _ L K2 X Y).
            + exact Hi.
            + exact (knows_keeps _ _ _ _ K1 K).
          - intros h2 is js K2 X. rewrite (peek_bind _ _ _ (concat js)) by exact (proj1 X). rewrite lift_bind. eapply agrees_then; [apply agrees_lift, keeps_refl|]. intros h3 ? ? _ (-> & _ & _).
            apply alloc_agrees. apply (V_later h h1); [exact K1|]. apply V_index; [exact (keeps_length _ _ K2)|exact X]. }
        destruct (lv_node v) as [| | |x|]; try (apply agrees_ub, keeps_refl).
        destruct (kind (var_type x)); first [apply Arr|rewrite lift_bind; eapply agrees_then; [apply agrees_lift, keeps_refl|]; intros h3 ? ? _ (-> & -> & _); apply agrees_err, keeps_refl].
      - intros l n h K. cbn [hvisit lvisit]. apply hresolve_function_agrees; [exact K|reflexivity].
      - intros l n args H h K. cbn [hvisit lvisit]. rewrite lift_bind. eapply agrees_then.
        + apply (hmapM_agrees (fun a => hfinish keep (expr_loc a) (hvisit keep m a)) (fun a => finish keep (expr_loc a) (lvisit keep st a)) (fun h => knows h m st) V Vs).
          * intros h2 h3 K2. apply knows_keeps, K2.
          * apply Vs_nil.
          * intros. eapply V_cons; eassumption.
          * eapply Forall_impl; [|exact H]. cbn beta. intros a Ha h1 K1. apply hfinish_agrees, Ha, K1.
          * exact K.
        + intros h1 as_ vs K1 [R _]. eapply agrees_mono; [|apply hresolve_function_agrees; [exact (knows_keeps _ _ _ _ K1 K)|exact R]]. intros h2 x y _. apply V_later, K1.
      - intros l o a Ha h K. cbn [hvisit lvisit]. rewrite lift_bind. eapply agrees_then; [apply hfinish_agrees, Ha, K|]. intros h1 x v K1 [R _].
        eapply agrees_mono; [|apply hresolve_function_agrees; [exact (knows_keeps _ _ _ _ K1 K)|cbn [omap]; now rewrite R]]. intros h2 y z _. apply V_later, K1.
      - intros l o a b Ha Hb h K. cbn [hvisit lvisit]. rewrite lift_bind. eapply agrees_then; [apply hfinish_agrees, Ha, K|]. intros h1 x v K1 [R _].
        rewrite lift_bind. eapply agrees_then; [apply hfinish_agrees, Hb; exact (knows_keeps _ _ _ _ K1 K)|]. intros h2 y w K2 [R2 _]. pose proof (keeps_trans _ _ _ K1 K2) as K12.
        eapply agrees_mono; [|apply hresolve_function_agrees; [exact (knows_keeps _ _ _ _ K12 K)|cbn [omap]; now rewrite (read_keeps _ _ _ _ K2 R), R2]]. intros h3 i j _. apply V_later, K12.
      - intros l c a b Hc Ha Hb h K. cbn [hvisit lvisit]. rewrite lift_bind. eapply agrees_then; [apply hfinish_agrees, Hc, K|]. intros h1 x v K1 [R _].
        rewrite lift_bind. eapply agrees_then; [apply hfinish_agrees, Ha; exact (knows_keeps _ _ _ _ K1 K)|]. intros h2 y w K2 [R2 _]. pose proof (keeps_trans _ _ _ K1 K2) as K12.
        rewrite lift_bind. eapply agrees_then; [apply hfinish_agrees, Hb; exact (knows_keeps _ _ _ _ K12 K)|]. intros h3 z u K3 [R3 _]. pose proof (keeps_trans _ _ _ K12 K3) as K123.
        eapply agrees_mono; [|apply hresolve_function_agrees; [exact (knows_keeps _ _ _ _ K123 K)|cbn [omap]; now rewrite (read_keeps _ _ _ _ (keeps_trans _ _ _ K2 K3) R), (read_keeps _ _ _ _ K3 R2), R3]]. intros h4 i j _. apply V_later, K123.
      - intros l e He h K. rewrite hvisit_item_unfold, lvisit_item_unfold, lift_bind. eapply agrees_then; [apply hconst_int_agrees, He, K|]. intros h1 z ? K1 <-.
        assert (G := index_node_agrees l z h1). unfold agrees in *. destruct (index_node keep l z h1) as [h2 [[a|e1|w|k] es]] eqn:E; cbn in G |- *; try (now destruct G as (_ & _ & [])).
        unfold hbind. rewrite E. cbn. destruct G as (K2 & -> & X). split; [exact K2|]. split; [reflexivity|]. destruct X as [X1 X2]. split; [exact X1|]. eapply owned_le; [|exact X2]. exact (keeps_length _ _ K1).
      - intros l a b Ha Hb h K. rewrite hvisit_range_unfold, lvisit_range_unfold, lift_bind. eapply agrees_then; [apply hconst_int_agrees, Ha, K|]. intros h1 z ? K1 <-.
        rewrite lift_bind. eapply agrees_then; [apply hconst_int_agrees, Hb; exact (knows_keeps _ _ _ _ K1 K)|]. intros h2 z2 ? K2 <-. rewrite lift_bind. eapply agrees_then; [apply agrees_lift, keeps_refl|].
        intros h3 ? zs _ (-> & -> & _). eapply agrees_mono; [|apply map_Is]. intros h4 is js _ [X1 X2]. split; [exact X1|]. eapply owned_le; [|exact X2]. exact (keeps_length _ _ (keeps_trans _ _ _ K1 K2)).
    Qed.
    Lemma hvisit_expression_agrees e h : knows h m st -> agrees h (hvisit_expression keep m e h) (lift (lvisit_expression keep st e)) (V (List.length h)).
    Proof. intros K. apply hfinish_agrees, hvisit_both, K. Qed.
    Lemma hvisit_list_agrees es h : knows h m st -> agrees h (hvisit_expression_list keep m es h) (lift (lvisit_expression_list keep st es)) (Vs (List.length h)).
    Proof.
      intros K. apply (hmapM_agrees _ _ (fun h => knows h m st) V Vs).
      - intros h2 h3 K2. apply knows_keeps, K2.
      - apply Vs_nil.
      - intros. eapply V_cons; eassumption.
      - apply Forall_forall. intros x _ h1 K1. apply hvisit_expression_agrees, K1.
      - exact K.
    Qed.
  End Visit.
End Keep.
