(** Lemmas for C84: the literals of parsed programs fit in 64 bits. *)
From Coq Require Import SpecFloat.
From Verif Require Import Base ModelTypes ModelUtils ModelLexer ModelAst ModelAnalyzer ModelSemantic SpecTypes SpecFunctions SpecAnalyzer SpecSyntax SpecPrint SpecMachine ProofsPrint2.
Local Open Scope string_scope.

Lemma integer_fits z : integer z -> fits z.
Proof. unfold integer, fits. change max_int with (2 ^ 63 - 1)%Z. lia. Qed.
Definition machine_entry (i : index_entry) : Prop :=
  match i with IItem _ e => machine_literals e | IRange _ a b => machine_literals a /\ machine_literals b end.
Lemma machine_writable :
  (forall e, writable e -> machine_literals e) /\
  (forall es, all_writable es -> Forall machine_literals es) /\
  (forall is, writable_entries is -> Forall machine_entry is).
Proof.
  apply writable_mutind; try (intros; constructor; fail).
  - intros l b. split; intros ? ? W; inversion W.
  - intros l z I. split; intros ? ? W; inversion W; subst. now apply integer_fits.
  - intros l f [V _] _. split; intros ? ? W; inversion W; subst. exact V.
  - intros l n U. split; intros ? ? W; inversion W.
  - intros l l' n is _ _ _ Me. rewrite Forall_forall in Me.
    split; intros ? ? W; inversion W as [|? ? ? W'|? ? ? ? i Hi W'|? ? ? ? i j Hi W'|? ? ? ? i j Hi W'| | | | | | |]; subst; try (inversion W'; fail);
      specialize (Me _ Hi); cbn [machine_entry] in Me; unfold machine_literals in Me;
      solve [eapply (proj1 Me); exact W'|eapply (proj2 Me); exact W'|eapply (proj1 (proj1 Me)); exact W'|eapply (proj2 (proj1 Me)); exact W'|eapply (proj1 (proj2 Me)); exact W'|eapply (proj2 (proj2 Me)); exact W'].
  - intros l n U. split; intros ? ? W; inversion W.
  - intros l n es _ _ _ Me. rewrite Forall_forall in Me. split; intros ? ? W; inversion W as [| | | | |? ? ? a Ha W'| | | | | |]; subst; [eapply (proj1 (Me a Ha))|eapply (proj2 (Me a Ha))]; exact W'.
  - intros l o a _ Ma. split; intros ? ? W; inversion W as [| | | | | |? ? ? W'| | | | |]; subst; [eapply (proj1 Ma)|eapply (proj2 Ma)]; exact W'.
  - intros l o a b _ Ma _ Mb. split; intros ? ? W; inversion W as [| | | | | | |? ? ? ? W'|? ? ? ? W'| | |]; subst;
      solve [eapply (proj1 Ma); exact W'|eapply (proj2 Ma); exact W'|eapply (proj1 Mb); exact W'|eapply (proj2 Mb); exact W'].
  - intros l a b c _ Ma _ Mb _ Mc. split; intros ? ? W; inversion W as [| | | | | | | | |? ? ? ? W'|? ? ? ? W'|? ? ? ? W']; subst;
      solve [eapply (proj1 Ma); exact W'|eapply (proj2 Ma); exact W'|eapply (proj1 Mb); exact W'|eapply (proj2 Mb); exact W'|eapply (proj1 Mc); exact W'|eapply (proj2 Mc); exact W'].
  - intros e es _ Me _ Ms. now constructor.
  - intros l e is _ Me _ Ms. now constructor.
  - intros l a b is _ Ma _ Mb _ Ms. constructor; [now split|exact Ms].
Qed.
Lemma machine_writable_gate g : writable_gate g -> Forall machine_literals (gate_exprs g).
Proof.
  induction 1 as [l g _ IH|l g _ IH|l g e _ IH W|l n ps U W]; cbn [gate_exprs annotation_exprs flat_map app]; rewrite ?app_nil_r; try exact IH.
  - apply Forall_app. split; [exact IH|]. constructor; [now apply (proj1 machine_writable)|constructor].
  - now apply (proj1 (proj2 machine_writable)).
Qed.
Lemma machine_writable_statement s : writable_statement s -> machine_statement s.
Proof.
  pose proof (proj1 machine_writable) as W1. pose proof (proj1 (proj2 machine_writable)) as W2.
  intros W. destruct W; split; cbn [statement_exprs annotation_exprs flat_map app]; rewrite ?app_nil_r; try exact I; try (repeat constructor; auto; fail); auto.
  - cbn [ty_size]. intros z ->. match goal with H : forall _, Some _ = Some _ -> _ |- _ => apply integer_fits, H; reflexivity | H : match Some _ with _ => _ end |- _ => now apply integer_fits end.
  - apply Forall_app. split; [now apply machine_writable_gate|auto].
Qed.
Lemma machine_writable_program p : writable_program p -> machine_program p.
Proof. intros W. unfold machine_program. destruct W; cbn [prog_statements]; eapply Forall_impl; try eassumption; intros; now apply machine_writable_statement. Qed.
