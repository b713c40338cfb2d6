(** Trees without locations are accepted like those with (C107, C108). *)
From Coq Require Import ZArith Lia.
From Verif Require Import Base ModelUtils ModelVersion ModelError ModelTypes ModelOverload ModelFunctions ModelInstructionSet ModelAst ModelAnalyzer ModelSemantic ModelLexer ModelSyntactic
  SpecPlace SpecUtils SpecTypes SpecFunctions SpecInstructions SpecAnalyzer SpecHull SpecMachine SpecVersion SpecRelocate
  ProofsFunctions ProofsExpr ProofsAnalyzer2 ProofsAnalyzer3 ProofsMeaning2 ProofsRelocate.
Local Open Scope string_scope.

Lemma relocate_index f l b idx : relocate_expr f (EIndex l b idx) = EIndex (f l) (relocate_expr f b) (map (relocate_entry f) idx).
Proof. reflexivity. Qed.
Lemma relocate_call f l n es : relocate_expr f (ECall l n (Some es)) = ECall (f l) n (Some (map (relocate_expr f) es)).
Proof. reflexivity. Qed.
Section Erase.
  Variable f : loc -> loc.
  Lemma indexed_relocated e : indexed_expr (relocate_expr f e) = indexed_expr e.
  Proof.
    induction e as [l b|l z|l x|l n|l b idx Hb Hi|l n|l n es He|l op e He|l op a b Ha Hb|l c a b Hc Ha Hb|l e He|l a b Ha Hb]
      using expr_ind_full with (Q := fun i => indexed_entry (relocate_entry f i) = indexed_entry i); rewrite ?relocate_index, ?relocate_call; cbn [relocate_expr relocate_entry indexed_expr indexed_entry option_map]; rewrite ?map_length; try congruence.
    - rewrite Hb. f_equal. induction Hi as [|i is H _ IH]; [reflexivity|]. cbn [map forallb]. cbn beta in H. now rewrite H, IH.
    - induction He as [|x xs H _ IH]; [reflexivity|]. cbn [map forallb]. now rewrite H, IH.
    - exact He.
    - exact (f_equal2 andb Ha Hb).
  Qed.
  Lemma within_relocated x e : within x (relocate_expr f e) -> exists y, x = relocate_expr f y /\ within y e.
  Proof.
    revert x. induction e as [l b|l z|l g|l n|l b idx Hb Hi|l n|l n es He|l op e He|l op a b Ha Hb|l c a b Hc Ha Hb|l e He|l a b Ha Hb]
      using expr_ind_full with (Q := fun i => match i with
        | IItem _ e => forall x, within x (relocate_expr f e) -> exists y, x = relocate_expr f y /\ within y e
        | IRange _ a b => (forall x, within x (relocate_expr f a) -> exists y, x = relocate_expr f y /\ within y a) /\ forall x, within x (relocate_expr f b) -> exists y, x = relocate_expr f y /\ within y b
        end); try (now auto); intros x W; rewrite ?relocate_index, ?relocate_call in W; cbn [relocate_expr option_map] in W; inversion W; subst; try (eexists; split; [|apply within_refl]; reflexivity).
    - match goal with H : within x _ |- _ => apply Hb in H; destruct H as (y & -> & H) end. exists y. split; [reflexivity|now apply within_base].
    - match goal with H : In _ (map _ idx) |- _ => apply in_map_iff in H; destruct H as ([l0 e0|l0 a0 b0] & E & Hin) end; cbn [relocate_entry] in E; [|discriminate]. injection E as _ <-.
      rewrite Forall_forall in Hi. specialize (Hi _ Hin). cbn beta iota in Hi. match goal with H : within x _ |- _ => apply Hi in H; destruct H as (y & -> & H) end. exists y. split; [reflexivity|eapply within_item; eauto].
    - match goal with H : In _ (map _ idx) |- _ => apply in_map_iff in H; destruct H as ([l0 e0|l0 a0 b0] & E & Hin) end; cbn [relocate_entry] in E; [discriminate|]. injection E as _ <- <-.
      rewrite Forall_forall in Hi. specialize (Hi _ Hin). cbn beta iota in Hi. match goal with H : within x _ |- _ => apply Hi in H; destruct H as (y & -> & H) end. exists y. split; [reflexivity|eapply within_first; eauto].
    - match goal with H : In _ (map _ idx) |- _ => apply in_map_iff in H; destruct H as ([l0 e0|l0 a0 b0] & E & Hin) end; cbn [relocate_entry] in E; [discriminate|]. injection E as _ <- <-.
      rewrite Forall_forall in Hi. specialize (Hi _ Hin). cbn beta iota in Hi. match goal with H : within x _ |- _ => apply Hi in H; destruct H as (y & -> & H) end. exists y. split; [reflexivity|eapply within_last; eauto].
    - match goal with H : In _ (map _ es) |- _ => apply in_map_iff in H; destruct H as (e0 & <- & Hin) end.
      rewrite Forall_forall in He. match goal with H : within x _ |- _ => apply (He _ Hin) in H; destruct H as (y & -> & H) end. exists y. split; [reflexivity|eapply within_arg; eauto].
    - match goal with H : within x _ |- _ => apply He in H; destruct H as (y & -> & H) end. exists y. split; [reflexivity|now constructor].
    - match goal with H : within x _ |- _ => apply Ha in H; destruct H as (y & -> & H) end. exists y. split; [reflexivity|now apply within_left].
    - match goal with H : within x _ |- _ => apply Hb in H; destruct H as (y & -> & H) end. exists y. split; [reflexivity|now apply within_right].
    - match goal with H : within x _ |- _ => apply Hc in H; destruct H as (y & -> & H) end. exists y. split; [reflexivity|now apply within_cond].
    - match goal with H : within x _ |- _ => apply Ha in H; destruct H as (y & -> & H) end. exists y. split; [reflexivity|now apply within_then].
    - match goal with H : within x _ |- _ => apply Hb in H; destruct H as (y & -> & H) end. exists y. split; [reflexivity|now apply within_else].
  Qed.
  Lemma literals_relocated e : machine_literals e -> machine_literals (relocate_expr f e).
  Proof. intros [H1 H2]. split; intros l z W; apply within_relocated in W; destruct W as (y & E & W); destruct y; try discriminate E; injection E as _ ->; eauto. Qed.

  Lemma annotation_exprs_relocated an : annotation_exprs (map (relocate_annotation f) an) = map (relocate_expr f) (annotation_exprs an).
  Proof. unfold annotation_exprs. induction an as [|a an IH]; [reflexivity|]. cbn [map flat_map]. now rewrite IH, map_app. Qed.
  Lemma gate_exprs_relocated g : gate_exprs (relocate_gate f g) = map (relocate_expr f) (gate_exprs g).
  Proof.
    revert g. fix IH 1. intros [l n i ps an]. cbn [relocate_gate gate_exprs]. rewrite !map_app, annotation_exprs_relocated. f_equal. destruct i as [g|]; [|reflexivity]. cbn [option_map]. apply IH.
  Qed.
  Lemma statement_exprs_relocated s : statement_exprs (relocate_statement f s) = map (relocate_expr f) (statement_exprs s).
  Proof. destruct s; cbn [relocate_statement statement_exprs]; now rewrite ?map_app, ?annotation_exprs_relocated, ?gate_exprs_relocated. Qed.
  Lemma grammar_gate_relocated g : grammar_gate g -> grammar_gate (relocate_gate f g).
  Proof. induction 1; cbn [relocate_gate option_map map]; constructor; auto. Qed.
  Lemma plain_gate_relocated : forall g, plain_gate g -> plain_gate (relocate_gate f g).
  Proof. fix IH 1. intros [l n i ps an]. cbn [relocate_gate plain_gate]. intros [-> H]. split; [reflexivity|]. destruct i as [g|]; [cbn [option_map]; now apply IH|exact I]. Qed.
  Lemma grammar_relocated p : grammar_program p -> grammar_program (relocate_program f p).
  Proof.
    unfold grammar_program. cbn [relocate_program prog_statements]. intros H. apply Forall_map. eapply Forall_impl; [|exact H]. intros s (P & X & G). split; [|split].
    - destruct s; cbn [plain relocate_statement] in *; try (now rewrite P). destruct P as [P ->]. split; [now apply plain_gate_relocated|reflexivity].
    - rewrite statement_exprs_relocated. apply forallb_forall. rewrite forallb_forall in X. intros e He. apply in_map_iff in He. destruct He as (e0 & <- & H0). rewrite indexed_relocated. now apply X.
    - destruct s; cbn [relocate_statement] in *; auto; [now apply grammar_gate_relocated|]. unfold grammar_non_gate in *. rewrite map_length. destruct G as (G1 & G2 & G3). split; [exact G1|]. split; [exact G2|]. intros N1 N2. now rewrite (G3 N1 N2).
  Qed.
  Lemma machine_relocated p : machine_program p -> machine_program (relocate_program f p).
  Proof.
    unfold machine_program. cbn [relocate_program prog_statements]. intros H. apply Forall_map. eapply Forall_impl; [|exact H]. intros s (X & G). split.
    - rewrite statement_exprs_relocated. apply Forall_map. eapply Forall_impl; [|exact X]. intros e. apply literals_relocated.
    - destruct s; exact G.
  Qed.
End Erase.
Lemma ordered_erased p : ordered_locations (relocate_program erase p).
Proof.
  intros s l Hs. cbn [relocate_program prog_statements] in Hs. apply in_map_iff in Hs. destruct Hs as (s0 & <- & _). destruct s0; discriminate.
Qed.

Lemma run_analyze lm text api file rtl data p q : version_text text api -> version_same api [3; 0]%Z -> parse_string file rtl data = Ok (mkResult (Some p) []) ->
  run lm rtl text data file = Ok (mkResult (Some q) []) <-> exists st', analyze_ast (mkAnalyzer api [default_scope lm] 0) p = Ok (st', mkResult (Some q) []).
Proof.
  intros V S P. unfold run, analyze_string. rewrite (version_text_analyzer lm text api V S), P. cbn [bind]. unfold analyze. cbn [res_errors res_root].
  destruct (analyze_ast _ p) as [[st' r]| | |]; split; try discriminate; try (intros (st'' & H); discriminate H).
  - intros [= ->]. eauto.
  - intros (st'' & [= _ ->]). reflexivity.
Qed.
Lemma accepted_elsewhere lm v p p' b : relocate_program erase p = relocate_program erase p' ->
  (exists q st', analyze_ast (mkAnalyzer v [default_scope lm] 0) p = Ok (st', mkResult (Some q) []) /\ relocate_sem_program erase q = b) ->
  (exists q st', analyze_ast (mkAnalyzer v [default_scope lm] 0) p' = Ok (st', mkResult (Some q) []) /\ relocate_sem_program erase q = b).
Proof.
  intros E (q & st' & A & Eb). pose proof (rel_analyze_ast erase erase_compatible lm _ p (default_ordinary_any lm v 0)) as A1.
  pose proof (rel_analyze_ast erase erase_compatible lm _ p' (default_ordinary_any lm v 0)) as A2. rewrite E, A2, A in A1. clear A2 A.
  destruct (analyze_ast _ p') as [[st2 [[q2|] [|]]]| | |]; try discriminate A1. exists q2, st2. split; [reflexivity|]. rewrite <- Eb.
  exact (f_equal (fun o => match o with Ok (_, mkResult (Some x) _) => x | _ => b end) A1).
Qed.
Lemma erase_expr_twice : forall e, relocate_expr erase (relocate_expr erase e) = relocate_expr erase e.
Proof.
  intros e. induction e as [l b|l z|l g|l n|l b idx Hb Hi|l n|l n es He|l op e He|l op a b Ha Hb|l c a b Hc Ha Hb|l e He|l a b Ha Hb]
    using expr_ind_full with (Q := fun i => relocate_entry erase (relocate_entry erase i) = relocate_entry erase i); rewrite ?relocate_index, ?relocate_call; cbn [relocate_expr relocate_entry option_map]; rewrite ?relocate_index, ?relocate_call; unfold erase at 1; try (f_equal; assumption); try reflexivity.
  - f_equal; [exact Hb|]. rewrite map_map. apply map_ext_in. intros i Hin. rewrite Forall_forall in Hi. now apply Hi.
  - f_equal. f_equal. rewrite map_map. apply map_ext_in. intros i Hin. rewrite Forall_forall in He. now apply He.
Qed.
Lemma erase_annotation_twice an : map (relocate_annotation erase) (map (relocate_annotation erase) an) = map (relocate_annotation erase) an.
Proof. rewrite map_map. apply map_ext. intros a. unfold relocate_annotation. cbn [an_loc an_interface an_operation an_operands]. f_equal. rewrite map_map. apply map_ext, erase_expr_twice. Qed.
Lemma erase_exprs_twice es : map (relocate_expr erase) (map (relocate_expr erase) es) = map (relocate_expr erase) es.
Proof. rewrite map_map. apply map_ext, erase_expr_twice. Qed.
Lemma erase_gate_twice : forall g, relocate_gate erase (relocate_gate erase g) = relocate_gate erase g.
Proof.
  fix IH 1. intros [l n i ps an]. cbn [relocate_gate]. rewrite erase_exprs_twice, erase_annotation_twice. f_equal. destruct i as [g|]; [|reflexivity]. cbn [option_map]. f_equal. apply IH.
Qed.
Lemma erase_twice p : relocate_program erase (relocate_program erase p) = relocate_program erase p.
Proof.
  unfold relocate_program. cbn [prog_version prog_version_loc prog_statements prog_block_loc]. f_equal. rewrite map_map. apply map_ext. intros s.
  destruct s; cbn [relocate_statement]; rewrite ?erase_exprs_twice, ?erase_annotation_twice, ?erase_gate_twice; reflexivity.
Qed.
(** A text is accepted if and only if its tree without locations is, with the same result
    but for the locations. *)
Lemma run_erased lm text api file rtl data p b : version_text text api -> version_same api [3; 0]%Z -> parse_string file rtl data = Ok (mkResult (Some p) []) ->
  (exists q, run lm rtl text data file = Ok (mkResult (Some q) []) /\ relocate_sem_program erase q = b) <->
  (exists q st', analyze_ast (mkAnalyzer api [default_scope lm] 0) (relocate_program erase p) = Ok (st', mkResult (Some q) []) /\ relocate_sem_program erase q = b).
Proof.
  intros V S P. split.
  - intros (q & A & E). apply (run_analyze lm text api file rtl data p q V S P) in A. destruct A as (st' & A). apply (accepted_elsewhere lm api p); [symmetry; apply erase_twice|eauto].
  - intros H. apply (accepted_elsewhere lm api _ p b (erase_twice p)) in H. destruct H as (q & st' & A & E). exists q. split; [|exact E]. apply (run_analyze lm text api file rtl data p q V S P). eauto.
Qed.
