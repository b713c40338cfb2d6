(** Property C92: the results of an analyzer that is used again. *)
From Coq Require Import SpecFloat.
From Verif Require Import Base ModelUtils ModelVersion ModelError ModelTypes ModelOverload ModelFunctions ModelInstructionSet ModelAst ModelAnalyzer ModelSemantic ModelLexer ModelSyntactic
  SpecUtils SpecError SpecTypes SpecFunctions SpecInstructions SpecAnalyzer SpecHull SpecLexer SpecSyntax SpecReading SpecMachine SpecVersion SpecEvaluate SpecMeaning SpecOutcome SpecReuse
  ProofsFunctions ProofsAnalyzer2 ProofsReading ProofsText ProofsPipeline ProofsEvaluate ProofsMeaning2 ProofsOutcome3 ProofsReuse
  PropertiesAnalyzer PropertiesSyntax PropertiesHull PropertiesMachine PropertiesMeaning PropertiesOutcome.
Local Open Scope string_scope.

(** C92: the result of an analyzer for a tree, after any trees. *)
Definition readable (p : program) : Prop := grammar_program p /\ machine_program p /\ ordered_locations p.
Theorem C92_tree : forall lm text api ps st p q es, SpecVersion.version_text text api -> version_same api [3; 0]%Z -> machine_libm lm ->
  has_analysed lm text ps st -> Forall readable ps -> readable p ->
  ((exists st', analyze_ast st p = Ok (st', mkResult (Some q) es)) <-> reused_gives lm api ps p q es).
Proof. intros lm text api ps st p q es T S L A F (G & M & O). apply reuse_outcome; auto. eapply analysed_after; eauto. Qed.
Theorem C92_tree_undefined : forall lm text api ps st p, SpecVersion.version_text text api -> version_same api [3; 0]%Z -> machine_libm lm ->
  has_analysed lm text ps st -> Forall readable ps -> readable p ->
  ((exists k, analyze_ast st p = UB k) <-> forall q es, ~ reused_gives lm api ps p q es).
Proof. intros lm text api ps st p T S L A F (G & M & O). apply reuse_undefined; auto. eapply analysed_after; eauto. Qed.

Lemma read_readable file (rtl : bool) data s p : text_of data s -> utf8 s -> text_means file s p -> readable p.
Proof.
  intros T U M. pose proof M as E. apply (C64_tree file rtl data s p T U) in E. split; [eapply parsed_grammar, M|].
  split; [exact (C84_parsed file rtl data s p T U E)|exact (C80_parsed file rtl data s p T U E)].
Qed.
Lemma string_cases rtl st data s file : text_of data s -> utf8 s ->
  (exists p, text_means file s p /\ analyze_string rtl st data file = analyze_ast st p) \/
  ((forall p, ~ text_means file s p) /\ exists e, analyze_string rtl st data file = Ok (st, mkResult None [e])).
Proof.
  intros T U. destruct (program_or_error file rtl data s T U) as [(p & E)|(e & E)].
  - left. exists p. split; [now apply (C64_tree file rtl data s p T U)|]. unfold analyze_string. rewrite E. reflexivity.
  - right. split; [|exists e; unfold analyze_string; rewrite E; reflexivity].
    intros p M. apply (C64_tree file rtl data s p T U) in M. rewrite M in E. discriminate.
Qed.
Lemma one_tree file (rtl : bool) data s p p' : text_of data s -> utf8 s -> text_means file s p -> text_means file s p' -> p = p'.
Proof. intros T U M M'. apply (C64_tree file rtl data s p T U) in M. apply (C64_tree file rtl data s p' T U) in M'. congruence. Qed.
Lemma read_analysed lm text rtl ps st : has_read lm text rtl ps st -> has_analysed lm text ps st /\ Forall readable ps.
Proof.
  intros H. induction H as [st D|ps st data s file p st' r H [IH F] T U M E|ps st data s file st' r H IH T U N E].
  - split; constructor. exact D.
  - destruct (string_cases rtl st data s file T U) as [(p' & M' & X)|(N & _)]; [|destruct (N p M)].
    rewrite (one_tree file rtl data s p' p T U M' M), E in X. split; [econstructor; eauto|]. apply Forall_app. split; [exact F|]. constructor; [|constructor]. eapply (read_readable file rtl); eauto.
  - destruct (string_cases rtl st data s file T U) as [(p' & M' & X)|(_ & e & X)]; [destruct (N p' M')|]. rewrite X in E. injection E as <- <-. exact IH.
Qed.

(** From texts to results, for any sequence of texts given to one analyzer. *)
Theorem C92_text : forall lm text api rtl ps st data s file q es, SpecVersion.version_text text api -> version_same api [3; 0]%Z -> machine_libm lm ->
  has_read lm text rtl ps st -> text_of data s -> utf8 s ->
  ((exists st', analyze_string rtl st data file = Ok (st', mkResult (Some q) es)) <-> exists p, text_means file s p /\ reused_gives lm api ps p q es).
Proof.
  intros lm text api rtl ps st data s file q es V S L H T U. destruct (read_analysed _ _ _ _ _ H) as [A F].
  destruct (string_cases rtl st data s file T U) as [(p & M & X)|(N & e & X)]; rewrite X.
  - rewrite (C92_tree lm text api ps st p q es V S L A F (read_readable file rtl data s p T U M)). split; [eauto|].
    intros (p' & M' & R). now rewrite (one_tree file rtl data s p p' T U M M').
  - split; [intros (st' & E); discriminate|]. intros (p & M & _). destruct (N p M).
Qed.
Theorem C92_undefined : forall lm text api rtl ps st data s file, SpecVersion.version_text text api -> version_same api [3; 0]%Z -> machine_libm lm ->
  has_read lm text rtl ps st -> text_of data s -> utf8 s ->
  ((exists k, analyze_string rtl st data file = UB k) <-> exists p, text_means file s p /\ forall q es, ~ reused_gives lm api ps p q es).
Proof.
  intros lm text api rtl ps st data s file V S L H T U. destruct (read_analysed _ _ _ _ _ H) as [A F].
  destruct (string_cases rtl st data s file T U) as [(p & M & X)|(N & e & X)]; rewrite X.
  - rewrite (C92_tree_undefined lm text api ps st p V S L A F (read_readable file rtl data s p T U M)). split; [eauto|].
    intros (p' & M' & R). now rewrite (one_tree file rtl data s p p' T U M M').
  - split; [intros (st' & E); discriminate|]. intros (p & M & _). destruct (N p M).
Qed.
Theorem C92_syntax_error : forall lm text rtl ps st data s file, has_read lm text rtl ps st -> text_of data s -> utf8 s ->
  ((exists e, analyze_string rtl st data file = Ok (st, mkResult None [e])) <-> forall p, ~ text_means file s p).
Proof.
  intros lm text rtl ps st data s file H T U. destruct (string_cases rtl st data s file T U) as [(p & M & X)|(N & e & X)]; rewrite X.
  - split; [|intros N; destruct (N p M)]. intros (e & E). apply ProofsAnalyzer.analyze_ast_inv in E. destruct E as (? & ? & ? & ? & ? & _ & _ & _ & E & _). discriminate.
  - split; [intros _; exact N|eauto].
Qed.

(** The second text does not declare the register it uses, declares a variable of the
    first again, and is followed by a syntax error; the first has an error. *)
Definition text_first : string := "version 3.0; qubit[2] q; X q[0]; Y r".
Definition text_second : string := "version 3.0; bit[3] q; qubit r; CNOT q[1], r".
Definition second_result : sem_program -> list error -> Prop := fun q es =>
  exists a b r l1 l2, sp_variables q = [mkSemVariable a []; mkSemVariable b []; mkSemVariable r []] /\
    a = mkVariable 0 "q" (mkType TQubitArray 2) /\ b = mkVariable 1 "q" (mkType TBitArray 3) /\ r = mkVariable 2 "r" (mkType TQubit 1) /\
    blk_statements (sp_block q) =
      [ SemGateInstr l1 (mkInstruction "X" [mkType TQubit 0]) (SemGate l1 "X" None [] []) [VIndex a [0]%Z] [];
        SemGateInstr l2 (mkInstruction "CNOT" [mkType TQubit 0; mkType TQubit 0]) (SemGate l2 "CNOT" None [] []) [VIndex a [1]%Z; VVar r] [] ] /\
    map message es = ["trying to redeclare variable 'q'"].
Lemma two_case lm (Q : sem_program -> list error -> Prop) :
  match analyze_string false (fresh_analyzer lm) text_first None with
  | Ok (st, mkResult _ [_]) =>
      match analyze_string false st "version 3.0; X" None with
      | Ok (st2, _) => match analyze_string false st2 text_second None with Ok (_, mkResult (Some q) es) => Q q es | _ => False end
      | _ => False
      end
  | _ => False
  end ->
  exists st r st2 r2, analyze_string false (fresh_analyzer lm) text_first None = Ok (st, r) /\ analyze_string false st "version 3.0; X" None = Ok (st2, r2) /\
    exists st3 q es, analyze_string false st2 text_second None = Ok (st3, mkResult (Some q) es) /\ Q q es.
Proof.
  destruct (analyze_string false (fresh_analyzer lm) text_first None) as [[st [root [|e [|e' es]]]]| | |]; try contradiction.
  destruct (analyze_string false st "version 3.0; X" None) as [[st2 r2]| | |] eqn:E2; try contradiction.
  destruct (analyze_string false st2 text_second None) as [[st3 [[q|] es3]]| | |] eqn:E3; try contradiction.
  intros H. exists st, (mkResult root [e]), st2, r2. split; [reflexivity|]. split; [exact E2|]. exists st3, q, es3. auto.
Qed.
Example C92_case : exists p1 st p2 q es, SpecVersion.version_text "3.0" [3; 0]%Z /\ machine_libm same_libm /\ has_read same_libm "3.0" false [p1] st /\
  text_of text_second text_second /\ utf8 text_second /\ text_means None text_second p2 /\ reused_gives same_libm [3; 0]%Z [p1] p2 q es /\ second_result q es.
Proof.
  assert (V : SpecVersion.version_text "3.0" [3; 0]%Z).
  { apply (vt_parts ["3"; "0"] [3; 0]%Z); try discriminate; [repeat constructor; discriminate|].
    constructor; [|constructor; [|constructor]]; [apply (front_plain "" "" "3" "")|apply (front_plain "" "" "0" "")]; auto; try discriminate; try exact I;
      cbn; unfold digit, code_between; cbn; (split; [lia|exact I]). }
  assert (L : machine_libm same_libm) by exact (proj1 (proj2 (proj2 C90_case))).
  assert (T1 : text_of text_first text_first) by text_case. assert (U1 : utf8 text_first) by utf8_case.
  assert (T2 : text_of "version 3.0; X" "version 3.0; X") by text_case. assert (U2 : utf8 "version 3.0; X") by utf8_case.
  assert (T : text_of text_second text_second) by text_case. assert (U : utf8 text_second) by utf8_case.
  destruct (two_case same_libm second_result) as (st & r & st2 & r2 & E1 & E2 & st3 & q & es & E3 & Q).
  { vm_compute. eexists _, _, _, _, _. split; [reflexivity|]. split; [reflexivity|]. split; [reflexivity|]. split; [reflexivity|]. split; reflexivity. }
  destruct (tree_case None text_first (fun _ => True)) as (p1 & M1 & _); [vm_compute; exact I|]. apply (C64_tree None false _ _ p1 T1 U1) in M1.
  assert (H : has_read same_libm "3.0" false [p1] st2).
  { eapply read_error; [|exact T2|exact U2| |exact E2].
    - eapply (read_program _ _ _ []); [apply read_nothing, fresh_is_default|exact T1|exact U1|exact M1|exact E1].
    - intros p M. destruct C90_case as (V3 & S3 & _). revert p M. apply (C91_syntax_error same_libm "3" [3]%Z None false "version 3.0; X" "version 3.0; X" V3 S3 L T2 U2).
      apply none_case. vm_compute. exact I. }
  destruct (proj1 (C92_text same_libm "3.0" [3; 0]%Z false [p1] st2 text_second text_second None q es V (fun i => eq_refl) L H T U)) as (p2 & M2 & R); [eauto|].
  exists p1, st2, p2, q, es. split; [exact V|]. split; [exact L|]. split; [exact H|]. split; [exact T|]. split; [exact U|]. split; [exact M2|]. split; [exact R|exact Q].
Qed.
Print Assumptions C92_tree. Print Assumptions C92_tree_undefined. Print Assumptions C92_text. Print Assumptions C92_undefined. Print Assumptions C92_syntax_error.
