(** Property C117: the operations of a program. *)
From Coq Require Import SpecFloat.
From Verif Require Import Base ModelUtils ModelVersion ModelError ModelTypes ModelOverload ModelFunctions ModelInstructionSet ModelAst ModelAnalyzer ModelSemantic ModelLexer ModelSyntactic
  SpecPrint SpecFolded SpecUtils SpecError SpecTypes SpecFunctions SpecInstructions SpecAnalyzer SpecHull SpecLexer SpecSyntax SpecReading SpecMachine SpecVersion SpecEvaluate SpecMeaning SpecRelocate SpecResize SpecElementary SpecFlat SpecSingle SpecSpelled SpecOperations
  PropertiesLayout PropertiesPrint ProofsFileName ProofsFunctions ProofsAnalyzer2 ProofsReading ProofsText ProofsEvaluate ProofsMeaning2 ProofsRelocate ProofsErase ProofsAnalyzer3 ProofsMachine ProofsMachine2 ProofsFolded ProofsFolded2 ProofsElementary ProofsElementary2 ProofsFlat ProofsFlat2 ProofsFlat3 ProofsOperations ProofsOperations2 SpecUnroll PropertiesAnalyzer PropertiesSyntax PropertiesHull PropertiesMachine PropertiesMeaning PropertiesResize PropertiesFlat SpecAnalyzer SpecVersion.
Local Open Scope string_scope.

(** C117: taking the instructions of a program apart into single elements, and putting all
    its qubits and all its bits into two registers, keeps the operations it consists of. *)
Theorem C117_kept : forall lm text api st p st' q, version_text text api -> version_same api [3; 0]%Z -> default_analyzer lm text = Ok st -> machine_libm lm ->
  grammar_program p -> machine_program p -> ordered_locations p -> analyze_ast st p = Ok (st', mkResult (Some q) []) ->
  operations (elementary_result q) = operations q /\ (forall qn bn, operations (flat_result qn bn q) = operations q) /\
  forall qn bn, qn <> bn -> ~ In qn constant_names -> ~ In bn constant_names -> fits (qubits_of (result_variables q)) -> fits (bits_of (result_variables q)) ->
    operations (elementary_result (flat_result qn bn q)) = operations q.
Proof.
  intros lm text api st p st' q V S D L G M O A. assert (P : program_means lm api p q) by (apply (C90_tree lm text api st p q V S D L G M O); eauto).
  split; [exact (elementary_operations q (program_even lm api p q P))|]. split; [intros qn bn; apply flat_operations|]. intros qn bn N Cq Cb Fq Fb.
  destruct (flat_means lm qn bn api p q N Cq Cb G M O P Fq Fb) as (p' & _ & _ & P' & _). rewrite (elementary_operations _ (program_even lm api p' _ P')). apply flat_operations.
Qed.

(** So do declaring single qubits and bits as registers of one (C109), and writing whole
    registers as the lists of their elements (C107). *)
Theorem C117_abbreviated : forall lm text api st p st' q, version_text text api -> version_same api [3; 0]%Z -> default_analyzer lm text = Ok st -> machine_libm lm ->
  grammar_program p -> machine_program p -> ordered_locations p -> analyze_ast st p = Ok (st', mkResult (Some q) []) ->
  (forall single, operations (widen_result single q) = operations q) /\
  forall size, (forall x k, In x (result_variables q) -> size (var_name x) = Some k -> k = tsize (var_type x)) -> operations (list_result size q) = operations q.
Proof.
  intros lm text api st p st' q V S D L G M O A. assert (P : program_means lm api p q) by (apply (C90_tree lm text api st p q V S D L G M O); eauto). split.
  - intros single. apply widened_operations; [exact (proj1 (program_declared lm api p q P))|]. eapply Forall_impl; [|exact (program_even lm api p q P)]. intros x. apply even_sound.
  - intros size Si. apply listed_operations; [exact Si|]. destruct (accepted_fine _ _ _ _ _ _ D A) as (Fs & _). eapply Forall_impl; [|exact Fs]. intros x [Fx _]. rewrite Forall_forall in *. intros v Hv. apply Fx. destruct x; cbn [result_operands statement_values] in *; try contradiction; auto using in_or_app.
Qed.

(** So does writing instructions for lists of elements as sequences of instructions (C110). *)
Theorem C117_sequence : forall lm text api st p st' q chosen, version_text text api -> version_same api [3; 0]%Z -> default_analyzer lm text = Ok st -> machine_libm lm ->
  grammar_program p -> machine_program p -> ordered_locations p -> unrollable chosen p -> analyze_ast st p = Ok (st', mkResult (Some q) []) ->
  operations (unroll_result chosen q) = operations q.
Proof.
  intros lm text api st p st' q chosen V S D L G M O U A. apply (unrolled_operations lm chosen api p); [|exact U]. apply (C90_tree lm text api st p q V S D L G M O). eauto.
Qed.

(** Every operation is on qubits and bits that exist; there are as many as the instruction
    has operands. *)
Definition at_places (o : operation) : list place := match o with OGate _ ps | OOther _ ps _ => ps | OAsm _ _ => [] end.
Theorem C117_places : forall lm text api st p st' q, version_text text api -> version_same api [3; 0]%Z -> default_analyzer lm text = Ok st -> machine_libm lm ->
  grammar_program p -> machine_program p -> ordered_locations p -> analyze_ast st p = Ok (st', mkResult (Some q) []) ->
  forall x o, In x (blk_statements (sp_block q)) -> In o (operations_of (result_variables q) x) ->
    List.length (at_places o) = List.length (result_operands x) /\
    forall is_qubit n, In (is_qubit, n) (at_places o) -> (0 <= n < if is_qubit then qubits_of (result_variables q) else bits_of (result_variables q))%Z.
Proof.
  intros lm text api st p st' q V S D L G M O A x o Hx Ho. assert (P : program_means lm api p q) by (apply (C90_tree lm text api st p q V S D L G M O); eauto).
  pose proof (program_even lm api p q P) as E. rewrite Forall_forall in E. specialize (E x Hx). pose proof (all_positive _ (proj1 (program_declared lm api p q P))) as Po.
  destruct (accepted_fine _ _ _ _ _ _ D A) as (Fs & _). rewrite Forall_forall in Fs. destruct (Fs x Hx) as [Fx _].
  assert (W : Forall (fun v => Forall (ProofsOperations.within (result_variables q)) (SpecOperations.places (result_variables q) v)) (result_operands x)).
  { apply Forall_forall. intros v Hv. apply places_within; [exact Po|]. rewrite Forall_forall in Fx. apply Fx. destruct x; cbn [result_operands statement_values] in *; try contradiction; auto using in_or_app. }
  assert (X : forall ps, In ps (applications (result_variables q) (result_operands x)) -> List.length ps = List.length (result_operands x) /\
    forall is_qubit n, In (is_qubit, n) ps -> (0 <= n < if is_qubit then qubits_of (result_variables q) else bits_of (result_variables q))%Z).
  { intros ps Hp. destruct (applications_within _ _ ps E W Hp) as [Le Wi]. split; [exact Le|]. rewrite Forall_forall in Wi. intros b n Hn. exact (Wi (b, n) Hn). }
  destruct x as [l j g vs an|l j n vs ws an|l n c an]; cbn [operations_of result_operands] in *; try (apply in_map_iff in Ho; destruct Ho as (ps & <- & Hp); exact (X ps Hp)). destruct Ho as [<-|[]]. split; [reflexivity|intros ? ? []].
Qed.

(** The operations of the program of C115 *)
Definition shown_operations (q : sem_program) : list (string * list place) := map (fun o => match o with OGate g ps => (sem_gate_name g, ps) | OOther n ps _ => (n, ps) | OAsm n _ => (n, []) end) (operations q).
Definition operations_shown : list (string * list place) :=
  [("H", [(true, 0%Z)]); ("H", [(true, 1%Z)]); ("H", [(true, 2%Z)]); ("CNOT", [(true, 0%Z); (true, 4%Z)]); ("CNOT", [(true, 1%Z); (true, 5%Z)]); ("X", [(true, 3%Z)]); ("A", []);
   ("measure", [(false, 0%Z); (true, 0%Z)]); ("measure", [(false, 1%Z); (true, 1%Z)]); ("measure", [(false, 2%Z); (true, 2%Z)]); ("measure", [(false, 3%Z); (true, 5%Z)]);
   ("CRk", [(true, 2%Z); (true, 3%Z)]); ("barrier", [(true, 4%Z)]); ("barrier", [(true, 5%Z)])].
Definition declared_size (q : sem_program) (name : string) : option Z := option_map (fun x => tsize (var_type x)) (find (fun x => String.eqb (var_name x) name) (result_variables q)).
Definition sizes_declared (q : sem_program) : bool := forallb (fun x => match declared_size q (var_name x) with Some k => Z.eqb k (tsize (var_type x)) | None => false end) (result_variables q).
Definition whole_operands (q : sem_program) : nat := List.length (filter (fun v => match v with VVar _ => true | _ => false end) (flat_map result_operands (blk_statements (sp_block q)))).
Example C117_case : machine_libm same_libm /\ text_of text_several text_several /\ utf8 text_several /\
  exists p, parse_string None false text_several = Ok (mkResult (Some p) []) /\ (grammar_program p /\ machine_program p /\ ordered_locations p) /\
    exists st' q, analyze_ast (fresh_analyzer same_libm) p = Ok (st', mkResult (Some q) []) /\ shown_operations q = operations_shown /\
      (forall x k, In x (result_variables q) -> declared_size q (var_name x) = Some k -> k = tsize (var_type x)) /\
      whole_operands q = 8 /\ whole_operands (list_result (declared_size q) q) = 0 /\
      shown_operations (list_result (declared_size q) q) = operations_shown /\ shown_operations (widen_result (fun _ => true) q) = operations_shown.
Proof.
  split; [split; [auto|]; repeat (apply Forall_cons; [auto|]); apply Forall_nil|].
  assert (T : text_of text_several text_several) by text_case. assert (U : utf8 text_several) by utf8_case. split; [exact T|]. split; [exact U|].
  destruct (tree_case None text_several (fun p => match analyze_ast (fresh_analyzer same_libm) p with Ok (_, mkResult (Some q) []) =>
    shown_operations q = operations_shown /\ sizes_declared q = true /\ whole_operands q = 8 /\ whole_operands (list_result (declared_size q) q) = 0 /\
    shown_operations (list_result (declared_size q) q) = operations_shown /\ shown_operations (widen_result (fun _ => true) q) = operations_shown | _ => False end)) as (p & E & H).
  { vm_compute. repeat split. }
  exists p. split; [exact E|]. split; [split; [eapply parsed_grammar, (C64_tree None false _ _ p T U), E|]; split; [exact (C84_parsed None false _ _ p T U E)|exact (C80_parsed None false _ _ p T U E)]|].
  destruct (analyze_ast (fresh_analyzer same_libm) p) as [[st' [[q|] [|]]]| | |]; try contradiction. destruct H as (H & Si & H'). exists st', q. split; [reflexivity|]. split; [exact H|]. split; [|exact H'].
  intros x k Hx Ek. unfold sizes_declared in Si. rewrite forallb_forall in Si. specialize (Si x Hx). rewrite Ek in Si. now apply Z.eqb_eq in Si.
Qed.
Print Assumptions C117_kept. Print Assumptions C117_abbreviated. Print Assumptions C117_sequence. Print Assumptions C117_places.
