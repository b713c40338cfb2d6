(** Property C93: the size of results. *)
From Coq Require Import Lia ZArith SpecFloat.
From Verif Require Import Base ModelUtils ModelVersion ModelError ModelTypes ModelOverload ModelFunctions ModelInstructionSet ModelAst ModelAnalyzer ModelSemantic ModelLexer ModelSyntactic
  SpecUtils SpecError SpecTypes SpecFunctions SpecInstructions SpecPlace SpecAnalyzer SpecHull SpecLexer SpecSyntax SpecReading SpecMachine SpecVersion SpecEvaluate SpecMeaning SpecOutcome SpecSize
  ProofsFunctions ProofsAnalyzer2 ProofsReading ProofsText ProofsPipeline ProofsEvaluate ProofsMeaning2 ProofsOutcome3 ProofsSize
  PropertiesAnalyzer PropertiesSyntax PropertiesHull PropertiesMachine PropertiesMeaning PropertiesOutcome.
Local Open Scope string_scope.

(** C93: "The result of the analysis is at most so many times as big as the text."
    False: a text of 66 characters is accepted with a result that has 10^18 indices. *)
Definition text_huge : string := "version 3; qubit[1000000000000000000] q; X q[0:999999999999999999]".
Definition huge_tree (p : program) : Prop := exists l0 l1 l2 l3 l4 l5 l6 l7 l8 l9,
  p = mkProgram [3]%Z l0 [ SVariable l1 "q" (mkAstType l2 "qubit" (Some (10 ^ 18)%Z)) [];
                           SGateInstr (Some l3) (Gate l4 "X" None [] []) [EIndex l5 (EIdent l6 "q") [IRange l7 (EInt l8 0) (EInt l9 (10 ^ 18 - 1))]] [] ] None /\
  ordered (loc_range l3).
Lemma huge_read : exists p, text_means None text_huge p /\ huge_tree p.
Proof.
  destruct (tree_case None text_huge huge_tree) as (p & E & H).
  { vm_compute. eexists _, _, _, _, _, _, _, _, _, _. split; [reflexivity|]. right. split; [reflexivity|discriminate]. }
  exists p. split; [|exact H]. apply (C64_tree None false text_huge text_huge p); [text_case|utf8_case|exact E].
Qed.
Lemma from_to_range a b z : In z (from_to a b) -> (a <= z <= b)%Z.
Proof. unfold from_to. intros H. apply in_map_iff in H. destruct H as (i & <- & I). apply in_seq in I. lia. Qed.
Lemma huge_means lm p : huge_tree p -> exists q, program_means lm [3]%Z p q /\ result_indices q = (from_to 0 (10 ^ 18 - 1) ++ [])%list.
Proof.
  intros (l0 & l1 & l2 & l3 & l4 & l5 & l6 & l7 & l8 & l9 & -> & O).
  set (x := mkVariable 0 "q" (mkType TQubitArray (10 ^ 18)%Z)). set (zs := (from_to 0 (10 ^ 18 - 1) ++ [])%list).
  set (i := SemGateInstr (Some l3) (instruction_for "X" [VIndex x zs]) (SemGate l4 "X" None [] []) [VIndex x zs] []).
  assert (I : instruction_means lm [x] (SGateInstr (Some l3) (Gate l4 "X" None [] []) [EIndex l5 (EIdent l6 "q") [IRange l7 (EInt l8 0) (EInt l9 (10 ^ 18 - 1))]] []) i).
  { apply (gate_applied lm [x] _ _ _ _ "X" "X" _ (Z.of_nat (List.length zs))).
    - apply (gate_named lm _ _ _ []); [cbn; tauto|constructor].
    - constructor; [|constructor]. apply (some_elements lm [x] l5 l6 x); [now left|now left| |].
      + apply index_range; [apply (index_number lm _ (QInt 0)); [constructor|reflexivity]|apply (index_number lm _ (QInt (10 ^ 18 - 1))); [constructor|reflexivity]|lia|constructor].
      + apply Forall_app. split; [|constructor]. apply Forall_forall. intros z Hz. apply from_to_range in Hz. cbn [var_type tsize x]. lia.
    - constructor; [|constructor]. now apply addr_qubit_index. }
  exists (mkSemProgram [3]%Z [3]%Z l0 (mkBlock [i] (Some l3)) (map (fun v => mkSemVariable v []) [x])). split.
  - apply (program_of lm [3]%Z (mkProgram [3]%Z l0 _ None) [x] (mkBlock [i] (Some l3))); cbn [prog_version prog_statements blk_statements]; [intros k; reflexivity| |].
    + apply (declaration lm [] l1 "q" _ (mkType TQubitArray (10 ^ 18)%Z)); [constructor; lia|cbn; intuition discriminate|intros []|].
      apply instruction_of; [exact I|constructor].
    + unfold spans_statements. cbn [blk_loc blk_statements]. exists l3, []. split; [reflexivity|]. split; [reflexivity|]. split; [exact O|]. split.
      * intros s [<-|[]]. unfold encloses, at_or_before. split; lia.
      * intros r Hr. apply Hr. now left.
  - unfold result_indices. cbn [sp_block blk_statements flat_map operands_of i indices_of]. now rewrite !app_nil_r.
Qed.
Theorem C93_refuted : String.length text_huge = 66%nat /\ forall lm, machine_libm lm ->
  exists q, run lm false "3" text_huge None = Ok (mkResult (Some q) []) /\ Z.of_nat (List.length (result_indices q)) = (10 ^ 18)%Z.
Proof.
  split; [reflexivity|]. intros lm L. destruct huge_read as (p & M & H). destruct (huge_means lm p H) as (q & P & E). exists q. split.
  - destruct C90_case as (V & S & _). apply (C90_text lm "3" [3]%Z None false text_huge text_huge q V S L); [text_case|utf8_case|]. exists p. auto.
  - rewrite E, app_nil_r, from_to_length. apply Z2Nat.id. lia.
Qed.
(** What holds: the tree has at most as many nodes as the text has characters, the result
    (apart from indices) at most as many nodes as the tree, there are not more errors, and
    not more indices than characters of the text times the size of the largest register. *)
Theorem C93_tree : forall file s p, text_means file s p -> (program_nodes p <= String.length s)%nat.
Proof. exact text_nodes. Qed.
Theorem C93_result_partial : forall lm text api file rtl data s q es, SpecVersion.version_text text api -> version_same api [3; 0]%Z -> machine_libm lm -> text_of data s -> utf8 s ->
  run lm rtl text data file = Ok (mkResult (Some q) es) ->
  (result_nodes q <= String.length s)%nat /\ (List.length es <= String.length s)%nat /\
  forall n, (forall v, In v (program_variables q) -> tsize (var_type v) <= Z.of_nat n)%Z -> (List.length (result_indices q) <= String.length s * n)%nat.
Proof.
  intros lm text api file rtl data s q es V S L T U R. apply (C91_text lm text api file rtl data s q es V S L T U) in R. destruct R as (p & M & G).
  apply text_nodes in M. destruct (result_size lm api p q es G) as (A & B & C). split; [lia|]. split; [lia|]. intros n D. specialize (C n D). nia.
Qed.
Example C93_case : exists p q es, text_means None text_faulty p /\ run same_libm false "3" text_faulty None = Ok (mkResult (Some q) es) /\
  String.length text_faulty = 102%nat /\ program_nodes p = 44%nat /\ result_nodes q = 9%nat /\ List.length es = 6%nat /\ List.length (result_indices q) = 3%nat.
Proof.
  destruct (tree_case None text_faulty (fun p => program_nodes p = 44%nat)) as (p & E & H1); [vm_compute; reflexivity|].
  destruct (result_case same_libm text_faulty (fun q es => result_nodes q = 9%nat /\ List.length es = 6%nat /\ List.length (result_indices q) = 3%nat)) as (q & es & R & H2).
  { vm_compute. auto. }
  exists p, q, es. split; [apply (C64_tree None false text_faulty text_faulty p); [text_case|utf8_case|exact E]|]. split; [exact R|]. split; [reflexivity|]. split; [exact H1|exact H2].
Qed.
Print Assumptions C93_refuted. Print Assumptions C93_tree. Print Assumptions C93_result_partial.
