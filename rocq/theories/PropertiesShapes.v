(** Property C102: the analysis of syntax trees of any shape, not only those that a text
    can give. *)
From Verif Require Import Base ModelUtils ModelVersion ModelError ModelTypes ModelOverload ModelFunctions ModelInstructionSet ModelAst ModelAnalyzer ModelSemantic
  SpecUtils SpecTypes SpecFunctions SpecInstructions SpecAnalyzer SpecShapes ProofsAnalyzer3 ProofsShapes PropertiesAnalyzer.
Local Open Scope string_scope.

(** If every list of indices has an entry, the analysis of any tree returns a result or is
    undefined (by C21): no exception escapes, whatever the names, operands, parameters,
    modifiers and annotations are; *)
Theorem C102_total : forall lm api st0 ps st p, default_analyzer lm api = Ok st0 -> analysed st0 ps st -> Forall indices_given ps -> indices_given p ->
  (exists st' q es, analyze_ast st p = Ok (st', mkResult (Some q) es)) \/ (exists k, analyze_ast st p = UB k).
Proof.
  intros lm api st0 ps st p D H Gs G. destruct (analysed_inv lm true api st0 ps st D H (fun _ => Gs)) as [Ho I]. destruct (analysed_inv lm false api st0 ps st D H ltac:(discriminate)) as [_ I0].
  exact (given_total lm st p Ho I I0 G).
Qed.
(** otherwise there is one more outcome, one exception; *)
Theorem C102_one_exception : forall lm api st0 ps st p, default_analyzer lm api = Ok st0 -> analysed st0 ps st ->
  (exists st' q es, analyze_ast st p = Ok (st', mkResult (Some q) es)) \/ (exists k, analyze_ast st p = UB k) \/ analyze_ast st p = Throw incomplete.
Proof.
  intros lm api st0 ps st p D H. destruct (analysed_inv lm false api st0 ps st D H ltac:(discriminate)) as [Ho I]. exact (only_exception lm st p Ho I).
Qed.
(** it is thrown exactly if there is no error and an operand in the result has an empty
    list of indices. An added error makes the result visible. *)
Theorem C102_throws_iff : forall lm api st0 ps st p w, default_analyzer lm api = Ok st0 -> analysed st0 ps st ->
  (analyze_ast st p = Throw w <-> w = incomplete /\
     exists st' q e, analyze_ast st (with_unknown_type p) = Ok (st', mkResult (Some q) [e]) /\ lacks_index q).
Proof.
  intros lm api st0 ps st p w D H. destruct (analysed_inv lm false api st0 ps st D H ltac:(discriminate)) as [Ho I]. exact (throws_iff lm st p w Ho I).
Qed.

(** A tree that no text gives: gates on gates, a modifier of nothing, statements with the
    names of gates, annotations; then a tree with an empty list of indices *)
Definition gate_of (n : string) (i : option gate) : gate := Gate None n i [] [].
Definition odd_program : program :=
  prog [ qubit_decl "q"; SVariable None "r" (mkAstType None "qubit" (Some 3%Z)) [mkAnnotation None "a" "b" [EIdent None "q"; EIdent None "z"]];
         SGateInstr None (gate_of "X" (Some (gate_of "H" None))) [EIdent None "q"; EIdent None "q"] [];
         SGateInstr None (gate_of "inv" None) [EIdent None "q"] [];
         SNonGate None "X" [EIdent None "q"] [] [];
         SGateInstr None (gate_of "" (Some (gate_of "measure" None))) [] [] ].
Definition no_indices : program := prog [SVariable None "r" (mkAstType None "qubit" (Some 3%Z)) []; SGateInstr None (gate_of "X" None) [EIndex None (EIdent None "r") []] []].
Example C102_case : forall lm,
  (indices_given odd_program /\ analysed (fresh_analyzer lm) [] (fresh_analyzer lm) /\
   exists st' r, analyze_ast (fresh_analyzer lm) odd_program = Ok (st', r) /\ List.length (res_errors r) = 3%nat /\
     match res_root r with Some q => List.length (blk_statements (sp_block q)) = 2%nat | None => False end) /\
  analyze_ast (fresh_analyzer lm) no_indices = Throw incomplete.
Proof.
  intros lm. split; [split; [repeat constructor|split; [constructor|]]|].
  - apply ok_case. vm_compute. split; reflexivity.
  - vm_compute. reflexivity.
Qed.
Print Assumptions C102_total. Print Assumptions C102_one_exception. Print Assumptions C102_throws_iff.
