(** Property C87: the names of instructions. *)
From Coq Require Import SpecFloat.
From Verif Require Import Base ModelUtils ModelVersion ModelError ModelTypes ModelOverload ModelFunctions ModelInstructionSet ModelAst ModelAnalyzer ModelSemantic
  ModelLexer ModelParser ModelSyntactic SpecTypes SpecInstructions SpecAnalyzer SpecLexer SpecSyntax SpecReading SpecPrint SpecNames
  ProofsUtf8 ProofsFolding ProofsSyntax2 ProofsSyntax ProofsReading ProofsText ProofsPrint4 ProofsNames PropertiesAnalyzer.
Local Open Scope string_scope.

(** C87: every name is in at most one class, *)
Theorem C87_classes : forall n,
  at_most_one [is_single_qubit_gate n; is_two_qubit_gate n; is_measure n; is_reset n; is_init n; is_barrier n; is_wait n;
               is_inv_gate_modifier n; is_pow_gate_modifier n; is_ctrl_gate_modifier n].
Proof. exact classes. Qed.
(** the larger classes are unions of these, *)
Theorem C87_unions : forall n,
  is_gate n = (is_single_qubit_gate n || is_two_qubit_gate n) /\
  is_gate n = (is_named_gate n || is_gate_composition n) /\
  is_non_gate n = (is_measure n || is_reset n || is_init n || is_barrier n || is_wait n) /\
  is_gate_modifier n = (is_single_qubit_gate_modifier n || is_two_qubit_gate_modifier n) /\
  (is_gate_composition n = true <-> exists r, n = "1q" ++ r \/ n = "2q" ++ r).
Proof. exact unions. Qed.
(** and parameter types are known exactly for the names of the language. *)
Theorem C87_parameter_types : forall n,
  match get_instruction_param_types n with
  | Ok _ => is_named_gate n || is_non_gate n || is_gate_modifier n = true
  | Err e => is_named_gate n || is_non_gate n || is_gate_modifier n = false /\ e = mk_error ("couldn't find instruction '" ++ n ++ "'")
  | _ => False
  end.
Proof. exact param_types_known. Qed.

Lemma read_text file rtl data p : parse_string file rtl data = Ok (mkResult (Some p) []) ->
  exists s, text_of data s /\ utf8 s /\ text_means file s p.
Proof.
  intros E. exists (strip_bom data). pose proof (strip_bom_text data) as T. split; [exact T|].
  assert (U : utf8 (strip_bom data)).
  { apply valid_utf8_iff. unfold parse_string, scan in E. destruct (valid_utf8 (strip_bom data)); [reflexivity|discriminate E]. }
  split; [exact U|]. now apply (parse_reads file rtl data (strip_bom data) p T U).
Qed.
(** No name in a program read from a text is a name of a composition: these begin
    with a digit, as instruction_set.hpp says; *)
Theorem C87_no_clash : forall file rtl data p, parse_string file rtl data = Ok (mkResult (Some p) []) ->
  forall n, In n (program_words p) -> starts_like_a_name n /\ is_gate_composition n = false.
Proof.
  intros file rtl data p E n I. destruct (read_text file rtl data p E) as (s & _ & U & M).
  pose proof (program_words_start p (parsed_writable file s p U M)) as F. rewrite Forall_forall in F. specialize (F n I). split; [exact F|].
  destruct F as (c & r & -> & L). now apply (not_prefixed c r).
Qed.
(** ... so the name of an instruction in a result tells whether it has modifiers
    and how many operands. *)
Theorem C87_results : forall lm rtl api data file r sp s, run lm rtl api data file = Ok r -> res_root r = Some sp ->
  In s (blk_statements (sp_block sp)) -> well_named s.
Proof.
  intros lm rtl api data file r sp s E Er I. unfold run in E. apply bind_ok_inv in E. destruct E as (st & D & E).
  apply bind_ok_inv in E. destruct E as ([st' r'] & E & E2). injection E2 as <-. unfold analyze_string in E.
  apply bind_ok_inv in E. destruct E as (pr & P & E). unfold analyze in E.
  assert (X : exists p, pr = mkResult (Some p) [] \/ exists e, pr = mkResult None [e]).
  { unfold parse_string in P. destruct (scan _ _ _) as [p|e|w|k]; try discriminate P; injection P as <-.
    - exists p. now left.
    - exists (mkProgram [] None [] None). right. now exists e. }
  destruct X as (p & [->|(e & ->)]); cbn [res_errors res_root] in E.
  - destruct (read_text file rtl data p P) as (t & _ & _ & M). eapply (result_named lm api st p st' r' D); eauto. now apply (parsed_grammar file t).
  - injection E as <- <-. discriminate Er.
Qed.
Definition names_text : string := "version 3; qubit[2] q; bit[2] b; inv.X q[0]; ctrl.pow(2).X q[0], q[1]; CNOT q[0], q[1]; H q; b = measure q".
Example C87_case : forall lm rtl,
  map_outcome (fun r => option_map (fun sp => map (fun s => match s with SemGateInstr _ i _ _ _ | SemNonGate _ i _ _ _ _ => instr_name i | _ => "" end)
    (blk_statements (sp_block sp))) (res_root r)) (run lm rtl "3.0" names_text None) = Ok (Some ["1q_X"; "2q_X"; "CNOT"; "H"; "measure"]).
Proof. intros lm rtl. destruct rtl; vm_compute; reflexivity. Qed.
Print Assumptions C87_classes. Print Assumptions C87_unions. Print Assumptions C87_parameter_types.
Print Assumptions C87_no_clash. Print Assumptions C87_results.
