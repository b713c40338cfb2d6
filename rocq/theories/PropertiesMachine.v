(** Property C84: the numbers of a result are machine numbers. *)
From Coq Require Import SpecFloat.
From Verif Require Import Base ModelUtils ModelVersion ModelError ModelTypes ModelOverload ModelFunctions ModelInstructionSet ModelAst ModelAnalyzer ModelSemantic ModelLexer ModelSyntactic
  SpecUtils SpecError SpecTypes SpecFunctions SpecAnalyzer SpecHull SpecLexer SpecSyntax SpecReading SpecMachine ProofsAnalyzer2 ProofsMachine ProofsMachine2 PropertiesAnalyzer PropertiesSyntax PropertiesPrint.
Local Open Scope string_scope.

(** C84: every integer of a result fits in 64 bits, every float is a double (possibly
    infinite or not a number), every register has a size of at most 2^63 - 1 and every
    index is smaller than it. *)
Theorem C84_result : forall lm api ps st p st' r q, machine_libm lm -> has_analysed lm api ps st -> Forall machine_program ps -> machine_program p ->
  analyze_ast st p = Ok (st', r) -> res_root r = Some q -> Forall machine_value (result_values q).
Proof. exact result_machine. Qed.
(** The same for the value of one expression. *)
Theorem C84_expression : forall lm api st e v, machine_libm lm -> default_analyzer lm api = Ok st -> machine_literals e -> visit st e = Ok v -> machine_value v.
Proof.
  intros lm api st e v Hlm D. destruct (has_analysed_machine lm api [] st Hlm (analysed_nothing _ _ _ D) (Forall_nil _)) as [Ho M]. intros Me.
  exact (visit_machine lm Hlm st (proj1 Ho) (fun n w => machine_variables st n w M) e Me v).
Qed.
(** Every tree read from a text meets the assumption. *)
Theorem C84_parsed : forall file rtl data s p, text_of data s -> utf8 s -> parse_string file rtl data = Ok (mkResult (Some p) []) -> machine_program p.
Proof. intros file rtl data s p T U E. exact (machine_writable_program p (C50_parsed_writable file rtl data s p T U E)). Qed.

(** A math library meeting the assumption, and a text with an integer at each end of
    the range, an infinite angle, one that is not a number and a register *)
Definition same_libm : libm := let f := fun x : float => x in mkLibm (fun x _ => x) f f f f f f f f f f f f f f.
Definition text_machine : string :=
  "version 3.0; qubit[9223372036854775807] q; Rx(1.0e308 * 10) q[3, 9223372036854775806]; CRk(-9223372036854775807 - 1) q[0], q[1]; pow(2).Ry(acos(1.0e308 * 10 / (1.0e308 * 10))) q[0]; wait(~0 << 62) q".
Example C84_case : machine_libm same_libm /\ text_of text_machine text_machine /\ utf8 text_machine /\
  exists p st r q, parse_string None false text_machine = Ok (mkResult (Some p) []) /\ analyze_ast (fresh_analyzer same_libm) p = Ok (st, r) /\ res_root r = Some q /\
    map var_name (program_variables q) = ["q"] /\
    filter (fun v => match v with VInt _ | VFloat _ => true | _ => false end) (result_values q) =
      [VFloat (S754_infinity false); VInt (- 2 ^ 63); VFloat S754_nan; VFloat (float_of_Z 2); VInt (- 2 ^ 62)].
Proof.
  split; [split; [auto|]; repeat (apply Forall_cons; [auto|]); apply Forall_nil|]. split; [text_case|]. split; [utf8_case|].
  destruct (tree_case None text_machine (fun p => match analyze_ast (fresh_analyzer same_libm) p with Ok (st, r) => match res_root r with Some q =>
     map var_name (program_variables q) = ["q"] /\
     filter (fun v => match v with VInt _ | VFloat _ => true | _ => false end) (result_values q) =
      [VFloat (S754_infinity false); VInt (- 2 ^ 63); VFloat S754_nan; VFloat (float_of_Z 2); VInt (- 2 ^ 62)]
     | None => False end | _ => False end)) as (p & P & H); [vm_compute; split; reflexivity|].
  destruct (analyze_ast (fresh_analyzer same_libm) p) as [[st r]| | |] eqn:A; try contradiction. destruct (res_root r) as [q|] eqn:Q; [|contradiction].
  destruct H as [H1 H2]. exists p, st, r, q. auto.
Qed.
Print Assumptions C84_result. Print Assumptions C84_expression. Print Assumptions C84_parsed.
