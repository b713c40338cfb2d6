(** Property C83: the values of the named constants. *)
From Coq Require Import Reals.
From Verif Require Import Base ModelUtils ModelVersion ModelError ModelTypes ModelOverload ModelFunctions ModelInstructionSet ModelAst ModelAnalyzer ModelSemantic
  SpecTypes SpecFunctions SpecAnalyzer ProofsAnalyzer2 ProofsConstants PropertiesAnalyzer.
Local Open Scope string_scope.

(** C83: at any point of a program, on an analyzer used before or not, whatever the
    program tries to declare, pi, tau and eu are the doubles nearest to the
    numbers they are named after (PI and exp are those of Coq's real numbers). *)
Theorem C83_numbers : forall lm st lb ss st1 es l, analyses lm st -> visit_block lb st ss = (Ok st1, es) ->
  (exists f, visit st1 (EIdent l "pi") = Ok (VFloat f) /\ finite_double f /\ real_of f = nearest_double PI) /\
  (exists f, visit st1 (EIdent l "tau") = Ok (VFloat f) /\ finite_double f /\ real_of f = nearest_double (2 * PI)) /\
  (exists f, visit st1 (EIdent l "eu") = Ok (VFloat f) /\ finite_double f /\ real_of f = nearest_double (exp 1)).
Proof. exact constant_numbers. Qed.
Theorem C83_booleans : forall lm st lb ss st1 es l, analyses lm st -> visit_block lb st ss = (Ok st1, es) ->
  visit st1 (EIdent l "true") = Ok (VBool true) /\ visit st1 (EIdent l "false") = Ok (VBool false).
Proof. exact constant_booleans. Qed.

(** A program that declares a qubit, then tries to redeclare pi and true. *)
Example C83_case : forall lm, analyses lm (fresh_analyzer lm) /\ exists st1 es,
  visit_block None (fresh_analyzer lm) [qubit_decl "q"; qubit_decl "pi"; SVariable None "true" (mkAstType None "bit" None) []; gate_on "Rx" [EIdent None "pi"] [name "q"]]
    = (Ok st1, es) /\ List.length es = 2%nat.
Proof.
  intros lm. split; [apply an_default, fresh_is_default|].
  match goal with |- exists st1 es, ?v = _ /\ _ => assert (H : match v with (Ok _, es) => List.length es = 2%nat | _ => False end) by (vm_compute; reflexivity); destruct v as [[st1| | |] es]; try contradiction end.
  exists st1, es. split; [reflexivity|exact H].
Qed.
Print Assumptions C83_numbers.
Print Assumptions C83_booleans.
