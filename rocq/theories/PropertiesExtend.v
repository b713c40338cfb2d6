(** Property C98: what is registered under other names. *)
From Verif Require Import Base ModelUtils ModelVersion ModelError ModelTypes ModelOverload ModelFunctions ModelInstructionSet ModelAst ModelAnalyzer ModelSemantic ModelLexer ModelSyntactic
  SpecUtils SpecInstructions SpecAnalyzer SpecRename SpecLexer SpecSyntax SpecReading ProofsAnalyzer2 PropertiesAnalyzer PropertiesSyntax SpecExtend ProofsExtend.
Local Open Scope string_scope.

(** C98: registering constants, functions and instructions, at any moments, changes
    nothing in the results of the analyses of programs that do not use their names. *)
Theorem C98_unused_names : forall st us, scopes st <> [] -> registers_unused us -> analyses st us = analyses st (only_analyses us).
Proof. exact registers_nothing. Qed.

(** A case: between two programs a constant, a function, an overload of an operator,
    and instructions are registered; one registration is refused. *)
Definition extras : list use :=
  [Register (RVariable "half" (VInt 2)); Register (RFunctionSpec "twice" "i" (fun _ => Ok (VInt 2)));
   Register (RFunctionSpec "operator*" "ii" (fun _ => Ok (VInt 0))); Register (RInstructionSpec "MyGate" (Some "QQ"));
   Register (RVariable "pi" (VInt 3)); Register (RInstruction (mkInstruction "1q_Ry" [make_type TBit]))].
Definition text_before : string := "version 3.0; qubit[2] q; Rx(1 + 1) q[0]".
Definition text_after : string := "version 3.0; bit b; inv.Rx(2 - 1) q[0]; b = measure q[1]; H b".
Example C98_case : forall lm, exists p1 p2 r1 r2,
  parse_string None false text_before = Ok (mkResult (Some p1) []) /\ parse_string None false text_after = Ok (mkResult (Some p2) []) /\
  scopes (fresh_analyzer lm) <> [] /\
  registers_unused (Analyse (mkResult (Some p1) []) :: extras ++ [Analyse (mkResult (Some p2) [])])%list /\
  analyses (fresh_analyzer lm) (Analyse (mkResult (Some p1) []) :: extras ++ [Analyse (mkResult (Some p2) [])])%list = [Ok r1; Ok r2] /\
  res_errors r1 = [] /\ List.length (res_errors r2) = 1%nat.
Proof.
  intros lm.
  destruct (tree_case None text_before (fun p => program_names p = ["q"; "q"] /\ program_functions p = ["operator+"] /\ program_instructions p = ["Rx"])) as (p1 & P1 & N1 & F1 & I1); [vm_compute; auto|].
  destruct (tree_case None text_after (fun p => program_names p = ["b"; "q"; "b"; "q"; "b"] /\ program_functions p = ["operator-"] /\ program_instructions p = ["1q_Rx"; "measure"; "H"])) as (p2 & P2 & N2 & F2 & I2); [vm_compute; auto|].
  assert (K : match parse_string None false text_before, parse_string None false text_after with
              | Ok (mkResult (Some q1) []), Ok (mkResult (Some q2) []) =>
                  match analyses (fresh_analyzer lm) (Analyse (mkResult (Some q1) []) :: extras ++ [Analyse (mkResult (Some q2) [])])%list with
                  | [Ok r1; Ok r2] => res_errors r1 = [] /\ List.length (res_errors r2) = 1%nat
                  | _ => False
                  end
              | _, _ => False
              end) by (vm_compute; auto).
  rewrite P1, P2 in K. destruct (analyses _ _) as [|[r1|?|?|?] [|[r2|?|?|?] [|? ?]]] eqn:E; try contradiction. exists p1, p2, r1, r2. split; [exact P1|]. split; [exact P2|]. split; [discriminate|]. split; [|split; [exact E|exact K]].
  intros r t p Hr Ht Ep. assert (Q : p = p1 \/ p = p2).
  { cbn in Ht. repeat (destruct Ht as [Ht|Ht]; [try discriminate Ht; injection Ht as <-; cbn in Ep; injection Ep as <-; auto|]). contradiction. }
  cbn in Hr. destruct Hr as [Hr|Hr]; [discriminate|].
  repeat (destruct Hr as [Hr|Hr]; [try discriminate Hr; injection Hr as <-; cbn [unused instr_name]; destruct Q as [->| ->]; rewrite ?N1, ?N2, ?F1, ?F2, ?I1, ?I2; cbn; intuition discriminate|]). contradiction.
Qed.
Definition text_declares : string := "version 3.0; qubit[2] q".
(** The names matter: a constant registered under a name that the program declares
    makes the analysis fail. *)
Example C98_used_names : forall lm, exists p r r',
  parse_string None false text_declares = Ok (mkResult (Some p) []) /\
  analyses (fresh_analyzer lm) [Register (RVariable "q" (VInt 2)); Analyse (mkResult (Some p) [])] = [Ok r] /\ res_errors r <> [] /\
  analyses (fresh_analyzer lm) [Analyse (mkResult (Some p) [])] = [Ok r'] /\ res_errors r' = [].
Proof.
  intros lm. destruct (tree_case None text_declares (fun p =>
    match analyses (fresh_analyzer lm) [Register (RVariable "q" (VInt 2)); Analyse (mkResult (Some p) [])], analyses (fresh_analyzer lm) [Analyse (mkResult (Some p) [])] with
    | [Ok r], [Ok r'] => res_errors r <> [] /\ res_errors r' = []
    | _, _ => False
    end)) as (p & P & H); [vm_compute; split; [discriminate|reflexivity]|].
  destruct (analyses _ [Register _; _]) as [|[r|?|?|?] [|? ?]] eqn:E; try contradiction. destruct (analyses _ [Analyse _]) as [|[r'|?|?|?] [|? ?]] eqn:E'; try contradiction. exists p, r, r'. destruct H. auto.
Qed.
Print Assumptions C98_unused_names.
