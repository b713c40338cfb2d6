(** Independent specification of programs with the same numbers (C108). *)
From Verif Require Import Base ModelTypes ModelOverload ModelFunctions ModelAst ModelAnalyzer ModelSemantic SpecTypes SpecFunctions SpecInstructions SpecAnalyzer SpecEvaluate SpecMeaning.
Local Open Scope string_scope.

Section Numbers.
  Variable lm : libm.

  (** The two expressions have values that are the same number where one of type k is
      expected. *)
  Definition same_number (k : type_kind) (e e' : expr) : Prop :=
    exists q q' w, evaluates lm e q /\ evaluates lm e' q' /\ stored_number q k w /\ stored_number q' k w.
  Inductive same_numbers : list type_kind -> list expr -> list expr -> Prop :=
  | same_none : same_numbers [] [] []
  | same_one k ks e e' es es' : e = e' \/ same_number k e e' -> same_numbers ks es es' -> same_numbers (k :: ks) (e :: es) (e' :: es').

  (** Indices are integers. *)
  Inductive same_entry : index_entry -> index_entry -> Prop :=
  | same_item l e e' : e = e' \/ same_number TInt e e' -> same_entry (IItem l e) (IItem l e')
  | same_range l a a' b b' : a = a' \/ same_number TInt a a' -> b = b' \/ same_number TInt b b' -> same_entry (IRange l a b) (IRange l a' b').
  Inductive same_operand : expr -> expr -> Prop :=
  | same_expression e : same_operand e e
  | same_elements l b es es' : Forall2 same_entry es es' -> same_operand (EIndex l b es) (EIndex l b es').

  (** The parameters of a gate have the types of the instruction set; the exponent of
      the modifier pow is a float. *)
  Inductive same_gate : gate -> gate -> Prop :=
  | same_named l n ps ps' : (forall ks a, In (n, (ks, a)) gates -> same_numbers ks ps ps') -> same_gate (Gate l n None ps []) (Gate l n None ps' [])
  | same_modified l n g g' : same_gate g g' -> same_gate (Gate l n (Some g) [] []) (Gate l n (Some g') [] [])
  | same_power l g g' ps ps' : same_gate g g' -> same_numbers [TFloat] ps ps' -> same_gate (Gate l "pow" (Some g) ps []) (Gate l "pow" (Some g') ps' []).

  Inductive same_statement : statement -> statement -> Prop :=
  | same_gates l g g' ops ops' an : same_gate g g' -> Forall2 same_operand ops ops' -> same_statement (SGateInstr l g ops an) (SGateInstr l g' ops' an)
  | same_non_gates l n ops ops' ps ps' an : (forall ks cs, In (n, (ks, cs)) non_gates -> same_numbers ks ps ps') -> Forall2 same_operand ops ops' ->
      same_statement (SNonGate l n ops ps an) (SNonGate l n ops' ps' an)
  | same_rest s : same_statement s s.
  Definition same_program (p p' : program) : Prop :=
    prog_version p' = prog_version p /\ prog_version_loc p' = prog_version_loc p /\ Forall2 same_statement (prog_statements p) (prog_statements p').
End Numbers.
