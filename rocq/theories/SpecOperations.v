(** Independent specification of the operations of a result (C117). *)
From Verif Require Import Base ModelTypes ModelOverload ModelFunctions ModelAst ModelAnalyzer ModelSemantic SpecTypes SpecFunctions SpecAnalyzer SpecEvaluate SpecMeaning SpecResize SpecFlat.

(** A qubit or bit: whether it is a qubit, and its number among all qubits, or all bits *)
Definition place : Type := bool * Z.
Definition places (vars : list variable) (v : value) : list place :=
  match v with VVar x | VIndex x _ => map (pair (of_qubits x)) (numbers_of vars v) | _ => [] end.
(** What is done once, with single qubits and bits *)
Inductive operation : Type :=
| OGate (g : sem_gate) (at_places : list place)
| OOther (name : string) (at_places : list place) (parameters : list value)
| OAsm (name code : string).
(** An instruction is applied to the first places of its operands, to the second ones, ... *)
Definition applications (vars : list variable) (vs : list value) : list (list place) :=
  let ps := map (places vars) vs in
  map (fun i => map (fun p => nth i p (false, 0%Z)) ps) (seq 0 (match ps with p :: _ => List.length p | [] => 1 end)).
Definition operations_of (vars : list variable) (x : sem_statement) : list operation :=
  match x with
  | SemGateInstr _ _ g vs _ => map (OGate g) (applications vars vs)
  | SemNonGate _ _ n vs ws _ => map (fun ps => OOther n ps ws) (applications vars vs)
  | SemAsm _ n c _ => [OAsm n c]
  end.
Definition operations (q : sem_program) : list operation := flat_map (operations_of (result_variables q)) (blk_statements (sp_block q)).
