(** The location written in a node of a tree, for the specifications. *)
From Verif Require Import Base ModelError ModelAst.

Definition place_of (e : expr) : loc :=
  match e with
  | EBool l _ => l
  | EInt l _ => l
  | EFloat l _ => l
  | EIdent l _ => l
  | EIndex l _ _ => l
  | ECall l _ _ => l
  | EUnary l _ _ => l
  | EBinary l _ _ _ => l
  | ETernary l _ _ _ => l
  end.
Definition place_of_statement (s : statement) : loc :=
  match s with
  | SVariable l _ _ _ => l
  | SGateInstr l _ _ _ => l
  | SNonGate l _ _ _ _ => l
  | SAsm l _ _ _ => l
  end.
Definition place_of_result (s : sem_statement) : loc :=
  match s with
  | SemGateInstr l _ _ _ _ => l
  | SemNonGate l _ _ _ _ _ => l
  | SemAsm l _ _ _ => l
  end.
