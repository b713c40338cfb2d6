(** Independent specification of the sizes of trees and results (C93). *)
From Verif Require Import Base ModelError ModelTypes ModelAst ModelAnalyzer.

Definition sum (l : list nat) : nat := fold_right Nat.add 0 l.

(** The nodes of a syntax tree *)
Fixpoint expr_nodes (e : expr) : nat :=
  S match e with
    | EBool _ _ | EInt _ _ | EFloat _ _ | EIdent _ _ => 0
    | EIndex _ b idx => expr_nodes b + sum (map entry_nodes idx)
    | ECall _ _ None => 0
    | ECall _ _ (Some args) => sum (map expr_nodes args)
    | EUnary _ _ a => expr_nodes a
    | EBinary _ _ a b => expr_nodes a + expr_nodes b
    | ETernary _ a b c => expr_nodes a + expr_nodes b + expr_nodes c
    end
with entry_nodes (i : index_entry) : nat :=
  S match i with
    | IItem _ e => expr_nodes e
    | IRange _ a b => expr_nodes a + expr_nodes b
    end.
Fixpoint gate_nodes (g : gate) : nat :=
  let 'Gate _ _ inner ps _ := g in
  S (match inner with None => 0 | Some i => gate_nodes i end + sum (map expr_nodes ps)).
Definition statement_nodes (s : statement) : nat :=
  S match s with
    | SVariable _ _ _ _ => 1
    | SGateInstr _ g ops _ => gate_nodes g + sum (map expr_nodes ops)
    | SNonGate _ _ ops ps _ => sum (map expr_nodes ops) + sum (map expr_nodes ps)
    | SAsm _ _ _ _ => 0
    end.
Definition program_nodes (p : program) : nat := S (sum (map statement_nodes (prog_statements p))).

(** The nodes of a result: variables, instructions, gates, operands and parameters, but
    not the indices of operands *)
Fixpoint sem_gate_nodes (g : sem_gate) : nat :=
  let 'SemGate _ _ inner ps _ := g in
  S (match inner with None => 0 | Some i => sem_gate_nodes i end + List.length ps).
Definition operands_of (s : sem_statement) : list value :=
  match s with
  | SemGateInstr _ _ _ ops _ => ops
  | SemNonGate _ _ _ ops _ _ => ops
  | SemAsm _ _ _ _ => []
  end.
Definition sem_statement_nodes (s : sem_statement) : nat :=
  S (List.length (operands_of s) +
     match s with
     | SemGateInstr _ _ g _ _ => sem_gate_nodes g
     | SemNonGate _ _ _ _ ps _ => List.length ps
     | SemAsm _ _ _ _ => 0
     end).
Definition result_nodes (q : sem_program) : nat :=
  S (List.length (sp_variables q) + sum (map sem_statement_nodes (blk_statements (sp_block q)))).
(** The indices in a result *)
Definition indices_of (v : value) : list Z := match v with VIndex _ zs => zs | _ => [] end.
Definition result_indices (q : sem_program) : list Z :=
  flat_map (fun s => flat_map indices_of (operands_of s)) (blk_statements (sp_block q)).
