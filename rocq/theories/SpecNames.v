(** Independent specification of the names of instructions (C87): which names a
    program can mention, and under which name an instruction appears in a result. *)
From Verif Require Import Base ModelError ModelTypes ModelOverload ModelInstructionSet ModelAst SpecLexer.
Local Open Scope string_scope.

(** At most one of the answers is yes. *)
Definition at_most_one (answers : list bool) : Prop := (count_occ Bool.bool_dec answers true <= 1)%nat.

(** ** The names in a program: of variables, constants, functions, instructions,
    modifiers and backends *)
Fixpoint expr_words (e : expr) : list string :=
  match e with
  | EBool _ _ | EInt _ _ | EFloat _ _ => []
  | EIdent _ n => [n]
  | EIndex _ b idx => (expr_words b ++ flat_map entry_words idx)%list
  | ECall _ f None => [f]
  | ECall _ f (Some args) => f :: flat_map expr_words args
  | EUnary _ _ a => expr_words a
  | EBinary _ _ a b => (expr_words a ++ expr_words b)%list
  | ETernary _ a b c => (expr_words a ++ expr_words b ++ expr_words c)%list
  end
with entry_words (i : index_entry) : list string :=
  match i with
  | IItem _ e => expr_words e
  | IRange _ a b => (expr_words a ++ expr_words b)%list
  end.
Fixpoint gate_words (g : gate) : list string :=
  let 'Gate _ n i ps _ := g in
  (n :: match i with None => [] | Some g' => gate_words g' end ++ flat_map expr_words ps)%list.
Definition statement_words (s : statement) : list string :=
  match s with
  | SVariable _ n _ _ => [n]
  | SGateInstr _ g ops _ => (gate_words g ++ flat_map expr_words ops)%list
  | SNonGate _ n ops ps _ => (n :: flat_map expr_words ops ++ flat_map expr_words ps)%list
  | SAsm _ n _ _ => [n]
  end.
Definition program_words (p : program) : list string := flat_map statement_words (prog_statements p).

(** A letter or an underscore first. *)
Definition starts_like_a_name (n : string) : Prop := exists c r, n = String c r /\ letter c.

(** ** The names in a result *)

(** The gate the modifiers are applied to. *)
Inductive base_name : sem_gate -> string -> Prop :=
| base_named l n ps an : base_name (SemGate l n None ps an) n
| base_modified l m g ps an n : base_name g n -> base_name (SemGate l m (Some g) ps an) n.
(** The name of the instruction: that of the gate, or, with modifiers, that of the
    base gate after the prefix for one or for two qubits. *)
Inductive applied_name : sem_gate -> string -> Prop :=
| applied_named l n ps an : applied_name (SemGate l n None ps an) n
| applied_one l m g ps an n : m = "inv" \/ m = "pow" -> base_name g n -> applied_name (SemGate l m (Some g) ps an) ("1q_" ++ n)
| applied_two l g ps an n : base_name g n -> applied_name (SemGate l "ctrl" (Some g) ps an) ("2q_" ++ n).
Definition modified (g : sem_gate) : Prop := exists l m g' ps an, g = SemGate l m (Some g') ps an.
(** What the InstructionSet answers about the name of an instruction of a result
    tells modified gates from named ones, and the number of operands. *)
Definition well_named (s : sem_statement) : Prop :=
  match s with
  | SemGateInstr _ i g ops _ =>
      applied_name g (instr_name i) /\ is_gate (instr_name i) = true /\
      (is_gate_composition (instr_name i) = true <-> modified g) /\
      (is_single_qubit_gate (instr_name i) = true <-> List.length ops = 1%nat) /\
      (is_two_qubit_gate (instr_name i) = true <-> List.length ops = 2%nat)
  | SemNonGate _ i n _ _ _ => instr_name i = n /\ is_non_gate n = true
  | SemAsm _ _ _ _ => True
  end.
