(** Independent specification of ranges and whole registers as abbreviations (C107). *)
From Verif Require Import Base ModelTypes ModelOverload ModelFunctions ModelAst ModelAnalyzer ModelSemantic SpecTypes SpecFunctions SpecAnalyzer SpecEvaluate SpecMeaning SpecResize.
Local Open Scope string_scope.

(** ** A range [a:b] and the list of the numbers from a to b *)
Definition number_item (i : index_entry) (z : Z) : Prop := exists l l', i = IItem l (EInt l' z).
Inductive spelled_entries : list index_entry -> list index_entry -> Prop :=
| spelled_end : spelled_entries [] []
| spelled_entry i es es' : spelled_entries es es' -> spelled_entries (i :: es) (i :: es')
| spelled_range l la lb a b items es es' : (a <= b)%Z -> Forall2 number_item items (from_to a b) -> spelled_entries es es' ->
    spelled_entries (IRange l (EInt la a) (EInt lb b) :: es) (items ++ es').
Inductive spelled_operand : expr -> expr -> Prop :=
| spelled_same e : spelled_operand e e
| spelled_index l b es es' : spelled_entries es es' -> spelled_operand (EIndex l b es) (EIndex l b es').

(** ** Programs whose operands are changed in this way *)
Inductive respelled (R : expr -> expr -> Prop) : statement -> statement -> Prop :=
| respelled_gate l g ops ops' an : Forall2 R ops ops' -> respelled R (SGateInstr l g ops an) (SGateInstr l g ops' an)
| respelled_other l n ops ops' ps an : Forall2 R ops ops' -> respelled R (SNonGate l n ops ps an) (SNonGate l n ops' ps an)
| respelled_declaration l n t an : respelled R (SVariable l n t an) (SVariable l n t an)
| respelled_asm l n c an : respelled R (SAsm l n c an) (SAsm l n c an).
Definition respelled_program (R : expr -> expr -> Prop) (p p' : program) : Prop :=
  prog_version p' = prog_version p /\ prog_version_loc p' = prog_version_loc p /\ prog_block_loc p' = prog_block_loc p /\
  Forall2 (respelled R) (prog_statements p) (prog_statements p').

(** ** A whole register of size k and the range [0:k-1] of it *)
Section Listed.
  (** The registers to be written in this way, with their sizes *)
  Variable size : string -> option Z.

  Inductive listed_operand : expr -> expr -> Prop :=
  | listed_same e : (forall l n, e = EIdent l n -> size n = None) -> listed_operand e e
  | listed_whole l n k l1 l2 l3 l4 l5 : size n = Some k ->
      listed_operand (EIdent l n) (EIndex l1 (EIdent l2 n) [IRange l3 (EInt l4 0) (EInt l5 (k - 1))]).
  Definition sizes_declared (p : program) : Prop :=
    forall l n t an k, In (SVariable l n t an) (prog_statements p) -> size n = Some k -> ty_size t = Some k.

  (** In the result the operand is the list of all elements of the register, and the
      instruction has the types of the new operands. *)
  Definition list_value (v : value) : value :=
    match v with
    | VVar x => match size (var_name x) with Some k => VIndex x (from_to 0 (k - 1)) | None => v end
    | _ => v
    end.
  Definition list_instruction (s : sem_statement) : sem_statement :=
    match s with
    | SemGateInstr l i g vs an => SemGateInstr l (instruction_for (instr_name i) (map list_value vs)) g (map list_value vs) an
    | SemNonGate l i n vs ws an => SemNonGate l (instruction_for (instr_name i) (map list_value vs)) n (map list_value vs) ws an
    | SemAsm _ _ _ _ => s
    end.
  Definition list_result (q : sem_program) : sem_program :=
    mkSemProgram (sp_api_version q) (sp_version q) (sp_version_loc q)
      (mkBlock (map list_instruction (blk_statements (sp_block q))) (blk_loc (sp_block q))) (sp_variables q).
End Listed.
