(** Independent specification of programs whose instructions act on single elements (C113). *)
From Verif Require Import Base ModelTypes ModelOverload ModelFunctions ModelAst ModelAnalyzer ModelSemantic SpecTypes SpecFunctions SpecAnalyzer SpecEvaluate SpecMeaning SpecResize.
Local Open Scope string_scope.

(** ** In the program: every operand is a variable that is no register, or x[z] for a number z. *)
Definition single_operand (ss : list statement) (e : expr) : Prop :=
  (exists l n l' t, e = EIdent l n /\ In (SVariable l' n t []) ss /\ ty_size t = None) \/
  (exists l l' n l2 l3 z, e = EIndex l (EIdent l' n) [IItem l2 (EInt l3 z)]).
Definition elementary_program (p : program) : Prop :=
  forall s e, In s (prog_statements p) -> In e (operands_of s) -> single_operand (prog_statements p) e.

(** ** In the result: the elements of an operand, one by one *)
Definition elements (v : value) : list value :=
  match v with
  | VVar x => match kind (var_type x) with
              | TQubitArray | TBitArray => map (fun z => VIndex x [z]) (from_to 0 (tsize (var_type x) - 1))
              | _ => [v]
              end
  | VIndex x zs => map (fun z => VIndex x [z]) zs
  | _ => []
  end.
(** The operands for the i-th of the instructions *)
Definition nth_elements (i : nat) (vs : list value) : list value := map (fun v => nth i (elements v) v) vs.
Definition width (vs : list value) : nat := match vs with v :: _ => List.length (elements v) | [] => 1 end.
Definition elementary_instructions (x : sem_statement) : list sem_statement :=
  match x with
  | SemGateInstr l j g vs an => map (fun i => SemGateInstr l (instruction_for (instr_name j) (nth_elements i vs)) g (nth_elements i vs) an) (seq 0 (width vs))
  | SemNonGate l j n vs ws an => map (fun i => SemNonGate l (instruction_for (instr_name j) (nth_elements i vs)) n (nth_elements i vs) ws an) (seq 0 (width vs))
  | SemAsm _ _ _ _ => [x]
  end.
Definition elementary_result (q : sem_program) : sem_program :=
  mkSemProgram (sp_api_version q) (sp_version q) (sp_version_loc q)
    (mkBlock (flat_map elementary_instructions (blk_statements (sp_block q))) (blk_loc (sp_block q))) (sp_variables q).
