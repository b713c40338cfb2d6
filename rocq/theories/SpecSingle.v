(** Independent specification of single qubits and bits as registers of one (C109). *)
From Verif Require Import Base ModelTypes ModelOverload ModelFunctions ModelAst ModelAnalyzer ModelSemantic SpecTypes SpecFunctions SpecAnalyzer SpecEvaluate SpecMeaning SpecResize.
Local Open Scope string_scope.

Section Single.
  (** The names of the qubits and bits that become registers *)
  Variable single : string -> bool.

  (** ** In the program: declarations without a size get the size 1 *)
  Definition widen_declared (n : string) (t : ast_type) : ast_type :=
    match ty_size t, single n with None, true => mkAstType (ty_loc t) (ty_name t) (Some 1%Z) | _, _ => t end.
  Definition widen_statement (s : statement) : statement :=
    match s with SVariable l n t an => SVariable l n (widen_declared n t) an | _ => s end.
  Definition widen_program (p : program) : program :=
    mkProgram (prog_version p) (prog_version_loc p) (map widen_statement (prog_statements p)) (prog_block_loc p).

  (** ** In the result: the variables are registers of size 1, and the instructions have
      the types of the new operands *)
  Definition widen_variable (x : variable) : variable :=
    match kind (var_type x), single (var_name x) with
    | TQubit, true => mkVariable (var_id x) (var_name x) (mkType TQubitArray 1)
    | TBit, true => mkVariable (var_id x) (var_name x) (mkType TBitArray 1)
    | _, _ => x
    end.
  Definition widen_value (v : value) : value :=
    match v with VVar x => VVar (widen_variable x) | VIndex x zs => VIndex (widen_variable x) zs | _ => v end.
  Definition widen_instruction (s : sem_statement) : sem_statement :=
    match s with
    | SemGateInstr l i g vs an => SemGateInstr l (instruction_for (instr_name i) (map widen_value vs)) g (map widen_value vs) an
    | SemNonGate l i n vs ws an => SemNonGate l (instruction_for (instr_name i) (map widen_value vs)) n (map widen_value vs) ws an
    | SemAsm _ _ _ _ => s
    end.
  Definition widen_result (q : sem_program) : sem_program :=
    mkSemProgram (sp_api_version q) (sp_version q) (sp_version_loc q)
      (mkBlock (map widen_instruction (blk_statements (sp_block q))) (blk_loc (sp_block q)))
      (map (fun x => mkSemVariable (widen_variable (sv_var x)) (sv_annots x)) (sp_variables q)).

  (** ** The names are used without indices. *)
  Definition used_whole (p : program) : Prop :=
    forall s l l' n es, In s (prog_statements p) -> In (EIndex l (EIdent l' n) es) (operands_of s) -> single n = false.
End Single.
