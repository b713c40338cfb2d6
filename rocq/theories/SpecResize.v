(** Independent specification of programs with other sizes of registers (C106). *)
From Verif Require Import Base ModelTypes ModelFunctions ModelAst ModelAnalyzer ModelSemantic SpecTypes SpecFunctions SpecAnalyzer.
Local Open Scope string_scope.

Section Resize.
  (** The new size of the registers of some names *)
  Variable size : string -> option Z.

  (** ** In the program: only declarations with a size change *)
  Definition resize_declared (n : string) (t : ast_type) : ast_type :=
    match ty_size t, size n with
    | Some _, Some z => mkAstType (ty_loc t) (ty_name t) (Some z)
    | _, _ => t
    end.
  Definition resize_statement (s : statement) : statement :=
    match s with SVariable l n t an => SVariable l n (resize_declared n t) an | _ => s end.
  Definition resize_program (p : program) : program :=
    mkProgram (prog_version p) (prog_version_loc p) (map resize_statement (prog_statements p)) (prog_block_loc p).

  (** ** In the result: the types of the registers change, and nothing else *)
  Definition resize_variable (x : variable) : variable :=
    match kind (var_type x), size (var_name x) with
    | TQubitArray, Some z => mkVariable (var_id x) (var_name x) (mkType TQubitArray z)
    | TBitArray, Some z => mkVariable (var_id x) (var_name x) (mkType TBitArray z)
    | _, _ => x
    end.
  Definition resize_value (v : value) : value :=
    match v with VVar x => VVar (resize_variable x) | VIndex x zs => VIndex (resize_variable x) zs | _ => v end.
  Definition resize_instruction (s : sem_statement) : sem_statement :=
    match s with
    | SemGateInstr l i g vs an => SemGateInstr l i g (map resize_value vs) an
    | SemNonGate l i n vs ws an => SemNonGate l i n (map resize_value vs) ws an
    | SemAsm _ _ _ _ => s
    end.
  Definition resize_result (q : sem_program) : sem_program :=
    mkSemProgram (sp_api_version q) (sp_version q) (sp_version_loc q)
      (mkBlock (map resize_instruction (blk_statements (sp_block q))) (blk_loc (sp_block q)))
      (map (fun x => mkSemVariable (resize_variable (sv_var x)) (sv_annots x)) (sp_variables q)).

  (** ** When this is possible *)

  (** The registers are used with indices only. *)
  Definition operands_of (s : statement) : list expr :=
    match s with SGateInstr _ _ ops _ => ops | SNonGate _ _ ops _ _ => ops | _ => [] end.
  Definition used_with_indices (p : program) : Prop :=
    forall s l n, In s (prog_statements p) -> In (EIdent l n) (operands_of s) -> size n = None.
  (** The indices exist in the registers of the new sizes. *)
  Definition result_operands (s : sem_statement) : list value :=
    match s with SemGateInstr _ _ _ vs _ => vs | SemNonGate _ _ _ vs _ _ => vs | SemAsm _ _ _ _ => [] end.
  Definition large_enough (q : sem_program) : Prop :=
    forall s x zs z, In s (blk_statements (sp_block q)) -> In (VIndex x zs) (result_operands s) -> size (var_name x) = Some z ->
      Forall (fun i => i < z)%Z zs.
  (** Sizes are positive integers of 64 bits. *)
  Definition sizes_legal : Prop := forall n z, size n = Some z -> (0 < z)%Z /\ fits z.
  (** No register gets smaller. *)
  Definition grows (p : program) : Prop :=
    forall l n t an k z, In (SVariable l n t an) (prog_statements p) -> ty_size t = Some k -> size n = Some z -> (k <= z)%Z.
End Resize.
