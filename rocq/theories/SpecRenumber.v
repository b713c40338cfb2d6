(** Independent specification of registers with other numbers for their elements (C114). *)
From Verif Require Import Base ModelTypes ModelOverload ModelFunctions ModelAst ModelAnalyzer ModelSemantic SpecTypes SpecFunctions SpecAnalyzer SpecResize.
Local Open Scope string_scope.

Section Renumber.
  (** The new numbers of the elements of the registers of some names *)
  Variable f : string -> option (Z -> Z).

  (** ** In the program *)
  Definition renumber_entry (g : Z -> Z) (i : index_entry) : index_entry :=
    match i with IItem l (EInt l' z) => IItem l (EInt l' (g z)) | _ => i end.
  Definition renumber_operand (e : expr) : expr :=
    match e with
    | EIndex l (EIdent l' n) es => match f n with Some g => EIndex l (EIdent l' n) (map (renumber_entry g) es) | None => e end
    | _ => e
    end.
  Definition renumber_statement (s : statement) : statement :=
    match s with
    | SGateInstr l g ops an => SGateInstr l g (map renumber_operand ops) an
    | SNonGate l n ops ps an => SNonGate l n (map renumber_operand ops) ps an
    | _ => s
    end.
  Definition renumber_program (p : program) : program :=
    mkProgram (prog_version p) (prog_version_loc p) (map renumber_statement (prog_statements p)) (prog_block_loc p).

  (** ** In the result *)
  Definition renumber_value (v : value) : value :=
    match v with
    | VIndex x zs => match f (var_name x) with Some g => VIndex x (map g zs) | None => v end
    | _ => v
    end.
  Definition renumber_instruction (x : sem_statement) : sem_statement :=
    match x with
    | SemGateInstr l i g vs an => SemGateInstr l i g (map renumber_value vs) an
    | SemNonGate l i n vs ws an => SemNonGate l i n (map renumber_value vs) ws an
    | SemAsm _ _ _ _ => x
    end.
  Definition renumber_result (q : sem_program) : sem_program :=
    mkSemProgram (sp_api_version q) (sp_version q) (sp_version_loc q)
      (mkBlock (map renumber_instruction (blk_statements (sp_block q))) (blk_loc (sp_block q))) (sp_variables q).

  (** ** When this is possible: the indices of these registers are numbers *)
  Definition numbered (e : expr) : Prop :=
    forall l l' n es, e = EIndex l (EIdent l' n) es -> f n <> None -> Forall (fun i => exists l1 l2 z, i = IItem l1 (EInt l2 z)) es.
  Definition all_numbered (p : program) : Prop := forall s e, In s (prog_statements p) -> In e (operands_of s) -> numbered e.
  (** A number is that of an element if and only if the new one is. *)
  Definition stay_elements (p : program) : Prop :=
    forall l n t an k g, In (SVariable l n t an) (prog_statements p) -> ty_size t = Some k -> f n = Some g -> forall z, (0 <= z < k)%Z <-> (0 <= g z < k)%Z.
  (** Numbers of a machine remain such numbers. *)
  Definition stay_numbers : Prop := forall n g z, f n = Some g -> fits z -> fits (g z).
End Renumber.
