(** Independent specification of two registers as one (C111). *)
From Verif Require Import Base ModelTypes ModelOverload ModelFunctions ModelAst ModelAnalyzer ModelSemantic SpecTypes SpecFunctions SpecAnalyzer SpecEvaluate SpecMeaning SpecResize.
Local Open Scope string_scope.

Section Merge.
  (** The registers a and b of sizes m and k; the elements of b become those of a from
      number m on. *)
  Variables (a b : string) (m k : Z).

  (** ** In the program *)
  Definition shift_number (e : expr) : expr := match e with EInt l z => EInt l (m + z) | _ => e end.
  Definition shift_entry (i : index_entry) : index_entry :=
    match i with IItem l e => IItem l (shift_number e) | IRange l e1 e2 => IRange l (shift_number e1) (shift_number e2) end.
  Definition merge_operand (e : expr) : expr :=
    match e with
    | EIndex l (EIdent l' n) es => if n =? b then EIndex l (EIdent l' a) (map shift_entry es) else e
    | _ => e
    end.
  Definition merge_statement (s : statement) : statement :=
    match s with
    | SGateInstr l g ops an => SGateInstr l g (map merge_operand ops) an
    | SNonGate l n ops ps an => SNonGate l n (map merge_operand ops) ps an
    | _ => s
    end.
  (** The declarations of a and b, one after the other, with any statements before and
      behind them *)
  Definition two_registers (p : program) (before : list statement) (la lb lta ltb : loc) (type : string) (behind : list statement) : Prop :=
    prog_statements p = (before ++ SVariable la a (mkAstType lta type (Some m)) [] :: SVariable lb b (mkAstType ltb type (Some k)) [] :: behind)%list.
  Definition one_register (p : program) (before : list statement) (la lta : loc) (type : string) (behind : list statement) : program :=
    mkProgram (prog_version p) (prog_version_loc p)
      (before ++ SVariable la a (mkAstType lta type (Some (m + k)%Z)) [] :: map merge_statement behind)%list (prog_block_loc p).
  (** Behind the declarations a and b are used with indices only; those of b are numbers. *)
  Definition number_of_b (e : expr) : Prop := exists l z, e = EInt l z /\ (0 <= z < k)%Z.
  Definition entry_of_b (i : index_entry) : Prop :=
    match i with IItem _ e => number_of_b e | IRange _ e1 e2 => number_of_b e1 /\ number_of_b e2 end.
  Definition mergeable_operand (e : expr) : Prop :=
    match e with
    | EIdent _ n => n <> a /\ n <> b
    | EIndex _ (EIdent _ n) es => n = b -> Forall entry_of_b es
    | _ => True
    end.
  Definition mergeable (behind : list statement) : Prop := forall s e, In s behind -> In e (operands_of s) -> mergeable_operand e.

  (** ** In the result: b is no longer there, so the variables behind it have other
      numbers; those before a are [before] many. *)
  Variable before : nat.
  Definition merge_variable (x : variable) : variable :=
    if var_name x =? a then mkVariable (var_id x) a (mkType (kind (var_type x)) (m + k))
    else if (before <? var_id x)%nat then mkVariable (pred (var_id x)) (var_name x) (var_type x) else x.
  Definition merge_value (v : value) : value :=
    match v with
    | VVar x => VVar (merge_variable x)
    | VIndex x zs => if var_name x =? b then VIndex (mkVariable before a (mkType (kind (var_type x)) (m + k))) (map (Z.add m) zs) else VIndex (merge_variable x) zs
    | _ => v
    end.
  Definition merge_instruction (x : sem_statement) : sem_statement :=
    match x with
    | SemGateInstr l i g vs an => SemGateInstr l i g (map merge_value vs) an
    | SemNonGate l i n vs ws an => SemNonGate l i n (map merge_value vs) ws an
    | SemAsm _ _ _ _ => x
    end.
  Definition merge_result (q : sem_program) : sem_program :=
    mkSemProgram (sp_api_version q) (sp_version q) (sp_version_loc q)
      (mkBlock (map merge_instruction (blk_statements (sp_block q))) (blk_loc (sp_block q)))
      (map (fun x => mkSemVariable (merge_variable (sv_var x)) (sv_annots x)) (filter (fun x => negb (var_name (sv_var x) =? b)) (sp_variables q))).
End Merge.
(** The number of variables declared by statements *)
Definition declared (ss : list statement) : nat :=
  List.length (filter (fun s => match s with SVariable _ _ _ _ => true | _ => false end) ss).
(** Of the register a the first m elements are used only, by number. *)
Definition first_elements (a : string) (m : Z) (behind : list statement) : Prop :=
  forall s e, In s behind -> In e (operands_of s) -> match e with EIndex _ (EIdent _ n) es => n = a -> Forall (entry_of_b m) es | _ => True end.
