(** Independent specification of instructions for several operands as sequences (C110). *)
From Verif Require Import Base ModelTypes ModelOverload ModelFunctions ModelAst ModelAnalyzer ModelSemantic SpecTypes SpecFunctions SpecAnalyzer SpecEvaluate SpecMeaning SpecResize.
Local Open Scope string_scope.

(** The i-th element of a list, alone *)
Definition alone {A} (i : nat) (l : list A) : list A := firstn 1 (skipn i l).

Section Unroll.
  (** Which instructions are unrolled: the first instruction of the program has number 0,
      declarations do not count. *)
  Variable chosen : nat -> bool.

  (** ** In the program: H q[0, 4] becomes H q[0]; H q[4] *)
  Definition pick_operand (i : nat) (e : expr) : expr :=
    match e with EIndex l b es => EIndex l b (alone i es) | _ => e end.
  Definition pick_statement (i : nat) (s : statement) : statement :=
    match s with
    | SGateInstr l g ops an => SGateInstr l g (map (pick_operand i) ops) an
    | SNonGate l n ops ps an => SNonGate l n (map (pick_operand i) ops) ps an
    | _ => s
    end.
  Definition statement_width (s : statement) : nat := match operands_of s with EIndex _ _ es :: _ => List.length es | _ => 0 end.
  Definition unroll_statement (s : statement) : list statement := map (fun i => pick_statement i s) (seq 0 (statement_width s)).
  Fixpoint unroll_statements (n : nat) (ss : list statement) : list statement :=
    match ss with
    | [] => []
    | SVariable l m t an :: r => SVariable l m t an :: unroll_statements n r
    | s :: r => ((if chosen n then unroll_statement s else [s]) ++ unroll_statements (S n) r)%list
    end.
  Definition unroll_program (p : program) : program :=
    mkProgram (prog_version p) (prog_version_loc p) (unroll_statements 0 (prog_statements p)) (prog_block_loc p).

  (** ** In the result: the same; the instructions have the types of the new operands. *)
  Definition pick_value (i : nat) (v : value) : value :=
    match v with VIndex x zs => VIndex x (alone i zs) | _ => v end.
  Definition pick_instruction (i : nat) (x : sem_statement) : sem_statement :=
    match x with
    | SemGateInstr l j g vs an => SemGateInstr l (instruction_for (instr_name j) (map (pick_value i) vs)) g (map (pick_value i) vs) an
    | SemNonGate l j n vs ws an => SemNonGate l (instruction_for (instr_name j) (map (pick_value i) vs)) n (map (pick_value i) vs) ws an
    | SemAsm _ _ _ _ => x
    end.
  Definition instruction_width (x : sem_statement) : nat := match result_operands x with VIndex _ zs :: _ => List.length zs | _ => 0 end.
  Definition unroll_instruction (x : sem_statement) : list sem_statement := map (fun i => pick_instruction i x) (seq 0 (instruction_width x)).
  Fixpoint unroll_instructions (n : nat) (xs : list sem_statement) : list sem_statement :=
    match xs with
    | [] => []
    | x :: r => ((if chosen n then unroll_instruction x else [x]) ++ unroll_instructions (S n) r)%list
    end.
  Definition unroll_result (q : sem_program) : sem_program :=
    mkSemProgram (sp_api_version q) (sp_version q) (sp_version_loc q)
      (mkBlock (unroll_instructions 0 (blk_statements (sp_block q))) (blk_loc (sp_block q))) (sp_variables q).

  (** ** The operands of the chosen instructions are lists of indices of one length. *)
  Definition listed_indices (k : nat) (e : expr) : Prop :=
    exists l l' n es, e = EIndex l (EIdent l' n) es /\ List.length es = k /\ Forall (fun i => exists l e, i = IItem l e) es.
  Definition listed_alike (s : statement) : Prop :=
    exists k, (0 < k)%nat /\ operands_of s <> [] /\ Forall (listed_indices k) (operands_of s).
  Definition unrollable (p : program) : Prop :=
    forall n s, nth_error (filter (fun s => match s with SVariable _ _ _ _ => false | _ => true end) (prog_statements p)) n = Some s -> chosen n = true -> listed_alike s.
End Unroll.
