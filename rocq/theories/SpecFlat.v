(** Independent specification of programs with one register of qubits and one of bits (C115). *)
From Verif Require Import Base ModelTypes ModelOverload ModelFunctions ModelAst ModelAnalyzer ModelSemantic SpecTypes SpecFunctions SpecAnalyzer SpecEvaluate SpecMeaning SpecResize.
Local Open Scope string_scope.

(** ** Counting *)
Definition of_qubits (x : variable) : bool := match kind (var_type x) with TQubit | TQubitArray => true | _ => false end.
(** A qubit or bit has size 1, a register as many as it was declared with. *)
Definition total (xs : list variable) : Z := fold_right Z.add 0%Z (map (fun x => tsize (var_type x)) xs).
Definition result_variables (q : sem_program) : list variable := map sv_var (sp_variables q).
Definition qubits_of (vars : list variable) : Z := total (filter of_qubits vars).
Definition bits_of (vars : list variable) : Z := total (filter (fun x => negb (of_qubits x)) vars).
(** The first number of a variable: those declared before it have the smaller ones. *)
Definition first_number (vars : list variable) (x : variable) : Z :=
  total (filter (fun y => Bool.eqb (of_qubits y) (of_qubits x) && (var_id y <? var_id x)%nat) vars).
(** The numbers of what an operand stands for *)
Definition numbers_of (vars : list variable) (v : value) : list Z :=
  match v with
  | VVar x => map (Z.add (first_number vars x)) (from_to 0 (tsize (var_type x) - 1))
  | VIndex x zs => map (Z.add (first_number vars x)) zs
  | _ => []
  end.

Section Flat.
  (** The names of the two registers *)
  Variables qn bn : string.

  (** ** In the program: these registers are declared, if they are not empty, and then only
      used by numbers *)
  Definition register (name type : string) (k : Z) : list statement :=
    if (k =? 0)%Z then [] else [SVariable None name (mkAstType None type (Some k)) []].
  Definition flat_operand (e : expr) : Prop :=
    exists l l' n is, e = EIndex l (EIdent l' n) is /\ (n = qn \/ n = bn) /\ Forall (fun i => exists l1 l2 z, i = IItem l1 (EInt l2 z)) is.
  Definition flat_program (k m : Z) (p : program) : Prop :=
    exists ss, prog_statements p = (register qn "qubit" k ++ register bn "bit" m ++ ss)%list /\
      forall s, In s ss -> (forall l n t an, s <> SVariable l n t an) /\ forall e, In e (operands_of s) -> flat_operand e.

  (** ** In the result *)
  Section Variables.
    Variable vars : list variable.
    Definition qubit_register : variable := mkVariable 0 qn (mkType TQubitArray (qubits_of vars)).
    Definition bit_register : variable := mkVariable (if (qubits_of vars =? 0)%Z then 0 else 1) bn (mkType TBitArray (bits_of vars)).
    Definition flat_variables : list variable :=
      ((if (qubits_of vars =? 0)%Z then [] else [qubit_register]) ++ (if (bits_of vars =? 0)%Z then [] else [bit_register]))%list.
    Definition flat_value (v : value) : value :=
      match v with
      | VVar x | VIndex x _ => VIndex (if of_qubits x then qubit_register else bit_register) (numbers_of vars v)
      | _ => v
      end.
    Definition flat_instruction (x : sem_statement) : sem_statement :=
      match x with
      | SemGateInstr l j g vs an => SemGateInstr l (instruction_for (instr_name j) (map flat_value vs)) g (map flat_value vs) an
      | SemNonGate l j n vs ws an => SemNonGate l (instruction_for (instr_name j) (map flat_value vs)) n (map flat_value vs) ws an
      | SemAsm _ _ _ _ => x
      end.
  End Variables.
  Definition flat_result (q : sem_program) : sem_program :=
    mkSemProgram (sp_api_version q) (sp_version q) (sp_version_loc q)
      (mkBlock (map (flat_instruction (result_variables q)) (blk_statements (sp_block q))) (blk_loc (sp_block q)))
      (map (fun x => mkSemVariable x []) (flat_variables (result_variables q))).
End Flat.
