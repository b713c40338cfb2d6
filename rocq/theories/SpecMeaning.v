(** Independent specification of the meaning of programs (C90): which programs are
    accepted, and what the analysis returns for them. Only the data types of the model
    are used; there is no analyzer here, and no error. *)
From Verif Require Import Base ModelVersion ModelError ModelTypes ModelOverload ModelFunctions ModelAst
  ModelAnalyzer ModelSemantic
  SpecUtils SpecTypes SpecFunctions SpecInstructions SpecAnalyzer SpecHull SpecDiagnosis SpecEvaluate.
Local Open Scope string_scope.

(** ** Operands *)

(** The numbers from a to b *)
Definition from_to (a b : Z) : list Z := map (fun i => (a + Z.of_nat i)%Z) (seq 0 (Z.to_nat (b - a + 1))).
(** The instruction of that name for these operands: its types are those of the operands (an element of a
    register is a qubit or a bit), without sizes. *)
Definition instruction_for (name : string) (operands : list value) : instruction :=
  mkInstruction name (map (fun v => mkType (operand_kind v) 0) operands).

Section Meaning.
  Variable lm : libm.

  Inductive index_means : expr -> Z -> Prop :=
  | index_number e q z : evaluates lm e q -> whole q = Some z -> index_means e z.
  Inductive indices_mean : list index_entry -> list Z -> Prop :=
  | no_indices : indices_mean [] []
  | one_index l e z es zs : index_means e z -> indices_mean es zs -> indices_mean (IItem l e :: es) (z :: zs)
  | index_range l e1 e2 a b es zs : index_means e1 a -> index_means e2 b -> (a <= b)%Z -> indices_mean es zs ->
      indices_mean (IRange l e1 e2 :: es) (from_to a b ++ zs)%list.
  Inductive operand_means (vars : list variable) : expr -> value -> Prop :=
  | whole_variable l x : In x vars -> operand_means vars (EIdent l (var_name x)) (VVar x)
  | some_elements l l' x es zs : In x vars -> kind (var_type x) = TQubitArray \/ kind (var_type x) = TBitArray ->
      indices_mean es zs -> Forall (fun z => 0 <= z < tsize (var_type x))%Z zs ->
      operand_means vars (EIndex l (EIdent l' (var_name x)) es) (VIndex x zs).

  (** ** Parameters *)
  Inductive stored_number : quantity -> type_kind -> quantity -> Prop :=
  | as_float q f : as_double q f -> stored_number q TFloat (QFloat f)
  | as_integer q z : whole q = Some z -> stored_number q TInt (QInt z).
  Inductive parameters_mean : list expr -> list type_kind -> list value -> Prop :=
  | no_parameters : parameters_mean [] [] []
  | one_parameter e q k w es ks ws : evaluates lm e q -> stored_number q k w -> parameters_mean es ks ws ->
      parameters_mean (e :: es) (k :: ks) (constant_value w :: ws).

  (** ** Gates: the gate in the result, the name of the gate inside the modifiers, the
      name of the instruction, the number of operands *)
  Inductive gate_means : gate -> sem_gate -> string -> string -> nat -> Prop :=
  | gate_named l n ps ks a ws : In (n, (ks, a)) gates -> parameters_mean ps ks ws ->
      gate_means (Gate l n None ps []) (SemGate l n None ws []) n n a
  | gate_inv l g sg base name : gate_means g sg base name 1 ->
      gate_means (Gate l "inv" (Some g) [] []) (SemGate l "inv" (Some sg) [] []) base ("1q_" ++ base) 1
  | gate_pow l g sg base name ps ws : gate_means g sg base name 1 -> parameters_mean ps [TFloat] ws ->
      gate_means (Gate l "pow" (Some g) ps []) (SemGate l "pow" (Some sg) ws []) base ("1q_" ++ base) 1
  | gate_ctrl l g sg base name : gate_means g sg base name 1 ->
      gate_means (Gate l "ctrl" (Some g) [] []) (SemGate l "ctrl" (Some sg) [] []) base ("2q_" ++ base) 2.

  (** ** Statements *)
  Inductive instruction_means (vars : list variable) : statement -> sem_statement -> Prop :=
  | gate_applied l g ops sg base name vs k : gate_means g sg base name (List.length ops) -> Forall2 (operand_means vars) ops vs ->
      Forall (fun v => addresses Qubits v k) vs ->
      instruction_means vars (SGateInstr l g ops []) (SemGateInstr l (instruction_for name vs) sg vs [])
  | non_gate_applied l n ops ps ks cs vs ws : In (n, (ks, cs)) non_gates -> Forall2 (operand_means vars) ops vs -> parameters_mean ps ks ws ->
      Forall2 (fun c v => exists k, addresses c v k) cs vs -> (n = "measure" -> exists k, Forall2 (fun c v => addresses c v k) cs vs) ->
      instruction_means vars (SNonGate l n ops ps []) (SemNonGate l (instruction_for n vs) n vs ws [])
  | asm_declared l n code : instruction_means vars (SAsm l n code []) (SemAsm l n code []).
  (** Variables are numbered from 0; an instruction sees those declared before it. *)
  Inductive block_means (vars : list variable) : list statement -> list variable -> list sem_statement -> Prop :=
  | empty_block : block_means vars [] vars []
  | declaration l n t ty ss vars' xs : declares_type t ty -> ~ In n constant_names -> ~ In n (map var_name vars) ->
      block_means (vars ++ [mkVariable (List.length vars) n ty])%list ss vars' xs ->
      block_means vars (SVariable l n t [] :: ss) vars' xs
  | instruction_of s x ss vars' xs : instruction_means vars s x -> block_means vars ss vars' xs ->
      block_means vars (s :: ss) vars' (x :: xs).

  (** ** Programs, for an analyzer of version [api] *)
  Inductive program_means (api : list Z) (p : program) : sem_program -> Prop :=
  | program_of vars b : version_same (prog_version p) api ->
      block_means [] (prog_statements p) vars (blk_statements b) -> spans_statements b ->
      program_means api p (mkSemProgram api (prog_version p) (prog_version_loc p) b (map (fun x => mkSemVariable x []) vars)).
End Meaning.
