(** Independent specification of the result of the analysis of every program (C91):
    the tree and the errors, whether the program is accepted or not. As in
    SpecMeaning, there is no analyzer here: what an expression, a gate or an
    instruction means depends on nothing but the variables declared before it. *)
From Verif Require Import SpecPlace Base ModelVersion ModelError ModelTypes ModelOverload ModelFunctions ModelAst
  ModelAnalyzer ModelSemantic
  SpecUtils SpecTypes SpecFunctions SpecInstructions SpecAnalyzer SpecHull SpecDiagnosis SpecEvaluate SpecMeaning.
Local Open Scope string_scope.

(** A name that cannot be declared any more *)
Definition taken (vars : list variable) (n : string) : Prop := In n constant_names \/ In n (map var_name vars).

Section Outcome.
  Variable lm : libm.

  (** ** Expressions *)
  Inductive has_value (vars : list variable) : expr -> value -> Prop :=
  | constant_expression e q : evaluates lm e q -> has_value vars e (constant_value q)
  | operand_expression e v : operand_means lm vars e v -> has_value vars e v.
  (** The indices a list of entries stands for. No range ends at the largest integer
      (it has no indices: see C21). *)
  Inductive expands : list index_entry -> list Z -> Prop :=
  | expands_nothing : expands [] []
  | expands_index l e z es zs : index_means lm e z -> expands es zs -> expands (IItem l e :: es) (z :: zs)
  | expands_range l e1 e2 a b es zs : index_means lm e1 a -> index_means lm e2 b -> (a <= b)%Z -> b <> (2 ^ 63 - 1)%Z -> expands es zs ->
      expands (IRange l e1 e2 :: es) (from_to a b ++ zs)%list.

  Section Scope.
    Variable vars : list variable.

    (** [wrong e m p]: e has no value; the first thing that is wrong, in the order of
        evaluation, is what m says, at p. p is [None] where it is e itself. *)
    Inductive wrong : expr -> string -> loc -> Prop :=
    | wrong_name l n : ~ taken vars n -> wrong (EIdent l n) ("failed to resolve variable '" ++ n ++ "'") None
    | wrong_base l b idx m p : wrong b m p -> wrong (EIndex l b idx) m (nearest [p; place_of b; l])
    | wrong_single l b idx x : has_value vars b (VVar x) -> ~ is_register x ->
        wrong (EIndex l b idx) ("indexation is not supported for value of type '" ++ kind_text (kind (var_type x)) ++ "'") l
    | wrong_in_index l b before i after x zs m p : has_value vars b (VVar x) -> is_register x -> expands before zs ->
        wrong_entry i m p -> wrong (EIndex l b (before ++ i :: after)) m (nearest [p; l])
    | wrong_range l b idx x before z after : has_value vars b (VVar x) -> is_register x ->
        expands idx (before ++ z :: after) -> Forall (in_range x) before -> ~ in_range x z ->
        wrong (EIndex l b idx) ("index " ++ dec_Z z ++ " out of range (size " ++ dec_Z (tsize (var_type x)) ++ ")") l
    | wrong_argument e f before a after vs m p : calls e = Some (f, (before ++ a :: after)%list) -> Forall2 (has_value vars) before vs ->
        wrong a m p -> wrong e m (nearest [p; place_of a])
    | wrong_function e f args vs : calls e = Some (f, args) -> Forall2 (has_value vars) args vs -> ~ known_function f ->
        wrong e ("failed to resolve '" ++ f ++ "'") None
    | wrong_types e f args vs : calls e = Some (f, args) -> Forall2 (has_value vars) args vs -> known_function f -> ~ applies f vs ->
        wrong e ("failed to resolve overload for '" ++ f ++ "' with argument pack (" ++ kinds_text vs ++ ")") None
    with wrong_entry : index_entry -> string -> loc -> Prop :=
    | wrong_item l e m p : not_index e m p -> wrong_entry (IItem l e) m p
    | wrong_first l a b m p : not_index a m p -> wrong_entry (IRange l a b) m p
    | wrong_last l a b z m p : index_means lm a z -> not_index b m p -> wrong_entry (IRange l a b) m p
    | wrong_order l a b x y : index_means lm a x -> index_means lm b y -> (y < x)%Z ->
        wrong_entry (IRange l a b) "last index is lower than first index" l
    with not_index : expr -> string -> loc -> Prop :=
    | not_index_value e m p : wrong e m p -> not_index e m p
    | not_index_type e v : has_value vars e v -> (forall z, ~ index_means lm e z) -> not_index e "expected an integer" (place_of e).
    Inductive first_wrong : list expr -> string -> loc -> Prop :=
    | first_wrong_at before e after vs m p : Forall2 (has_value vars) before vs -> wrong e m p ->
        first_wrong (before ++ e :: after) m (nearest [p; place_of e]).

    (** ** Gates *)
    Definition right_gate (g : gate) (a : nat) : Prop := exists sg base name, gate_means lm g sg base name a.
    Definition right_inner (i : option gate) : Prop := match i with None => True | Some g => exists a, right_gate g a end.
    Inductive wrong_gate : gate -> string -> loc -> Prop :=
    | wrong_inner l n g ps an m p : wrong_gate g m p -> wrong_gate (Gate l n (Some g) ps an) m (nearest [p; l])
    | wrong_parameter l n i ps an m p : right_inner i -> first_wrong ps m p -> wrong_gate (Gate l n i ps an) m (nearest [p; l])
    | wrong_parameters l n i ps an vs m : right_inner i -> Forall2 (has_value vars) ps vs -> parameters_problem n vs m ->
        wrong_gate (Gate l n i ps an) m l
    | wrong_modifier l n ks g ps an vs : right_gate g 2 -> In (n, ks) modifiers -> Forall2 (has_value vars) ps vs -> Forall2 fits_param vs ks ->
        wrong_gate (Gate l n (Some g) ps an) "trying to apply a gate modifier to a multi-qubit gate" l.

    (** ** Instructions *)
    Inductive wrong_instruction : statement -> string -> loc -> Prop :=
    | wrong_in_gate l g ops an m p : wrong_gate g m p -> wrong_instruction (SGateInstr l g ops an) m (nearest [p; l])
    | wrong_gate_operand l g a ops an m p : right_gate g a -> first_wrong ops m p -> wrong_instruction (SGateInstr l g ops an) m (nearest [p; l])
    | wrong_gate_operands l g a ops an vs : right_gate g a -> Forall2 (has_value vars) ops vs ->
        ~ (List.length vs = a /\ Forall (addresses_some Qubits) vs) -> wrong_instruction (SGateInstr l g ops an) (pack_text (gate_text g) vs) l
    | wrong_gate_sizes l g a ops an vs : right_gate g a -> Forall2 (has_value vars) ops vs -> List.length vs = a -> Forall (addresses_some Qubits) vs ->
        ~ (exists k, Forall (fun v => addresses Qubits v k) vs) -> wrong_instruction (SGateInstr l g ops an) "qubit operands indices have different sizes" l
    | wrong_operand l n ops ps an m p : first_wrong ops m p -> wrong_instruction (SNonGate l n ops ps an) m (nearest [p; l])
    | wrong_operands l n ops ps an vs : Forall2 (has_value vars) ops vs -> ~ operands_suit n vs ->
        wrong_instruction (SNonGate l n ops ps an) (pack_text n vs) l
    | wrong_non_gate_parameter l n ops ps an vs m p : Forall2 (has_value vars) ops vs -> operands_suit n vs -> first_wrong ps m p ->
        wrong_instruction (SNonGate l n ops ps an) m (nearest [p; l])
    | wrong_parameter_count l n ops ps an vs ws : Forall2 (has_value vars) ops vs -> operands_suit n vs -> Forall2 (has_value vars) ps ws ->
        (forall ks cs, In (n, (ks, cs)) non_gates -> List.length ws <> List.length ks) ->
        wrong_instruction (SNonGate l n ops ps an)
          ("instruction '" ++ n ++ "' does not have an overload with " ++ count_text (List.length ws) ++ " parameters.") l
    | wrong_parameter_type l n ops ps an vs ws ks cs k : Forall2 (has_value vars) ops vs -> operands_suit n vs -> Forall2 (has_value vars) ps ws ->
        In (n, (ks, cs)) non_gates -> first_misfit ws ks k -> wrong_instruction (SNonGate l n ops ps an) (misfit_text n k) l
    | wrong_measure l ops ps an vs ws ks cs : Forall2 (has_value vars) ops vs -> operands_suit "measure" vs -> Forall2 (has_value vars) ps ws ->
        In ("measure", (ks, cs)) non_gates -> Forall2 fits_param ws ks -> ~ (exists k, Forall2 (fun c v => addresses c v k) [Bits; Qubits] vs) ->
        wrong_instruction (SNonGate l "measure" ops ps an) "qubit and bit indices have different sizes" l.
  End Scope.

  (** ** Declarations *)
  Inductive wrong_type (t : ast_type) : string -> Prop :=
  | wrong_type_name : ty_name t <> "qubit" -> ty_name t <> "bit" -> wrong_type t ("unknown type """ ++ ty_name t ++ """")
  | wrong_type_size z : ty_name t = "qubit" \/ ty_name t = "bit" -> ty_size t = Some z -> (z <= 0)%Z ->
      wrong_type t ("found " ++ ty_name t ++ " array of size <= 0").

  (** ** Statements *)

  (** [block_gives n vars ss declared xs es]: the statements ss, behind n declarations of
      which the variables vars can be used, add the variables [declared] and the
      instructions xs to the result, and report es.

      Every declaration takes a number. One with a wrong type adds nothing. One of a name
      that is taken adds a variable that no later instruction can use. An instruction that
      is wrong adds nothing. *)
  Inductive block_gives : nat -> list variable -> list statement -> list variable -> list sem_statement -> list error -> Prop :=
  | gives_nothing n vars : block_gives n vars [] [] [] []
  | gives_variable n vars l name t ty ss ds xs es : declares_type t ty -> ~ taken vars name ->
      block_gives (S n) (vars ++ [mkVariable n name ty]) ss ds xs es ->
      block_gives n vars (SVariable l name t [] :: ss) (mkVariable n name ty :: ds) xs es
  | gives_redeclaration n vars l name t ty ss ds xs es : declares_type t ty -> taken vars name ->
      block_gives (S n) vars ss ds xs es ->
      block_gives n vars (SVariable l name t [] :: ss) (mkVariable n name ty :: ds) xs (mkRawError ("trying to redeclare variable '" ++ name ++ "'") l :: es)
  | gives_no_variable n vars l name t m ss ds xs es : wrong_type t m -> block_gives (S n) vars ss ds xs es ->
      block_gives n vars (SVariable l name t [] :: ss) ds xs (mkRawError m l :: es)
  | gives_instruction n vars s x ss ds xs es : instruction_means lm vars s x -> block_gives n vars ss ds xs es ->
      block_gives n vars (s :: ss) ds (x :: xs) es
  | gives_no_instruction n vars s m p ss ds xs es : wrong_instruction vars s m p -> block_gives n vars ss ds xs es ->
      block_gives n vars (s :: ss) ds xs (mkRawError m p :: es).

  (** ** Programs, for an analyzer of version [api] *)

  (** The version in the result, and the errors about it *)
  Inductive version_gives (api v : version) (l : loc) : version -> list error -> Prop :=
  | gives_version : version_same v api -> version_gives api v l v []
  | gives_invalid_version : (exists i, In i v /\ (i < 0)%Z) -> version_gives api v l api [mkRawError "invalid version component" l]
  | gives_other_version : ~ version_same v api -> Forall (fun i => 0 <= i)%Z v ->
      version_gives api v l api [mkRawError ("the only cQASM version supported is " ++ version_text api ++
                                              ", but the cQASM file is version " ++ version_text v) l].
  Inductive program_gives (api : list Z) (p : program) : sem_program -> list error -> Prop :=
  | program_result v ves ds b es : version_gives api (prog_version p) (prog_version_loc p) v ves ->
      block_gives 0 [] (prog_statements p) ds (blk_statements b) es -> spans_statements b ->
      program_gives api p (mkSemProgram api v (prog_version_loc p) b (map (fun x => mkSemVariable x []) ds)) (ves ++ es).
End Outcome.
