(** Independent specification of what is wrong with a program: for every message
    of the semantic analysis, when it is deserved and where (C82). *)
From Verif Require Import SpecPlace Base ModelVersion ModelError ModelTypes ModelOverload ModelFunctions ModelAst ModelAnalyzer ModelSemantic
  SpecUtils SpecTypes SpecFunctions SpecInstructions SpecAnalyzer SpecSites.
Local Open Scope string_scope.

(** ** Words *)

Definition kind_text (k : type_kind) : string :=
  match k with
  | TQubit => "qubit" | TBit => "bit" | TBool => "bool" | TInt => "int" | TFloat => "float"
  | TQubitArray => "qubit array" | TBitArray => "bit array"
  end.
(** The type of a value: one element of a register is a qubit or bit. *)
Definition operand_kind (v : value) : type_kind :=
  match v with
  | VIndex x [_] => match kind (var_type x) with TQubitArray => TQubit | TBitArray => TBit | k => k end
  | _ => const_kind v
  end.
Definition kinds_text (vs : list value) : string := String.concat ", " (map (fun v => kind_text (operand_kind v)) vs).
Definition count_text (n : nat) : string := dec_N (N.of_nat n).

(** The first of the places that is known *)
Fixpoint nearest (ps : list loc) : loc :=
  match ps with
  | [] => None
  | Some l :: _ => Some l
  | None :: ps' => nearest ps'
  end.

(** ** Expressions *)

(** Calls and operations are calls of functions. *)
Definition calls (e : expr) : option (string * list expr) :=
  match e with
  | ECall _ n None => Some (n, [])
  | ECall _ n (Some args) => Some (n, args)
  | EUnary _ o a => Some ("operator" ++ unary_text o, [a])
  | EBinary _ o a b => Some ("operator" ++ binary_text o, [a; b])
  | ETernary _ c a b => Some ("operator?:", [c; a; b])
  | _ => None
  end.
Definition known_function (n : string) : Prop := exists ks k, result_kind n ks = Some k.
Definition applies (n : string) (vs : list value) : Prop :=
  Forall is_const vs /\ exists k, result_kind n (map const_kind vs) = Some k.

(** The names of constants and variables of all scopes *)
Definition visible_names (st : analyzer) : list string := flat_map (fun s => map fst (sc_variables_table s)) (scopes st).
Definition is_register (x : variable) : Prop := kind (var_type x) = TQubitArray \/ kind (var_type x) = TBitArray.
Definition in_range (x : variable) (z : Z) : Prop := (0 <= z < tsize (var_type x))%Z.

(** [problem st e m p]: the expression e has no value; the first thing that is
    wrong, in the order of evaluation, is what m says, at p. p is [None] where
    the problem is the expression itself. *)
Inductive problem (st : analyzer) : expr -> string -> loc -> Prop :=
| pr_name l n : ~ In n (visible_names st) -> problem st (EIdent l n) ("failed to resolve variable '" ++ n ++ "'") None
| pr_base l b idx m p : problem st b m p -> problem st (EIndex l b idx) m (nearest [p; place_of b; l])
| pr_single l b idx x : visit_expression st b = Ok (VVar x) -> ~ is_register x ->
    problem st (EIndex l b idx) ("indexation is not supported for value of type '" ++ kind_text (kind (var_type x)) ++ "'") l
| pr_entry l b before i after x zs m p : visit_expression st b = Ok (VVar x) -> is_register x -> selects st before zs ->
    entry_problem st i m p -> problem st (EIndex l b (before ++ i :: after)) m (nearest [p; l])
| pr_range l b idx x before z after : visit_expression st b = Ok (VVar x) -> is_register x ->
    selects st idx (before ++ z :: after) -> Forall (in_range x) before -> ~ in_range x z ->
    problem st (EIndex l b idx) ("index " ++ dec_Z z ++ " out of range (size " ++ dec_Z (tsize (var_type x)) ++ ")") l
| pr_argument e f before a after vs m p : calls e = Some (f, (before ++ a :: after)%list) -> visit_expression_list st before = Ok vs ->
    problem st a m p -> problem st e m (nearest [p; place_of a])
| pr_unknown e f args vs : calls e = Some (f, args) -> visit_expression_list st args = Ok vs -> ~ known_function f ->
    problem st e ("failed to resolve '" ++ f ++ "'") None
| pr_overload e f args vs : calls e = Some (f, args) -> visit_expression_list st args = Ok vs -> known_function f -> ~ applies f vs ->
    problem st e ("failed to resolve overload for '" ++ f ++ "' with argument pack (" ++ kinds_text vs ++ ")") None
(** An entry of an index list selects nothing. *)
with entry_problem (st : analyzer) : index_entry -> string -> loc -> Prop :=
| ep_item l e m p : int_problem st e m p -> entry_problem st (IItem l e) m p
| ep_first l a b m p : int_problem st a m p -> entry_problem st (IRange l a b) m p
| ep_last l a b z m p : denotes_int st a z -> int_problem st b m p -> entry_problem st (IRange l a b) m p
| ep_order l a b x y : denotes_int st a x -> denotes_int st b y -> (y < x)%Z ->
    entry_problem st (IRange l a b) "last index is lower than first index" l
(** An index is not an integer. *)
with int_problem (st : analyzer) : expr -> string -> loc -> Prop :=
| ip_value e m p : problem st e m p -> int_problem st e m p
| ip_type e v : visit st e = Ok v -> (forall z, ~ denotes_int st e z) -> int_problem st e "expected an integer" (place_of e).

(** The first expression of a list without a value *)
Inductive first_problem (st : analyzer) : list expr -> string -> loc -> Prop :=
| first_problem_at before e after vs m p : visit_expression_list st before = Ok vs -> problem st e m p ->
    first_problem st (before ++ e :: after) m (nearest [p; place_of e]).

(** ** Gates *)

(** The types of the parameters of a gate or modifier *)
Definition takes (n : string) (ks : list type_kind) : Prop := (exists a, In (n, (ks, a)) gates) \/ In (n, ks) modifiers.

(** The first value that does not fit its parameter is of the kind k. *)
Definition first_misfit (vs : list value) (ks : list type_kind) (k : type_kind) : Prop :=
  exists vs1 v vs2 ks1 k' ks2, vs = (vs1 ++ v :: vs2)%list /\ ks = (ks1 ++ k' :: ks2)%list /\ List.length vs2 = List.length ks2 /\
    Forall2 fits_param vs1 ks1 /\ ~ fits_param v k' /\ operand_kind v = k.
Definition misfit_text (n : string) (k : type_kind) : string :=
  "failed to resolve '" ++ n ++ "' with parameter type (" ++ kind_text k ++ ")".

(** The parameters vs do not suit the gate or modifier n. *)
Inductive parameters_problem (n : string) (vs : list value) : string -> Prop :=
| pp_unknown : (forall ks, ~ takes n ks) -> parameters_problem n vs ("couldn't find instruction '" ++ n ++ "'")
| pp_none : takes n [] -> vs <> [] ->
    parameters_problem n vs ("instruction '" ++ n ++ "' expects no parameters, but got " ++ count_text (List.length vs) ++ ".")
| pp_count ks : takes n ks -> ks <> [] -> List.length vs <> List.length ks ->
    parameters_problem n vs ("instruction '" ++ n ++ "' expects " ++ count_text (List.length ks) ++
                             " parameters, but got " ++ count_text (List.length vs) ++ ".")
| pp_type ks k : takes n ks -> first_misfit vs ks k -> parameters_problem n vs (misfit_text n k).

Definition inner_legal (st : analyzer) (i : option gate) : Prop :=
  match i with None => True | Some g => exists a, legal_gate st g a end.

Inductive gate_problem (st : analyzer) : gate -> string -> loc -> Prop :=
| gp_inner l n g ps an m p : gate_problem st g m p -> gate_problem st (Gate l n (Some g) ps an) m (nearest [p; l])
| gp_parameter l n i ps an m p : inner_legal st i -> first_problem st ps m p -> gate_problem st (Gate l n i ps an) m (nearest [p; l])
| gp_parameters l n i ps an vs m : inner_legal st i -> visit_expression_list st ps = Ok vs -> parameters_problem n vs m ->
    gate_problem st (Gate l n i ps an) m l
| gp_modifier l n ks g ps an vs : legal_gate st g 2 -> In (n, ks) modifiers -> visit_expression_list st ps = Ok vs ->
    Forall2 fits_param vs ks -> gate_problem st (Gate l n (Some g) ps an) "trying to apply a gate modifier to a multi-qubit gate" l.

(** The name messages use for a gate: modified gates have an internal one. *)
Definition gate_text (g : gate) : string :=
  match g with
  | Gate _ n None _ _ => n
  | Gate _ m (Some g') _ _ => (if m =? "ctrl" then "2q_" else "1q_") ++ gate_base g'
  end.

(** ** Statements *)

Definition addresses_some (c : operand_class) (v : value) : Prop := exists k, addresses c v k.
Definition pack_text (n : string) (vs : list value) : string :=
  "failed to resolve instruction '" ++ n ++ "' with argument pack (" ++ kinds_text vs ++ ")".
Definition operands_suit (n : string) (vs : list value) : Prop :=
  exists ks cs, In (n, (ks, cs)) non_gates /\ Forall2 addresses_some cs vs.

Inductive statement_problem (st : analyzer) : statement -> string -> loc -> Prop :=
| sp_type l n t an : ty_name t <> "qubit" -> ty_name t <> "bit" ->
    statement_problem st (SVariable l n t an) ("unknown type """ ++ ty_name t ++ """") l
| sp_size l n t an z : ty_name t = "qubit" \/ ty_name t = "bit" -> ty_size t = Some z -> (z <= 0)%Z ->
    statement_problem st (SVariable l n t an) ("found " ++ ty_name t ++ " array of size <= 0") l
| sp_redeclared l n t an ty : declares_type t ty -> In n (names_here st) ->
    statement_problem st (SVariable l n t an) ("trying to redeclare variable '" ++ n ++ "'") l
| sp_gate l g ops an m p : gate_problem st g m p -> statement_problem st (SGateInstr l g ops an) m (nearest [p; l])
| sp_gate_operand l g a ops an m p : legal_gate st g a -> first_problem st ops m p ->
    statement_problem st (SGateInstr l g ops an) m (nearest [p; l])
| sp_gate_operands l g a ops an vs : legal_gate st g a -> visit_expression_list st ops = Ok vs ->
    ~ (List.length vs = a /\ Forall (addresses_some Qubits) vs) ->
    statement_problem st (SGateInstr l g ops an) (pack_text (gate_text g) vs) l
| sp_gate_sizes l g a ops an vs : legal_gate st g a -> visit_expression_list st ops = Ok vs ->
    List.length vs = a -> Forall (addresses_some Qubits) vs -> ~ (exists k, Forall (fun v => addresses Qubits v k) vs) ->
    statement_problem st (SGateInstr l g ops an) "qubit operands indices have different sizes" l
| sp_operand l n ops ps an m p : first_problem st ops m p -> statement_problem st (SNonGate l n ops ps an) m (nearest [p; l])
| sp_operands l n ops ps an vs : visit_expression_list st ops = Ok vs -> ~ operands_suit n vs ->
    statement_problem st (SNonGate l n ops ps an) (pack_text n vs) l
| sp_parameter l n ops ps an vs m p : visit_expression_list st ops = Ok vs -> operands_suit n vs -> first_problem st ps m p ->
    statement_problem st (SNonGate l n ops ps an) m (nearest [p; l])
| sp_parameter_count l n ops ps an vs ws : visit_expression_list st ops = Ok vs -> operands_suit n vs ->
    visit_expression_list st ps = Ok ws -> (forall ks cs, In (n, (ks, cs)) non_gates -> List.length ws <> List.length ks) ->
    statement_problem st (SNonGate l n ops ps an)
      ("instruction '" ++ n ++ "' does not have an overload with " ++ count_text (List.length ws) ++ " parameters.") l
| sp_parameter_type l n ops ps an vs ws ks cs k : visit_expression_list st ops = Ok vs -> operands_suit n vs ->
    visit_expression_list st ps = Ok ws -> In (n, (ks, cs)) non_gates -> first_misfit ws ks k ->
    statement_problem st (SNonGate l n ops ps an) (misfit_text n k) l
| sp_measure l ops ps an vs ws ks cs : visit_expression_list st ops = Ok vs -> operands_suit "measure" vs ->
    visit_expression_list st ps = Ok ws -> In ("measure", (ks, cs)) non_gates -> Forall2 fits_param ws ks ->
    ~ (exists k, Forall2 (fun c v => addresses c v k) [Bits; Qubits] vs) ->
    statement_problem st (SNonGate l "measure" ops ps an) "qubit and bit indices have different sizes" l.

(** ** Programs *)

(** The errors of a list of statements: one for every statement with a problem,
    in the order of the statements; each statement is judged in the state the
    earlier ones lead to. *)
Inductive diagnosed : analyzer -> list statement -> list error -> Prop :=
| dg_none st : diagnosed st [] []
| dg_fine st s st1 ss es : (forall m p, ~ statement_problem st s m p) -> visit_statement st s = (Ok st1, []) ->
    diagnosed st1 ss es -> diagnosed st (s :: ss) es
| dg_problem st s st1 m p ss es : statement_problem st s m p -> visit_statement st s = (Ok st1, [mkRawError m p]) ->
    diagnosed st1 ss es -> diagnosed st (s :: ss) (mkRawError m p :: es).

(** The error about the version, if it is not the supported one *)
Definition version_text (v : version) : string := String.concat "." (map dec_Z v).
Inductive version_diagnosed (api v : version) (l : loc) : list error -> Prop :=
| vd_fine : version_same v api -> version_diagnosed api v l []
| vd_negative : (exists i, In i v /\ (i < 0)%Z) -> version_diagnosed api v l [mkRawError "invalid version component" l]
| vd_other : ~ version_same v api -> Forall (fun i => 0 <= i)%Z v ->
    version_diagnosed api v l [mkRawError ("the only cQASM version supported is " ++ version_text api ++
                                           ", but the cQASM file is version " ++ version_text v) l].
