(** Independent specification of the instruction set and of legal instructions
    (C27-C34). The tables below are written from the cQASM 3.0 language
    reference, not from the tables of the code. *)
From Coq Require Import Reals.
From Verif Require Import Base ModelError ModelTypes ModelOverload ModelFunctions ModelAst ModelAnalyzer ModelSemantic
  SpecTypes SpecFunctions.
Local Open Scope string_scope.

(** ** The language *)

(** Gates: name, types of the parameters, number of qubits. *)
Definition gates : list (string * (list type_kind * nat)) :=
  [ ("I", ([], 1)); ("H", ([], 1)); ("X", ([], 1)); ("Y", ([], 1)); ("Z", ([], 1));
    ("X90", ([], 1)); ("Y90", ([], 1)); ("Z90", ([], 1));
    ("mX90", ([], 1)); ("mY90", ([], 1)); ("mZ90", ([], 1));
    ("S", ([], 1)); ("Sdag", ([], 1)); ("T", ([], 1)); ("Tdag", ([], 1));
    ("Rx", ([TFloat], 1)); ("Ry", ([TFloat], 1)); ("Rz", ([TFloat], 1));
    ("Rn", ([TFloat; TFloat; TFloat; TFloat; TFloat], 1));
    ("U", ([TFloat; TFloat; TFloat], 1));
    ("CNOT", ([], 2)); ("CZ", ([], 2)); ("SWAP", ([], 2));
    ("CR", ([TFloat], 2)); ("CRk", ([TInt], 2)) ]%nat.

(** Operands are single qubits or bits, or arrays of these. *)
Inductive operand_class : Set := Qubits | Bits.
Definition of_class (c : operand_class) (k : type_kind) : Prop :=
  match c with Qubits => k = TQubit \/ k = TQubitArray | Bits => k = TBit \/ k = TBitArray end.
Definition class_char (c : operand_class) (a : ascii) : Prop :=
  match c with Qubits => a = "Q"%char \/ a = "V"%char | Bits => a = "B"%char \/ a = "W"%char end.

(** Other instructions: name, types of the parameters, operands. *)
Definition non_gates : list (string * (list type_kind * list operand_class)) :=
  [ ("measure", ([], [Bits; Qubits])); ("measure", ([TFloat; TFloat; TFloat], [Bits; Qubits]));
    ("reset", ([], [Qubits])); ("init", ([], [Qubits])); ("barrier", ([], [Qubits]));
    ("wait", ([TInt], [Qubits])) ].

(** Gate modifiers: name, types of the parameters. *)
Definition modifiers : list (string * list type_kind) := [ ("inv", []); ("pow", [TFloat]); ("ctrl", []) ].

(** A type specification string (None: empty) lists these types. *)
Definition type_char (k : type_kind) : ascii :=
  match k with
  | TQubit => "Q" | TBit => "B" | TBool => "b" | TInt => "i" | TFloat => "f" | TQubitArray => "V" | TBitArray => "W"
  end%char.
Definition param_spec (p : option string) (ks : list type_kind) : Prop :=
  match p with
  | None => ks = []
  | Some s => ks <> [] /\ list_ascii_of_string s = map type_char ks
  end.

(** ** Analyzers *)

(** The instructions are those of the default analyzer: nothing was registered
    in inner scopes nor added to the outer one. *)
Definition has_default_instructions (lm : libm) (st : analyzer) : Prop :=
  exists st0 g0 inner g, default_analyzer lm "3.0" = Ok st0 /\ global_scope st0 = Ok g0 /\
    scopes st = (inner ++ [g])%list /\ Forall (fun s => sc_instructions s = []) inner /\
    sc_instructions g = sc_instructions g0.

(** What a name can stand for in a program: a constant, or a declared qubit, bit
    or register of positive size. *)
Definition declared (x : variable) : Prop :=
  match kind (var_type x) with
  | TQubit | TBit => tsize (var_type x) = 1%Z
  | TQubitArray | TBitArray => (0 < tsize (var_type x))%Z
  | _ => False
  end.
Definition nameable (v : value) : Prop :=
  match v with VVar x => declared x | VIndex _ _ => False | _ => True end.

(** The default analyzer, whatever has been declared or analysed with it, in any
    scope (see C62 for the proof that these operations preserve it). *)
Definition ordinary (lm : libm) (st : analyzer) : Prop :=
  has_default_functions lm st /\ has_default_instructions lm st /\
  Forall (fun s => Forall (fun e => nameable (snd e)) (sc_variables_table s)) (scopes st).

(** ** Values of expressions *)

(** The number of qubits (bits) an operand addresses. *)
Inductive addresses : operand_class -> value -> Z -> Prop :=
| addr_qubit x : kind (var_type x) = TQubit -> addresses Qubits (VVar x) 1
| addr_qubits x : kind (var_type x) = TQubitArray -> addresses Qubits (VVar x) (tsize (var_type x))
| addr_bit x : kind (var_type x) = TBit -> addresses Bits (VVar x) 1
| addr_bits x : kind (var_type x) = TBitArray -> addresses Bits (VVar x) (tsize (var_type x))
| addr_qubit_index x idx : kind (var_type x) = TQubitArray -> addresses Qubits (VIndex x idx) (Z.of_nat (List.length idx))
| addr_bit_index x idx : kind (var_type x) = TBitArray -> addresses Bits (VIndex x idx) (Z.of_nat (List.length idx)).

(** A value acceptable for a parameter of kind k, and what is stored for it. *)
Definition fits_param (v : value) (k : type_kind) : Prop :=
  is_const v /\ (const_kind v = k \/ below (const_kind v) k).

(** ** Gates *)

(** What the grammar can produce: modifiers around a name that is not a keyword;
    no annotations. *)
Inductive grammar_gate : gate -> Prop :=
| gg_named l n ps : ~ In n (map fst non_gates) -> ~ In n (map fst modifiers) -> grammar_gate (Gate l n None ps [])
| gg_modified l m g ps : In m (map fst modifiers) -> grammar_gate g -> grammar_gate (Gate l m (Some g) ps []).

Inductive legal_gate (st : analyzer) : gate -> nat -> Prop :=
| legal_named l n ps ks a vs :
    In (n, (ks, a)) gates -> visit_expression_list st ps = Ok vs -> Forall2 fits_param vs ks ->
    legal_gate st (Gate l n None ps []) a
| legal_inv l g : legal_gate st g 1 -> legal_gate st (Gate l "inv" (Some g) [] []) 1
| legal_pow l g e v : legal_gate st g 1 -> visit_expression st e = Ok v -> fits_param v TFloat ->
    legal_gate st (Gate l "pow" (Some g) [e] []) 1
| legal_ctrl l g : legal_gate st g 1 -> legal_gate st (Gate l "ctrl" (Some g) [] []) 2.

(** The modifiers of a gate, outermost first, and the gate they are applied to. *)
Fixpoint gate_modifiers (g : gate) : list string :=
  match g with Gate _ n None _ _ => [] | Gate _ n (Some g') _ _ => n :: gate_modifiers g' end.
Fixpoint gate_base (g : gate) : string :=
  match g with Gate _ n None _ _ => n | Gate _ n (Some g') _ _ => gate_base g' end.

(** ** Stored gates *)

(** The value w stored for a parameter of kind k is the promotion of the value v
    of the source expression. *)
Definition stored_as (v : value) (k : type_kind) (w : value) : Prop :=
  is_const w /\ const_kind w = k /\ promote v (make_type k) = Ok (Some w).

(** What that means: w has kind k, is v itself if v has kind k already, and denotes
    the same number (for an integer stored as float: the double nearest to it). *)
Definition denotes_as (v : value) (k : type_kind) (w : value) : Prop :=
  is_const w /\ const_kind w = k /\ (const_kind v = k -> w = v) /\
  ((forall z, v = VInt z -> (- 2 ^ 63 <= z <= 2 ^ 63 - 1)%Z) ->
   number_of w = number_of v \/ exists z, v = VInt z /\ k = TFloat /\ number_of w = nearest_double (IZR z)).

(** Parameters ws stored, in the sense R, for the values vs, given the declared
    kinds. *)
Definition params_stored (R : value -> type_kind -> value -> Prop)
  (vs : list value) (ks : list type_kind) (ws : list value) : Prop :=
  List.length vs = List.length ks /\ List.length ws = List.length ks /\
  (forall i v k w, nth_error vs i = Some v -> nth_error ks i = Some k -> nth_error ws i = Some w -> R v k w).
Notation stored_params := (params_stored stored_as).

(** The stored gate has the names and nesting of the source, and its parameters. *)
Inductive gate_stored (R : value -> type_kind -> value -> Prop) (st : analyzer) : gate -> sem_gate -> Prop :=
| sg_named l n ps ks a vs ws :
    In (n, (ks, a)) gates -> visit_expression_list st ps = Ok vs -> params_stored R vs ks ws ->
    gate_stored R st (Gate l n None ps []) (SemGate l n None ws [])
| sg_modified l m ks ps vs ws g sg :
    In (m, ks) modifiers -> gate_stored R st g sg -> visit_expression_list st ps = Ok vs -> params_stored R vs ks ws ->
    gate_stored R st (Gate l m (Some g) ps []) (SemGate l m (Some sg) ws []).
Notation stored_gate := (gate_stored stored_as).

(** ** Index lists *)

Definition denotes_int (st : analyzer) (e : expr) (z : Z) : Prop :=
  exists v, visit st e = Ok v /\ is_const v /\
    (v = VInt z \/ (v = VBool true /\ z = 1%Z) \/ (v = VBool false /\ z = 0%Z)).

(** [selects st entries zs]: the entries select, in order, the indices zs. *)
Inductive selects (st : analyzer) : list index_entry -> list Z -> Prop :=
| sel_nil : selects st [] []
| sel_item l e z entries zs : denotes_int st e z -> selects st entries zs ->
    selects st (IItem l e :: entries) (z :: zs)
| sel_range l e1 e2 a b r entries zs : denotes_int st e1 a -> denotes_int st e2 b -> (a <= b)%Z ->
    List.length r = Z.to_nat (b - a + 1) ->
    (forall i z, nth_error r i = Some z -> z = (a + Z.of_nat i)%Z) ->
    selects st entries zs ->
    selects st (IRange l e1 e2 :: entries) (r ++ zs)%list.

(** ** Instructions *)

(** What the grammar can produce for the instructions that are not gates: only
    wait takes exactly one parameter, only measure may take others. *)
Definition grammar_non_gate (name : string) (params : list expr) : Prop :=
  In name (map fst non_gates) /\
  (name = "wait" -> List.length params = 1%nat) /\
  (name <> "wait" -> name <> "measure" -> params = []).

(** Every operand has the type the instruction reference declares (declared
    types do not constrain the size of arrays). *)
Definition operands_typed (i : instruction) (vs : list value) : Prop :=
  Forall2 (fun v t => exists tv, type_of v = Ok tv /\ kind tv = kind t) vs (operand_types i).

(** ** Observing the result *)

(** The statements and variables accepted so far in the current scope. *)
Definition statements_of (st : analyzer) : list sem_statement :=
  match scopes st with [] => [] | s :: _ => blk_statements (sc_block s) end.
Definition variables_of (st : analyzer) : list sem_variable :=
  match scopes st with [] => [] | s :: _ => sc_variables s end.
