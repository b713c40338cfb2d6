(** Model of the syntactic tree, src/v3x/syntactic.tree, and of the semantic
    tree, src/v3x/semantic.tree. The generated tree-gen classes are not
    modelled; required children (One) are plain fields, Maybe is option, Any is
    list. [loc] is the optional SourceLocation annotation of a node. *)
From Verif Require Import Base ModelError ModelTypes ModelOverload ModelVersion.

Definition loc := option source_location.

(** src/v3x/syntactic.tree: unary_expression *)
Inductive unop : Set := UMinus | UBitNot | ULogNot.

(** src/v3x/syntactic.tree: binary_expression *)
Inductive binop : Set :=
| BPow | BMul | BDiv | BMod | BAdd | BSub | BShl | BShr
| BGt | BLt | BGe | BLe | BEq | BNe
| BBitAnd | BBitXor | BBitOr | BLogAnd | BLogXor | BLogOr.

(** src/v3x/syntactic.tree: expression, index_entry *)
Inductive expr : Type :=
| EBool (l : loc) (b : bool)
| EInt (l : loc) (z : Z)
| EFloat (l : loc) (f : float)
| EIdent (l : loc) (name : string)
| EIndex (l : loc) (e : expr) (indices : list index_entry)
| ECall (l : loc) (name : string) (args : option (list expr))
| EUnary (l : loc) (op : unop) (e : expr)
| EBinary (l : loc) (op : binop) (e1 e2 : expr)
| ETernary (l : loc) (c e1 e2 : expr)
with index_entry : Type :=
| IItem (l : loc) (e : expr)
| IRange (l : loc) (e1 e2 : expr).

Definition expr_loc (e : expr) : loc :=
  match e with
  | EBool l _ | EInt l _ | EFloat l _ | EIdent l _ | EIndex l _ _ | ECall l _ _
  | EUnary l _ _ | EBinary l _ _ _ | ETernary l _ _ _ => l
  end.

(** src/v3x/syntactic.tree: annotation_data *)
Record annotation := mkAnnotation {
  an_loc : loc; an_interface : string; an_operation : string; an_operands : list expr }.

(** src/v3x/syntactic.tree: gate *)
Inductive gate : Type :=
| Gate (l : loc) (name : string) (inner : option gate) (params : list expr) (annots : list annotation).

(** src/v3x/syntactic.tree: type *)
Record ast_type := mkAstType { ty_loc : loc; ty_name : string; ty_size : option Z }.

(** src/v3x/syntactic.tree: statement *)
Inductive statement : Type :=
| SVariable (l : loc) (name : string) (typ : ast_type) (annots : list annotation)
| SGateInstr (l : loc) (g : gate) (operands : list expr) (annots : list annotation)
| SNonGate (l : loc) (name : string) (operands params : list expr) (annots : list annotation)
| SAsm (l : loc) (backend_name backend_code : string) (annots : list annotation).

Definition statement_loc (s : statement) : loc :=
  match s with
  | SVariable l _ _ _ | SGateInstr l _ _ _ | SNonGate l _ _ _ _ | SAsm l _ _ _ => l
  end.

(** src/v3x/syntactic.tree: program, version, global_block *)
Record program := mkProgram {
  prog_version : version; prog_version_loc : loc;
  prog_statements : list statement; prog_block_loc : loc }.

(** ** Semantic tree *)

(** src/v3x/semantic.tree: annotation_data *)
Record sem_annotation := mkSemAnnotation {
  sa_loc : loc; sa_interface : string; sa_operation : string; sa_operands : list value }.

(** src/v3x/semantic.tree: gate *)
Inductive sem_gate : Type :=
| SemGate (l : loc) (name : string) (inner : option sem_gate) (params : list value)
          (annots : list sem_annotation).

(** src/v3x/semantic.tree: statement *)
Inductive sem_statement : Type :=
| SemGateInstr (l : loc) (ref : instruction) (g : sem_gate) (operands : list value)
               (annots : list sem_annotation)
| SemNonGate (l : loc) (ref : instruction) (name : string) (operands params : list value)
             (annots : list sem_annotation)
| SemAsm (l : loc) (backend_name backend_code : string) (annots : list sem_annotation).

Definition sem_statement_loc (s : sem_statement) : loc :=
  match s with
  | SemGateInstr l _ _ _ _ | SemNonGate l _ _ _ _ _ | SemAsm l _ _ _ => l
  end.

(** src/v3x/semantic.tree: block *)
Record block := mkBlock { blk_statements : list sem_statement; blk_loc : loc }.

(** A declared variable: the node of src/v3x/semantic.tree with its annotations. *)
Record sem_variable := mkSemVariable { sv_var : variable; sv_annots : list sem_annotation }.

(** src/v3x/semantic.tree: program *)
Record sem_program := mkSemProgram {
  sp_api_version : version;
  sp_version : version; sp_version_loc : loc;
  sp_block : block;
  sp_variables : list sem_variable }.
