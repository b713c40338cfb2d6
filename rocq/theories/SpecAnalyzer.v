(** Independent specification of the analysis of whole programs (C35-C44, C58,
    C60, C62). *)
From Verif Require Import SpecPlace Base ModelVersion ModelError ModelTypes ModelOverload ModelFunctions ModelAst
  ModelAnalyzer ModelSemantic SpecTypes SpecFunctions SpecInstructions.
Local Open Scope string_scope.

(** ** What a program contains *)

(** Names of variables and constants an expression mentions (functions are not
    counted). *)
Fixpoint expr_names (e : expr) : list string :=
  match e with
  | EBool _ _ | EInt _ _ | EFloat _ _ => []
  | EIdent _ n => [n]
  | EIndex _ b idx => (expr_names b ++ flat_map entry_names idx)%list
  | ECall _ _ None => []
  | ECall _ _ (Some args) => flat_map expr_names args
  | EUnary _ _ a => expr_names a
  | EBinary _ _ a b => (expr_names a ++ expr_names b)%list
  | ETernary _ a b c => (expr_names a ++ expr_names b ++ expr_names c)%list
  end
with entry_names (i : index_entry) : list string :=
  match i with
  | IItem _ e => expr_names e
  | IRange _ a b => (expr_names a ++ expr_names b)%list
  end.

(** The expressions of a gate, of an annotation, of a statement. *)
Definition annotation_exprs (l : list annotation) : list expr := flat_map an_operands l.
Fixpoint gate_exprs (g : gate) : list expr :=
  let 'Gate _ _ i ps an := g in
  (match i with None => [] | Some g' => gate_exprs g' end ++ ps ++ annotation_exprs an)%list.
Definition statement_exprs (s : statement) : list expr :=
  match s with
  | SVariable _ _ _ an | SAsm _ _ _ an => annotation_exprs an
  | SGateInstr _ g ops an => (gate_exprs g ++ ops ++ annotation_exprs an)%list
  | SNonGate _ _ ops ps an => (ops ++ ps ++ annotation_exprs an)%list
  end.

(** A statement mentions a variable or constant. *)
Definition mentions (s : statement) (n : string) : Prop :=
  exists e, In e (statement_exprs s) /\ In n (expr_names e).

(** The names declared by a list of statements. *)
Definition declared_names (ss : list statement) : list string :=
  flat_map (fun s => match s with SVariable _ n _ _ => [n] | _ => [] end) ss.

Definition constant_names : list string := ["true"; "false"; "pi"; "eu"; "tau"].

(** The type a declaration asks for. *)
Inductive declares_type : ast_type -> type -> Prop :=
| dt_qubit l : declares_type (mkAstType l "qubit" None) (mkType TQubit 1)
| dt_qubits l n : (0 < n)%Z -> declares_type (mkAstType l "qubit" (Some n)) (mkType TQubitArray n)
| dt_bit l : declares_type (mkAstType l "bit" None) (mkType TBit 1)
| dt_bits l n : (0 < n)%Z -> declares_type (mkAstType l "bit" (Some n)) (mkType TBitArray n).

(** A declaration of a name with such a type. *)
Definition legal_declaration (n : string) (s : statement) : Prop :=
  exists l t an ty, s = SVariable l n t an /\ declares_type t ty.

(** The statements of the first program, then those of the second. *)
Definition append_programs (p1 p2 : program) : program :=
  mkProgram (prog_version p1) (prog_version_loc p1) (prog_statements p1 ++ prog_statements p2) (prog_block_loc p1).
(** The program with another version. *)
Definition with_version (v : version) (p : program) : program :=
  mkProgram v (prog_version_loc p) (prog_statements p) (prog_block_loc p).
Definition prefix_of {A : Type} (l m : list A) : Prop := exists r, m = (l ++ r)%list.

(** Trees that differ at most in the version. *)
Definition same_tree (a b : sem_program) : Prop := sp_block a = sp_block b /\ sp_variables a = sp_variables b.

(** ** What the parser can produce *)

(** Index lists are not empty. *)
Fixpoint indexed_expr (e : expr) : bool :=
  match e with
  | EBool _ _ | EInt _ _ | EFloat _ _ | EIdent _ _ => true
  | EIndex _ b idx => negb (Nat.eqb (List.length idx) 0) && indexed_expr b && forallb indexed_entry idx
  | ECall _ _ None => true
  | ECall _ _ (Some args) => forallb indexed_expr args
  | EUnary _ _ a => indexed_expr a
  | EBinary _ _ a b => indexed_expr a && indexed_expr b
  | ETernary _ a b c => indexed_expr a && indexed_expr b && indexed_expr c
  end
with indexed_entry (i : index_entry) : bool :=
  match i with IItem _ e => indexed_expr e | IRange _ a b => indexed_expr a && indexed_expr b end.

(** No annotations: the grammar has no syntax for them. *)
Fixpoint plain_gate (g : gate) : Prop :=
  let 'Gate _ _ i _ an := g in an = [] /\ match i with None => True | Some g' => plain_gate g' end.
Definition plain (s : statement) : Prop :=
  match s with
  | SVariable _ _ _ an | SNonGate _ _ _ _ an | SAsm _ _ _ an => an = []
  | SGateInstr _ g _ an => plain_gate g /\ an = []
  end.

(** The statements of parsed programs. *)
Definition grammar_statement (s : statement) : Prop :=
  plain s /\ forallb indexed_expr (statement_exprs s) = true /\
  match s with
  | SGateInstr _ g _ _ => grammar_gate g
  | SNonGate _ n _ ps _ => grammar_non_gate n ps
  | _ => True
  end.
Definition grammar_program (p : program) : Prop := Forall grammar_statement (prog_statements p).

(** ** Using an analyzer *)

(** A sequence of calls analyze, push_scope, pop_scope. *)
Inductive use : Type := UAnalyze (p : program) | UPush | UPop.
Inductive uses : analyzer -> list use -> analyzer -> Prop :=
| uses_none st : uses st [] st
| uses_analyze st p st1 r us st2 : analyze_ast st p = Ok (st1, r) -> uses st1 us st2 -> uses st (UAnalyze p :: us) st2
| uses_push st us st2 : uses (push_scope st) us st2 -> uses st (UPush :: us) st2
| uses_pop st st1 us st2 : (2 <= List.length (scopes st))%nat -> pop_scope st = Ok st1 -> uses st1 us st2 ->
    uses st (UPop :: us) st2.

(** The analyzers reached from the default one by analysing parsed programs. *)
Inductive analyses (lm : libm) : analyzer -> Prop :=
| an_default st : default_analyzer lm "3.0" = Ok st -> analyses lm st
| an_analyze st p st' r : analyses lm st -> grammar_program p -> analyze_ast st p = Ok (st', r) -> analyses lm st'.

(** ** Contributions of statements (C36) *)

(** The output of one statement: a variable, a statement, an error, or (the
    exception) a variable and an error. *)
Inductive contribution : Type :=
| Declares (v : sem_variable)
| Adds (x : sem_statement)
| Fails (e : error)
| Redeclares (v : sem_variable) (e : error).
Definition new_variables (c : contribution) : list sem_variable :=
  match c with Declares v | Redeclares v _ => [v] | _ => [] end.
Definition new_statements (c : contribution) : list sem_statement := match c with Adds x => [x] | _ => [] end.
Definition new_errors (c : contribution) : list error := match c with Fails e | Redeclares _ e => [e] | _ => [] end.

(** The source gate and the gate in the tree have the same names. *)
Inductive same_gate : gate -> sem_gate -> Prop :=
| same_named l n ps ws : same_gate (Gate l n None ps []) (SemGate l n None ws [])
| same_modified l n g sg ps ws : same_gate g sg -> same_gate (Gate l n (Some g) ps []) (SemGate l n (Some sg) ws []).

(** Contributions are of the kind of the source statement; outputs carry its
    names and location, errors have a location if it has one. *)
Inductive contributes : statement -> contribution -> Prop :=
| con_declares l n t id ty : declares_type t ty ->
    contributes (SVariable l n t []) (Declares (mkSemVariable (mkVariable id n ty) []))
| con_redeclares l n t id ty e : declares_type t ty -> (l <> None -> location e <> None) ->
    contributes (SVariable l n t []) (Redeclares (mkSemVariable (mkVariable id n ty) []) e)
| con_fails s e : (place_of_statement s <> None -> location e <> None) -> contributes s (Fails e)
| con_gate l g sg ops vs i : same_gate g sg -> contributes (SGateInstr l g ops []) (Adds (SemGateInstr l i sg vs []))
| con_non_gate l n ops ps vs ws i : instr_name i = n ->
    contributes (SNonGate l n ops ps []) (Adds (SemNonGate l i n vs ws []))
| con_asm l n code : contributes (SAsm l n code []) (Adds (SemAsm l n code [])).

Definition redeclaration (c : contribution) : Prop := match c with Redeclares _ _ => True | _ => False end.

(** The names of the current scope. *)
Definition names_here (st : analyzer) : list string :=
  match scopes st with [] => [] | s :: _ => map fst (sc_variables_table s) end.

(** ** Well-formed trees (C35) *)

(** A reference to one of the variables [vars], with indices within its size. *)
Definition reference_fine (vars : list variable) (v : value) : Prop :=
  match v with
  | VVar x => In x vars
  | VIndex x idx => In x vars /\ (kind (var_type x) = TQubitArray \/ kind (var_type x) = TBitArray) /\
                    Forall (fun i => 0 <= i < tsize (var_type x))%Z idx
  | _ => True
  end.
(** The values a statement of the tree contains. *)
Definition annotation_values (l : list sem_annotation) : list value := flat_map sa_operands l.
Fixpoint gate_values (g : sem_gate) : list value :=
  let 'SemGate _ _ i ps an := g in
  (match i with None => [] | Some g' => gate_values g' end ++ ps ++ annotation_values an)%list.
Definition statement_values (s : sem_statement) : list value :=
  match s with
  | SemGateInstr _ _ g ops an => (gate_values g ++ ops ++ annotation_values an)%list
  | SemNonGate _ _ _ ops ps an => (ops ++ ps ++ annotation_values an)%list
  | SemAsm _ _ _ an => annotation_values an
  end.
Definition statement_fine (vars : list variable) (s : sem_statement) : Prop :=
  Forall (reference_fine vars) (statement_values s) /\
  match s with
  | SemGateInstr _ i _ ops _ | SemNonGate _ i _ ops _ _ => operands_typed i ops
  | SemAsm _ _ _ _ => True
  end.
Definition program_variables (p : sem_program) : list variable := map sv_var (sp_variables p).
Definition program_fine (p : sem_program) : Prop :=
  let vars := program_variables p in
  Forall (statement_fine vars) (blk_statements (sp_block p)) /\
  Forall (fun v => Forall (reference_fine vars) (annotation_values (sv_annots v))) (sp_variables p) /\
  Forall declared vars /\
  NoDup (constant_names ++ map var_name vars).

(** ** Locations (C44) *)

Fixpoint expr_locs (e : expr) : list loc :=
  place_of e ::
  match e with
  | EIndex _ b idx => (expr_locs b ++ flat_map entry_locs idx)%list
  | ECall _ _ (Some args) => flat_map expr_locs args
  | EUnary _ _ a => expr_locs a
  | EBinary _ _ a b => (expr_locs a ++ expr_locs b)%list
  | ETernary _ a b c => (expr_locs a ++ expr_locs b ++ expr_locs c)%list
  | _ => []
  end
with entry_locs (i : index_entry) : list loc :=
  match i with
  | IItem l e => l :: expr_locs e
  | IRange l a b => l :: (expr_locs a ++ expr_locs b)%list
  end.
Fixpoint gate_locs (g : gate) : list loc :=
  let 'Gate l _ i ps an := g in
  l :: (match i with None => [] | Some g' => gate_locs g' end ++ flat_map expr_locs ps ++
        flat_map (fun a => an_loc a :: flat_map expr_locs (an_operands a)) an)%list.
Definition statement_locs (s : statement) : list loc :=
  let annot_locs := flat_map (fun a => an_loc a :: flat_map expr_locs (an_operands a)) in
  place_of_statement s ::
  match s with
  | SVariable _ _ _ an | SAsm _ _ _ an => annot_locs an
  | SGateInstr _ g ops an => (gate_locs g ++ flat_map expr_locs ops ++ annot_locs an)%list
  | SNonGate _ _ ops ps an => (flat_map expr_locs ops ++ flat_map expr_locs ps ++ annot_locs an)%list
  end.

(** A predicate holds of a location, if there is one; of the location of an
    error, which has one. *)
Definition loc_holds (P : source_location -> Prop) (l : loc) : Prop :=
  match l with Some x => P x | None => True end.
Definition located (P : source_location -> Prop) (e : error) : Prop :=
  exists l, location e = Some l /\ P l.

(** The locations of a statement satisfy [P], and it has one itself (asm
    declarations have none). *)
Definition statement_located (P : source_location -> Prop) (s : statement) : Prop :=
  Forall (loc_holds P) (statement_locs s) /\ (match s with SAsm _ _ _ _ => True | _ => place_of_statement s <> None end).

(** ** Undefined behaviour (C21) *)

(** Integer operations without a result: overflow of 64 bits, division by zero,
    an invalid shift count. *)
Inductive no_result : string -> list Z -> Prop :=
| nr_neg a : ~ fits (- a) -> no_result "operator-" [a]
| nr_abs a : ~ fits (Z.abs a) -> no_result "abs" [a]
| nr_add a b : ~ fits (a + b) -> no_result "operator+" [a; b]
| nr_sub a b : ~ fits (a - b) -> no_result "operator-" [a; b]
| nr_mul a b : ~ fits (a * b) -> no_result "operator*" [a; b]
| nr_div0 a : no_result "operator/" [a; 0%Z]
| nr_div a b : b <> 0%Z -> ~ fits (Z.quot a b) -> no_result "operator/" [a; b]
| nr_mod0 a : no_result "operator%" [a; 0%Z]
| nr_mod a b : b <> 0%Z -> ~ fits (Z.quot a b) -> no_result "operator%" [a; b]
| nr_shl a b : ~ (0 <= b < 64)%Z -> no_result "operator<<" [a; b]
| nr_shr a b : ~ (0 <= b < 64)%Z -> no_result "operator>>" [a; b].

(** Subexpressions, including those in indices. *)
Inductive within (e : expr) : expr -> Prop :=
| within_refl : within e e
| within_base l b idx : within e b -> within e (EIndex l b idx)
| within_item l b idx l' i : In (IItem l' i) idx -> within e i -> within e (EIndex l b idx)
| within_first l b idx l' i j : In (IRange l' i j) idx -> within e i -> within e (EIndex l b idx)
| within_last l b idx l' i j : In (IRange l' i j) idx -> within e j -> within e (EIndex l b idx)
| within_arg l n args a : In a args -> within e a -> within e (ECall l n (Some args))
| within_unary l op a : within e a -> within e (EUnary l op a)
| within_left l op a b : within e a -> within e (EBinary l op a b)
| within_right l op a b : within e b -> within e (EBinary l op a b)
| within_cond l c a b : within e c -> within e (ETernary l c a b)
| within_then l c a b : within e a -> within e (ETernary l c a b)
| within_else l c a b : within e b -> within e (ETernary l c a b).

(** The expressions whose evaluation is undefined: an operation without result,
    an index applied to something that is not a variable, a range ending at the
    largest integer. *)
Inductive hazard (st : analyzer) : expr -> Prop :=
| hz_unary l op e z : denotes_int st e z -> no_result (unop_name op) [z] -> hazard st (EUnary l op e)
| hz_binary l op e1 e2 z1 z2 : denotes_int st e1 z1 -> denotes_int st e2 z2 -> no_result (binop_name op) [z1; z2] ->
    hazard st (EBinary l op e1 e2)
| hz_call l n args zs : Forall2 (denotes_int st) args zs -> no_result n zs -> hazard st (ECall l n (Some args))
| hz_index l b idx v : visit st b = Ok v -> (forall x, v <> VVar x) -> hazard st (EIndex l b idx)
| hz_range l b idx l' e1 e2 z : In (IRange l' e1 e2) idx -> denotes_int st e1 z -> denotes_int st e2 (2 ^ 63 - 1) ->
    hazard st (EIndex l b idx).

(** ** Scopes (C42) *)

(** What can be done between two points of the same scope: declare variables,
    register instructions, analyse programs, open and close nested scopes. *)
Inductive session : analyzer -> analyzer -> Prop :=
| se_none st : session st st
| se_variable st n v st1 st2 : register_variable st n v = Ok st1 -> session st1 st2 -> session st st2
| se_instruction st i st1 st2 : register_instruction st i = Ok st1 -> session st1 st2 -> session st st2
| se_analyze st p st1 r st2 : analyze_ast st p = Ok (st1, r) -> session st1 st2 -> session st st2
| se_nested st st1 st2 st3 : session (push_scope st) st1 -> pop_scope st1 = Ok st2 -> session st2 st3 -> session st st3.
