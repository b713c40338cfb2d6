(** Independent specification of what it means that two trees, or two results,
    differ only in source locations (C47, C54, C57). *)
From Verif Require Import Base ModelError ModelTypes ModelOverload ModelVersion ModelAst ModelAnalyzer.
Local Open Scope string_scope.

(** A change of the locations of a tree: [f] is applied to each. *)
Section Relocate.
  Variable f : loc -> loc.

  Fixpoint relocate_expr (e : expr) : expr :=
    match e with
    | EBool l b => EBool (f l) b
    | EInt l z => EInt (f l) z
    | EFloat l x => EFloat (f l) x
    | EIdent l n => EIdent (f l) n
    | EIndex l b is => EIndex (f l) (relocate_expr b) (map relocate_entry is)
    | ECall l n args => ECall (f l) n (option_map (map relocate_expr) args)
    | EUnary l o a => EUnary (f l) o (relocate_expr a)
    | EBinary l o a b => EBinary (f l) o (relocate_expr a) (relocate_expr b)
    | ETernary l c a b => ETernary (f l) (relocate_expr c) (relocate_expr a) (relocate_expr b)
    end
  with relocate_entry (i : index_entry) : index_entry :=
    match i with
    | IItem l a => IItem (f l) (relocate_expr a)
    | IRange l a b => IRange (f l) (relocate_expr a) (relocate_expr b)
    end.
  Definition relocate_annotation (a : annotation) : annotation :=
    mkAnnotation (f (an_loc a)) (an_interface a) (an_operation a) (map relocate_expr (an_operands a)).
  Fixpoint relocate_gate (g : gate) : gate :=
    let 'Gate l n i ps ans := g in
    Gate (f l) n (option_map relocate_gate i) (map relocate_expr ps) (map relocate_annotation ans).
  Definition relocate_type (t : ast_type) : ast_type := mkAstType (f (ty_loc t)) (ty_name t) (ty_size t).
  Definition relocate_statement (s : statement) : statement :=
    match s with
    | SVariable l n t ans => SVariable (f l) n (relocate_type t) (map relocate_annotation ans)
    | SGateInstr l g ops ans => SGateInstr (f l) (relocate_gate g) (map relocate_expr ops) (map relocate_annotation ans)
    | SNonGate l n ops ps ans => SNonGate (f l) n (map relocate_expr ops) (map relocate_expr ps) (map relocate_annotation ans)
    | SAsm l n c ans => SAsm (f l) n c (map relocate_annotation ans)
    end.
  Definition relocate_program (p : program) : program :=
    mkProgram (prog_version p) (f (prog_version_loc p)) (map relocate_statement (prog_statements p)) (f (prog_block_loc p)).

  Definition relocate_sem_annotation (a : sem_annotation) : sem_annotation :=
    mkSemAnnotation (f (sa_loc a)) (sa_interface a) (sa_operation a) (sa_operands a).
  Fixpoint relocate_sem_gate (g : sem_gate) : sem_gate :=
    let 'SemGate l n i ps ans := g in
    SemGate (f l) n (option_map relocate_sem_gate i) ps (map relocate_sem_annotation ans).
  Definition relocate_sem_statement (s : sem_statement) : sem_statement :=
    match s with
    | SemGateInstr l r g ops ans => SemGateInstr (f l) r (relocate_sem_gate g) ops (map relocate_sem_annotation ans)
    | SemNonGate l r n ops ps ans => SemNonGate (f l) r n ops ps (map relocate_sem_annotation ans)
    | SemAsm l n c ans => SemAsm (f l) n c (map relocate_sem_annotation ans)
    end.
  Definition relocate_block (b : block) : block := mkBlock (map relocate_sem_statement (blk_statements b)) (f (blk_loc b)).
  Definition relocate_variable (v : sem_variable) : sem_variable :=
    mkSemVariable (sv_var v) (map relocate_sem_annotation (sv_annots v)).
  Definition relocate_sem_program (p : sem_program) : sem_program :=
    mkSemProgram (sp_api_version p) (sp_version p) (f (sp_version_loc p)) (relocate_block (sp_block p)) (map relocate_variable (sp_variables p)).

  Definition relocate_error (e : error) : error := mkRawError (message e) (f (location e)).
  Definition relocate_result {A : Type} (g : A -> A) (r : result A) : result A :=
    mkResult (option_map g (res_root r)) (map relocate_error (res_errors r)).

  (** What an analyzer keeps of the programs it has analysed. *)
  Definition relocate_scope (s : scope) : scope :=
    mkScope (sc_variables_table s) (sc_functions s) (sc_instructions s) (relocate_block (sc_block s)) (map relocate_variable (sc_variables s)).
  Definition relocate_analyzer (st : analyzer) : analyzer :=
    mkAnalyzer (api_version st) (map relocate_scope (scopes st)) (next_id st).
End Relocate.

(** No location at all *)
Definition erase : loc -> loc := fun _ => None.
(** The same place in the file [file] *)
Definition in_file (file : option string) : loc -> loc :=
  option_map (fun l => mkRawLocation (match file with Some "" => None | _ => file end) (loc_range l)).
