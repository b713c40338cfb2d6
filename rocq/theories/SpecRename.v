(** Independent specification of programs, trees and results that differ only in
    the names of variables and in the identities of variable nodes (C75-C78). *)
From Verif Require Import Base ModelVersion ModelError ModelTypes ModelOverload ModelFunctions ModelAst ModelAnalyzer ModelSemantic ModelObjects
  SpecAnalyzer SpecObjects.
Local Open Scope string_scope.

(** ** Programs *)

(** [ren] is applied to every name of a variable: where it is declared and where
    it is used. Functions, gates and instructions keep their names. *)
Section Rename.
  Variable ren : string -> string.

  Fixpoint rename_expr (e : expr) : expr :=
    match e with
    | EBool l b => EBool l b
    | EInt l z => EInt l z
    | EFloat l x => EFloat l x
    | EIdent l n => EIdent l (ren n)
    | EIndex l b is => EIndex l (rename_expr b) (map rename_entry is)
    | ECall l n args => ECall l n (option_map (map rename_expr) args)
    | EUnary l o a => EUnary l o (rename_expr a)
    | EBinary l o a b => EBinary l o (rename_expr a) (rename_expr b)
    | ETernary l c a b => ETernary l (rename_expr c) (rename_expr a) (rename_expr b)
    end
  with rename_entry (i : index_entry) : index_entry :=
    match i with
    | IItem l a => IItem l (rename_expr a)
    | IRange l a b => IRange l (rename_expr a) (rename_expr b)
    end.
  Definition rename_annotation (a : annotation) : annotation :=
    mkAnnotation (an_loc a) (an_interface a) (an_operation a) (map rename_expr (an_operands a)).
  Fixpoint rename_gate (g : gate) : gate :=
    let 'Gate l n i ps ans := g in
    Gate l n (option_map rename_gate i) (map rename_expr ps) (map rename_annotation ans).
  Definition rename_statement (s : statement) : statement :=
    match s with
    | SVariable l n t ans => SVariable l (ren n) t (map rename_annotation ans)
    | SGateInstr l g ops ans => SGateInstr l (rename_gate g) (map rename_expr ops) (map rename_annotation ans)
    | SNonGate l n ops ps ans => SNonGate l n (map rename_expr ops) (map rename_expr ps) (map rename_annotation ans)
    | SAsm l n c ans => SAsm l n c (map rename_annotation ans)
    end.
  Definition rename_program (p : program) : program :=
    mkProgram (prog_version p) (prog_version_loc p) (map rename_statement (prog_statements p)) (prog_block_loc p).

  (** ** Trees *)

  (** [number] gives the new identities of the variable nodes. *)
  Variable number : nat -> nat.
  Definition rename_variable (x : variable) : variable := mkVariable (number (var_id x)) (ren (var_name x)) (var_type x).
  Definition rename_value (v : value) : value :=
    match v with
    | VVar x => VVar (rename_variable x)
    | VIndex x idx => VIndex (rename_variable x) idx
    | VBool b => VBool b
    | VInt z => VInt z
    | VFloat f => VFloat f
    end.
  Definition rename_sem_annotation (a : sem_annotation) : sem_annotation :=
    mkSemAnnotation (sa_loc a) (sa_interface a) (sa_operation a) (map rename_value (sa_operands a)).
  Fixpoint rename_sem_gate (g : sem_gate) : sem_gate :=
    let 'SemGate l n i ps ans := g in
    SemGate l n (option_map rename_sem_gate i) (map rename_value ps) (map rename_sem_annotation ans).
  Definition rename_sem_statement (s : sem_statement) : sem_statement :=
    match s with
    | SemGateInstr l r g ops ans => SemGateInstr l r (rename_sem_gate g) (map rename_value ops) (map rename_sem_annotation ans)
    | SemNonGate l r n ops ps ans => SemNonGate l r n (map rename_value ops) (map rename_value ps) (map rename_sem_annotation ans)
    | SemAsm l n c ans => SemAsm l n c (map rename_sem_annotation ans)
    end.
  Definition rename_sem_variable (v : sem_variable) : sem_variable :=
    mkSemVariable (rename_variable (sv_var v)) (map rename_sem_annotation (sv_annots v)).
  Definition rename_sem_program (p : sem_program) : sem_program :=
    mkSemProgram (sp_api_version p) (sp_version p) (sp_version_loc p)
      (mkBlock (map rename_sem_statement (blk_statements (sp_block p))) (blk_loc (sp_block p)))
      (map rename_sem_variable (sp_variables p)).
End Rename.

(** The same error at the same place, about the renamed variable if it is about one *)
Definition renamed_error (ren : string -> string) (e e' : error) : Prop :=
  location e' = location e /\
  (message e' = message e \/
   exists before n after, message e = before ++ n ++ after /\ message e' = before ++ ren n ++ after /\
     In (before, after) [("failed to resolve variable '", "'"); ("trying to redeclare variable '", "'")]).

(** Outcomes that correspond: both return related results, or both throw the same
    exception, or both are undefined in the same way *)
Definition outcomes {A : Type} (R : A -> A -> Prop) (a b : outcome error A) : Prop :=
  match a, b with
  | Ok x, Ok y => R x y
  | Throw w, Throw w' => w = w'
  | UB k, UB k' => k = k'
  | _, _ => False
  end.

(** The result of analysing a renamed program *)
Definition renamed_result (ren : string -> string) (number : nat -> nat) (r r' : result sem_program) : Prop :=
  res_root r' = option_map (rename_sem_program ren number) (res_root r) /\
  Forall2 (renamed_error ren) (res_errors r) (res_errors r').

(** The same name for everything *)
Definition same_name : string -> string := fun n => n.
(** The result with other identities of the variable nodes *)
Definition renumber_result (number : nat -> nat) (r : result sem_program) : result sem_program :=
  mkResult (option_map (rename_sem_program same_name number) (res_root r)) (res_errors r).

(** The names of variables and constants a program declares or mentions *)
Definition program_names (p : program) : list string :=
  (declared_names (prog_statements p) ++ flat_map (fun s => flat_map expr_names (statement_exprs s)) (prog_statements p))%list.
(** No two of the names are given the same new name. *)
Definition tells_apart (ren : string -> string) (names : list string) : Prop :=
  forall a b, In a names -> In b names -> ren a = ren b -> a = b.

(** ** Programs that differ in one statement *)

Definition is_declaration (s : statement) : Prop := match s with SVariable _ _ _ _ => True | _ => False end.
(** The program with other statements *)
Definition with_statements (ss : list statement) (p : program) : program :=
  mkProgram (prog_version p) (prog_version_loc p) ss (prog_block_loc p).

(** Two results with the same versions; what they contain otherwise *)
Definition results_with (r r' : result sem_program) (Q : sem_program -> sem_program -> Prop) : Prop :=
  exists q q', res_root r = Some q /\ res_root r' = Some q' /\
    sp_api_version q' = sp_api_version q /\ sp_version q' = sp_version q /\ sp_version_loc q' = sp_version_loc q /\ Q q q'.

(** A new node takes number k: later nodes have one more. *)
Definition make_room (k i : nat) : nat := if Nat.ltb i k then i else S i.
(** The result with one more variable x, declared when some variables had been
    declared already: all else is the same, up to the numbers of later nodes. *)
Definition one_more_variable (x : sem_variable) (r r' : result sem_program) : Prop :=
  let k := var_id (sv_var x) in
  res_errors r' = res_errors r /\
  results_with r r' (fun q q' =>
    (exists vs1 vs2, sp_variables q = (vs1 ++ vs2)%list /\ sp_variables q' = (vs1 ++ x :: map (rename_sem_variable same_name (make_room k)) vs2)%list /\
       Forall (fun v => var_id (sv_var v) < k)%nat vs1 /\ Forall (fun v => k <= var_id (sv_var v))%nat vs2) /\
    blk_statements (sp_block q') = map (rename_sem_statement same_name (make_room k)) (blk_statements (sp_block q)) /\
    blk_loc (sp_block q') = blk_loc (sp_block q)).

(** An instruction gives a statement of the tree or an error. *)
Definition gives (s : statement) (xs : list sem_statement) (es : list error) : Prop :=
  (exists x, xs = [x] /\ es = [] /\ contributes s (Adds x)) \/ (exists e, xs = [] /\ es = [e] /\ contributes s (Fails e)).
(** The results of the same program without an instruction and with it *)
Definition one_more_instruction (s : statement) (r r' : result sem_program) : Prop :=
  exists es1 es es2 xs1 xs xs2, gives s xs es /\
    res_errors r = (es1 ++ es2)%list /\ res_errors r' = (es1 ++ es ++ es2)%list /\
    results_with r r' (fun q q' =>
      sp_variables q' = sp_variables q /\
      blk_statements (sp_block q) = (xs1 ++ xs2)%list /\ blk_statements (sp_block q') = (xs1 ++ xs ++ xs2)%list).
(** The results of the same program with two neighbouring instructions in one
    order and in the other *)
Definition instructions_swapped (s t : statement) (r r' : result sem_program) : Prop :=
  exists es1 es fs es2 xs1 xs ys xs2, gives s xs es /\ gives t ys fs /\
    res_errors r = (es1 ++ es ++ fs ++ es2)%list /\ res_errors r' = (es1 ++ fs ++ es ++ es2)%list /\
    results_with r r' (fun q q' =>
      sp_variables q' = sp_variables q /\
      blk_statements (sp_block q) = (xs1 ++ xs ++ ys ++ xs2)%list /\ blk_statements (sp_block q') = (xs1 ++ ys ++ xs ++ xs2)%list).

(** ** Analysis with a new analyzer *)

(** What the calls default_analyzer and analyze give in a given situation *)
Definition analyze_afresh (w : world) (lm : libm) (api : string) (p : program) : outcome error (result sem_program) :=
  let! x := perform w (CDefault lm api) in
  let! y := perform (fst x) (CAnalyze (List.length (w_analyzers w)) p) in
  ending_value (fst y) (snd y).
