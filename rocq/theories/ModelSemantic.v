(** Model of SemanticAnalyzer: src/v3x/semantic_analyzer.cpp,
    include/libqasm/v3x/semantic_analyzer.hpp, and of Analyzer::analyze. *)
From Verif Require Import Base ModelUtils ModelVersion ModelError ModelTypes ModelOverload
  ModelInstructionSet ModelAst ModelAnalyzer.
Local Open Scope string_scope.

(** [try { m } catch (AnalysisError& err) { err.context(node); throw; }] *)
Definition with_context {A : Type} (l : loc) (m : outcome error A) : outcome error A :=
  match m with Err e => Err (error_context l e) | _ => m end.

(** ** Expressions *)

(** src/v3x/semantic_analyzer.cpp:468-478 *)
Definition unop_name (o : unop) : string :=
  "operator" ++ match o with UMinus => "-" | UBitNot => "~" | ULogNot => "!" end.

(** src/v3x/semantic_analyzer.cpp:480-558 *)
Definition binop_name (o : binop) : string :=
  "operator" ++
  match o with
  | BPow => "**" | BMul => "*" | BDiv => "/" | BMod => "%" | BAdd => "+" | BSub => "-"
  | BShl => "<<" | BShr => ">>" | BGt => ">" | BLt => "<" | BGe => ">=" | BLe => "<="
  | BEq => "==" | BNe => "!=" | BBitAnd => "&" | BBitXor => "^" | BBitOr => "|"
  | BLogAnd => "&&" | BLogXor => "^^" | BLogOr => "||"
  end.

(** [first], [first + 1], ... : [n] integers *)
Fixpoint zseq (first : Z) (n : nat) : list Z :=
  match n with O => [] | S n' => first :: zseq (first + 1) n' end.

(** src/v3x/semantic_analyzer.cpp:569-575 check_out_of_range *)
Fixpoint check_out_of_range (indices : list Z) (size : Z) : outcome error unit :=
  match indices with
  | [] => Ok tt
  | i :: is => if ((i <? 0) || (size <=? i))%Z
               then Err (mk_error ("index " ++ dec_Z i ++ " out of range (size " ++ dec_Z size ++ ")"))
               else check_out_of_range is size
  end.

(** src/v3x/semantic_analyzer.cpp:667-675 visit_const_int, given the result of
    visiting the expression; hpp:144-147 visit_as *)
Definition const_int_of (l : loc) (r : outcome error value) : outcome error Z :=
  let! v := r in
  let! p := promote v (make_type TInt) in
  match p with
  | Some (VInt z) => Ok z
  | Some _ => Err (mk_error_at "integer must be constant" l)
  | None => Err (mk_error_at "expected an integer" l)
  end.

(** src/v3x/semantic_analyzer.cpp:621-634: the loop of visit_index_range; the
    final index++ overflows when last is the largest Int. *)
Definition expand_range (l : loc) (first last : Z) : outcome error (list Z) :=
  if (last <? first)%Z then Err (mk_error_at "last index is lower than first index" l)
  else if (last =? int64_max)%Z then UB SignedOverflow
  else Ok (zseq first (Z.to_nat (last - first + 1))).

Section Expressions.
  Variable st : analyzer.

  (** [expression.visit( *this)]: visit_function_call 427-446, operators 451-564,
      visit_index 577-596, visit_identifier 636-638, literals 649-662. Calls to
      visit_expression (413-422) are [with_context (expr_loc e) (visit e)]. *)
  Fixpoint visit (e : expr) : outcome error value :=
    match e with
    | EBool _ b => Ok (VBool b)
    | EInt _ z => Ok (VInt z)
    | EFloat _ f => Ok (VFloat f)
    | EIdent _ name => resolve_variable st name
    | EIndex l b idx =>
        with_context l
          (let! v := with_context (expr_loc b) (visit b) in
           match v with
           | VVar x =>
               match kind (var_type x) with
               | TQubitArray | TBitArray =>
                   let! is := mapM visit_entry idx in
                   let! _ := check_out_of_range (concat is) (tsize (var_type x)) in
                   Ok (VIndex x (concat is))
               | _ =>
                   let! t := type_of v in
                   Err (mk_error ("indexation is not supported for value of type '" ++ type_to_string t ++ "'"))
               end
           | _ => UB NullDereference
           end)
    | ECall _ name None => resolve_function st name []
    | ECall _ name (Some args) =>
        let! vs := mapM (fun a => with_context (expr_loc a) (visit a)) args in
        resolve_function st name vs
    | EUnary _ op e1 =>
        let! v1 := with_context (expr_loc e1) (visit e1) in
        resolve_function st (unop_name op) [v1]
    | EBinary _ op e1 e2 =>
        let! v1 := with_context (expr_loc e1) (visit e1) in
        let! v2 := with_context (expr_loc e2) (visit e2) in
        resolve_function st (binop_name op) [v1; v2]
    | ETernary _ c e1 e2 =>
        let! vc := with_context (expr_loc c) (visit c) in
        let! v1 := with_context (expr_loc e1) (visit e1) in
        let! v2 := with_context (expr_loc e2) (visit e2) in
        resolve_function st "operator?:" [vc; v1; v2]
    end
  (** src/v3x/semantic_analyzer.cpp:598-634: one entry of visit_index_list *)
  with visit_entry (i : index_entry) : outcome error (list Z) :=
    match i with
    | IItem _ e => let! z := const_int_of (expr_loc e) (visit e) in Ok [z]
    | IRange l e1 e2 =>
        let! z1 := const_int_of (expr_loc e1) (visit e1) in
        let! z2 := const_int_of (expr_loc e2) (visit e2) in
        expand_range l z1 z2
    end.

  (** src/v3x/semantic_analyzer.cpp:413-422 visit_expression *)
  Definition visit_expression (e : expr) : outcome error value := with_context (expr_loc e) (visit e).

  (** src/v3x/semantic_analyzer.cpp:404-411 visit_expression_list *)
  Definition visit_expression_list (es : list expr) : outcome error (list value) :=
    mapM visit_expression es.
End Expressions.

(** ** Results accumulated in result_.errors *)

(** A computation that may push errors to result_.errors: its outcome, and the
    errors pushed, in order. *)
Definition logged (A : Type) : Type := outcome error A * list error.
Definition lift {A : Type} (m : outcome error A) : logged A := (m, []).
Definition lbind {A B : Type} (m : logged A) (f : A -> logged B) : logged B :=
  match m with
  | (Ok a, es) => let (r, es') := f a in (r, es ++ es')%list
  | (Err e, es) => (Err e, es)
  | (Throw w, es) => (Throw w, es)
  | (UB k, es) => (UB k, es)
  end.
Notation "'let*' x ':=' m 'in' k" := (lbind m (fun x => k))
  (at level 200, x pattern, m at level 100, k at level 200, right associativity).

(** [try { m } catch (AnalysisError& err) { err.context(node); result_.errors.push_back(err); }],
    continuing with [d]. *)
Definition catch_log {A : Type} (l : loc) (d : A) (m : logged A) : logged A :=
  match m with
  | (Err e, es) => (Ok d, es ++ [error_context l e])%list
  | _ => m
  end.

(** ** Annotations *)

(** src/v3x/semantic_analyzer.cpp:80-87, the loop over the operands *)
Fixpoint visit_annotation_operands (st : analyzer) (l : loc) (es : list expr) : logged (list value) :=
  match es with
  | [] => lift (Ok [])
  | e :: es' =>
      let* v := catch_log l None (lift (map_outcome Some (visit st e))) in
      let* vs := visit_annotation_operands st l es' in
      lift (Ok (match v with Some v => v :: vs | None => vs end))
  end.

(** src/v3x/semantic_analyzer.cpp:75-95 visit_annotation_data *)
Definition visit_annotation_data (st : analyzer) (a : annotation) : logged sem_annotation :=
  let* vs := visit_annotation_operands st (an_loc a) (an_operands a) in
  lift (Ok (mkSemAnnotation (an_loc a) (an_interface a) (an_operation a) vs)).

(** src/v3x/semantic_analyzer.cpp:67-73 visit_annotated *)
Fixpoint visit_annotated (st : analyzer) (l : list annotation) : logged (list sem_annotation) :=
  match l with
  | [] => lift (Ok [])
  | a :: l' =>
      let* a' := visit_annotation_data st a in
      let* l'' := visit_annotated st l' in
      lift (Ok (a' :: l''))
  end.

(** ** Variables *)

(** include/libqasm/v3x/semantic_analyzer.hpp:80-105 build_semantic_type *)
Definition build_type (simple array : type_kind) (name : string) (size : option Z) : outcome error type :=
  match size with
  | None => Ok (mkType simple 1)
  | Some n => if (0 <? n)%Z then Ok (mkType array n)
              else Err (mk_error ("found " ++ name ++ " array of size <= 0"))
  end.
Definition build_semantic_type (t : ast_type) : outcome error type :=
  if ty_name t =? "qubit" then build_type TQubit TQubitArray "qubit" (ty_size t)
  else if ty_name t =? "bit" then build_type TBit TBitArray "bit" (ty_size t)
  else Err (mk_error ("unknown type """ ++ ty_name t ++ """")).

(** tree::make<semantic::Variable>(): a node with a fresh identity *)
Definition fresh (st : analyzer) : analyzer := mkAnalyzer (api_version st) (scopes st) (S (next_id st)).

(** src/v3x/semantic_analyzer.cpp:97-122 visit_variable. The location copied from
    the identifier is not modelled (the parser gives identifiers of declarations
    no location). The variable is added to the scope before it is registered,
    so it stays there when registration fails. *)
Definition visit_variable (st : analyzer) (l : loc) (name : string) (t : ast_type) (annots : list annotation)
  : logged analyzer :=
  let id := next_id st in
  let st := fresh st in
  catch_log l st
    (let* ty := lift (build_semantic_type t) in
     let* ans := visit_annotated st annots in
     let v := mkVariable id name ty in
     let* st1 := lift (add_variable st (mkSemVariable v ans)) in
     catch_log l st1 (lift (register_variable st1 name (VVar v)))).

(** ** Gates *)

Definition sem_gate_name (g : sem_gate) : string := let 'SemGate _ n _ _ _ := g in n.
Definition sem_gate_inner (g : sem_gate) : option sem_gate := let 'SemGate _ _ i _ _ := g in i.

(** src/v3x/semantic_analyzer.cpp:139-141 get_gate_terminal_name *)
Fixpoint gate_terminal_name (g : sem_gate) : string :=
  let 'SemGate _ n i _ _ := g in match i with None => n | Some g' => gate_terminal_name g' end.

(** src/v3x/semantic_analyzer.cpp:143-150 get_gate_resolution_name *)
Definition gate_resolution_name (g : sem_gate) : string :=
  match sem_gate_inner g with
  | None => sem_gate_name g
  | Some g' => (if is_single_qubit_gate_modifier (sem_gate_name g)
                then single_qubit_gate_composition_prefix
                else two_qubit_gate_composition_prefix) ++ "_" ++ gate_terminal_name g'
  end.

(** src/v3x/semantic_analyzer.cpp:239-247, 269-277: the parameter loop. [params]
    has at least as many elements as [spec]. [ret.add] of an empty value adds
    nothing. *)
Fixpoint resolve_params_loop (name : string) (spec : list ascii) (params : list value)
  : outcome error (list value) :=
  match spec, params with
  | [], _ => Ok []
  | c :: spec', p :: params' =>
      let! tp := type_of p in
      let! t := type_of_char c in
      if negb (check_promote tp t)
      then Err (mk_error ("failed to resolve '" ++ name ++ "' with parameter type (" ++ type_to_string tp ++ ")"))
      else
        let! v := promote p t in
        let! vs := resolve_params_loop name spec' params' in
        Ok (match v with Some v => v :: vs | None => vs end)
  | _ :: _, [] => Throw "std::out_of_range"
  end.

Definition dec_nat (n : nat) : string := dec_N (N.of_nat n).

(** src/v3x/semantic_analyzer.cpp:217-280 resolve_parameters *)
Definition resolve_parameters (name : string) (params : list value) : outcome error (list value) :=
  let count := List.length params in
  if is_non_gate name then
    match get_non_gate_param_types_with_param_count name count with
    | None =>
        if Nat.eqb count 0 then Ok []
        else Err (mk_error ("instruction '" ++ name ++ "' does not have an overload with " ++
                            dec_nat count ++ " parameters."))
    | Some spec => resolve_params_loop name (list_ascii_of_string spec) params
    end
  else
    let! spec := get_instruction_param_types name in
    match spec with
    | None =>
        if Nat.eqb count 0 then Ok []
        else Err (mk_error ("instruction '" ++ name ++ "' expects no parameters, but got " ++
                            dec_nat count ++ "."))
    | Some spec =>
        if negb (Nat.eqb count (String.length spec))
        then Err (mk_error ("instruction '" ++ name ++ "' expects " ++ dec_nat (String.length spec) ++
                            " parameters, but got " ++ dec_nat count ++ "."))
        else resolve_params_loop name (list_ascii_of_string spec) params
    end.

(** src/v3x/semantic_analyzer.cpp:212-215, 282-286 check_gate *)
Definition check_gate (inner : option sem_gate) : outcome error unit :=
  match inner with
  | Some g => if is_two_qubit_gate (gate_resolution_name g)
              then Err (mk_error "trying to apply a gate modifier to a multi-qubit gate")
              else Ok tt
  | None => Ok tt
  end.

Definition log_context {A : Type} (l : loc) (m : logged A) : logged A :=
  (with_context l (fst m), snd m).

(** src/v3x/semantic_analyzer.cpp:288-311 visit_gate *)
Fixpoint visit_gate (st : analyzer) (g : gate) : logged sem_gate :=
  let 'Gate l name inner params annots := g in
  log_context l
    (let* inner' := match inner with
                    | None => lift (Ok None)
                    | Some g' => let* r := visit_gate st g' in lift (Ok (Some r))
                    end in
     let* ps := lift (visit_expression_list st params) in
     let* ps' := lift (resolve_parameters name ps) in
     let* _ := lift (check_gate inner') in
     let* ans := visit_annotated st annots in
     lift (Ok (SemGate l name inner' ps' ans))).

(** ** Operand sizes *)

(** src/v3x/semantic_analyzer.cpp:158-172: size counted for one operand. size_t
    arithmetic is not wrapped: declared sizes are positive int64. *)
Definition qubit_indices_size (v : value) : Z :=
  match v with
  | VVar x => match kind (var_type x) with TQubit => 1 | TQubitArray => tsize (var_type x) | _ => 0 end
  | VIndex x idx => match kind (var_type x) with
                    | TQubit | TQubitArray => Z.of_nat (List.length idx) | _ => 0 end
  | _ => 0
  end.
Definition bit_indices_size (v : value) : Z :=
  match v with
  | VVar x => match kind (var_type x) with TBit => 1 | TBitArray => tsize (var_type x) | _ => 0 end
  | VIndex x idx => match kind (var_type x) with
                    | TBit | TBitArray => Z.of_nat (List.length idx) | _ => 0 end
  | _ => 0
  end.

(** std::adjacent_find(..., not_equal_to) finds nothing *)
Fixpoint adjacent_equal (l : list Z) : bool :=
  match l with
  | x :: t => match t with [] => true | y :: _ => (x =? y)%Z && adjacent_equal t end
  | [] => true
  end.

(** src/v3x/semantic_analyzer.cpp:152-182 check_gate_instruction *)
Definition check_gate_operands (operands : list value) : outcome error unit :=
  if adjacent_equal (map qubit_indices_size operands) then Ok tt
  else Err (mk_error "qubit operands indices have different sizes").

Definition zsum (l : list Z) : Z := fold_right Z.add 0%Z l.

(** src/v3x/semantic_analyzer.cpp:313-350 check_non_gate_instruction *)
Definition check_non_gate_operands (name : string) (operands : list value) : outcome error unit :=
  if is_measure name then
    if (zsum (map qubit_indices_size operands) =? zsum (map bit_indices_size operands))%Z then Ok tt
    else Err (mk_error "qubit and bit indices have different sizes")
  else Ok tt.

(** ** Statements *)

(** src/v3x/semantic_analyzer.cpp:184-210 visit_gate_instruction *)
Definition visit_gate_instruction (st : analyzer) (l : loc) (g : gate) (operands : list expr)
  (annots : list annotation) : logged analyzer :=
  catch_log l st
    (let* g' := visit_gate st g in
     let* vs := lift (visit_expression_list st operands) in
     let* r := lift (resolve_instruction st (gate_resolution_name g') vs) in
     let* _ := lift (check_gate_operands (snd r)) in
     let* ans := visit_annotated st annots in
     lift (add_statement st (SemGateInstr l (fst r) g' (snd r) ans))).

(** src/v3x/semantic_analyzer.cpp:352-382 visit_non_gate_instruction; parameters
    is a required child. *)
Definition visit_non_gate_instruction (st : analyzer) (l : loc) (name : string) (operands params : list expr)
  (annots : list annotation) : logged analyzer :=
  catch_log l st
    (let* vs := lift (visit_expression_list st operands) in
     let* r := lift (resolve_instruction st name vs) in
     let* ps := lift (visit_expression_list st params) in
     let* ps' := lift (resolve_parameters name ps) in
     let* _ := lift (check_non_gate_operands name (snd r)) in
     let* ans := visit_annotated st annots in
     lift (add_statement st (SemNonGate l (fst r) name (snd r) ps' ans))).

(** src/v3x/semantic_analyzer.cpp:384-402 visit_asm_declaration *)
Definition visit_asm_declaration (st : analyzer) (l : loc) (name code : string) (annots : list annotation)
  : logged analyzer :=
  catch_log l st
    (let* ans := visit_annotated st annots in
     lift (add_statement st (SemAsm l name code ans))).

(** statement_ast->visit( *this) *)
Definition visit_statement (st : analyzer) (s : statement) : logged analyzer :=
  match s with
  | SVariable l name t annots => visit_variable st l name t annots
  | SGateInstr l g operands annots => visit_gate_instruction st l g operands annots
  | SNonGate l name operands params annots => visit_non_gate_instruction st l name operands params annots
  | SAsm l name code annots => visit_asm_declaration st l name code annots
  end.

(** include/libqasm/v3x/semantic_analyzer.hpp:110-120 visit_block *)
Fixpoint visit_block (l : loc) (st : analyzer) (ss : list statement) : logged analyzer :=
  match ss with
  | [] => lift (Ok st)
  | s :: ss' =>
      let* st' := catch_log l st (visit_statement st s) in
      visit_block l st' ss'
  end.

(** src/v3x/semantic_analyzer.cpp:34-60 visit_version *)
Definition visit_version (api v : version) (l : loc) : logged version :=
  catch_log l api
    (lift (if existsb (fun i => (i <? 0)%Z) v then Err (mk_error "invalid version component")
           else if negb (version_eqb v api)
           then Err (mk_error ("the only cQASM version supported is " ++ version_to_string api ++
                               ", but the cQASM file is version " ++ version_to_string v))
           else Ok v)).

(** ** check_well_formed (tree-gen generated code): links point to variables of
    the tree, Many children are not empty. *)
Definition value_well_formed (vars : list nat) (v : value) : bool :=
  match v with
  | VVar x => existsb (Nat.eqb (var_id x)) vars
  | VIndex x idx => existsb (Nat.eqb (var_id x)) vars && negb (match idx with [] => true | _ => false end)
  | _ => true
  end.
Definition annots_well_formed (vars : list nat) (l : list sem_annotation) : bool :=
  forallb (fun a => forallb (value_well_formed vars) (sa_operands a)) l.
Fixpoint gate_well_formed (vars : list nat) (g : sem_gate) : bool :=
  let 'SemGate _ _ i ps ans := g in
  match i with None => true | Some g' => gate_well_formed vars g' end &&
  forallb (value_well_formed vars) ps && annots_well_formed vars ans.
Definition statement_well_formed (vars : list nat) (s : sem_statement) : bool :=
  match s with
  | SemGateInstr _ _ g ops ans =>
      gate_well_formed vars g && forallb (value_well_formed vars) ops && annots_well_formed vars ans
  | SemNonGate _ _ _ ops ps ans =>
      forallb (value_well_formed vars) ops && forallb (value_well_formed vars) ps && annots_well_formed vars ans
  | SemAsm _ _ _ ans => annots_well_formed vars ans
  end.
Definition program_well_formed (p : sem_program) : bool :=
  let vars := map (fun v => var_id (sv_var v)) (sp_variables p) in
  forallb (statement_well_formed vars) (blk_statements (sp_block p)) &&
  forallb (fun v => annots_well_formed vars (sv_annots v)) (sp_variables p).

(** src/v3x/semantic_analyzer.cpp:24-32, 62-65 visit_program, visit_global_block.
    The tree's block is the block of the current scope; here it is read when the
    call returns. *)
Definition visit_program (st : analyzer) (p : program) : logged (analyzer * sem_program) :=
  let* v := visit_version (api_version st) (prog_version p) (prog_version_loc p) in
  let* st' := visit_block (prog_block_loc p) st (prog_statements p) in
  let* sc := lift (current_scope st') in
  lift (Ok (st', mkSemProgram (api_version st) v (prog_version_loc p) (sc_block sc) (sc_variables sc))).

(** src/v3x/analyzer.cpp:87-101 Analyzer::analyze(Program&). An AnalysisError
    never escapes visit_program. *)
Definition analyze_ast (st : analyzer) (p : program) : outcome error (analyzer * result sem_program) :=
  match visit_program st p with
  | (Ok (st', sp), es) =>
      match es with
      | [] => if program_well_formed sp then Ok (st', mkResult (Some sp) [])
              else Throw "std::runtime_error: no semantic errors returned, but semantic tree is incomplete."
      | _ => Ok (st', mkResult (Some sp) es)
      end
  | (Err e, _) => Err e
  | (Throw w, _) => Throw w
  | (UB k, _) => UB k
  end.

(** src/v3x/analyzer.cpp:108-113 Analyzer::analyze(ParseResult). The root of a
    parse result without errors is always a program; dereferencing an empty one
    throws. *)
Definition analyze (st : analyzer) (r : result program) : outcome error (analyzer * result sem_program) :=
  match res_errors r with
  | [] => match res_root r with
          | Some p => analyze_ast st p
          | None => Throw "tree-gen: dereferencing empty node"
          end
  | es => Ok (st, mkResult None es)
  end.
