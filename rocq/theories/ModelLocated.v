(** Model of the locations that the semantic analyzer attaches to the operands and
    parameters of instructions: src/v3x/semantic_analyzer.cpp, src/v3x/values.cpp,
    include/libqasm/overload.hpp, src/v3x/resolver.cpp. This is the analysis of
    ModelSemantic.v with values that carry locations. Simplified: the arguments of
    core functions, the values in variable tables and those in annotation data are
    kept without locations. A statement that is added goes to the scope without
    the locations of its values and is also returned with them. *)
From Verif Require Import Base ModelUtils ModelVersion ModelError ModelTypes ModelOverload
  ModelInstructionSet ModelAst ModelAnalyzer ModelSemantic.
Local Open Scope string_scope.

(** src/v3x/values.tree: the nodes with their SourceLocation annotation; the
    indices of an index_ref are const_int nodes of their own. *)
Inductive lnode : Set :=
| LBool (b : bool)
| LInt (z : Z)
| LFloat (f : float)
| LVar (v : variable)
| LIndex (v : variable) (indices : list (loc * Z)).
Record lvalue : Set := mkLValue { lv_loc : loc; lv_node : lnode }.

(** The value without its locations *)
Definition erase (v : lvalue) : value :=
  match lv_node v with
  | LBool b => VBool b
  | LInt z => VInt z
  | LFloat f => VFloat f
  | LVar x => VVar x
  | LIndex x is => VIndex x (map snd is)
  end.

(** src/v3x/resolver.cpp:35-40: the clone of a registered value. Registered values
    have no location (src/v3x/semantic_analyzer.cpp:115, src/v3x/analyzer.cpp:61-68). *)
Definition bare (v : value) : lvalue :=
  mkLValue None
    match v with
    | VBool b => LBool b
    | VInt z => LInt z
    | VFloat f => LFloat f
    | VVar x => LVar x
    | VIndex x is => LIndex x (map (fun z => (None, z)) is)
    end.

Section Located.
  (** Whether copying the location of a node that has none keeps the location that
      is there (true) or removes it. This is defined in tree-gen, not in the
      repository. *)
  Variable keep : bool.

  (** copy_annotation<SourceLocation> onto a node that has location [own] *)
  Definition copied (own src : loc) : loc :=
    match src with Some _ => src | None => if keep then own else None end.
  Definition copy_location (src : loc) (v : lvalue) : lvalue := mkLValue (copied (lv_loc v) src) (lv_node v).

  (** src/v3x/values.cpp:30-64 promote *)
  Definition lpromote (v : lvalue) (t : type) : outcome error (option lvalue) :=
    let! tv := type_of (erase v) in
    if type_check t tv then Ok (Some v)
    else
      let r1 := match kind t with
                | TInt =>
                    match lv_node v with
                    | LBool b => Some (mkLValue None (LInt (if b then 1 else 0)))
                    | LVar _ => if type_check tv (make_type TBool) then Some v else None
                    | _ => None
                    end
                | _ => None
                end in
      let r2 := match kind t with
                | TFloat =>
                    match lv_node v with
                    | LBool b => Some (mkLValue None (LFloat (float_of_bool b)))
                    | LInt z => Some (mkLValue None (LFloat (float_of_Z z)))
                    | _ => r1
                    end
                | _ => r1
                end in
      Ok (option_map (copy_location (lv_loc v)) r2).

  (** include/libqasm/overload.hpp:113-122 *)
  Fixpoint lpromote_args (args : list lvalue) (params : list type) : outcome error (option (list lvalue)) :=
    match args, params with
    | [], _ => Ok (Some [])
    | a :: args', p :: params' =>
        let! r := lpromote a p in
        match r with
        | None => Ok None
        | Some a' =>
            let! rs := lpromote_args args' params' in
            Ok (match rs with None => None | Some l => Some (a' :: l) end)
        end
    | _ :: _, [] => Throw "std::out_of_range"
    end.

  (** include/libqasm/overload.hpp:108-128 *)
  Fixpoint lresolve_loop {T : Type} (rev_overloads : list (overload T)) (args : list lvalue)
    : outcome error (option (T * list lvalue)) :=
    match rev_overloads with
    | [] => Ok None
    | o :: os =>
        if negb (Nat.eqb (List.length (ov_params o)) (List.length args)) then lresolve_loop os args
        else let! r := lpromote_args args (ov_params o) in
             match r with
             | Some args' => Ok (Some (ov_tag o, args'))
             | None => lresolve_loop os args
             end
    end.

  (** include/libqasm/overload.hpp:176-181 wrapped by include/libqasm/v3x/resolver.hpp:71-80 *)
  Definition lresolve {T : Type} (t : table T) (name : string) (args : list lvalue) : outcome error (T * list lvalue) :=
    match table_find name t with
    | None => Err (mk_error ("failed to resolve '" ++ name ++ "'"))
    | Some r =>
        let! o := lresolve_loop (rev r) args in
        match o with
        | Some x => Ok x
        | None =>
            let! ts := types_of (map erase args) in
            Err (mk_error ("failed to resolve overload for '" ++ name ++ "' with argument pack (" ++
                           types_to_string ts ++ ")"))
        end
    end.

  (** src/v3x/analyzer.cpp:233-264 resolve_instruction *)
  Fixpoint lresolve_instruction_in (l : list scope) (name : string) (args : list lvalue)
    : outcome error (instruction * list lvalue) :=
    match l with
    | [] => let! ts := types_of (map erase args) in
            Err (mk_error ("failed to resolve instruction '" ++ name ++ "' with argument pack (" ++
                           types_to_string ts ++ ")"))
    | s :: l' => match lresolve (sc_instructions s) name args with
                 | Err _ => lresolve_instruction_in l' name args
                 | r => r
                 end
    end.
  Definition lresolve_instruction (st : analyzer) (name : string) (args : list lvalue)
    : outcome error (instruction * list lvalue) := lresolve_instruction_in (scopes st) name args.

  (** src/v3x/analyzer.cpp:204-206 resolve_function. The functions make new nodes
      (include/libqasm/v3x/register_consteval_core_functions.hpp:40-74). *)
  Definition lresolve_function (st : analyzer) (name : string) (args : list lvalue) : outcome error lvalue :=
    map_outcome bare (resolve_function st name (map erase args)).

  (** src/v3x/semantic_analyzer.cpp:667-675 visit_const_int *)
  Definition lconst_int_of (l : loc) (r : outcome error lvalue) : outcome error Z :=
    let! v := r in
    let! p := lpromote v (make_type TInt) in
    match p with
    | Some w => match lv_node w with LInt z => Ok z | _ => Err (mk_error_at "integer must be constant" l) end
    | None => Err (mk_error_at "expected an integer" l)
    end.

  Section Expressions.
    Variable st : analyzer.

    (** src/v3x/semantic_analyzer.cpp:413-422 visit_expression, given the result of
        visiting the expression *)
    Definition finish (l : loc) (r : outcome error lvalue) : outcome error lvalue :=
      with_context l (let! v := r in Ok (copy_location l v)).

    (** [expression.visit( *this)]: visit_function_call 427-446, operators 451-564,
        visit_index 577-596, visit_identifier 636-638, literals 649-662 *)
    Fixpoint lvisit (e : expr) : outcome error lvalue :=
      match e with
      | EBool _ b => Ok (mkLValue None (LBool b))
      | EInt _ z => Ok (mkLValue None (LInt z))
      | EFloat _ f => Ok (mkLValue None (LFloat f))
      | EIdent _ name => map_outcome bare (resolve_variable st name)
      | EIndex l b idx =>
          with_context l
            (let! v := finish (expr_loc b) (lvisit b) in
             match lv_node v with
             | LVar x =>
                 match kind (var_type x) with
                 | TQubitArray | TBitArray =>
                     let! is := mapM lvisit_entry idx in
                     let! _ := check_out_of_range (map snd (concat is)) (tsize (var_type x)) in
                     Ok (mkLValue None (LIndex x (concat is)))
                 | _ =>
                     let! t := type_of (erase v) in
                     Err (mk_error ("indexation is not supported for value of type '" ++ type_to_string t ++ "'"))
                 end
             | _ => UB NullDereference
             end)
      | ECall _ name None => lresolve_function st name []
      | ECall _ name (Some args) =>
          let! vs := mapM (fun a => finish (expr_loc a) (lvisit a)) args in
          lresolve_function st name vs
      | EUnary _ op e1 =>
          let! v1 := finish (expr_loc e1) (lvisit e1) in
          lresolve_function st (unop_name op) [v1]
      | EBinary _ op e1 e2 =>
          let! v1 := finish (expr_loc e1) (lvisit e1) in
          let! v2 := finish (expr_loc e2) (lvisit e2) in
          lresolve_function st (binop_name op) [v1; v2]
      | ETernary _ c e1 e2 =>
          let! vc := finish (expr_loc c) (lvisit c) in
          let! v1 := finish (expr_loc e1) (lvisit e1) in
          let! v2 := finish (expr_loc e2) (lvisit e2) in
          lresolve_function st "operator?:" [vc; v1; v2]
      end
    (** src/v3x/semantic_analyzer.cpp:598-634: one entry of visit_index_list; every
        new const_int node gets the location of the item or range. *)
    with lvisit_entry (i : index_entry) : outcome error (list (loc * Z)) :=
      match i with
      | IItem l e => let! z := lconst_int_of (expr_loc e) (lvisit e) in Ok [(copied None l, z)]
      | IRange l e1 e2 =>
          let! z1 := lconst_int_of (expr_loc e1) (lvisit e1) in
          let! z2 := lconst_int_of (expr_loc e2) (lvisit e2) in
          let! zs := expand_range l z1 z2 in
          Ok (map (fun z => (copied None l, z)) zs)
      end.

    (** src/v3x/semantic_analyzer.cpp:413-422 visit_expression *)
    Definition lvisit_expression (e : expr) : outcome error lvalue := finish (expr_loc e) (lvisit e).

    (** src/v3x/semantic_analyzer.cpp:404-411 visit_expression_list *)
    Definition lvisit_expression_list (es : list expr) : outcome error (list lvalue) := mapM lvisit_expression es.
  End Expressions.

  (** ** Gates *)

  (** src/v3x/semantic.tree: gate *)
  Inductive lgate : Type :=
  | LGate (l : loc) (name : string) (inner : option lgate) (params : list lvalue) (annots : list sem_annotation).
  Fixpoint erase_gate (g : lgate) : sem_gate :=
    let 'LGate l n i ps ans := g in SemGate l n (option_map erase_gate i) (map erase ps) ans.

  (** src/v3x/semantic_analyzer.cpp:239-247, 269-277: the parameter loop *)
  Fixpoint lresolve_params_loop (name : string) (spec : list ascii) (params : list lvalue)
    : outcome error (list lvalue) :=
    match spec, params with
    | [], _ => Ok []
    | c :: spec', p :: params' =>
        let! tp := type_of (erase p) in
        let! t := type_of_char c in
        if negb (check_promote tp t)
        then Err (mk_error ("failed to resolve '" ++ name ++ "' with parameter type (" ++ type_to_string tp ++ ")"))
        else
          let! v := lpromote p t in
          let! vs := lresolve_params_loop name spec' params' in
          Ok (match v with Some v => v :: vs | None => vs end)
    | _ :: _, [] => Throw "std::out_of_range"
    end.

  (** src/v3x/semantic_analyzer.cpp:217-280 resolve_parameters *)
  Definition lresolve_parameters (name : string) (params : list lvalue) : outcome error (list lvalue) :=
    let count := List.length params in
    if is_non_gate name then
      match get_non_gate_param_types_with_param_count name count with
      | None =>
          if Nat.eqb count 0 then Ok []
          else Err (mk_error ("instruction '" ++ name ++ "' does not have an overload with " ++
                              dec_nat count ++ " parameters."))
      | Some spec => lresolve_params_loop name (list_ascii_of_string spec) params
      end
    else
      let! spec := get_instruction_param_types name in
      match spec with
      | None =>
          if Nat.eqb count 0 then Ok []
          else Err (mk_error ("instruction '" ++ name ++ "' expects no parameters, but got " ++
                              dec_nat count ++ "."))
      | Some spec =>
          if negb (Nat.eqb count (String.length spec))
          then Err (mk_error ("instruction '" ++ name ++ "' expects " ++ dec_nat (String.length spec) ++
                              " parameters, but got " ++ dec_nat count ++ "."))
          else lresolve_params_loop name (list_ascii_of_string spec) params
      end.

  (** src/v3x/semantic_analyzer.cpp:288-311 visit_gate *)
  Fixpoint lvisit_gate (st : analyzer) (g : gate) : logged lgate :=
    let 'Gate l name inner params annots := g in
    log_context l
      (let* inner' := match inner with
                      | None => lift (Ok None)
                      | Some g' => let* r := lvisit_gate st g' in lift (Ok (Some r))
                      end in
       let* ps := lift (lvisit_expression_list st params) in
       let* ps' := lift (lresolve_parameters name ps) in
       let* _ := lift (check_gate (option_map erase_gate inner')) in
       let* ans := visit_annotated st annots in
       lift (Ok (LGate l name inner' ps' ans))).

  (** ** Statements *)

  (** src/v3x/semantic.tree: statement *)
  Inductive lstatement : Type :=
  | LGateInstr (l : loc) (ref : instruction) (g : lgate) (operands : list lvalue) (annots : list sem_annotation)
  | LNonGate (l : loc) (ref : instruction) (name : string) (operands params : list lvalue) (annots : list sem_annotation)
  | LAsm (l : loc) (backend_name backend_code : string) (annots : list sem_annotation).
  Definition erase_statement (s : lstatement) : sem_statement :=
    match s with
    | LGateInstr l r g ops ans => SemGateInstr l r (erase_gate g) (map erase ops) ans
    | LNonGate l r n ops ps ans => SemNonGate l r n (map erase ops) (map erase ps) ans
    | LAsm l n c ans => SemAsm l n c ans
    end.

  (** src/v3x/analyzer.cpp:148-165 add_statement_to_current_scope *)
  Definition ladd_statement (st : analyzer) (s : lstatement) : outcome error (analyzer * list lstatement) :=
    let! st' := add_statement st (erase_statement s) in Ok (st', [s]).

  (** src/v3x/semantic_analyzer.cpp:184-210 visit_gate_instruction *)
  Definition lvisit_gate_instruction (st : analyzer) (l : loc) (g : gate) (operands : list expr)
    (annots : list annotation) : logged (analyzer * list lstatement) :=
    catch_log l (st, [])
      (let* g' := lvisit_gate st g in
       let* vs := lift (lvisit_expression_list st operands) in
       let* r := lift (lresolve_instruction st (gate_resolution_name (erase_gate g')) vs) in
       let* _ := lift (check_gate_operands (map erase (snd r))) in
       let* ans := visit_annotated st annots in
       lift (ladd_statement st (LGateInstr l (fst r) g' (snd r) ans))).

  (** src/v3x/semantic_analyzer.cpp:352-382 visit_non_gate_instruction *)
  Definition lvisit_non_gate_instruction (st : analyzer) (l : loc) (name : string) (operands params : list expr)
    (annots : list annotation) : logged (analyzer * list lstatement) :=
    catch_log l (st, [])
      (let* vs := lift (lvisit_expression_list st operands) in
       let* r := lift (lresolve_instruction st name vs) in
       let* ps := lift (lvisit_expression_list st params) in
       let* ps' := lift (lresolve_parameters name ps) in
       let* _ := lift (check_non_gate_operands name (map erase (snd r))) in
       let* ans := visit_annotated st annots in
       lift (ladd_statement st (LNonGate l (fst r) name (snd r) ps' ans))).

  (** src/v3x/semantic_analyzer.cpp:384-402 visit_asm_declaration *)
  Definition lvisit_asm_declaration (st : analyzer) (l : loc) (name code : string) (annots : list annotation)
    : logged (analyzer * list lstatement) :=
    catch_log l (st, [])
      (let* ans := visit_annotated st annots in
       lift (ladd_statement st (LAsm l name code ans))).

  (** statement_ast->visit( *this); variables are as in ModelSemantic.v *)
  Definition lvisit_statement (st : analyzer) (s : statement) : logged (analyzer * list lstatement) :=
    match s with
    | SVariable l name t annots => let* st' := visit_variable st l name t annots in lift (Ok (st', []))
    | SGateInstr l g operands annots => lvisit_gate_instruction st l g operands annots
    | SNonGate l name operands params annots => lvisit_non_gate_instruction st l name operands params annots
    | SAsm l name code annots => lvisit_asm_declaration st l name code annots
    end.

  (** include/libqasm/v3x/semantic_analyzer.hpp:110-120 visit_block *)
  Fixpoint lvisit_block (l : loc) (st : analyzer) (ss : list statement) : logged (analyzer * list lstatement) :=
    match ss with
    | [] => lift (Ok (st, []))
    | s :: ss' =>
        let* r := catch_log l (st, []) (lvisit_statement st s) in
        let* r' := lvisit_block l (fst r) ss' in
        lift (Ok (fst r', snd r ++ snd r')%list)
    end.

  (** src/v3x/semantic_analyzer.cpp:24-32, 62-65 visit_program, visit_global_block *)
  Definition lvisit_program (st : analyzer) (p : program) : logged (analyzer * sem_program * list lstatement) :=
    let* v := visit_version (api_version st) (prog_version p) (prog_version_loc p) in
    let* r := lvisit_block (prog_block_loc p) st (prog_statements p) in
    let* sc := lift (current_scope (fst r)) in
    lift (Ok (fst r, mkSemProgram (api_version st) v (prog_version_loc p) (sc_block sc) (sc_variables sc), snd r)).

  (** src/v3x/analyzer.cpp:87-101 Analyzer::analyze(Program&): also returns the
      statements this call has added to the block, with the locations of their values. *)
  Definition lanalyze_ast (st : analyzer) (p : program) : outcome error (analyzer * result sem_program * list lstatement) :=
    match lvisit_program st p with
    | (Ok (st', sp, ls), es) =>
        match es with
        | [] => if program_well_formed sp then Ok (st', mkResult (Some sp) [], ls)
                else Throw "std::runtime_error: no semantic errors returned, but semantic tree is incomplete."
        | _ => Ok (st', mkResult (Some sp) es, ls)
        end
    | (Err e, _) => Err e
    | (Throw w, _) => Throw w
    | (UB k, _) => UB k
    end.
End Located.
