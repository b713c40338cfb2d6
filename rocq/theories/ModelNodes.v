(** Model of the tree nodes that the semantic analyzer makes, as objects in memory:
    src/v3x/semantic_analyzer.cpp, src/v3x/analyzer.cpp, src/v3x/values.cpp,
    src/v3x/resolver.cpp, include/libqasm/overload.hpp, src/v3x/{semantic,values,types}.tree.
    This is the analysis of ModelLocated.v in which values, gates, statements and the
    other nodes are pointers, nodes are made and changed in memory, and a pointer can
    be stored in several places. Simplified: a node whose children are computed after
    it is made is made with its children; the promoted arguments of core functions
    are not nodes; a Link is the identity of the variable it points to. *)
From Verif Require Import Base ModelUtils ModelVersion ModelError ModelTypes ModelOverload
  ModelInstructionSet ModelAst ModelAnalyzer ModelSemantic ModelLocated.
Local Open Scope string_scope.

(** ** Memory *)

(** A pointer to a node: tree::One, an element of tree::Any, or a non-empty tree::Maybe *)
Definition addr : Set := nat.

(** src/v3x/values.tree, src/v3x/types.tree, src/v3x/semantic.tree *)
Inductive node : Type :=
| NBool (b : bool)
| NInt (z : Z)
| NFloat (f : float)
| NVar (x : variable)
| NIndex (x : variable) (indices : list addr)
| NType (t : type)
| NAnnotation (interface operation : string) (operands : list addr)
| NGate (name : string) (gate : option addr) (params annots : list addr)
| NVariable (x : variable) (typ : addr) (annots : list addr)
| NGateInstr (ref : instruction) (gate : addr) (operands annots : list addr)
| NNonGate (ref : instruction) (name : string) (operands params annots : list addr)
| NAsm (backend_name backend_code : string) (annots : list addr)
| NVersion (v : version)
| NBlock (statements : list addr)
| NProgram (api : version) (version_node block_node : addr) (variables : list addr).

(** A node and its SourceLocation annotation *)
Record cell : Type := mkCell { c_loc : loc; c_node : node }.
Definition heap : Type := list cell.

(** The pointers a node owns: its children in the .tree files *)
Definition children (n : node) : list addr :=
  match n with
  | NBool _ | NInt _ | NFloat _ | NVar _ | NType _ | NVersion _ => []
  | NIndex _ is => is
  | NAnnotation _ _ ops => ops
  | NGate _ g ps ans => match g with Some a => [a] | None => [] end ++ ps ++ ans
  | NVariable _ t ans => t :: ans
  | NGateInstr _ g ops ans => g :: ops ++ ans
  | NNonGate _ _ ops ps ans => ops ++ ps ++ ans
  | NAsm _ _ ans => ans
  | NBlock ss => ss
  | NProgram _ v b vars => v :: b :: vars
  end%list.

(** A computation that makes and changes nodes, and may push errors to result_.errors *)
Definition hm (A : Type) : Type := heap -> heap * logged A.
Definition hlift {A : Type} (m : logged A) : hm A := fun h => (h, m).
Definition hret {A : Type} (a : A) : hm A := hlift (lift (Ok a)).
Definition hbind {A B : Type} (m : hm A) (f : A -> hm B) : hm B := fun h =>
  match m h with
  | (h', (Ok a, es)) => let '(h'', (r, es')) := f a h' in (h'', (r, es ++ es')%list)
  | (h', (Err e, es)) => (h', (Err e, es))
  | (h', (Throw w, es)) => (h', (Throw w, es))
  | (h', (UB k, es)) => (h', (UB k, es))
  end.
Notation "'let^' x ':=' m 'in' k" := (hbind m (fun x => k))
  (at level 200, x pattern, m at level 100, k at level 200, right associativity).
Definition hcontext {A : Type} (l : loc) (m : hm A) : hm A := fun h => let '(h', r) := m h in (h', log_context l r).
Definition hcatch {A : Type} (l : loc) (d : A) (m : hm A) : hm A := fun h => let '(h', r) := m h in (h', catch_log l d r).
(** [try { return m; } catch (const error::AnalysisError&) { continue; }] followed by [n] *)
Definition hor {A : Type} (m n : hm A) : hm A := fun h =>
  match m h with
  | (h', (Err _, es)) => let '(h'', (r, es')) := n h' in (h'', (r, es ++ es')%list)
  | x => x
  end.
Section HMap.
  Context {A B : Type} (f : A -> hm B).
  Fixpoint hmapM (l : list A) : hm (list B) :=
    match l with
    | [] => hret []
    | a :: l' => let^ b := f a in let^ bs := hmapM l' in hret (b :: bs)
    end.
End HMap.
Section OMap.
  Context {A B : Type} (f : A -> option B).
  Fixpoint omap (l : list A) : option (list B) :=
    match l with
    | [] => Some []
    | a :: l' => match f a, omap l' with Some b, Some bs => Some (b :: bs) | _, _ => None end
    end.
End OMap.

(** tree::make *)
Definition alloc (c : cell) : hm addr := fun h => ((h ++ [c])%list, lift (Ok (List.length h))).
(** Changing a node *)
Fixpoint put {A : Type} (n : nat) (x : A) (l : list A) : list A :=
  match l, n with
  | [], _ => []
  | _ :: t, O => x :: t
  | y :: t, S n' => y :: put n' x t
  end.
Definition write (a : addr) (c : cell) : hm unit := fun h => (put a c h, lift (Ok tt)).
(** Following a pointer *)
Definition peek {A : Type} (f : heap -> option A) : hm A := fun h =>
  match f h with Some x => (h, lift (Ok x)) | None => (h, lift (UB NullDereference)) end.

(** ** Reading nodes back *)

Definition read_int (h : heap) (a : addr) : option (loc * Z) :=
  match nth_error h a with Some (mkCell l (NInt z)) => Some (l, z) | _ => None end.
Definition read_value (h : heap) (a : addr) : option lvalue :=
  match nth_error h a with
  | Some (mkCell l (NBool b)) => Some (mkLValue l (LBool b))
  | Some (mkCell l (NInt z)) => Some (mkLValue l (LInt z))
  | Some (mkCell l (NFloat f)) => Some (mkLValue l (LFloat f))
  | Some (mkCell l (NVar x)) => Some (mkLValue l (LVar x))
  | Some (mkCell l (NIndex x is)) =>
      match omap (read_int h) is with Some zs => Some (mkLValue l (LIndex x zs)) | None => None end
  | _ => None
  end.
Definition read_annotation (h : heap) (a : addr) : option sem_annotation :=
  match nth_error h a with
  | Some (mkCell l (NAnnotation i o ops)) =>
      match omap (read_value h) ops with
      | Some vs => Some (mkSemAnnotation l i o (map erase vs))
      | None => None
      end
  | _ => None
  end.
(** Gates nest: [n] bounds how deep. *)
Fixpoint read_gate (n : nat) (h : heap) (a : addr) : option lgate :=
  match n with
  | O => None
  | S n' =>
      match nth_error h a with
      | Some (mkCell l (NGate name g ps ans)) =>
          match omap (read_value h) ps, omap (read_annotation h) ans with
          | Some ps', Some ans' =>
              match g with
              | None => Some (LGate l name None ps' ans')
              | Some b => match read_gate n' h b with
                          | Some g' => Some (LGate l name (Some g') ps' ans')
                          | None => None
                          end
              end
          | _, _ => None
          end
      | _ => None
      end
  end.
Definition read_any_gate (h : heap) (a : addr) : option lgate := read_gate (List.length h) h a.
Definition read_statement (h : heap) (a : addr) : option lstatement :=
  match nth_error h a with
  | Some (mkCell l (NGateInstr r g ops ans)) =>
      match read_any_gate h g, omap (read_value h) ops, omap (read_annotation h) ans with
      | Some g', Some ops', Some ans' => Some (LGateInstr l r g' ops' ans')
      | _, _, _ => None
      end
  | Some (mkCell l (NNonGate r n ops ps ans)) =>
      match omap (read_value h) ops, omap (read_value h) ps, omap (read_annotation h) ans with
      | Some ops', Some ps', Some ans' => Some (LNonGate l r n ops' ps' ans')
      | _, _, _ => None
      end
  | Some (mkCell l (NAsm n c ans)) =>
      match omap (read_annotation h) ans with Some ans' => Some (LAsm l n c ans') | None => None end
  | _ => None
  end.
(** src/v3x/semantic.tree: variable, with its name and a type node of its own *)
Definition read_variable (h : heap) (a : addr) : option sem_variable :=
  match nth_error h a with
  | Some (mkCell _ (NVariable x t ans)) =>
      match nth_error h t, omap (read_annotation h) ans with
      | Some (mkCell _ (NType ty)), Some ans' =>
          Some (mkSemVariable (mkVariable (var_id x) (var_name x) ty) ans')
      | _, _ => None
      end
  | _ => None
  end.
Definition read_block (h : heap) (a : addr) : option (loc * list lstatement) :=
  match nth_error h a with
  | Some (mkCell l (NBlock ss)) =>
      match omap (read_statement h) ss with Some ls => Some (l, ls) | None => None end
  | _ => None
  end.
(** The program, and its statements with the locations of their values *)
Definition read_program (h : heap) (a : addr) : option (sem_program * list lstatement) :=
  match nth_error h a with
  | Some (mkCell _ (NProgram api v b vars)) =>
      match nth_error h v, read_block h b, omap (read_variable h) vars with
      | Some (mkCell vl (NVersion v')), Some (bl, ls), Some xs =>
          Some (mkSemProgram api v' vl (mkBlock (map erase_statement ls) bl) xs, ls)
      | _, _, _ => None
      end
  | _ => None
  end.

(** ** Values *)

(** New nodes for a value and its indices *)
Definition alloc_value (v : lvalue) : hm addr :=
  match lv_node v with
  | LBool b => alloc (mkCell (lv_loc v) (NBool b))
  | LInt z => alloc (mkCell (lv_loc v) (NInt z))
  | LFloat f => alloc (mkCell (lv_loc v) (NFloat f))
  | LVar x => alloc (mkCell (lv_loc v) (NVar x))
  | LIndex x is =>
      let^ as_ := hmapM (fun i => alloc (mkCell (fst i) (NInt (snd i)))) is in
      alloc (mkCell (lv_loc v) (NIndex x as_))
  end.

(** tree-gen: clone() makes new nodes for the node and its children. *)
Definition clone (a : addr) : hm addr :=
  let^ v := peek (fun h => read_value h a) in alloc_value v.

(** include/libqasm/v3x/scope.hpp:12-39; variable tables and scopes hold pointers. *)
Record hscope := mkHScope {
  hs_table : list (string * addr);
  hs_functions : function_table;
  hs_instructions : instruction_table;
  hs_block : addr;
  hs_variables : list addr }.
(** include/libqasm/v3x/analyzer.hpp:44-59 *)
Record hanalyzer := mkHAnalyzer {
  h_version : version;
  h_scopes : list hscope;
  h_next : nat }.

(** src/v3x/analyzer.cpp:178-187 resolve_variable, src/v3x/resolver.cpp:35-40 *)
Fixpoint hresolve_variable_in (l : list hscope) (name : string) : hm addr :=
  match l with
  | [] => hlift (lift (Err (mk_error ("failed to resolve variable '" ++ name ++ "'"))))
  | s :: l' =>
      match table_find name (hs_table s) with
      | Some a => clone a
      | None => hresolve_variable_in l' name
      end
  end.
Definition hresolve_variable (st : hanalyzer) (name : string) : hm addr := hresolve_variable_in (h_scopes st) name.

(** src/v3x/analyzer.cpp:35-56, 204-206 resolve_function; the function makes the
    node it returns (include/libqasm/v3x/register_consteval_core_functions.hpp:40-74). *)
Fixpoint hlast_scope (l : list hscope) : outcome error hscope :=
  match l with [] => UB EmptyContainer | [s] => Ok s | _ :: l' => hlast_scope l' end.
Definition hresolve_function (st : hanalyzer) (name : string) (args : list addr) : hm addr :=
  let^ vs := peek (fun h => omap (read_value h) args) in
  let^ v := hlift (lift (let! g := hlast_scope (h_scopes st) in function_resolve (hs_functions g) name (map erase vs))) in
  alloc_value (bare v).

Section Nodes.
  (** See ModelLocated.v. *)
  Variable keep : bool.

  (** copy_annotation<SourceLocation> of a node that has location [l] onto a node *)
  Definition hcopy (l : loc) (a : addr) : hm unit :=
    let^ c := peek (fun h => nth_error h a) in
    write a (mkCell (copied keep (c_loc c) l) (c_node c)).

  (** src/v3x/values.cpp:30-64 promote *)
  Definition hpromote (a : addr) (t : type) : hm (option addr) :=
    let^ v := peek (fun h => read_value h a) in
    let^ tv := hlift (lift (type_of (erase v))) in
    if type_check t tv then hret (Some a)
    else
      let^ r1 := match kind t with
                 | TInt =>
                     match lv_node v with
                     | LBool b => let^ x := alloc (mkCell None (NInt (if b then 1 else 0))) in hret (Some x)
                     | LVar _ => hret (if type_check tv (make_type TBool) then Some a else None)
                     | _ => hret None
                     end
                 | _ => hret None
                 end in
      let^ r2 := match kind t with
                 | TFloat =>
                     match lv_node v with
                     | LBool b => let^ x := alloc (mkCell None (NFloat (float_of_bool b))) in hret (Some x)
                     | LInt z => let^ x := alloc (mkCell None (NFloat (float_of_Z z))) in hret (Some x)
                     | _ => hret r1
                     end
                 | _ => hret r1
                 end in
      match r2 with
      | Some x => let^ c := peek (fun h => nth_error h a) in
                  let^ _ := hcopy (c_loc c) x in hret (Some x)
      | None => hret None
      end.

  (** include/libqasm/overload.hpp:113-122 *)
  Fixpoint hpromote_args (args : list addr) (params : list type) : hm (option (list addr)) :=
    match args, params with
    | [], _ => hret (Some [])
    | a :: args', p :: params' =>
        let^ r := hpromote a p in
        match r with
        | None => hret None
        | Some a' =>
            let^ rs := hpromote_args args' params' in
            hret (match rs with None => None | Some l => Some (a' :: l) end)
        end
    | _ :: _, [] => hlift (lift (Throw "std::out_of_range"))
    end.

  (** include/libqasm/overload.hpp:108-128 *)
  Fixpoint hresolve_loop {T : Type} (rev_overloads : list (overload T)) (args : list addr) : hm (option (T * list addr)) :=
    match rev_overloads with
    | [] => hret None
    | o :: os =>
        if negb (Nat.eqb (List.length (ov_params o)) (List.length args)) then hresolve_loop os args
        else let^ r := hpromote_args args (ov_params o) in
             match r with
             | Some args' => hret (Some (ov_tag o, args'))
             | None => hresolve_loop os args
             end
    end.

  (** The types of the arguments, for the messages below *)
  Definition hpack (args : list addr) : hm string :=
    let^ vs := peek (fun h => omap (read_value h) args) in
    let^ ts := hlift (lift (types_of (map erase vs))) in
    hret (types_to_string ts).

  (** include/libqasm/overload.hpp:176-181 wrapped by include/libqasm/v3x/resolver.hpp:71-80 *)
  Definition hresolve {T : Type} (t : table T) (name : string) (args : list addr) : hm (T * list addr) :=
    match table_find name t with
    | None => hlift (lift (Err (mk_error ("failed to resolve '" ++ name ++ "'"))))
    | Some r =>
        let^ o := hresolve_loop (rev r) args in
        match o with
        | Some x => hret x
        | None =>
            let^ ts := hpack args in
            hlift (lift (Err (mk_error ("failed to resolve overload for '" ++ name ++ "' with argument pack (" ++ ts ++ ")"))))
        end
    end.

  (** src/v3x/analyzer.cpp:233-264 resolve_instruction *)
  Fixpoint hresolve_instruction_in (l : list hscope) (name : string) (args : list addr) : hm (instruction * list addr) :=
    match l with
    | [] => let^ ts := hpack args in
            hlift (lift (Err (mk_error ("failed to resolve instruction '" ++ name ++ "' with argument pack (" ++ ts ++ ")"))))
    | s :: l' => hor (hresolve (hs_instructions s) name args) (hresolve_instruction_in l' name args)
    end.
  Definition hresolve_instruction (st : hanalyzer) (name : string) (args : list addr) : hm (instruction * list addr) :=
    hresolve_instruction_in (h_scopes st) name args.

  (** src/v3x/semantic_analyzer.cpp:667-675 visit_const_int *)
  Definition hconst_int (l : loc) (m : hm addr) : hm Z :=
    let^ a := m in
    let^ p := hpromote a (make_type TInt) in
    match p with
    | Some b =>
        let^ w := peek (fun h => read_value h b) in
        match lv_node w with LInt z => hret z | _ => hlift (lift (Err (mk_error_at "integer must be constant" l))) end
    | None => hlift (lift (Err (mk_error_at "expected an integer" l)))
    end.

  (** src/v3x/semantic_analyzer.cpp:611-614, 627-630: a new const_int node *)
  Definition index_node (l : loc) (z : Z) : hm addr :=
    let^ a := alloc (mkCell None (NInt z)) in let^ _ := hcopy l a in hret a.

  Section Expressions.
    Variable st : hanalyzer.

    (** src/v3x/semantic_analyzer.cpp:413-422 visit_expression, given how the
        expression is visited: the location is set on the node that this returns. *)
    Definition hfinish (l : loc) (m : hm addr) : hm addr :=
      hcontext l (let^ a := m in let^ _ := hcopy l a in hret a).

    (** [expression.visit( *this)]: visit_function_call 427-446, operators 451-564,
        visit_index 577-596, visit_identifier 636-638, literals 649-662 *)
    Fixpoint hvisit (e : expr) : hm addr :=
      match e with
      | EBool _ b => alloc (mkCell None (NBool b))
      | EInt _ z => alloc (mkCell None (NInt z))
      | EFloat _ f => alloc (mkCell None (NFloat f))
      | EIdent _ name => hresolve_variable st name
      | EIndex l b idx =>
          hcontext l
            (let^ a := hfinish (expr_loc b) (hvisit b) in
             let^ v := peek (fun h => read_value h a) in
             match lv_node v with
             | LVar x =>
                 match kind (var_type x) with
                 | TQubitArray | TBitArray =>
                     let^ is := hmapM hvisit_entry idx in
                     let^ zs := peek (fun h => omap (read_int h) (concat is)) in
                     let^ _ := hlift (lift (check_out_of_range (map snd zs) (tsize (var_type x)))) in
                     alloc (mkCell None (NIndex x (concat is)))
                 | _ =>
                     let^ t := hlift (lift (type_of (erase v))) in
                     hlift (lift (Err (mk_error ("indexation is not supported for value of type '" ++ type_to_string t ++ "'"))))
                 end
             | _ => hlift (lift (UB NullDereference))
             end)
      | ECall _ name None => hresolve_function st name []
      | ECall _ name (Some args) =>
          let^ vs := hmapM (fun a => hfinish (expr_loc a) (hvisit a)) args in
          hresolve_function st name vs
      | EUnary _ op e1 =>
          let^ v1 := hfinish (expr_loc e1) (hvisit e1) in
          hresolve_function st (unop_name op) [v1]
      | EBinary _ op e1 e2 =>
          let^ v1 := hfinish (expr_loc e1) (hvisit e1) in
          let^ v2 := hfinish (expr_loc e2) (hvisit e2) in
          hresolve_function st (binop_name op) [v1; v2]
      | ETernary _ c e1 e2 =>
          let^ vc := hfinish (expr_loc c) (hvisit c) in
          let^ v1 := hfinish (expr_loc e1) (hvisit e1) in
          let^ v2 := hfinish (expr_loc e2) (hvisit e2) in
          hresolve_function st "operator?:" [vc; v1; v2]
      end
    (** src/v3x/semantic_analyzer.cpp:598-634: one entry of visit_index_list *)
    with hvisit_entry (i : index_entry) : hm (list addr) :=
      match i with
      | IItem l e =>
          let^ z := hconst_int (expr_loc e) (hvisit e) in
          let^ a := index_node l z in hret [a]
      | IRange l e1 e2 =>
          let^ z1 := hconst_int (expr_loc e1) (hvisit e1) in
          let^ z2 := hconst_int (expr_loc e2) (hvisit e2) in
          let^ zs := hlift (lift (expand_range l z1 z2)) in
          hmapM (index_node l) zs
      end.

    (** src/v3x/semantic_analyzer.cpp:413-422 visit_expression *)
    Definition hvisit_expression (e : expr) : hm addr := hfinish (expr_loc e) (hvisit e).

    (** src/v3x/semantic_analyzer.cpp:404-411 visit_expression_list *)
    Definition hvisit_expression_list (es : list expr) : hm (list addr) := hmapM hvisit_expression es.

    (** src/v3x/semantic_analyzer.cpp:80-87: the operands of an annotation *)
    Fixpoint hvisit_annotation_operands (l : loc) (es : list expr) : hm (list addr) :=
      match es with
      | [] => hret []
      | e :: es' =>
          let^ v := hcatch l None (let^ a := hvisit e in hret (Some a)) in
          let^ vs := hvisit_annotation_operands l es' in
          hret (match v with Some v => v :: vs | None => vs end)
      end.

    (** src/v3x/semantic_analyzer.cpp:75-95 visit_annotation_data *)
    Definition hvisit_annotation_data (a : annotation) : hm addr :=
      let^ vs := hvisit_annotation_operands (an_loc a) (an_operands a) in
      alloc (mkCell (an_loc a) (NAnnotation (an_interface a) (an_operation a) vs)).

    (** src/v3x/semantic_analyzer.cpp:67-73 visit_annotated *)
    Fixpoint hvisit_annotated (l : list annotation) : hm (list addr) :=
      match l with
      | [] => hret []
      | a :: l' =>
          let^ a' := hvisit_annotation_data a in
          let^ l'' := hvisit_annotated l' in
          hret (a' :: l'')
      end.
  End Expressions.

  (** ** Gates *)

  (** src/v3x/semantic_analyzer.cpp:239-247, 269-277: the parameter loop *)
  Fixpoint hresolve_params_loop (name : string) (spec : list ascii) (params : list addr) : hm (list addr) :=
    match spec, params with
    | [], _ => hret []
    | c :: spec', p :: params' =>
        let^ v := peek (fun h => read_value h p) in
        let^ tp := hlift (lift (type_of (erase v))) in
        let^ t := hlift (lift (type_of_char c)) in
        if negb (check_promote tp t)
        then hlift (lift (Err (mk_error ("failed to resolve '" ++ name ++ "' with parameter type (" ++ type_to_string tp ++ ")"))))
        else
          let^ v := hpromote p t in
          let^ vs := hresolve_params_loop name spec' params' in
          hret (match v with Some v => v :: vs | None => vs end)
    | _ :: _, [] => hlift (lift (Throw "std::out_of_range"))
    end.

  (** src/v3x/semantic_analyzer.cpp:217-280 resolve_parameters *)
  Definition hresolve_parameters (name : string) (params : list addr) : hm (list addr) :=
    let count := List.length params in
    if is_non_gate name then
      match get_non_gate_param_types_with_param_count name count with
      | None =>
          if Nat.eqb count 0 then hret []
          else hlift (lift (Err (mk_error ("instruction '" ++ name ++ "' does not have an overload with " ++
                                           dec_nat count ++ " parameters."))))
      | Some spec => hresolve_params_loop name (list_ascii_of_string spec) params
      end
    else
      let^ spec := hlift (lift (get_instruction_param_types name)) in
      match spec with
      | None =>
          if Nat.eqb count 0 then hret []
          else hlift (lift (Err (mk_error ("instruction '" ++ name ++ "' expects no parameters, but got " ++
                                           dec_nat count ++ "."))))
      | Some spec =>
          if negb (Nat.eqb count (String.length spec))
          then hlift (lift (Err (mk_error ("instruction '" ++ name ++ "' expects " ++ dec_nat (String.length spec) ++
                                           " parameters, but got " ++ dec_nat count ++ "."))))
          else hresolve_params_loop name (list_ascii_of_string spec) params
      end.

  (** src/v3x/semantic_analyzer.cpp:288-311 visit_gate *)
  Fixpoint hvisit_gate (st : hanalyzer) (g : gate) : hm addr :=
    let 'Gate l name inner params annots := g in
    hcontext l
      (let^ inner' := match inner with
                      | None => hret None
                      | Some g' => let^ r := hvisit_gate st g' in hret (Some r)
                      end in
       let^ ps := hvisit_expression_list st params in
       let^ ps' := hresolve_parameters name ps in
       let^ ig := match inner' with
                  | None => hret None
                  | Some a => let^ g := peek (fun h => read_any_gate h a) in hret (Some (erase_gate g))
                  end in
       let^ _ := hlift (lift (check_gate ig)) in
       let^ ans := hvisit_annotated st annots in
       alloc (mkCell l (NGate name inner' ps' ans))).

  (** ** Statements *)

  (** src/v3x/analyzer.cpp:148-165 add_statement_to_current_scope: the statement is
      added to the block node that the scope points to. *)
  Definition hadd_statement (st : hanalyzer) (a : addr) : hm unit :=
    match h_scopes st with
    | [] => hlift (lift (UB EmptyContainer))
    | sc :: _ =>
        let^ s := peek (fun h => nth_error h a) in
        let^ b := peek (fun h => nth_error h (hs_block sc)) in
        match c_node b with
        | NBlock ss =>
            write (hs_block sc)
              (mkCell (match c_loc s with
                       | None => c_loc b
                       | Some sl =>
                           match c_loc b with
                           | None => Some sl
                           | Some bl => Some (expand_to_include (expand_to_include bl (first (loc_range sl)))
                                                                (last (loc_range sl)))
                           end
                       end)
                      (NBlock (ss ++ [a])%list))
        | _ => hlift (lift (UB NullDereference))
        end
    end.

  (** src/v3x/semantic_analyzer.cpp:184-210 visit_gate_instruction *)
  Definition hvisit_gate_instruction (st : hanalyzer) (l : loc) (g : gate) (operands : list expr)
    (annots : list annotation) : hm hanalyzer :=
    hcatch l st
      (let^ a := hvisit_gate st g in
       let^ vs := hvisit_expression_list st operands in
       let^ g' := peek (fun h => read_any_gate h a) in
       let^ r := hresolve_instruction st (gate_resolution_name (erase_gate g')) vs in
       let^ ops := peek (fun h => omap (read_value h) (snd r)) in
       let^ _ := hlift (lift (check_gate_operands (map erase ops))) in
       let^ ans := hvisit_annotated st annots in
       let^ s := alloc (mkCell l (NGateInstr (fst r) a (snd r) ans)) in
       let^ _ := hadd_statement st s in
       hret st).

  (** src/v3x/semantic_analyzer.cpp:352-382 visit_non_gate_instruction *)
  Definition hvisit_non_gate_instruction (st : hanalyzer) (l : loc) (name : string) (operands params : list expr)
    (annots : list annotation) : hm hanalyzer :=
    hcatch l st
      (let^ vs := hvisit_expression_list st operands in
       let^ r := hresolve_instruction st name vs in
       let^ ps := hvisit_expression_list st params in
       let^ ps' := hresolve_parameters name ps in
       let^ ops := peek (fun h => omap (read_value h) (snd r)) in
       let^ _ := hlift (lift (check_non_gate_operands name (map erase ops))) in
       let^ ans := hvisit_annotated st annots in
       let^ s := alloc (mkCell l (NNonGate (fst r) name (snd r) ps' ans)) in
       let^ _ := hadd_statement st s in
       hret st).

  (** src/v3x/semantic_analyzer.cpp:384-402 visit_asm_declaration *)
  Definition hvisit_asm_declaration (st : hanalyzer) (l : loc) (name code : string) (annots : list annotation)
    : hm hanalyzer :=
    hcatch l st
      (let^ ans := hvisit_annotated st annots in
       let^ s := alloc (mkCell l (NAsm name code ans)) in
       let^ _ := hadd_statement st s in
       hret st).

  Definition hupdate_current (st : hanalyzer) (f : hscope -> outcome error hscope) : hm hanalyzer :=
    match h_scopes st with
    | [] => hlift (lift (UB EmptyContainer))
    | s :: rest => let^ s' := hlift (lift (f s)) in hret (mkHAnalyzer (h_version st) (s' :: rest) (h_next st))
    end.

  (** src/v3x/analyzer.cpp:170-172 add_variable_to_current_scope *)
  Definition hadd_variable (st : hanalyzer) (a : addr) : hm hanalyzer :=
    hupdate_current st (fun sc =>
      Ok (mkHScope (hs_table sc) (hs_functions sc) (hs_instructions sc) (hs_block sc) (hs_variables sc ++ [a])%list)).

  (** src/v3x/analyzer.cpp:192-194 register_variable, src/v3x/resolver.cpp:24-29 *)
  Definition hregister_variable (st : hanalyzer) (name : string) (a : addr) : hm hanalyzer :=
    hupdate_current st (fun sc =>
      match table_find name (hs_table sc) with
      | Some _ => Err (mk_error ("trying to redeclare variable '" ++ name ++ "'"))
      | None => Ok (mkHScope (hs_table sc ++ [(name, a)])%list (hs_functions sc) (hs_instructions sc)
                             (hs_block sc) (hs_variables sc))
      end).

  (** src/v3x/semantic_analyzer.cpp:97-122 visit_variable. The variable gets a copy
      of the type node that build_semantic_type makes. *)
  Definition hvisit_variable (st : hanalyzer) (l : loc) (name : string) (t : ast_type) (annots : list annotation)
    : hm hanalyzer :=
    let id := h_next st in
    let st := mkHAnalyzer (h_version st) (h_scopes st) (S (h_next st)) in
    hcatch l st
      (let^ ty := hlift (lift (build_semantic_type t)) in
       let^ _ := alloc (mkCell None (NType ty)) in
       let^ ta := alloc (mkCell None (NType ty)) in
       let^ ans := hvisit_annotated st annots in
       let x := mkVariable id name ty in
       let^ v := alloc (mkCell None (NVariable x ta ans)) in
       let^ st1 := hadd_variable st v in
       let^ r := alloc (mkCell None (NVar x)) in
       hcatch l st1 (hregister_variable st1 name r)).

  (** statement_ast->visit( *this) *)
  Definition hvisit_statement (st : hanalyzer) (s : statement) : hm hanalyzer :=
    match s with
    | SVariable l name t annots => hvisit_variable st l name t annots
    | SGateInstr l g operands annots => hvisit_gate_instruction st l g operands annots
    | SNonGate l name operands params annots => hvisit_non_gate_instruction st l name operands params annots
    | SAsm l name code annots => hvisit_asm_declaration st l name code annots
    end.

  (** include/libqasm/v3x/semantic_analyzer.hpp:110-120 visit_block *)
  Fixpoint hvisit_block (l : loc) (st : hanalyzer) (ss : list statement) : hm hanalyzer :=
    match ss with
    | [] => hret st
    | s :: ss' =>
        let^ st' := hcatch l st (hvisit_statement st s) in
        hvisit_block l st' ss'
    end.

  (** src/v3x/semantic_analyzer.cpp:24-65 visit_program, visit_version, visit_global_block:
      the tree gets the block that the scope points to and the scope's variables. *)
  Definition hvisit_program (st : hanalyzer) (p : program) : hm (hanalyzer * addr) :=
    let^ v := hlift (visit_version (h_version st) (prog_version p) (prog_version_loc p)) in
    let^ va := alloc (mkCell (prog_version_loc p) (NVersion v)) in
    let^ st' := hvisit_block (prog_block_loc p) st (prog_statements p) in
    match h_scopes st' with
    | [] => hlift (lift (UB EmptyContainer))
    | sc :: _ =>
        let^ root := alloc (mkCell None (NProgram (h_version st) va (hs_block sc) (hs_variables sc))) in
        hret (st', root)
    end.

  (** tree-gen: check_well_formed() collects the nodes of the tree and throws when
      one is found twice, then checks that the tree is complete. [n] bounds the
      depth: with too little the answer is None. *)
  Fixpoint collect (n : nat) (h : heap) (a : addr) : option (list addr) :=
    match n with
    | O => None
    | S n' =>
        match nth_error h a with
        | None => None
        | Some c =>
            match omap (collect n' h) (children (c_node c)) with
            | Some l => Some (a :: concat l)
            | None => None
            end
        end
    end.
  Fixpoint all_different (l : list addr) : bool :=
    match l with [] => true | a :: l' => negb (existsb (Nat.eqb a) l') && all_different l' end.
  Definition check_well_formed (h : heap) (root : addr) : bool :=
    match collect (List.length h) h root, read_program h root with
    | Some ns, Some (sp, _) => all_different ns && program_well_formed sp
    | _, _ => false
    end.

  (** src/v3x/analyzer.cpp:87-101 Analyzer::analyze(Program&) *)
  Definition hanalyze (st : hanalyzer) (p : program) (h : heap) : heap * outcome error (hanalyzer * result addr) :=
    match hvisit_program st p h with
    | (h', (Ok (st', root), es)) =>
        (h', match es with
             | [] => if check_well_formed h' root then Ok (st', mkResult (Some root) [])
                     else Throw "std::runtime_error: no semantic errors returned, but semantic tree is incomplete."
             | _ => Ok (st', mkResult (Some root) es)
             end)
    | (h', (Err e, _)) => (h', Err e)
    | (h', (Throw w, _)) => (h', Throw w)
    | (h', (UB k, _)) => (h', UB k)
    end.
End Nodes.

(** An analyzer with the tables of [st], nothing added yet: src/v3x/cqasm.cpp:41-49,
    src/v3x/analyzer.cpp:26-33, 61-68. Its registered values are nodes. *)
Definition load_table (t : variable_table) : hm (list (string * addr)) :=
  hmapM (fun e => let^ a := alloc_value (bare (snd e)) in hret (fst e, a)) t.
Definition load_scope (s : scope) : hm hscope :=
  let^ t := load_table (sc_variables_table s) in
  let^ b := alloc (mkCell None (NBlock [])) in
  hret (mkHScope t (sc_functions s) (sc_instructions s) b []).
Definition load (st : analyzer) : hm hanalyzer :=
  let^ l := hmapM load_scope (scopes st) in hret (mkHAnalyzer (api_version st) l (next_id st)).
