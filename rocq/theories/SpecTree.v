(** Independent specification of the syntax tree of a text: what each piece of
    the grammar stands for, and where it is (C05, C51, C53, C64). *)
From Verif Require Import Base ModelError ModelTypes ModelVersion ModelAst ModelLexer ModelParser SpecUtils SpecLexer SpecParser SpecSyntax.
Local Open Scope string_scope.

Definition unary_meaning : list (token_kind * unop) :=
  [ (T_MINUS, UMinus); (T_BITWISE_NOT_OP, UBitNot); (T_LOGICAL_NOT_OP, ULogNot) ].
Definition binary_meaning : list (token_kind * binop) :=
  [ (T_POWER_OP, BPow); (T_PRODUCT_OP, BMul); (T_DIVISION_OP, BDiv); (T_MODULO_OP, BMod);
    (T_PLUS, BAdd); (T_MINUS, BSub); (T_SHL_OP, BShl); (T_SHR_OP, BShr);
    (T_CMP_GT_OP, BGt); (T_CMP_LT_OP, BLt); (T_CMP_GE_OP, BGe); (T_CMP_LE_OP, BLe);
    (T_CMP_EQ_OP, BEq); (T_CMP_NE_OP, BNe);
    (T_BITWISE_AND_OP, BBitAnd); (T_BITWISE_XOR_OP, BBitXor); (T_BITWISE_OR_OP, BBitOr);
    (T_LOGICAL_AND_OP, BLogAnd); (T_LOGICAL_XOR_OP, BLogXor); (T_LOGICAL_OR_OP, BLogOr) ].
Definition bool_meaning : list (string * bool) := [ ("true", true); ("false", false) ].
Definition type_meaning : list (token_kind * string) := [ (T_QUBIT_TYPE, "qubit"); (T_BIT_TYPE, "bit") ].

Section Meaning.
  (** The file name of the locations; the meaning of floating-point literals. *)
  Variable file : option string.
  Variable float_means : string -> float -> Prop.

  (** From the first character of the token [t1] to behind the last of [t2] *)
  Definition span (t1 t2 : token) : loc :=
    Some (mkRawLocation (match file with Some "" => None | _ => file end)
      (mkRawRange (mkIndex (tk_line t1) (tk_col t1 + 1))
                  (mkIndex (tk_line t2) (tk_col t2 + 1 + N.of_nat (String.length (tk_text t2)))))).
  Definition at_token (t : token) : loc := span t t.

  Inductive int_means : string -> Z -> Prop :=
  | int_digits s : digits s -> (decimal s <= max_int)%Z -> int_means s (decimal s).

  (** Parentheses and unary plus leave no trace. *)
  Inductive expr_means : cexpr -> expr -> Prop :=
  | em_parens c e : expr_means c e -> expr_means (CParens c) e
  | em_plus t c e : is T_PLUS t -> expr_means c e -> expr_means (CUnary t c) e
  | em_unary t op c e : In (tk_kind t, op) unary_meaning -> expr_means c e -> expr_means (CUnary t c) (EUnary (at_token t) op e)
  | em_binary t op c1 e1 c2 e2 : In (tk_kind t, op) binary_meaning -> expr_means c1 e1 -> expr_means c2 e2 ->
      expr_means (CBinary t c1 c2) (EBinary (at_token t) op e1 e2)
  | em_ternary t c1 e1 c2 e2 c3 e3 : expr_means c1 e1 -> expr_means c2 e2 -> expr_means c3 e3 ->
      expr_means (CTernary t c1 c2 c3) (ETernary (at_token t) e1 e2 e3)
  | em_call_empty t : expr_means (CCall t []) (ECall (at_token t) (tk_text t) None)
  | em_call t cs es : cs <> [] -> exprs_mean cs es -> expr_means (CCall t cs) (ECall (at_token t) (tk_text t) (Some es))
  | em_index t cs es : entries_mean cs es -> expr_means (CIndex t cs) (EIndex (at_token t) (EIdent None (tk_text t)) es)
  | em_ident t : expr_means (CIdent t) (EIdent (at_token t) (tk_text t))
  | em_bool t b : In (tk_text t, b) bool_meaning -> expr_means (CBool t) (EBool (at_token t) b)
  | em_int t z : int_means (tk_text t) z -> expr_means (CInt t) (EInt (at_token t) z)
  | em_float t f : float_means (tk_text t) f -> expr_means (CFloat t) (EFloat (at_token t) f)
  with exprs_mean : list cexpr -> list expr -> Prop :=
  | em_nil : exprs_mean [] []
  | em_cons c e cs es : expr_means c e -> exprs_mean cs es -> exprs_mean (c :: cs) (e :: es)
  with entries_mean : list centry -> list index_entry -> Prop :=
  | im_nil : entries_mean [] []
  | im_item c e cs es : expr_means c e -> entries_mean cs es -> entries_mean (CItem c :: cs) (IItem None e :: es)
  | im_range c1 e1 c2 e2 cs es : expr_means c1 e1 -> expr_means c2 e2 -> entries_mean cs es ->
      entries_mean (CRange c1 c2 :: cs) (IRange None e1 e2 :: es).

  Inductive params_mean : option (list cexpr) -> list expr -> Prop :=
  | pm_none : params_mean None []
  | pm_some cs es : exprs_mean cs es -> params_mean (Some cs) es.
  Inductive gate_means : cgate -> gate -> Prop :=
  | gm_inv t c g : gate_means c g -> gate_means (CInv t c) (Gate (at_token t) "inv" (Some g) [] [])
  | gm_pow t ce e c g : expr_means ce e -> gate_means c g -> gate_means (CPow t ce c) (Gate (at_token t) "pow" (Some g) [e] [])
  | gm_ctrl t c g : gate_means c g -> gate_means (CCtrl t c) (Gate (at_token t) "ctrl" (Some g) [] [])
  | gm_named t ps es : params_mean ps es -> gate_means (CNamed t ps) (Gate (at_token t) (tk_text t) None es []).
  Inductive type_means : ctype -> ast_type -> Prop :=
  | tm_plain t name : In (tk_kind t, name) type_meaning -> type_means (mkCType t None) (mkAstType (at_token t) name None)
  | tm_array t name i z close : In (tk_kind t, name) type_meaning -> int_means (tk_text i) z ->
      type_means (mkCType t (Some (i, close))) (mkAstType (span t close) name (Some z)).
  (** A gate instruction is where its first token is; an assembly declaration is
      nowhere, and its code is what is between the triple quotes. *)
  Definition first_token (c : cgate) : token :=
    match c with CInv t _ => t | CPow t _ _ => t | CCtrl t _ => t | CNamed t _ => t end.
  Inductive statement_means : cstatement -> statement -> Prop :=
  | sm_variable ct ty name : type_means ct ty -> statement_means (CVariable ct name) (SVariable (at_token name) (tk_text name) ty [])
  | sm_gate c g cs es : gate_means c g -> exprs_mean cs es ->
      statement_means (CGateInstr c cs) (SGateInstr (at_token (first_token c)) g es [])
  | sm_measure t c1 e1 ps pes c2 e2 : expr_means c1 e1 -> params_mean ps pes -> expr_means c2 e2 ->
      statement_means (CMeasure t c1 ps c2) (SNonGate (at_token t) "measure" [e1; e2] pes [])
  | sm_reset t c e : expr_means c e -> statement_means (CReset t c) (SNonGate (at_token t) "reset" [e] [] [])
  | sm_init t c e : expr_means c e -> statement_means (CInit t c) (SNonGate (at_token t) "init" [e] [] [])
  | sm_barrier t c e : expr_means c e -> statement_means (CBarrier t c) (SNonGate (at_token t) "barrier" [e] [] [])
  | sm_wait t cp p c e : expr_means cp p -> expr_means c e ->
      statement_means (CWait t cp c) (SNonGate (at_token t) "wait" [e] [p] [])
  | sm_asm name code body : tk_text code = "'''" ++ body ++ "'''" ->
      statement_means (CAsm name code) (SAsm None (tk_text name) body []).
  Inductive version_means : string -> version -> Prop :=
  | vm_major a x : int_means a x -> version_means a [x]
  | vm_minor a x b y : int_means a x -> int_means b y -> version_means (a ++ "." ++ b) [x; y].
  Inductive program_means : cprogram -> program -> Prop :=
  | prm v x cs ss : version_means (tk_text v) x -> Forall2 statement_means cs ss ->
      program_means (mkCProgram v cs) (mkProgram x (at_token v) ss None).

  (** The syntax tree of a text. *)
  Definition syntax_tree (s : string) (p : program) : Prop :=
    exists ts c, tokens_of s ts /\ program_tokens c ts /\ binds_program c /\ program_means c p.
End Meaning.
