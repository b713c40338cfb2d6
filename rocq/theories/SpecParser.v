(** Independent specification of the grammar of cQASM (C47-C55, C63).

    [expr_tokens], ... transcribe the rules of CqasmParser.g4 as they stand, with
    their ambiguities: a tree is related to the token sequences it can be read
    from. [binds] is the separate statement of precedence and associativity. *)
From Verif Require Import Base ModelLexer ModelParser.

Definition is (k : token_kind) (t : token) : Prop := tk_kind t = k.
Definition one_of (ks : list token_kind) (t : token) : Prop := In (tk_kind t) ks.

Definition prefix_operators : list token_kind := [T_PLUS; T_MINUS; T_BITWISE_NOT_OP; T_LOGICAL_NOT_OP].

(** Binary operators from the loosest to the tightest; operators of one row have
    the same precedence. *)
Definition binary_operators : list (list token_kind) :=
  [ [T_LOGICAL_OR_OP]; [T_LOGICAL_XOR_OP]; [T_LOGICAL_AND_OP];
    [T_BITWISE_OR_OP]; [T_BITWISE_XOR_OP]; [T_BITWISE_AND_OP];
    [T_CMP_EQ_OP; T_CMP_NE_OP]; [T_CMP_GT_OP; T_CMP_LT_OP; T_CMP_GE_OP; T_CMP_LE_OP];
    [T_SHL_OP; T_SHR_OP]; [T_PLUS; T_MINUS]; [T_PRODUCT_OP; T_DIVISION_OP; T_MODULO_OP]; [T_POWER_OP] ].

(** ** Expressions, as in the grammar *)
Inductive expr_tokens : cexpr -> list token -> Prop :=
| et_parens o e ts c : is T_OPEN_PARENS o -> expr_tokens e ts -> is T_CLOSE_PARENS c ->
    expr_tokens (CParens e) (o :: ts ++ [c])
| et_unary t e ts : one_of prefix_operators t -> expr_tokens e ts -> expr_tokens (CUnary t e) (t :: ts)
| et_binary t e1 e2 ts1 ts2 : one_of (concat binary_operators) t -> expr_tokens e1 ts1 -> expr_tokens e2 ts2 ->
    expr_tokens (CBinary t e1 e2) (ts1 ++ t :: ts2)
| et_ternary t colon e1 e2 e3 ts1 ts2 ts3 : is T_TERNARY_CONDITIONAL_OP t -> is T_COLON colon ->
    expr_tokens e1 ts1 -> expr_tokens e2 ts2 -> expr_tokens e3 ts3 ->
    expr_tokens (CTernary t e1 e2 e3) (ts1 ++ t :: ts2 ++ colon :: ts3)
| et_call_empty name o c : is T_IDENTIFIER name -> is T_OPEN_PARENS o -> is T_CLOSE_PARENS c ->
    expr_tokens (CCall name []) [name; o; c]
| et_call name o args ts c : is T_IDENTIFIER name -> is T_OPEN_PARENS o -> exprs_tokens args ts -> is T_CLOSE_PARENS c ->
    expr_tokens (CCall name args) (name :: o :: ts ++ [c])
| et_index name o idx ts c : is T_IDENTIFIER name -> is T_OPEN_BRACKET o -> entries_tokens idx ts -> is T_CLOSE_BRACKET c ->
    expr_tokens (CIndex name idx) (name :: o :: ts ++ [c])
| et_ident t : is T_IDENTIFIER t -> expr_tokens (CIdent t) [t]
| et_bool t : is T_BOOLEAN_LITERAL t -> expr_tokens (CBool t) [t]
| et_int t : is T_INTEGER_LITERAL t -> expr_tokens (CInt t) [t]
| et_float t : is T_FLOAT_LITERAL t -> expr_tokens (CFloat t) [t]
(* expressionList *)
with exprs_tokens : list cexpr -> list token -> Prop :=
| es_one e ts : expr_tokens e ts -> exprs_tokens [e] ts
| es_more e ts comma es ts' : expr_tokens e ts -> is T_COMMA comma -> exprs_tokens es ts' ->
    exprs_tokens (e :: es) (ts ++ comma :: ts')
(* indexEntry *)
with entry_tokens : centry -> list token -> Prop :=
| en_item e ts : expr_tokens e ts -> entry_tokens (CItem e) ts
| en_range e1 e2 ts1 colon ts2 : expr_tokens e1 ts1 -> is T_COLON colon -> expr_tokens e2 ts2 ->
    entry_tokens (CRange e1 e2) (ts1 ++ colon :: ts2)
(* indexList *)
with entries_tokens : list centry -> list token -> Prop :=
| is_one i ts : entry_tokens i ts -> entries_tokens [i] ts
| is_more i ts comma es ts' : entry_tokens i ts -> is T_COMMA comma -> entries_tokens es ts' ->
    entries_tokens (i :: es) (ts ++ comma :: ts').

Scheme expr_tokens_mind := Minimality for expr_tokens Sort Prop
with exprs_tokens_mind := Minimality for exprs_tokens Sort Prop
with entry_tokens_mind := Minimality for entry_tokens Sort Prop
with entries_tokens_mind := Minimality for entries_tokens Sort Prop.
Combined Scheme expr_tokens_mutind from expr_tokens_mind, exprs_tokens_mind, entry_tokens_mind, entries_tokens_mind.

(** ** Precedence

    Level 0 is the ternary operator, levels 1 to 12 the rows of
    [binary_operators], level 13 everything else. [binds p e]: the tree [e] is
    built by precedence and associativity, and its outermost operator has level
    [p] at least. Only ** and ?: associate to the right. *)
Definition row (n : nat) (k : token_kind) : Prop := In k (nth n binary_operators []).
Inductive binds : nat -> cexpr -> Prop :=
| b_ternary t e1 e2 e3 : binds 1 e1 -> binds 0 e2 -> binds 0 e3 -> binds 0 (CTernary t e1 e2 e3)
| b_power p n t e1 e2 : is T_POWER_OP t -> row n T_POWER_OP -> (p <= S n)%nat ->
    binds (S (S n)) e1 -> binds (S n) e2 -> binds p (CBinary t e1 e2)
| b_binary p n t e1 e2 : ~ is T_POWER_OP t -> row n (tk_kind t) -> (p <= S n)%nat ->
    binds (S n) e1 -> binds (S (S n)) e2 -> binds p (CBinary t e1 e2)
| b_unary p t e : (p <= 13)%nat -> binds 13 e -> binds p (CUnary t e)
| b_parens p e : (p <= 13)%nat -> binds 0 e -> binds p (CParens e)
| b_call p t es : (p <= 13)%nat -> binds_all es -> binds p (CCall t es)
| b_index p t is : (p <= 13)%nat -> binds_entries is -> binds p (CIndex t is)
| b_ident p t : (p <= 13)%nat -> binds p (CIdent t)
| b_bool p t : (p <= 13)%nat -> binds p (CBool t)
| b_int p t : (p <= 13)%nat -> binds p (CInt t)
| b_float p t : (p <= 13)%nat -> binds p (CFloat t)
with binds_all : list cexpr -> Prop :=
| ba_nil : binds_all []
| ba_cons e es : binds 0 e -> binds_all es -> binds_all (e :: es)
with binds_entries : list centry -> Prop :=
| be_nil : binds_entries []
| be_item e es : binds 0 e -> binds_entries es -> binds_entries (CItem e :: es)
| be_range e1 e2 es : binds 0 e1 -> binds 0 e2 -> binds_entries es -> binds_entries (CRange e1 e2 :: es).

(** ** Gates *)

(** The optional "( expressionList )". *)
Inductive params_tokens : option (list cexpr) -> list token -> Prop :=
| pt_none : params_tokens None []
| pt_some o es ts c : is T_OPEN_PARENS o -> exprs_tokens es ts -> is T_CLOSE_PARENS c ->
    params_tokens (Some es) (o :: ts ++ [c]).
Inductive gate_tokens : cgate -> list token -> Prop :=
| gt_inv t dot g ts : is T_INV t -> is T_DOT dot -> gate_tokens g ts -> gate_tokens (CInv t g) (t :: dot :: ts)
| gt_pow t o e ts c dot g ts' : is T_POW t -> is T_OPEN_PARENS o -> expr_tokens e ts -> is T_CLOSE_PARENS c -> is T_DOT dot ->
    gate_tokens g ts' -> gate_tokens (CPow t e g) (t :: o :: ts ++ c :: dot :: ts')
| gt_ctrl t dot g ts : is T_CTRL t -> is T_DOT dot -> gate_tokens g ts -> gate_tokens (CCtrl t g) (t :: dot :: ts)
| gt_named t ps ts : is T_IDENTIFIER t -> params_tokens ps ts -> gate_tokens (CNamed t ps) (t :: ts).

(** ** Statements *)
Inductive type_tokens : ctype -> list token -> Prop :=
| tt_plain t : one_of [T_QUBIT_TYPE; T_BIT_TYPE] t -> type_tokens (mkCType t None) [t]
| tt_array t o i c : one_of [T_QUBIT_TYPE; T_BIT_TYPE] t -> is T_OPEN_BRACKET o -> is T_INTEGER_LITERAL i -> is T_CLOSE_BRACKET c ->
    type_tokens (mkCType t (Some (i, c))) [t; o; i; c].
Inductive statement_tokens : cstatement -> list token -> Prop :=
| st_variable ty ts name : type_tokens ty ts -> is T_IDENTIFIER name -> statement_tokens (CVariable ty name) (ts ++ [name])
| st_gate g ts es ts' : gate_tokens g ts -> exprs_tokens es ts' -> statement_tokens (CGateInstr g es) (ts ++ ts')
| st_measure e1 ts1 eq t ps ts2 e2 ts3 : expr_tokens e1 ts1 -> is T_EQUALS eq -> is T_MEASURE t -> params_tokens ps ts2 -> expr_tokens e2 ts3 ->
    statement_tokens (CMeasure t e1 ps e2) (ts1 ++ eq :: t :: ts2 ++ ts3)
| st_reset t e ts : is T_RESET t -> expr_tokens e ts -> statement_tokens (CReset t e) (t :: ts)
| st_init t e ts : is T_INIT t -> expr_tokens e ts -> statement_tokens (CInit t e) (t :: ts)
| st_barrier t e ts : is T_BARRIER t -> expr_tokens e ts -> statement_tokens (CBarrier t e) (t :: ts)
| st_wait t o p ts c e ts' : is T_WAIT t -> is T_OPEN_PARENS o -> expr_tokens p ts -> is T_CLOSE_PARENS c -> expr_tokens e ts' ->
    statement_tokens (CWait t p e) (t :: o :: ts ++ c :: ts')
| st_asm t o name c code : is T_ASM t -> is T_OPEN_PARENS o -> is T_IDENTIFIER name -> is T_CLOSE_PARENS c -> is T_RAW_TEXT_STRING code ->
    statement_tokens (CAsm name code) [t; o; name; c; code].

(** ** Programs *)
Definition separator (t : token) : Prop := one_of [T_NEW_LINE; T_SEMICOLON] t.
Inductive block_tokens : list cstatement -> list token -> Prop :=
| bt_end seps eof : Forall separator seps -> is T_EOF eof -> block_tokens [] (seps ++ [eof])
| bt_statement seps s ts ss ts' : Forall separator seps -> seps <> [] -> statement_tokens s ts -> block_tokens ss ts' ->
    block_tokens (s :: ss) (seps ++ ts ++ ts').
Inductive program_tokens : cprogram -> list token -> Prop :=
| pg seps v n ss ts : Forall separator seps -> is T_VERSION v -> is T_VERSION_NUMBER n -> block_tokens ss ts ->
    program_tokens (mkCProgram n ss) (seps ++ v :: n :: ts).

(** ** Precedence in statements

    The parts bind as above. Where "( e )" after a gate name or measure can be read
    both as the parameters and as the beginning of the operand, it is the
    parameters: an operand of the form (e) + ... or (e) - ... is not preceded by a
    gate name or measure without parameters. *)
Fixpoint starts_like_params (e : cexpr) : Prop :=
  match e with
  | CBinary t (CParens _) _ => one_of [T_PLUS; T_MINUS] t
  | CBinary _ a _ => starts_like_params a
  | CTernary _ a _ _ => starts_like_params a
  | _ => False
  end.
Definition binds_params (ps : option (list cexpr)) : Prop := match ps with None => True | Some es => binds_all es end.
Fixpoint binds_gate (g : cgate) : Prop :=
  match g with
  | CInv _ g | CCtrl _ g => binds_gate g
  | CPow _ e g => binds 0 e /\ binds_gate g
  | CNamed _ ps => binds_params ps
  end.
Fixpoint without_params (g : cgate) : Prop :=
  match g with
  | CInv _ g | CCtrl _ g | CPow _ _ g => without_params g
  | CNamed _ ps => ps = None
  end.
Definition binds_statement (s : cstatement) : Prop :=
  match s with
  | CVariable _ _ | CAsm _ _ => True
  | CGateInstr g es => binds_gate g /\ binds_all es /\
      (without_params g -> match es with e :: _ => ~ starts_like_params e | [] => True end)
  | CMeasure _ e1 ps e2 => binds 0 e1 /\ binds_params ps /\ binds 0 e2 /\ (ps = None -> ~ starts_like_params e2)
  | CReset _ e | CInit _ e | CBarrier _ e => binds 0 e
  | CWait _ p e => binds 0 p /\ binds 0 e
  end.
Definition binds_program (p : cprogram) : Prop := Forall binds_statement (cp_statements p).
