(** Independent specification of the printing of syntax trees (C48-C50): a tree
    is printed as a sequence of words separated by single blanks. *)
From Coq Require Import SpecFloat.
From Flocq Require Import BinarySingleNaN.
From Verif Require Import Base ModelTypes ModelVersion ModelAst ModelLexer SpecUtils SpecTypes SpecLexer SpecSyntax SpecReading SpecLayout.
Local Open Scope string_scope.

(** ** Words *)
Definition word (name : string) : lexeme := mkLexeme T_IDENTIFIER name.
Definition number (z : Z) : lexeme := mkLexeme T_INTEGER_LITERAL (dec_N (Z.to_N z)).
Definition opening : lexeme := mkLexeme T_OPEN_PARENS "(".
Definition closing : lexeme := mkLexeme T_CLOSE_PARENS ")".
Definition comma : lexeme := mkLexeme T_COMMA ",".
Definition colon : lexeme := mkLexeme T_COLON ":".
Definition dot : lexeme := mkLexeme T_DOT ".".
Definition semicolon : lexeme := mkLexeme T_SEMICOLON ";".
Definition space : lexeme := mkLexeme T_WHITE_SPACE " ".
(** A double, exactly: an integer, or an integer times a power of 1/10 *)
Definition float_text (f : float) : string :=
  match f with
  | S754_finite _ m e =>
      if (0 <=? e)%Z then dec_N (Z.to_N (Zpos m * 2 ^ e)) ++ "."
      else dec_N (Z.to_N (Zpos m * 5 ^ (- e))) ++ ".e-" ++ dec_N (Z.to_N (- e))
  | _ => "0."
  end.
Definition unary_word (o : unop) : lexeme :=
  match o with
  | UMinus => mkLexeme T_MINUS "-" | UBitNot => mkLexeme T_BITWISE_NOT_OP "~" | ULogNot => mkLexeme T_LOGICAL_NOT_OP "!"
  end.
Definition binary_word (o : binop) : lexeme :=
  match o with
  | BPow => mkLexeme T_POWER_OP "**"
  | BMul => mkLexeme T_PRODUCT_OP "*" | BDiv => mkLexeme T_DIVISION_OP "/" | BMod => mkLexeme T_MODULO_OP "%"
  | BAdd => mkLexeme T_PLUS "+" | BSub => mkLexeme T_MINUS "-"
  | BShl => mkLexeme T_SHL_OP "<<" | BShr => mkLexeme T_SHR_OP ">>"
  | BGt => mkLexeme T_CMP_GT_OP ">" | BLt => mkLexeme T_CMP_LT_OP "<"
  | BGe => mkLexeme T_CMP_GE_OP ">=" | BLe => mkLexeme T_CMP_LE_OP "<="
  | BEq => mkLexeme T_CMP_EQ_OP "==" | BNe => mkLexeme T_CMP_NE_OP "!="
  | BBitAnd => mkLexeme T_BITWISE_AND_OP "&" | BBitXor => mkLexeme T_BITWISE_XOR_OP "^" | BBitOr => mkLexeme T_BITWISE_OR_OP "|"
  | BLogAnd => mkLexeme T_LOGICAL_AND_OP "&&" | BLogXor => mkLexeme T_LOGICAL_XOR_OP "^^" | BLogOr => mkLexeme T_LOGICAL_OR_OP "||"
  end.

(** ** Expressions *)

(** The precedence table: 0 is ?:, 13 is everything that is not a binary operator *)
Definition precedence (o : binop) : nat :=
  match o with
  | BLogOr => 1 | BLogXor => 2 | BLogAnd => 3 | BBitOr => 4 | BBitXor => 5 | BBitAnd => 6
  | BEq | BNe => 7 | BGt | BLt | BGe | BLe => 8 | BShl | BShr => 9 | BAdd | BSub => 10
  | BMul | BDiv | BMod => 11 | BPow => 12
  end.
Definition level (e : expr) : nat :=
  match e with ETernary _ _ _ _ => 0 | EBinary _ o _ _ => precedence o | _ => 13 end.
Definition compound (e : expr) : bool :=
  match e with ETernary _ _ _ _ | EBinary _ _ _ _ | EUnary _ _ _ => true | _ => false end.
(** The levels required of the left and of the right operand: ** associates to
    the right, the others to the left. *)
Definition left_level (o : binop) : nat := match o with BPow => S (precedence o) | _ => precedence o end.
Definition right_level (o : binop) : nat := match o with BPow => precedence o | _ => S (precedence o) end.

Fixpoint separated (sep : lexeme) (l : list (list lexeme)) : list lexeme :=
  match l with
  | [] => []
  | [x] => x
  | x :: r => (x ++ sep :: separated sep r)%list
  end.

Section Style.
  (** Parentheses around every operation, or only where they are required *)
  Variable everywhere : bool.

  Definition parenthesised (p : nat) (e : expr) : bool := ((level e <? p)%nat || (everywhere && compound e))%bool.
  Fixpoint print_expr (p : nat) (e : expr) : list lexeme :=
    let ws :=
      match e with
      | EBool _ b => [mkLexeme T_BOOLEAN_LITERAL (if b then "true" else "false")]
      | EInt _ z => [number z]
      | EFloat _ f => [mkLexeme T_FLOAT_LITERAL (float_text f)]
      | EIdent _ name => [word name]
      | EIndex _ b is => (print_expr 13 b ++ mkLexeme T_OPEN_BRACKET "[" :: separated comma (map print_entry is) ++ [mkLexeme T_CLOSE_BRACKET "]"])%list
      | ECall _ name None => [word name; opening; closing]
      | ECall _ name (Some args) => (word name :: opening :: separated comma (map (print_expr 0) args) ++ [closing])%list
      | EUnary _ o a => unary_word o :: print_expr 13 a
      | EBinary _ o a b => (print_expr (left_level o) a ++ binary_word o :: print_expr (right_level o) b)%list
      | ETernary _ a b c => (print_expr 1 a ++ mkLexeme T_TERNARY_CONDITIONAL_OP "?" :: print_expr 0 b ++ colon :: print_expr 0 c)%list
      end in
    if parenthesised p e then (opening :: ws ++ [closing])%list else ws
  with print_entry (i : index_entry) : list lexeme :=
    match i with
    | IItem _ e => print_expr 0 e
    | IRange _ a b => (print_expr 0 a ++ colon :: print_expr 0 b)%list
    end.
  Definition print_exprs (es : list expr) : list lexeme := separated comma (map (print_expr 0) es).

  (** ** Statements *)
  Definition print_params (es : list expr) : list lexeme :=
    match es with [] => [] | _ => (opening :: print_exprs es ++ [closing])%list end.
  Fixpoint print_gate (g : gate) : list lexeme :=
    match g with
    | Gate _ n (Some g') ps _ =>
        if n =? "pow" then (mkLexeme T_POW "pow" :: print_params ps ++ dot :: print_gate g')%list
        else mkLexeme (if n =? "inv" then T_INV else T_CTRL) n :: dot :: print_gate g'
    | Gate _ n None ps _ => (word n :: print_params ps)%list
    end.
  (** A gate, or measure, that is not followed by parameters of its own *)
  Fixpoint bare_gate (g : gate) : bool :=
    match g with Gate _ _ (Some g') _ _ => bare_gate g' | Gate _ _ None ps _ => match ps with [] => true | _ => false end end.
  (** The print of [e] starts with a parenthesised operand followed by + or - *)
  Fixpoint like_params (e : expr) : bool :=
    match e with
    | EBinary _ o a _ => if parenthesised (left_level o) a then match o with BAdd | BSub => true | _ => false end else like_params a
    | ETernary _ a _ _ => negb (parenthesised 1 a) && like_params a
    | _ => false
    end.
  Definition print_operand (after_name : bool) (e : expr) : list lexeme :=
    if (after_name && negb (parenthesised 0 e) && like_params e)%bool then (opening :: print_expr 0 e ++ [closing])%list else print_expr 0 e.
  Definition print_operands (after_name : bool) (es : list expr) : list lexeme :=
    match es with
    | [] => []
    | e :: es' => separated comma (print_operand after_name e :: map (print_expr 0) es')
    end.
  Definition print_type (t : ast_type) : list lexeme :=
    (mkLexeme (if ty_name t =? "qubit" then T_QUBIT_TYPE else T_BIT_TYPE) (ty_name t) ::
     match ty_size t with
     | None => []
     | Some z => [mkLexeme T_OPEN_BRACKET "["; number z; mkLexeme T_CLOSE_BRACKET "]"]
     end)%list.
  Definition keyword (n : string) : lexeme :=
    mkLexeme (if n =? "reset" then T_RESET else if n =? "init" then T_INIT else if n =? "barrier" then T_BARRIER
              else if n =? "wait" then T_WAIT else T_MEASURE) n.
  Definition print_statement (s : statement) : list lexeme :=
    match s with
    | SVariable _ n t _ => (print_type t ++ [word n])%list
    | SGateInstr _ g ops _ => (print_gate g ++ print_operands (bare_gate g) ops)%list
    | SNonGate _ n [q] ps _ => (keyword n :: print_params ps ++ print_expr 0 q)%list
    | SNonGate _ n [b; q] ps _ =>
        (print_expr 0 b ++ mkLexeme T_EQUALS "=" :: keyword n :: print_params ps ++
         print_operand (match ps with [] => true | _ => false end) q)%list
    | SNonGate _ _ _ _ _ => []
    | SAsm _ n code _ => [mkLexeme T_ASM "asm"; opening; word n; closing; mkLexeme T_RAW_TEXT_STRING ("'''" ++ code ++ "'''")]
    end.
  Definition version_text (v : version) : string :=
    match v with
    | [x] => dec_N (Z.to_N x)
    | x :: y :: _ => dec_N (Z.to_N x) ++ "." ++ dec_N (Z.to_N y)
    | [] => ""
    end.
  (** Each statement after a semicolon *)
  Definition print_block (ss : list statement) : list lexeme := flat_map (fun s => semicolon :: print_statement s) ss.
  (** The words of the block, each after a blank *)
  Definition after_spaces (ws : list lexeme) : string := String.concat "" (map (fun w => " " ++ lx_text w) ws).
  Definition print_program (p : program) : string :=
    "version " ++ version_text (prog_version p) ++ after_spaces (print_block (prog_statements p)).
End Style.

(** ** The trees that can be written *)
Definition usable (s : string) : Prop := default_form T_IDENTIFIER s /\ ~ reserved s.
Definition integer (z : Z) : Prop := (0 <= z <= max_int)%Z.
Inductive writable : expr -> Prop :=
| w_bool l b : writable (EBool l b)
| w_int l z : integer z -> writable (EInt l z)
| w_float l f : finite_double f -> sign_SF f = false -> writable (EFloat l f)
| w_ident l n : usable n -> writable (EIdent l n)
| w_index l l' n is : usable n -> is <> [] -> writable_entries is -> writable (EIndex l (EIdent l' n) is)
| w_call_empty l n : usable n -> writable (ECall l n None)
| w_call l n es : usable n -> es <> [] -> all_writable es -> writable (ECall l n (Some es))
| w_unary l o a : writable a -> writable (EUnary l o a)
| w_binary l o a b : writable a -> writable b -> writable (EBinary l o a b)
| w_ternary l a b c : writable a -> writable b -> writable c -> writable (ETernary l a b c)
with all_writable : list expr -> Prop :=
| ws_nil : all_writable []
| ws_cons e es : writable e -> all_writable es -> all_writable (e :: es)
with writable_entries : list index_entry -> Prop :=
| we_nil : writable_entries []
| we_item l e is : writable e -> writable_entries is -> writable_entries (IItem l e :: is)
| we_range l a b is : writable a -> writable b -> writable_entries is -> writable_entries (IRange l a b :: is).
Inductive writable_gate : gate -> Prop :=
| wg_inv l g : writable_gate g -> writable_gate (Gate l "inv" (Some g) [] [])
| wg_ctrl l g : writable_gate g -> writable_gate (Gate l "ctrl" (Some g) [] [])
| wg_pow l g e : writable_gate g -> writable e -> writable_gate (Gate l "pow" (Some g) [e] [])
| wg_named l n ps : usable n -> all_writable ps -> writable_gate (Gate l n None ps []).
Inductive writable_statement : statement -> Prop :=
| wst_variable l n l' t size : usable n -> t = "qubit" \/ t = "bit" -> (forall z, size = Some z -> integer z) ->
    writable_statement (SVariable l n (mkAstType l' t size) [])
| wst_gate l g ops : writable_gate g -> ops <> [] -> all_writable ops -> writable_statement (SGateInstr l g ops [])
| wst_measure l b q ps : writable b -> writable q -> all_writable ps -> writable_statement (SNonGate l "measure" [b; q] ps [])
| wst_wait l q d : writable q -> writable d -> writable_statement (SNonGate l "wait" [q] [d] [])
| wst_other l n q : In n ["reset"; "init"; "barrier"] -> writable q -> writable_statement (SNonGate l n [q] [] [])
| wst_asm l n code : usable n -> closes_first code "'''" -> utf8 code -> writable_statement (SAsm l n code []).
Inductive writable_program : program -> Prop :=
| wp_major x l ss l' : integer x -> Forall writable_statement ss -> writable_program (mkProgram [x] l ss l')
| wp_minor x y l ss l' : integer x -> integer y -> Forall writable_statement ss -> writable_program (mkProgram [x; y] l ss l').

(** The number of opening parentheses *)
Definition parentheses (ks : list token_kind) : nat := count_occ token_kind_eq_dec ks T_OPEN_PARENS.
