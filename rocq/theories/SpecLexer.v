(** Independent specification of the tokens of cQASM and of tokenisation (C45,
    C46). *)
From Verif Require Import Base ModelLexer SpecUtils.
Local Open Scope string_scope.

(** ** Characters *)
Definition code_between (a b : N) (c : ascii) : Prop := (a <= N_of_ascii c <= b)%N.
Definition digit (c : ascii) : Prop := code_between 48 57 c.
Definition letter (c : ascii) : Prop := code_between 97 122 c \/ code_between 65 90 c \/ c = "_"%char.
Definition blank (c : ascii) : Prop := c = " "%char \/ N_of_ascii c = 9%N.
Definition line_end (c : ascii) : Prop := N_of_ascii c = 10%N \/ N_of_ascii c = 13%N.
Definition LF : string := String (ascii_of_N 10) "".
Definition CR : string := String (ascii_of_N 13) "".

(** ** The text of tokens *)

(** Tokens with a fixed text: signs and operators, reserved words. *)
Definition signs : list (token_kind * string) :=
  [ (T_SEMICOLON, ";"); (T_COLON, ":"); (T_COMMA, ","); (T_DOT, "."); (T_EQUALS, "=");
    (T_OPEN_BRACKET, "["); (T_CLOSE_BRACKET, "]"); (T_OPEN_PARENS, "("); (T_CLOSE_PARENS, ")");
    (T_PLUS, "+"); (T_MINUS, "-"); (T_TRIPLE_QUOTE, "'''");
    (T_BITWISE_NOT_OP, "~"); (T_LOGICAL_NOT_OP, "!"); (T_POWER_OP, "**"); (T_PRODUCT_OP, "*");
    (T_DIVISION_OP, "/"); (T_MODULO_OP, "%"); (T_SHL_OP, "<<"); (T_SHR_OP, ">>");
    (T_CMP_GT_OP, ">"); (T_CMP_LT_OP, "<"); (T_CMP_GE_OP, ">="); (T_CMP_LE_OP, "<=");
    (T_CMP_EQ_OP, "=="); (T_CMP_NE_OP, "!="); (T_BITWISE_AND_OP, "&"); (T_BITWISE_XOR_OP, "^");
    (T_BITWISE_OR_OP, "|"); (T_LOGICAL_AND_OP, "&&"); (T_LOGICAL_XOR_OP, "^^"); (T_LOGICAL_OR_OP, "||");
    (T_TERNARY_CONDITIONAL_OP, "?") ].
Definition words : list (token_kind * string) :=
  [ (T_VERSION, "version"); (T_MEASURE, "measure"); (T_RESET, "reset"); (T_INIT, "init"); (T_BARRIER, "barrier");
    (T_WAIT, "wait"); (T_INV, "inv"); (T_POW, "pow"); (T_CTRL, "ctrl"); (T_QUBIT_TYPE, "qubit"); (T_BIT_TYPE, "bit");
    (T_ASM, "asm"); (T_BOOLEAN_LITERAL, "true"); (T_BOOLEAN_LITERAL, "false") ].
Definition reserved (s : string) : Prop := In s (map snd words).

Definition digits (s : string) : Prop := all_bytes digit s.
(** "", or e or E, an optional sign, and digits *)
Inductive exponent : string -> Prop :=
| exp_none : exponent ""
| exp_some e sign d : e = "e" \/ e = "E" -> sign = "" \/ sign = "+" \/ sign = "-" -> digits d -> d <> "" ->
    exponent (e ++ sign ++ d).
(** [close] occurs in [body ++ close] only at the end. *)
Definition closes_first (body close : string) : Prop :=
  forall a b, body ++ close = a ++ close ++ b -> b = "".

(** The texts of each kind of token, in either mode. *)
Inductive default_form : token_kind -> string -> Prop :=
| form_sign k s : In (k, s) signs -> default_form k s
| form_word k s : In (k, s) words -> default_form k s
| form_blank s : s <> "" -> all_bytes blank s -> default_form T_WHITE_SPACE s
| form_line_comment s : all_bytes (fun c => ~ line_end c) s -> default_form T_SINGLE_LINE_COMMENT ("//" ++ s)
| form_comment s : closes_first s "*/" -> default_form T_MULTI_LINE_COMMENT ("/*" ++ s ++ "*/")
| form_newline : default_form T_NEW_LINE LF
| form_newline2 : default_form T_NEW_LINE (CR ++ LF)
| form_int s : s <> "" -> digits s -> default_form T_INTEGER_LITERAL s
| form_float a b e : digits a -> digits b -> a <> "" \/ b <> "" -> exponent e ->
    default_form T_FLOAT_LITERAL (a ++ "." ++ b ++ e)
| form_identifier c s : letter c -> all_bytes (fun c => letter c \/ digit c) s -> default_form T_IDENTIFIER (String c s)
| form_raw s : closes_first s "'''" -> default_form T_RAW_TEXT_STRING ("'''" ++ s ++ "'''").
(** After the word version: *)
Inductive version_form : token_kind -> string -> Prop :=
| form_version_blank s : s <> "" -> all_bytes blank s -> version_form T_VERSION_WHITE_SPACE s
| form_major s : s <> "" -> digits s -> version_form T_VERSION_NUMBER s
| form_major_minor a b : a <> "" -> digits a -> b <> "" -> digits b -> version_form T_VERSION_NUMBER (a ++ "." ++ b).
Definition form (m : lex_mode) : token_kind -> string -> Prop :=
  match m with DefaultMode => default_form | VersionMode => version_form end.
Definition mode_after (m : lex_mode) (k : token_kind) : lex_mode :=
  match k with T_VERSION => VersionMode | T_VERSION_NUMBER => DefaultMode | _ => m end.

(** ** Tokenisation

    The text [s], read in mode [m], is the texts of [ls] followed by [rest], which
    is empty or starts with no token. Every token is the longest possible; words
    are identifiers only if they are not reserved. *)
Inductive tokenisation : lex_mode -> string -> list lexeme -> string -> Prop :=
| tok_end m : tokenisation m "" [] ""
| tok_stuck m s : s <> "" -> (forall k u v, s = u ++ v -> ~ form m k u) -> tokenisation m s [] s
| tok_next m k u v ls rest :
    form m k u ->
    (forall k' u' v', u ++ v = u' ++ v' -> form m k' u' -> (String.length u' <= String.length u)%nat) ->
    (k = T_IDENTIFIER -> ~ reserved u) ->
    tokenisation (mode_after m k) v ls rest ->
    tokenisation m (u ++ v) (mkLexeme k u :: ls) rest.
