(** Model of the lexer generated from src/v3x/CqasmLexer.g4, and of the input
    stream it reads. The ANTLR runtime is modelled by its documented behaviour:
    longest match, first rule on ties, non-greedy loops stop at the first
    terminator. The grammar's rules are transcribed one by one. *)
From Verif Require Import Base ModelUtils.
Local Open Scope string_scope.

(** ** Token kinds, in the order of the rules of CqasmLexer.g4 *)
Inductive token_kind : Set :=
| T_WHITE_SPACE | T_SINGLE_LINE_COMMENT | T_MULTI_LINE_COMMENT
| T_NEW_LINE | T_SEMICOLON | T_COLON | T_COMMA | T_DOT | T_EQUALS
| T_OPEN_BRACKET | T_CLOSE_BRACKET | T_OPEN_PARENS | T_CLOSE_PARENS
| T_PLUS | T_MINUS | T_TRIPLE_QUOTE
| T_BITWISE_NOT_OP | T_LOGICAL_NOT_OP | T_POWER_OP | T_PRODUCT_OP | T_DIVISION_OP | T_MODULO_OP
| T_SHL_OP | T_SHR_OP | T_CMP_GT_OP | T_CMP_LT_OP | T_CMP_GE_OP | T_CMP_LE_OP | T_CMP_EQ_OP | T_CMP_NE_OP
| T_BITWISE_AND_OP | T_BITWISE_XOR_OP | T_BITWISE_OR_OP
| T_LOGICAL_AND_OP | T_LOGICAL_XOR_OP | T_LOGICAL_OR_OP | T_TERNARY_CONDITIONAL_OP
| T_VERSION | T_MEASURE | T_RESET | T_INIT | T_BARRIER | T_WAIT | T_INV | T_POW | T_CTRL
| T_QUBIT_TYPE | T_BIT_TYPE | T_ASM
| T_BOOLEAN_LITERAL | T_INTEGER_LITERAL | T_FLOAT_LITERAL | T_IDENTIFIER | T_RAW_TEXT_STRING
| T_VERSION_WHITE_SPACE | T_VERSION_NUMBER
| T_EOF            (* end of input *)
| T_ERROR.         (* the position at which no rule matches *)

Scheme Equality for token_kind.

(** ** Regular expressions *)
Inductive regex : Type :=
| REmpty
| REps
| RClass (p : ascii -> bool)
| RSeq (a b : regex)
| RAlt (a b : regex)
| RStar (a : regex).

Fixpoint nullable (r : regex) : bool :=
  match r with
  | REmpty | RClass _ => false
  | REps | RStar _ => true
  | RSeq a b => nullable a && nullable b
  | RAlt a b => nullable a || nullable b
  end.

Definition seq_ (a b : regex) : regex :=
  match a, b with
  | REmpty, _ | _, REmpty => REmpty
  | REps, _ => b
  | _, REps => a
  | _, _ => RSeq a b
  end.
Definition alt_ (a b : regex) : regex :=
  match a, b with
  | REmpty, _ => b
  | _, REmpty => a
  | _, _ => RAlt a b
  end.

(** Brzozowski derivative *)
Fixpoint deriv (c : ascii) (r : regex) : regex :=
  match r with
  | REmpty | REps => REmpty
  | RClass p => if p c then REps else REmpty
  | RSeq a b => if nullable a then alt_ (seq_ (deriv c a) b) (deriv c b) else seq_ (deriv c a) b
  | RAlt a b => alt_ (deriv c a) (deriv c b)
  | RStar a => seq_ (deriv c a) (RStar a)
  end.

Definition is_REmpty (r : regex) : bool := match r with REmpty => true | _ => false end.

(** Length of the longest prefix of [s] in the language, if any; [n] bytes have
    been read already and [best] is the best length so far. *)
Fixpoint longest (r : regex) (s : string) (n : nat) (best : option nat) : option nat :=
  let best' := if nullable r then Some n else best in
  match s with
  | EmptyString => best'
  | String c s' => let r' := deriv c r in
                   if is_REmpty r' then best' else longest r' s' (S n) best'
  end.

(** Bytes of [s] up to and including the first occurrence of [close]. *)
Fixpoint find_close (close s : string) (n : nat) : option nat :=
  if starts_with close s then Some (n + String.length close)
  else match s with
       | EmptyString => None
       | String _ s' => find_close close s' (S n)
       end.

Fixpoint drop (n : nat) (s : string) : string :=
  match n, s with
  | O, _ => s
  | S n', String _ s' => drop n' s'
  | S _, EmptyString => EmptyString
  end.
Fixpoint take (n : nat) (s : string) : string :=
  match n, s with
  | S n', String c s' => String c (take n' s')
  | _, _ => EmptyString
  end.

(** A lexer rule: a regular expression, or open .*? close. *)
Inductive lex_rule : Type :=
| Greedy (r : regex)
| Delimited (open close : string).

Definition match_rule (r : lex_rule) (s : string) : option nat :=
  match r with
  | Greedy e => longest e s 0 None
  | Delimited o c => if starts_with o s
                     then find_close c (drop (String.length o) s) (String.length o)
                     else None
  end.

(** Longest match; the first rule of the list wins ties. *)
Fixpoint best_match (rules : list (token_kind * lex_rule)) (s : string) : option (token_kind * nat) :=
  match rules with
  | [] => None
  | (k, r) :: rules' =>
      match match_rule r s, best_match rules' s with
      | Some n, Some (k', n') => if Nat.ltb n n' then Some (k', n') else Some (k, n)
      | Some n, None => Some (k, n)
      | None, b => b
      end
  end.

(** ** The rules of CqasmLexer.g4 *)

Fixpoint lit (s : string) : regex :=
  match s with
  | EmptyString => REps
  | String c EmptyString => RClass (Ascii.eqb c)
  | String c s' => RSeq (RClass (Ascii.eqb c)) (lit s')
  end.
Definition plus_ (r : regex) : regex := RSeq r (RStar r).
Definition opt_ (r : regex) : regex := RAlt r REps.

Definition tab : ascii := ascii_of_nat 9.
Definition newline : ascii := ascii_of_nat 10.
Definition carriage_return : ascii := ascii_of_nat 13.

(** [ \t] *)
Definition is_blank (c : ascii) : bool := Ascii.eqb c " " || Ascii.eqb c tab.
(** fragment Letter: [a-zA-Z_] (line 76) *)
Definition is_letter (c : ascii) : bool := is_lower c || is_upper c || Ascii.eqb c "_".
(** fragment Digit: [0-9] (line 71) *)
Definition Digit : regex := RClass is_digit.
Definition Letter : regex := RClass is_letter.
(** fragment Exponent: [eE][-+]?Digit+ (line 72) *)
Definition Exponent : regex :=
  RSeq (RClass (fun c => Ascii.eqb c "e" || Ascii.eqb c "E"))
       (RSeq (opt_ (RClass (fun c => Ascii.eqb c "-" || Ascii.eqb c "+"))) (plus_ Digit)).
Definition DOT : regex := lit ".".

(** src/v3x/CqasmLexer.g4:4-80, the default mode *)
Definition default_rules : list (token_kind * lex_rule) :=
  [ (T_WHITE_SPACE, Greedy (plus_ (RClass is_blank)));
    (T_SINGLE_LINE_COMMENT,
      Greedy (RSeq (lit "//") (RStar (RClass (fun c => negb (Ascii.eqb c carriage_return || Ascii.eqb c newline))))));
    (T_MULTI_LINE_COMMENT, Delimited "/*" "*/");
    (T_NEW_LINE, Greedy (RSeq (opt_ (RClass (Ascii.eqb carriage_return))) (RClass (Ascii.eqb newline))));
    (T_SEMICOLON, Greedy (lit ";"));
    (T_COLON, Greedy (lit ":"));
    (T_COMMA, Greedy (lit ","));
    (T_DOT, Greedy (lit "."));
    (T_EQUALS, Greedy (lit "="));
    (T_OPEN_BRACKET, Greedy (lit "["));
    (T_CLOSE_BRACKET, Greedy (lit "]"));
    (T_OPEN_PARENS, Greedy (lit "("));
    (T_CLOSE_PARENS, Greedy (lit ")"));
    (T_PLUS, Greedy (lit "+"));
    (T_MINUS, Greedy (lit "-"));
    (T_TRIPLE_QUOTE, Greedy (lit "'''"));
    (T_BITWISE_NOT_OP, Greedy (lit "~"));
    (T_LOGICAL_NOT_OP, Greedy (lit "!"));
    (T_POWER_OP, Greedy (lit "**"));
    (T_PRODUCT_OP, Greedy (lit "*"));
    (T_DIVISION_OP, Greedy (lit "/"));
    (T_MODULO_OP, Greedy (lit "%"));
    (T_SHL_OP, Greedy (lit "<<"));
    (T_SHR_OP, Greedy (lit ">>"));
    (T_CMP_GT_OP, Greedy (lit ">"));
    (T_CMP_LT_OP, Greedy (lit "<"));
    (T_CMP_GE_OP, Greedy (lit ">="));
    (T_CMP_LE_OP, Greedy (lit "<="));
    (T_CMP_EQ_OP, Greedy (lit "=="));
    (T_CMP_NE_OP, Greedy (lit "!="));
    (T_BITWISE_AND_OP, Greedy (lit "&"));
    (T_BITWISE_XOR_OP, Greedy (lit "^"));
    (T_BITWISE_OR_OP, Greedy (lit "|"));
    (T_LOGICAL_AND_OP, Greedy (lit "&&"));
    (T_LOGICAL_XOR_OP, Greedy (lit "^^"));
    (T_LOGICAL_OR_OP, Greedy (lit "||"));
    (T_TERNARY_CONDITIONAL_OP, Greedy (lit "?"));
    (T_VERSION, Greedy (lit "version"));
    (T_MEASURE, Greedy (lit "measure"));
    (T_RESET, Greedy (lit "reset"));
    (T_INIT, Greedy (lit "init"));
    (T_BARRIER, Greedy (lit "barrier"));
    (T_WAIT, Greedy (lit "wait"));
    (T_INV, Greedy (lit "inv"));
    (T_POW, Greedy (lit "pow"));
    (T_CTRL, Greedy (lit "ctrl"));
    (T_QUBIT_TYPE, Greedy (lit "qubit"));
    (T_BIT_TYPE, Greedy (lit "bit"));
    (T_ASM, Greedy (lit "asm"));
    (T_BOOLEAN_LITERAL, Greedy (RAlt (lit "true") (lit "false")));
    (T_INTEGER_LITERAL, Greedy (plus_ Digit));
    (T_FLOAT_LITERAL,
      Greedy (RAlt (RSeq (plus_ Digit) (RSeq DOT (RSeq (plus_ Digit) (opt_ Exponent))))
             (RAlt (RSeq (plus_ Digit) (RSeq DOT (opt_ Exponent)))
                   (RSeq DOT (RSeq (plus_ Digit) (opt_ Exponent))))));
    (T_IDENTIFIER, Greedy (RSeq Letter (RStar (RAlt Letter Digit))));
    (T_RAW_TEXT_STRING, Delimited "'''" "'''") ].

(** src/v3x/CqasmLexer.g4:86-88, mode VERSION_STATEMENT *)
Definition version_rules : list (token_kind * lex_rule) :=
  [ (T_VERSION_WHITE_SPACE, Greedy (plus_ (RClass is_blank)));
    (T_VERSION_NUMBER, Greedy (RSeq (plus_ Digit) (opt_ (RSeq (lit ".") (plus_ Digit))))) ].

(** The mode stack is never deeper than one: VERSION is not a rule of
    VERSION_STATEMENT. *)
Inductive lex_mode : Set := DefaultMode | VersionMode.
Definition mode_rules (m : lex_mode) : list (token_kind * lex_rule) :=
  match m with DefaultMode => default_rules | VersionMode => version_rules end.

(** pushMode(VERSION_STATEMENT) and popMode, lines 51 and 88 *)
Definition next_mode (m : lex_mode) (k : token_kind) : lex_mode :=
  match k with
  | T_VERSION => VersionMode
  | T_VERSION_NUMBER => DefaultMode
  | _ => m
  end.

(** "-> skip" rules, lines 4-6 and 87 *)
Definition is_skipped (k : token_kind) : bool :=
  match k with
  | T_WHITE_SPACE | T_SINGLE_LINE_COMMENT | T_MULTI_LINE_COMMENT | T_VERSION_WHITE_SPACE => true
  | _ => false
  end.

(** A lexeme: its rule and its text (skipped lexemes included). *)
Record lexeme := mkLexeme { lx_kind : token_kind; lx_text : string }.

(** The whole input as lexemes, and the rest of the input at which no rule
    matches ("" when everything was read). [fuel]: one more than the length of
    the input is enough; [None] means out of fuel. *)
Fixpoint lex_from (fuel : nat) (m : lex_mode) (s : string) : option (list lexeme * string) :=
  match fuel with
  | O => None
  | S fuel' =>
      match s with
      | EmptyString => Some ([], EmptyString)
      | _ =>
          match best_match (mode_rules m) s with
          | None => Some ([], s)
          | Some (k, n) =>
              match lex_from fuel' (next_mode m k) (drop n s) with
              | None => None
              | Some (l, rest) => Some (mkLexeme k (take n s) :: l, rest)
              end
          end
      end
  end.
Definition lex (s : string) : option (list lexeme * string) :=
  lex_from (S (String.length s)) DefaultMode s.

(** ** Tokens with positions *)

(** antlr4::Token: line (from 1) and zero-based column of the first character *)
Record token := mkToken { tk_kind : token_kind; tk_text : string; tk_line : N; tk_col : N }.

(** A UTF-8 continuation byte: columns count code points. *)
Definition is_continuation (c : ascii) : bool := ((128 <=? byte_val c) && (byte_val c <? 192))%N.

(** LexerATNSimulator::consume: line and column after reading [s] *)
Fixpoint advance (s : string) (line col : N) : N * N :=
  match s with
  | EmptyString => (line, col)
  | String c s' =>
      if Ascii.eqb c newline then advance s' (line + 1) 0
      else if is_continuation c then advance s' line col
      else advance s' line (col + 1)
  end.

(** Tokens handed to the parser, ending with T_EOF or T_ERROR. *)
Fixpoint place (ls : list lexeme) (rest : string) (line col : N) : list token :=
  match ls with
  | [] => [mkToken (match rest with EmptyString => T_EOF | _ => T_ERROR end) "" line col]
  | l :: ls' =>
      let '(line', col') := advance (lx_text l) line col in
      if is_skipped (lx_kind l) then place ls' rest line' col'
      else mkToken (lx_kind l) (lx_text l) line col :: place ls' rest line' col'
  end.

(** ** ANTLRInputStream *)

(** Well-formed UTF-8; antlrcpp::Utf8::strictDecode refuses anything else. *)
Definition in_range (lo hi : N) (c : ascii) : bool := ((lo <=? byte_val c) && (byte_val c <=? hi))%N.
Fixpoint valid_utf8 (s : string) : bool :=
  match s with
  | EmptyString => true
  | String a s1 =>
      if in_range 0 127 a then valid_utf8 s1
      else match s1 with
      | EmptyString => false
      | String b s2 =>
          if in_range 194 223 a then is_continuation b && valid_utf8 s2
          else match s2 with
          | EmptyString => false
          | String c s3 =>
              if in_range 224 239 a then
                (if in_range 224 224 a then in_range 160 191 b
                 else if in_range 237 237 a then in_range 128 159 b
                 else is_continuation b) && is_continuation c && valid_utf8 s3
              else match s3 with
              | EmptyString => false
              | String d s4 =>
                  if in_range 240 244 a then
                    (if in_range 240 240 a then in_range 144 191 b
                     else if in_range 244 244 a then in_range 128 143 b
                     else is_continuation b) && is_continuation c && is_continuation d && valid_utf8 s4
                  else false
              end
          end
      end
  end.

(** The UTF-8 byte order mark, removed by ANTLRInputStream::load. *)
Definition utf8_bom : string :=
  String (ascii_of_nat 239) (String (ascii_of_nat 187) (String (ascii_of_nat 191) "")).
Definition strip_bom (s : string) : string :=
  if starts_with utf8_bom s then drop 3 s else s.

(** All tokens of an input. *)
Definition tokenize (s : string) : option (list token) :=
  match lex s with
  | None => None
  | Some (ls, rest) => Some (place ls rest 1 0)
  end.
