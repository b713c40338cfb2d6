(** Independent specifications for the reading of source text: positions,
    literals, acceptance (C05, C45, C51-C53, C63). *)
From Verif Require Import Base ModelError ModelAst ModelLexer ModelParser SpecUtils SpecLexer SpecParser.
Local Open Scope string_scope.

(** ** Positions in a text *)

(** Line and column, both from 1, of the character that follows the text [s].
    Columns count characters: the continuation bytes of a UTF-8 sequence do not
    count. *)
Definition is_lf (c : ascii) : bool := (N_of_ascii c =? 10)%N.
Definition continues (c : ascii) : bool := ((128 <=? N_of_ascii c) && (N_of_ascii c <=? 191))%N.
Fixpoint line_feeds (s : string) : N :=
  match s with
  | EmptyString => 0
  | String c s' => ((if is_lf c then 1 else 0) + line_feeds s')%N
  end.
Fixpoint characters (s : string) : N :=
  match s with
  | EmptyString => 0
  | String c s' => ((if continues c then 0 else 1) + characters s')%N
  end.
(** What follows the last line feed. *)
Fixpoint last_line (s : string) : string :=
  match s with
  | EmptyString => ""
  | String c s' => if (line_feeds s =? 0)%N then s else last_line s'
  end.
Definition line_of (s : string) : N := (1 + line_feeds s)%N.
Definition column_of (s : string) : N := (1 + characters (last_line s))%N.

(** The text [s] has the piece [t] on line [line] from column [col] on. *)
Definition text_at (s t : string) (line col : N) : Prop :=
  exists a b, s = a ++ t ++ b /\ line = line_of a /\ col = column_of a.

(** ** Numbers *)

(** The number written by a string of decimal digits. *)
Fixpoint decimal (s : string) : Z :=
  match s with
  | EmptyString => 0
  | String c s' => ((Z.of_N (N_of_ascii c) - 48) * 10 ^ Z.of_nat (String.length s') + decimal s')%Z
  end.

(** ** The text that is read

    A leading UTF-8 byte order mark is not part of the text. *)
Definition byte_order_mark : string := String (ascii_of_N 239) (String (ascii_of_N 187) (String (ascii_of_N 191) "")).
Definition text_of (data s : string) : Prop :=
  data = byte_order_mark ++ s \/ data = s /\ ~ exists r, data = byte_order_mark ++ r.

(** ** The tokens of a text *)

(** White space and comments. *)
Definition insignificant (k : token_kind) : Prop :=
  In k [T_WHITE_SPACE; T_SINGLE_LINE_COMMENT; T_MULTI_LINE_COMMENT; T_VERSION_WHITE_SPACE].
(** [tokens_at before ls ts]: [ts] are the tokens among the lexemes [ls], which
    follow the text [before], each at its position. *)
Inductive tokens_at : string -> list lexeme -> list token -> Prop :=
| ta_nil before : tokens_at before [] []
| ta_skip before l ls ts : insignificant (lx_kind l) -> tokens_at (before ++ lx_text l) ls ts -> tokens_at before (l :: ls) ts
| ta_token before l ls ts line col : ~ insignificant (lx_kind l) ->
    line_of before = line -> column_of before = (col + 1)%N ->
    tokens_at (before ++ lx_text l) ls ts ->
    tokens_at before (l :: ls) (mkToken (lx_kind l) (lx_text l) line col :: ts).
(** The text [s] consists of tokens; [ts] are these and the end of the file. *)
Definition tokens_of (s : string) (ts : list token) : Prop :=
  exists ls body line col, tokenisation DefaultMode s ls "" /\ tokens_at "" ls body /\
    line = line_of s /\ column_of s = (col + 1)%N /\
    ts = (body ++ [mkToken T_EOF "" line col])%list.

(** [ts] is a sentence of the grammar. *)
Definition sentence (ts : list token) : Prop := exists p, program_tokens p ts.

(** ** Literals *)

(** The literals of a token: kind, text and column; a version number consists of
    integer literals. *)
Inductive literal_in (t : token) : token_kind -> string -> N -> Prop :=
| lit_int : tk_kind t = T_INTEGER_LITERAL -> literal_in t T_INTEGER_LITERAL (tk_text t) (tk_col t)
| lit_float : tk_kind t = T_FLOAT_LITERAL -> literal_in t T_FLOAT_LITERAL (tk_text t) (tk_col t)
| lit_version : tk_kind t = T_VERSION_NUMBER -> digits (tk_text t) -> literal_in t T_INTEGER_LITERAL (tk_text t) (tk_col t)
| lit_major a b : tk_kind t = T_VERSION_NUMBER -> tk_text t = a ++ "." ++ b -> digits a -> digits b ->
    literal_in t T_INTEGER_LITERAL a (tk_col t)
| lit_minor a b : tk_kind t = T_VERSION_NUMBER -> tk_text t = a ++ "." ++ b -> digits a -> digits b ->
    literal_in t T_INTEGER_LITERAL b (tk_col t + N.of_nat (String.length a) + 1).
(** The largest 64-bit integer *)
Definition max_int : Z := 2 ^ 63 - 1.
