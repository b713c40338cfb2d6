(** Independent specifications for the reading of whole texts: UTF-8, the ranges
    of literals, the place of a syntax error (C45, C51, C52, C55, C63-C65). *)
From Coq Require Import Reals.
From Flocq Require Import BinarySingleNaN.
From Verif Require Import Base ModelTypes ModelError ModelAst ModelLexer ModelParser SpecUtils SpecTypes SpecLexer SpecParser SpecSyntax SpecLiteral SpecTree.
Local Open Scope string_scope.

(** ** UTF-8 *)

(** Unicode scalar values: code points but for the surrogates. *)
Definition scalar_value (n : N) : Prop := (n < 55296 \/ 57344 <= n < 1114112)%N.
Definition bytes (l : list N) : string := fold_right (fun n s => String (ascii_of_N n) s) "" l.
(** The last six bits, the six before, ... as continuation bytes. *)
Definition sextet (n : N) : N := (128 + n mod 64)%N.
Definition encoding (n : N) : string :=
  (if n <? 128 then bytes [n]
   else if n <? 2048 then bytes [192 + n / 64; sextet n]
   else if n <? 65536 then bytes [224 + n / 4096; sextet (n / 64); sextet n]
   else bytes [240 + n / 262144; sextet (n / 4096); sextet (n / 64); sextet n])%N.
Inductive utf8 : string -> Prop :=
| utf8_end : utf8 ""
| utf8_next n s : scalar_value n -> utf8 s -> utf8 (encoding n ++ s).

(** ** Literals *)

(** [f] is the double nearest to the number written by [s], which is in range. *)
Definition reads_double (s : string) (f : float) : Prop :=
  exists x, literal_value s x /\ double_range x /\
    finite_double f /\ sign_SF f = false /\ real_of f = nearest_double x.
Definition literal_in_range (k : token_kind) (s : string) : Prop :=
  match k with
  | T_INTEGER_LITERAL => (decimal s <= max_int)%Z
  | T_FLOAT_LITERAL => exists x, literal_value s x /\ double_range x
  | _ => True
  end.
Definition all_in_range (ts : list token) : Prop :=
  forall t k s col, In t ts -> literal_in t k s col -> literal_in_range k s.
Definition literal_name (k : token_kind) : string :=
  match k with T_INTEGER_LITERAL => "INTEGER_LITERAL" | _ => "FLOAT_LITERAL" end.
(** The error about the literal [s] at that place *)
Definition out_of_range (file : option string) (k : token_kind) (s : string) (line col : N) : error :=
  mkRawError ("value '" ++ s ++ "' is out of the " ++ literal_name k ++ " range") (span file (mkToken k "" line col) (mkToken k "" line col)).

(** ** Texts that are not all tokens *)

(** [scanned s ts]: the tokens of [s] and its end or, when some of [s] cannot be
    read, the tokens before that and an error token in its place. *)
Inductive scanned (s : string) : list token -> Prop :=
| scanned_all ts : tokens_of s ts -> scanned s ts
| scanned_part ls rest body read line col :
    tokenisation DefaultMode s ls rest -> rest <> "" -> s = read ++ rest ->
    tokens_at "" ls body -> line = line_of read -> column_of read = (col + 1)%N ->
    scanned s (body ++ [mkToken T_ERROR "" line col]).
(** The tokens [u] can be continued to a program. *)
Definition viable (u : list token) : Prop := exists z, sentence (u ++ z).
(** [t] is the first of the tokens [ts] that cannot continue a program. *)
Definition first_offending (ts : list token) (t : token) : Prop :=
  exists u w, ts = (u ++ t :: w)%list /\ viable u /\ ~ viable (u ++ [t])%list.

(** The syntax tree of a text, with the floating-point literals correctly rounded *)
Definition text_means (file : option string) (s : string) (p : program) : Prop :=
  syntax_tree file reads_double s p.
