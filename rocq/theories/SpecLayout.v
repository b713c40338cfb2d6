(** Independent specification of changes of layout (C47, C54): a text as the
    sequence of its lexemes, part of which is replaced by other blanks, comments
    and separators. *)
From Verif Require Import Base ModelLexer SpecUtils SpecLexer SpecSyntax.
Local Open Scope string_scope.

(** The text of a sequence of lexemes *)
Definition spelled (ls : list lexeme) : string := String.concat "" (map lx_text ls).
(** The text of [ls] is read as the lexemes [ls]. *)
Definition reads_as (ls : list lexeme) : Prop := tokenisation DefaultMode (spelled ls) ls "".

Definition comment_kinds : list token_kind := [T_SINGLE_LINE_COMMENT; T_MULTI_LINE_COMMENT].
Definition separator_kinds : list token_kind := [T_NEW_LINE; T_SEMICOLON].
(** Blanks, comments, line ends and semicolons *)
Definition layout (l : lexeme) : Prop :=
  In (lx_kind l) (T_WHITE_SPACE :: comment_kinds ++ separator_kinds) /\ default_form (lx_kind l) (lx_text l).
Definition separates (l : lexeme) : Prop := In (lx_kind l) separator_kinds.

(** Written next to each other, [x] and [y] would be read as something else: two
    blanks are one, a line comment goes on to the end of the line, and a slash
    before a comment begins a line comment. *)
Definition runs_into (x y : lexeme) : Prop :=
  lx_kind x = T_WHITE_SPACE /\ lx_kind y = T_WHITE_SPACE \/
  lx_kind x = T_SINGLE_LINE_COMMENT /\ lx_kind y <> T_NEW_LINE \/
  lx_kind x = T_DIVISION_OP /\ In (lx_kind y) comment_kinds.

(** [g] can be written between [before] and [after]: it is layout, it is not in
    the middle of the version declaration, nothing runs into its neighbour, and
    it is not empty unless one of the neighbours is layout or missing. *)
Record fits (before g after : list lexeme) : Prop := {
  fits_layout : Forall layout g;
  fits_mode : forall a x, before = (a ++ [x])%list -> ~ In (lx_kind x) [T_VERSION; T_VERSION_WHITE_SPACE];
  fits_pairs : forall a x y b, (before ++ g ++ after)%list = (a ++ x :: y :: b)%list -> ~ runs_into x y;
  fits_apart : g <> [] \/ before = [] \/ after = [] \/
    (exists a x, before = (a ++ [x])%list /\ layout x) \/ (exists x b, after = x :: b /\ layout x) }.

(** Both have line ends or semicolons, or neither has; at the ends of a text that
    does not matter. *)
Definition same_separation (before g g' after : list lexeme) : Prop :=
  (Exists separates g <-> Exists separates g') \/ before = [] \/ after = [].

(** Two sequences of lexemes that differ only in blanks and comments *)
Inductive same_but_blanks : list lexeme -> list lexeme -> Prop :=
| sb_nil : same_but_blanks [] []
| sb_left l a b : insignificant (lx_kind l) -> same_but_blanks a b -> same_but_blanks (l :: a) b
| sb_right l a b : insignificant (lx_kind l) -> same_but_blanks a b -> same_but_blanks a (l :: b)
| sb_both l a b : same_but_blanks a b -> same_but_blanks (l :: a) (l :: b).
