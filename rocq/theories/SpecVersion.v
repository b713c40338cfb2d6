(** Independent specification of the texts accepted as versions (C08). *)
From Verif Require Import Base SpecUtils SpecLexer SpecSyntax.
Local Open Scope string_scope.

(** A space, or one of the control characters from tab to carriage return *)
Definition space (c : ascii) : Prop := N_of_ascii c = 32%N \/ (9 <= N_of_ascii c <= 13)%N.
(** Spaces, at most one sign, digits, and anything that does not go on with a
    digit *)
Inductive integer_at_front : string -> Z -> Prop :=
| front_plain w sign d rest : all_bytes space w -> sign = "" \/ sign = "+" -> digits d -> d <> "" -> (forall c r, rest = String c r -> ~ digit c) ->
    integer_at_front (w ++ sign ++ d ++ rest) (decimal d)
| front_minus w d rest : all_bytes space w -> digits d -> d <> "" -> (forall c r, rest = String c r -> ~ digit c) ->
    integer_at_front (w ++ "-" ++ d ++ rest) (- decimal d).

(** The texts joined by dots *)
Fixpoint dotted (l : list string) : string :=
  match l with [] => "" | [p] => p | p :: l' => p ++ "." ++ dotted l' end.
Definition without_dot (s : string) : Prop := all_bytes (fun c => c <> "."%char) s.
(** The components of a version; the empty text is the version without any. *)
Inductive version_text : string -> list Z -> Prop :=
| vt_empty : version_text "" []
| vt_parts ps v : dotted ps <> "" -> ps <> [] -> Forall without_dot ps -> Forall2 integer_at_front ps v -> version_text (dotted ps) v.
