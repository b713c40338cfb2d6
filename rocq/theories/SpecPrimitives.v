(** Independent specification for C67. *)
From Verif Require Import Base.
(** The character [c] occurs in [s]. *)
Definition has (c : ascii) (s : string) : Prop := In c (list_ascii_of_string s).
