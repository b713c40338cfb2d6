(** Independent specification of C100: texts of Python as texts of Unicode. *)
From Verif Require Import Base ModelPython SpecReading.
Local Open Scope string_scope.

(** A str has code points up to U+10FFFF; it is a text if none is a surrogate. *)
Definition is_str (t : py_str) : Prop := Forall (fun n => n < 1114112)%N t.
Definition is_text (t : py_str) : Prop := Forall scalar_value t.
(** The UTF-8 encoding of a text *)
Definition encoded (t : py_str) : string := fold_right (fun n s => encoding n ++ s) "" t.
