(** Independent specification of the value of floating-point literals (C55). *)
From Coq Require Import Reals.
From Verif Require Import Base ModelLexer ModelTypes SpecUtils SpecTypes SpecLexer SpecSyntax.
Local Open Scope string_scope.

(** The number an exponent part stands for. *)
Inductive exponent_value : string -> Z -> Prop :=
| ev_none : exponent_value "" 0
| ev_plain e d : e = "e" \/ e = "E" -> digits d -> d <> "" -> exponent_value (e ++ d) (decimal d)
| ev_plus e d : e = "e" \/ e = "E" -> digits d -> d <> "" -> exponent_value (e ++ "+" ++ d) (decimal d)
| ev_minus e d : e = "e" \/ e = "E" -> digits d -> d <> "" -> exponent_value (e ++ "-" ++ d) (- decimal d).

(** a.b e: the digits of a and b, scaled by the exponent less the number of
    digits after the point *)
Inductive literal_value : string -> R -> Prop :=
| lv a b e x : digits a -> digits b -> a <> "" \/ b <> "" -> exponent_value e x ->
    literal_value (a ++ "." ++ b ++ e)
      (IZR (decimal (a ++ b)) * powerRZ 10 (x - Z.of_nat (String.length b)))%R.

(** The real number [x] is in the range of double: it does not round to
    infinity, and is not so small that precision is lost in a subnormal. *)
Definition double_range (x : R) : Prop :=
  (nearest_double x < 2 ^ 1024)%R /\ ((/ 2 ^ 1022 <= nearest_double x)%R \/ nearest_double x = x).
