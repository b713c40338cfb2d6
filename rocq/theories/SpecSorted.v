(** Independent specification of the order of the errors of a text (C105). *)
From Verif Require Import Base ModelError ModelAst SpecUtils SpecError SpecSyntax SpecSites.
Local Open Scope string_scope.

(** [l] is the location of a piece of the text [t] that is not empty and lies on
    one line, when [t] follows [before]. *)
Definition inside (file : option string) (before t : string) (l : source_location) : Prop :=
  exists a m b, t = a ++ m ++ b /\ file_name l = (match file with Some "" => None | _ => file end) /\
    first (loc_range l) = position (before ++ a) /\ last (loc_range l) = position (before ++ a ++ m) /\
    line (first (loc_range l)) = line (last (loc_range l)) /\ (column (first (loc_range l)) < column (last (loc_range l)))%N.

(** [shares file before ess rest]: the text [rest], which follows [before], is cut
    into one piece for each of the lists of errors [ess], in that order. Each of
    them has at most one error, and that is located in its piece. *)
Inductive shares (file : option string) : string -> list (list error) -> string -> Prop :=
| shares_none before rest : shares file before [] rest
| shares_piece before gap t es ess rest :
    (es = [] \/ exists e l, es = [e] /\ location e = Some l /\ inside file (before ++ gap) t l) ->
    shares file (before ++ gap ++ t) ess rest -> shares file before (es :: ess) (gap ++ t ++ rest).

(** [e1] ends where [e2] begins, or before; and it does not begin there. *)
Definition comes_before (e1 e2 : error) : Prop :=
  exists l1 l2, location e1 = Some l1 /\ location e2 = Some l2 /\ file_name l1 = file_name l2 /\
    at_or_before (last (loc_range l1)) (first (loc_range l2)) /\
    (line (first (loc_range l1)) = line (last (loc_range l1)) /\ column (first (loc_range l1)) < column (last (loc_range l1)))%N.
