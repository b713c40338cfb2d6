(** Independent specifications about source locations (C09, C10, C12). Only the
    data types [index], [range] and [source_location] of the model are used. *)
From Verif Require Import Base ModelError SpecUtils.

(** Position [a] is at or before position [b]. *)
Definition at_or_before (a b : index) : Prop :=
  (line a < line b \/ (line a = line b /\ column a <= column b))%N.

Definition ordered (r : range) : Prop := at_or_before (first r) (last r).

(** Position [p] lies in the range. *)
Definition covers (r : range) (p : index) : Prop :=
  at_or_before (first r) p /\ at_or_before p (last r).

(** Range [s] lies in range [r]. *)
Definition encloses (r s : range) : Prop :=
  at_or_before (first r) (first s) /\ at_or_before (last s) (last r).

(** [r] is the least ordered range that encloses [s] and covers all of [ps]. *)
Definition least_enclosing (r s : range) (ps : list index) : Prop :=
  ordered r /\ encloses r s /\ (forall p, In p ps -> covers r p) /\
  forall r', ordered r' -> encloses r' s -> (forall p, In p ps -> covers r' p) -> encloses r' r.

Definition one_based (r : range) : Prop :=
  (1 <= line (first r) /\ 1 <= column (first r) /\ 1 <= line (last r) /\ 1 <= column (last r))%N.

(** LSP positions and ranges as JSON. *)
Definition lsp_position (i : index) : json := JObj [("line", JNum (line i)); ("character", JNum (column i))]%string.
Definition lsp_range (r : range) : json :=
  JObj [("start", lsp_position (first r)); ("end", lsp_position (last r))]%string.
Definition null_index : index := mkIndex 0 0.
Definition null_range : range := mkRawRange null_index null_index.

(** The LSP diagnostic for an error with the given range, message and file URI. *)
Definition lsp_diagnostic (r : range) (msg : string) (uri : option string) : json :=
  JObj ([("range", lsp_range r); ("message", JStr msg); ("severity", JNum 1)]%string ++
        match uri with
        | Some u => [("relatedInformation",
                      JArr [JObj [("location", JObj [("uri", JStr u); ("range", lsp_range null_range)]);
                                  ("message", JStr "<unknown error message>")]])]%string
        | None => []
        end).
