(** Independent specification of what it means to write one text behind another
    (C88). *)
From Verif Require Import Base ModelError ModelTypes ModelAst SpecUtils SpecLexer SpecSyntax SpecAnalyzer SpecRelocate.
Local Open Scope string_scope.

(** [t] written behind the text [d], on a new line *)
Definition on_new_line (d t : string) : string := d ++ LF ++ t.
(** [t] alone, behind a version declaration *)
Definition as_program (t : string) : string := on_new_line "version 3" t.

(** The same place, [k] lines further down *)
Definition index_down (k : N) (i : index) : index := mkIndex (line i + k) (column i).
Definition lines_down (k : N) (l : loc) : loc :=
  option_map (fun l => mkRawLocation (file_name l) (mkRawRange (index_down k (first (loc_range l))) (index_down k (last (loc_range l))))) l.
