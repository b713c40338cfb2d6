(** Independent specification of positions stored in 32 bits (C86). *)
From Verif Require Import Base ModelError ModelAst.
Local Open Scope string_scope.

(** What [static_cast<std::uint32_t>] leaves of a number *)
Definition low_32 (n : N) : N := (n mod 2 ^ 32)%N.
Definition index_32 (i : index) : index := mkIndex (low_32 (line i)) (low_32 (column i)).
(** The same location with its positions stored in 32 bits *)
Definition stored_32 : loc -> loc :=
  option_map (fun l => mkRawLocation (file_name l) (mkRawRange (index_32 (first (loc_range l))) (index_32 (last (loc_range l))))).
(** Texts of less than 4 GiB (with one byte to spare: columns start at 1) *)
Definition below_4_gib (s : string) : Prop := (N.of_nat (String.length s) + 1 < 2 ^ 32)%N.
