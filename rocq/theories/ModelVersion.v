(** Model of src/version.cpp and include/libqasm/version.hpp. *)
From Verif Require Import Base.
Local Open Scope string_scope.

(** include/libqasm/version.hpp:27: a version is a vector of int64 components. *)
Definition version := list Z.

(** Decimal digits read by strtol from the current position, most significant
    first; returns the accumulated value and whether any digit was read. *)
Fixpoint read_digits (acc : Z) (any : bool) (s : string) : Z * bool :=
  match s with
  | String c s' => if is_digit c then read_digits (acc * 10 + digit_val c) true s' else (acc, any)
  | EmptyString => (acc, any)
  end.

Fixpoint skip_spaces (s : string) : string :=
  match s with
  | String c s' => if is_space c then skip_spaces s' else s
  | EmptyString => EmptyString
  end.

Definition int_min : Z := - 2 ^ 31.
Definition int_max : Z := 2 ^ 31 - 1.

(** std::stoi (strtol base 10: leading white space, optional sign, digits, the
    rest ignored; invalid_argument without digits, out_of_range outside int).
    Used at src/version.cpp:24,27. *)
Definition stoi {E : Type} (s : string) : outcome E Z :=
  let s1 := skip_spaces s in
  let '(neg, s2) := match s1 with
                    | String c s' => if Ascii.eqb c "-" then (true, s')
                                     else if Ascii.eqb c "+" then (false, s') else (false, s1)
                    | EmptyString => (false, s1)
                    end in
  let '(v, any) := read_digits 0 false s2 in
  if negb any then Throw "std::invalid_argument: stoi"
  else let z := if neg then (- v)%Z else v in
       if (int_min <=? z)%Z && (z <=? int_max)%Z then Ok z
       else Throw "std::out_of_range: stoi".

(** The pieces of a string between dots: the loop of src/version.cpp:21-27
    (find '.', substr) visits exactly these. *)
Fixpoint split_dots (cur : string) (s : string) : list string :=
  match s with
  | EmptyString => [cur]
  | String c s' => if Ascii.eqb c "." then cur :: split_dots "" s'
                   else split_dots (cur ++ char_string c) s'
  end.

(** src/version.cpp:17-33 Version::Version(const std::string&) *)
Definition version_of_string {E : Type} (s : string) : outcome E version :=
  if s =? "" then Ok []
  else let! comps := mapM stoi (split_dots "" s) in
       if existsb (fun c => (c <? 0)%Z) comps
       then Throw "std::invalid_argument: version component below zero"
       else Ok comps.

(** src/version.cpp:53-58: the two comparisons made for one pair of components;
    [rest] is the remaining iterations of the loop. *)
Definition compare_step (lhs rhs : Z) (rest : Z) : Z :=
  if (lhs >? rhs)%Z then 1%Z else if (lhs <? rhs)%Z then (-1)%Z else rest.

(** The iterations at which only the right operand still has components. *)
Fixpoint version_compare_nil_l (r : version) : Z :=
  match r with
  | [] => 0%Z
  | y :: r' => compare_step 0 y (version_compare_nil_l r')
  end.

(** src/version.cpp:49-61 Version::compare: component-wise with missing
    components read as 0. Returns 1, -1 or 0. *)
Fixpoint version_compare (l r : version) : Z :=
  match l, r with
  | [], _ => version_compare_nil_l r
  | x :: l', [] => compare_step x 0 (version_compare l' [])
  | x :: l', y :: r' => compare_step x y (version_compare l' r')
  end.

(** include/libqasm/version.hpp:56-57 *)
Definition version_eqb (l r : version) : bool := (version_compare l r =? 0)%Z.
Definition version_ltb (l r : version) : bool := (version_compare l r <? 0)%Z.
Definition version_leb (l r : version) : bool := (version_compare l r <=? 0)%Z.

(** src/version.cpp:66-68 operator<< *)
Definition version_to_string (v : version) : string := join "." (map dec_Z v).
