(** Model of src/utils.cpp and src/string_builder.cpp. *)
From Verif Require Import Base.
Local Open Scope string_scope.

(** std::tolower(unsigned char) in the "C" locale (the library never calls
    setlocale). Used at src/utils.cpp:26,35. *)
Definition tolower (c : ascii) : ascii :=
  if is_upper c then ascii_of_N (byte_val c + 32) else c.

(** std::isalnum(unsigned char) in the "C" locale; src/utils.cpp:45. *)
Definition isalnum (c : ascii) : bool := is_digit c || is_upper c || is_lower c.

(** src/utils.cpp:24-28 to_lowercase *)
Definition to_lowercase (s : string) : string := map_bytes tolower s.

(** src/utils.cpp:33-37 equal_case_insensitive: ranges::equal with a predicate
    requires equal length and the predicate element-wise. *)
Fixpoint equal_case_insensitive (l r : string) : bool :=
  match l, r with
  | EmptyString, EmptyString => true
  | String a l', String b r' => Ascii.eqb (tolower a) (tolower b) && equal_case_insensitive l' r'
  | _, _ => false
  end.

(** fmt "{:02X}" of a byte. *)
Definition hex2 (n : N) : string :=
  String (hex_digit (n / 16)) (String (hex_digit (n mod 16)) "").

(** src/utils.cpp:45-47, the lambda of url_encode. *)
Definition url_encode_char (c : ascii) : string :=
  if isalnum c || Ascii.eqb c "-" || Ascii.eqb c "_" || Ascii.eqb c "." || Ascii.eqb c "~"
  then char_string c
  else "%" ++ hex2 (byte_val c).

(** src/utils.cpp:42-50 url_encode *)
Definition url_encode (s : string) : string := concat_map url_encode_char s.

(** Value of [char c] as an int; [signed] says whether plain char is signed on
    the platform (it is on x86-64 Linux, Windows and macOS). *)
Definition char_value (signed : bool) (c : ascii) : Z :=
  let n := Z.of_N (byte_val c) in
  if signed && (128 <=? n)%Z then (n - 256)%Z else n.

(** fmt "{:04X}" of an int in -128..255: minimum width 4 including a minus sign,
    zero padded after the sign. *)
Definition hex4 (z : Z) : string :=
  if (z <? 0)%Z
  then "-0" ++ hex2 (Z.to_N (- z))
  else "00" ++ hex2 (Z.to_N z).

(** src/utils.cpp:57-61, the lambda of json_encode. *)
Definition json_encode_char (signed : bool) (c : ascii) : string :=
  if Ascii.eqb c """" || Ascii.eqb c "\" || (char_value signed c <=? 31)%Z
  then "\u" ++ hex4 (char_value signed c)
  else char_string c.

(** src/utils.cpp:55-63 json_encode *)
Definition json_encode (signed : bool) (s : string) : string :=
  concat_map (json_encode_char signed) s.

Fixpoint starts_with (p s : string) : bool :=
  match p, s with
  | EmptyString, _ => true
  | String a p', String b s' => Ascii.eqb a b && starts_with p' s'
  | _, _ => false
  end.

(** Last [n] bytes (all of them when shorter). *)
Definition last_bytes (n : nat) (s : string) : string :=
  substring (String.length s - n) n s.

(** src/utils.cpp:68-72 remove_triple_quotes. The two assert()s are outcomes;
    size-6 is a size_t subtraction which wraps for sizes 3..5 (substr then
    clamps to the end of the string). *)
Definition remove_triple_quotes {E : Type} (s : string) : outcome E string :=
  if negb (starts_with "'''" s) then UB AssertFailed
  else if negb (last_bytes 3 s =? "'''") then UB AssertFailed
  else let n := String.length s in
       Ok (substring 3 (if Nat.ltb n 6 then n else n - 6) s).

(** ** src/string_builder.cpp *)

(** The two mutators of StringBuilder. *)
Inductive sb_call : Set :=
| PushString (s : string)
| PushEscape (s : string).

(** src/string_builder.cpp:19-35: the characters written for an escape. *)
Definition escape_text (e : string) : string :=
  if e =? "\t" then String (ascii_of_nat 9) ""
  else if e =? "\n" then String (ascii_of_nat 10) ""
  else if e =? "\r" then String (ascii_of_nat 13) ""
  else if e =? "\'" then "'"
  else if e =? "\""" then """"
  else if e =? "\\" then "\"
  else e.

(** src/string_builder.cpp:12-14, 19-35: effect of one call on the stream. *)
Definition sb_step (buf : string) (c : sb_call) : string :=
  match c with
  | PushString s => buf ++ s
  | PushEscape e => buf ++ escape_text e
  end.

(** The stream after a sequence of calls (StringBuilder::str). *)
Definition sb_run (calls : list sb_call) : string := fold_left sb_step calls "".
