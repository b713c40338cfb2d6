(** Independent specifications for the string utilities, versions, locations,
    errors and results (C01-C13). Nothing here refers to a model definition
    except the data types being talked about. *)
From Verif Require Import Base.
Local Open Scope string_scope.

(** ** Bytes *)

Definition byte_below (n : N) (c : ascii) : Prop := (N_of_ascii c < n)%N.

(** Every byte of the string satisfies [P]. *)
Fixpoint all_bytes (P : ascii -> Prop) (s : string) : Prop :=
  match s with
  | EmptyString => True
  | String c s' => P c /\ all_bytes P s'
  end.

(** ASCII text: bytes below 0x80. *)
Definition ascii_text (s : string) : Prop := all_bytes (byte_below 128) s.

(** ** A reader for JSON (RFC 8259)

    It accepts a subset of JSON: numbers are non-negative integers and the
    literals true/false/null are left out. Everything it accepts is JSON.
    Strings are read to bytes; an escape \uXXXX denotes the UTF-8 encoding of
    that code point (surrogates are not combined). *)

Inductive json : Type :=
| JNum (n : N)
| JStr (s : string)
| JArr (l : list json)
| JObj (members : list (string * json)).

Definition json_hex_value (c : ascii) : option N :=
  let n := N_of_ascii c in
  if ((48 <=? n) && (n <=? 57))%N then Some (n - 48)%N
  else if ((65 <=? n) && (n <=? 70))%N then Some (n - 55)%N
  else if ((97 <=? n) && (n <=? 102))%N then Some (n - 87)%N
  else None.

Definition utf8_encode (n : N) : string :=
  if (n <? 128)%N then String (ascii_of_N n) ""
  else if (n <? 2048)%N then
    String (ascii_of_N (192 + n / 64)) (String (ascii_of_N (128 + n mod 64)) "")
  else
    String (ascii_of_N (224 + n / 4096))
      (String (ascii_of_N (128 + (n / 64) mod 64)) (String (ascii_of_N (128 + n mod 64)) "")).

Definition prepend (s : string) (r : option (string * string)) : option (string * string) :=
  match r with Some (d, rest) => Some (s ++ d, rest) | None => None end.

(** The characters of a string literal after the opening quote: their meaning
    and what follows the closing quote (RFC 8259, section 7). *)
Fixpoint json_chars (s : string) : option (string * string) :=
  match s with
  | EmptyString => None
  | String c s1 =>
      if Ascii.eqb c """" then Some ("", s1)
      else if (N_of_ascii c <? 32)%N then None
      else if Ascii.eqb c "\" then
        match s1 with
        | String e s2 =>
            if Ascii.eqb e """" || Ascii.eqb e "\" || Ascii.eqb e "/"
            then prepend (String e "") (json_chars s2)
            else if Ascii.eqb e "b" then prepend (String (ascii_of_N 8) "") (json_chars s2)
            else if Ascii.eqb e "f" then prepend (String (ascii_of_N 12) "") (json_chars s2)
            else if Ascii.eqb e "n" then prepend (String (ascii_of_N 10) "") (json_chars s2)
            else if Ascii.eqb e "r" then prepend (String (ascii_of_N 13) "") (json_chars s2)
            else if Ascii.eqb e "t" then prepend (String (ascii_of_N 9) "") (json_chars s2)
            else if Ascii.eqb e "u" then
              match s2 with
              | String a (String b (String d (String f s3))) =>
                  match json_hex_value a, json_hex_value b, json_hex_value d, json_hex_value f with
                  | Some a, Some b, Some d, Some f =>
                      prepend (utf8_encode (4096 * a + 256 * b + 16 * d + f)) (json_chars s3)
                  | _, _, _, _ => None
                  end
              | _ => None
              end
            else None
        | EmptyString => None
        end
      else prepend (String c "") (json_chars s1)
  end.

Definition json_digit (c : ascii) : option N :=
  let n := N_of_ascii c in
  if ((48 <=? n) && (n <=? 57))%N then Some (n - 48)%N else None.

Fixpoint json_digits (acc : N) (s : string) : N * string :=
  match s with
  | String c s' => match json_digit c with
                   | Some d => json_digits (10 * acc + d) s'
                   | None => (acc, s)
                   end
  | EmptyString => (acc, s)
  end.

(** int = zero / ( digit1-9 *DIGIT ) (RFC 8259, section 6) *)
Definition json_number (s : string) : option (N * string) :=
  match s with
  | String c s' => match json_digit c with
                   | Some 0%N => Some (0%N, s')
                   | Some d => Some (json_digits d s')
                   | None => None
                   end
  | EmptyString => None
  end.

Fixpoint json_skip (s : string) : string :=
  match s with
  | String c s' =>
      let n := N_of_ascii c in
      if ((n =? 32) || (n =? 9) || (n =? 10) || (n =? 13))%N then json_skip s' else s
  | EmptyString => s
  end.

(** The rest of [s] after white space and the character [c]. *)
Definition json_expect (c : ascii) (s : string) : option string :=
  match json_skip s with
  | String d s' => if Ascii.eqb c d then Some s' else None
  | EmptyString => None
  end.

(** A value and what follows it. The fuel bounds the number of characters. *)
Fixpoint json_value (fuel : nat) (s : string) : option (json * string) :=
  match fuel with
  | O => None
  | S fuel =>
      match json_skip s with
      | String c s1 =>
          if Ascii.eqb c """" then
            match json_chars s1 with Some (d, r) => Some (JStr d, r) | None => None end
          else if Ascii.eqb c "[" then
            match json_expect "]" s1 with
            | Some r => Some (JArr [], r)
            | None => match json_elements fuel s1 with Some (l, r) => Some (JArr l, r) | None => None end
            end
          else if Ascii.eqb c "{" then
            match json_expect "}" s1 with
            | Some r => Some (JObj [], r)
            | None => match json_members fuel s1 with Some (l, r) => Some (JObj l, r) | None => None end
            end
          else match json_number (String c s1) with Some (n, r) => Some (JNum n, r) | None => None end
      | EmptyString => None
      end
  end
with json_elements (fuel : nat) (s : string) : option (list json * string) :=
  match fuel with
  | O => None
  | S fuel =>
      match json_value fuel s with
      | Some (v, r) =>
          match json_expect "]" r with
          | Some r' => Some ([v], r')
          | None => match json_expect "," r with
                    | Some r' => match json_elements fuel r' with
                                 | Some (l, r'') => Some (v :: l, r'')
                                 | None => None
                                 end
                    | None => None
                    end
          end
      | None => None
      end
  end
with json_members (fuel : nat) (s : string) : option (list (string * json) * string) :=
  match fuel with
  | O => None
  | S fuel =>
      match json_expect """" s with
      | Some s1 =>
          match json_chars s1 with
          | Some (k, s2) =>
              match json_expect ":" s2 with
              | Some s3 =>
                  match json_value fuel s3 with
                  | Some (v, r) =>
                      match json_expect "}" r with
                      | Some r' => Some ([(k, v)], r')
                      | None => match json_expect "," r with
                                | Some r' => match json_members fuel r' with
                                             | Some (l, r'') => Some ((k, v) :: l, r'')
                                             | None => None
                                             end
                                | None => None
                                end
                      end
                  | None => None
                  end
              | None => None
              end
          | None => None
          end
      | None => None
      end
  end.

(** [reads_as_json s v]: [s] is exactly one JSON text and denotes [v]. The
    bound on the reader's recursion is irrelevant (see json_value_mono in
    ProofsError: more fuel never changes an answer). *)
Definition reads_as_json (s : string) (v : json) : Prop :=
  exists fuel rest, json_value fuel s = Some (v, rest) /\ json_skip rest = "".

(** ** Percent-encoding (RFC 3986) *)

(** unreserved = ALPHA / DIGIT / "-" / "." / "_" / "~" *)
Definition url_unreserved (c : ascii) : Prop :=
  let n := N_of_ascii c in
  (65 <= n <= 90)%N \/ (97 <= n <= 122)%N \/ (48 <= n <= 57)%N \/
  c = "-"%char \/ c = "."%char \/ c = "_"%char \/ c = "~"%char.

(** A string of unreserved characters and % HEXDIG HEXDIG triplets, together
    with the bytes it denotes. *)
Inductive url_denotes : string -> string -> Prop :=
| url_empty : url_denotes "" ""
| url_plain c s t : url_unreserved c -> url_denotes s t -> url_denotes (String c s) (String c t)
| url_triplet h l vh vl s t :
    json_hex_value h = Some vh -> json_hex_value l = Some vl -> url_denotes s t ->
    url_denotes (String "%" (String h (String l s))) (String (ascii_of_N (16 * vh + vl)) t).

(** The normal form of RFC 3986 (sections 2.1 and 6.2.2): a byte is written as
    a triplet, with upper-case digits, exactly when it is not unreserved. *)
Definition upper_hex_digit (c : ascii) : Prop :=
  (48 <= N_of_ascii c <= 57)%N \/ (65 <= N_of_ascii c <= 70)%N.
Inductive url_normal : string -> string -> Prop :=
| url_normal_empty : url_normal "" ""
| url_normal_plain c s t : url_unreserved c -> url_normal s t -> url_normal (String c s) (String c t)
| url_normal_triplet h l vh vl s t :
    upper_hex_digit h -> upper_hex_digit l -> json_hex_value h = Some vh -> json_hex_value l = Some vl ->
    ~ url_unreserved (ascii_of_N (16 * vh + vl)) -> url_normal s t ->
    url_normal (String "%" (String h (String l s))) (String (ascii_of_N (16 * vh + vl)) t).

(** ** ASCII case *)

Definition upper_letter (c : ascii) : Prop := (65 <= N_of_ascii c <= 90)%N.

(** The lower-case counterpart of a letter A-Z; other bytes are themselves. *)
Definition lower_of (c d : ascii) : Prop :=
  (upper_letter c /\ N_of_ascii d = N_of_ascii c + 32)%N \/ (~ upper_letter c /\ d = c).

(** [Q] relates the strings byte by byte (in particular their lengths are equal). *)
Inductive bytewise (Q : ascii -> ascii -> Prop) : string -> string -> Prop :=
| bytewise_nil : bytewise Q "" ""
| bytewise_cons c d s t : Q c d -> bytewise Q s t -> bytewise Q (String c s) (String d t).

(** ** String builder *)

(** The six escape sequences and the bytes they stand for. *)
Definition known_escapes : list (string * N) :=
  [("\t", 9%N); ("\n", 10%N); ("\r", 13%N); ("\'", 39%N); ("\""", 34%N); ("\\", 92%N)].

Fixpoint assoc {A : Type} (k : string) (l : list (string * A)) : option A :=
  match l with
  | [] => None
  | (k', v) :: l' => if k =? k' then Some v else assoc k l'
  end.

Definition escape_meaning (e : string) : string :=
  match assoc e known_escapes with
  | Some n => String (ascii_of_N n) ""
  | None => e
  end.

(** ** Versions *)

(** Component [i] of a version, 0 beyond its end. *)
Definition component (v : list Z) (i : nat) : Z := nth i v 0%Z.

(** Lexicographic order of zero-padded versions. *)
Definition version_before (l r : list Z) : Prop :=
  exists k, (forall i, i < k -> component l i = component r i)%nat /\
            (component l k < component r k)%Z.
Definition version_same (l r : list Z) : Prop := forall i, component l i = component r i.

(** ** Lists *)

(** First [Some] of a list. *)
Fixpoint first_some {A : Type} (l : list (option A)) : option A :=
  match l with
  | [] => None
  | Some a :: _ => Some a
  | None :: l' => first_some l'
  end.
