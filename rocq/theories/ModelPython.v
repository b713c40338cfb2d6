(** Model of the passage of texts between Python and the library: what SWIG does
    with the arguments and results of the functions that python/libqasm.i exports,
    and the functions of python/module/cqasm/v3x/__init__.py on top of them. *)
From Verif Require Import Base ModelUtils ModelError ModelFunctions ModelAst ModelAnalyzer ModelLexer ModelSemantic ModelApi.
Local Open Scope string_scope.

(** A str of Python: its code points, surrogates among them perhaps. *)
Definition py_str : Type := list N.

(** The bytes of UTF-8 for the code point [n]. *)
Definition utf8_bytes (n : N) : list N :=
  (if n <? 128 then [n]
   else if n <? 2048 then [192 + n / 64; 128 + n mod 64]
   else if n <? 65536 then [224 + n / 4096; 128 + (n / 64) mod 64; 128 + n mod 64]
   else [240 + n / 262144; 128 + (n / 4096) mod 64; 128 + (n / 64) mod 64; 128 + n mod 64])%N.
Definition add_bytes (l : list N) (s : string) : string := fold_right (fun n t => String (ascii_of_N n) t) s l.
Definition is_surrogate (n : N) : bool := ((55296 <=? n) && (n <=? 57343))%N.

(** A std::string as str: python/libqasm.i:17-18, 25 (std_string.i, std_vector.i), whose
    SWIG_FromCharPtrAndSize calls PyUnicode_DecodeUTF8 with "surrogateescape": a
    byte [a] that belongs to no well-formed sequence becomes U+DC00 + a. CPython
    escapes the bytes of a truncated sequence in one go; since the bytes after its
    first cannot begin a sequence, doing so byte by byte gives the same. *)
Fixpoint of_utf8 (s : string) : py_str :=
  match s with
  | EmptyString => []
  | String a s1 =>
      let escape := (56320 + byte_val a)%N :: of_utf8 s1 in
      if in_range 0 127 a then byte_val a :: of_utf8 s1
      else match s1 with
      | EmptyString => escape
      | String b s2 =>
          if in_range 194 223 a && is_continuation b
          then ((byte_val a - 192) * 64 + (byte_val b - 128))%N :: of_utf8 s2
          else match s2 with
          | EmptyString => escape
          | String c s3 =>
              if in_range 224 239 a && is_continuation b && is_continuation c
                 && (if in_range 224 224 a then in_range 160 191 b else if in_range 237 237 a then in_range 128 159 b else true)
              then ((byte_val a - 224) * 4096 + (byte_val b - 128) * 64 + (byte_val c - 128))%N :: of_utf8 s3
              else match s3 with
              | EmptyString => escape
              | String d s4 =>
                  if in_range 240 244 a && is_continuation b && is_continuation c && is_continuation d
                     && (if in_range 240 240 a then in_range 144 191 b else if in_range 244 244 a then in_range 128 143 b else true)
                  then ((byte_val a - 240) * 262144 + (byte_val b - 128) * 4096 + (byte_val c - 128) * 64 + (byte_val d - 128))%N :: of_utf8 s4
                  else escape
              end
          end
      end
  end.

(** str.encode(encoding='utf-8', errors="surrogateescape"): U+DC80 to U+DCFF become
    the bytes they stand for; another surrogate is an exception. *)
Fixpoint to_utf8 (t : py_str) : outcome error string :=
  match t with
  | [] => Ok ""
  | n :: t' =>
      let! s := to_utf8 t' in
      if ((56448 <=? n) && (n <=? 56575))%N then Ok (String (ascii_of_N (n - 56320)) s)
      else if is_surrogate n then Throw "UnicodeEncodeError: surrogates not allowed"
      else Ok (add_bytes (utf8_bytes n) s)
  end.

(** A str as argument of type std::string: python/libqasm.i:17 (std_string.i), whose
    SWIG_AsCharPtrAndSize calls PyUnicode_AsUTF8String: a str with a surrogate is
    not accepted. *)
Fixpoint py_argument (t : py_str) : outcome error string :=
  match t with
  | [] => Ok ""
  | n :: t' =>
      if is_surrogate n then Throw "TypeError: argument of type 'std::string const &'"
      else let! s := py_argument t' in Ok (add_bytes (utf8_bytes n) s)
  end.

Section Functions.
  Context {R : Type}.
  (** The deserialisation that tree-gen generates, a parameter *)
  Variable read_tree : string -> R.
  Variable rtl : bool.

  (** python/module/cqasm/v3x/__init__.py:57-65, 75-81, 90-96, 104-110 *)
  Definition py_return (ret : list py_str) : outcome error (R + list py_str) :=
    match ret with
    | [t] => let! b := to_utf8 t in Ok (inl (read_tree b))
    | _ => Ok (inr (tl ret))
    end.
  (** python/module/cqasm/v3x/__init__.py:72-81 Analyzer.parse_string *)
  Definition python_parse_string (write_tree : option program -> string) (data file_name : py_str) : outcome error (R + list py_str) :=
    let! d := py_argument data in
    let! f := py_argument file_name in
    let! ret := v3x_parse_string rtl write_tree d f in
    py_return (map of_utf8 ret).
  (** python/module/cqasm/v3x/__init__.py:6 Analyzer(max_version), 102-110 analyze_string *)
  Definition python_analyze_string (lm : libm) (write_tree : option sem_program -> string) (max_version data file_name : py_str) : outcome error (R + list py_str) :=
    let! v := py_argument max_version in
    let! st := v3x_analyzer lm v false in
    let! d := py_argument data in
    let! f := py_argument file_name in
    let! x := v3x_analyze_string_ rtl write_tree st d f in
    py_return (map of_utf8 (snd x)).
End Functions.
