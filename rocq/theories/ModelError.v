(** Model of src/annotations.cpp, src/error.cpp, include/libqasm/result.hpp and
    src/v3x/{analysis_result,parse_result}.cpp. *)
From Verif Require Import Base ModelUtils.
Local Open Scope string_scope.

(** ** Source locations *)

(** include/libqasm/annotations.hpp:23-29: Index, ordered lexicographically. *)
Record index := mkIndex { line : N; column : N }.

(** operator< of Index (defaulted <=>). *)
Definition index_ltb (a b : index) : bool :=
  ((line a <? line b) || ((line a =? line b) && (column a <? column b)))%N.

(** std::max<Index>(a, b) and std::min<Index>(a, b). *)
Definition index_max (a b : index) : index := if index_ltb a b then b else a.
Definition index_min (a b : index) : index := if index_ltb b a then b else a.

(** include/libqasm/annotations.hpp:35-48 *)
Record range := mkRawRange { first : index; last : index }.

(** src/annotations.cpp:14-18 Range::Range *)
Definition mk_range (f l : index) : range := mkRawRange f (index_max l f).

(** include/libqasm/annotations.hpp:18-58 *)
Record source_location := mkRawLocation { file_name : option string; loc_range : range }.

(** src/annotations.cpp:23-29 SourceLocation::SourceLocation: an empty file name
    counts as unknown. *)
Definition normalize_file_name (f : option string) : option string :=
  match f with Some "" => None | _ => f end.
Definition mk_location (f : option string) (r : range) : source_location :=
  mkRawLocation (normalize_file_name f) r.

(** src/annotations.cpp:34-37 expand_to_include *)
Definition expand_to_include (l : source_location) (i : index) : source_location :=
  mkRawLocation (file_name l)
    (mkRawRange (index_min (first (loc_range l)) i) (index_max (last (loc_range l)) i)).

(** include/libqasm/annotations_constants.hpp:5 *)
Definition unknown_file_name : string := "<unknown file name>".

(** src/annotations.cpp:42-77, everything after the file name *)
Definition range_to_string (r : range) : string :=
  let f := first r in let l := last r in
  if (line f =? 0)%N then ""
  else ":" ++ dec_N (line f) ++
       if (column f =? 0)%N then (if (line f <? line l)%N then ".." ++ dec_N (line l) else "")
       else ":" ++ dec_N (column f) ++
            if (line l =? line f)%N
            then (if (column f <? column l)%N then ".." ++ dec_N (column l) else "")
            else if (line f <? line l)%N then ".." ++ dec_N (line l) ++ ":" ++ dec_N (column l)
            else "".

(** src/annotations.cpp:42-77 operator<< *)
Definition location_to_string (l : source_location) : string :=
  match file_name l with Some f => f | None => unknown_file_name end ++ range_to_string (loc_range l).

(** ** Errors *)

(** include/libqasm/error.hpp:28 *)
Definition unknown_error_message : string := "<unknown error message>".

(** include/libqasm/error.hpp:33-50: message_ and location_. The cached
    what_message_ is recomputed by every what() call and is not modelled. *)
Record error := mkRawError { message : string; location : option source_location }.

Definition non_empty_message (m : string) : string := if m =? "" then unknown_error_message else m.

(** src/error.cpp:47-53 Error::context; [node] is the node's location annotation. *)
Definition error_context (node : option source_location) (e : error) : error :=
  match location e with
  | Some _ => e
  | None => mkRawError (message e) node
  end.

(** src/error.cpp:17-23 Error(message, node) with a null or annotated node *)
Definition mk_error_at (m : string) (node : option source_location) : error :=
  error_context node (mkRawError (non_empty_message m) None).
Definition mk_error (m : string) : error := mk_error_at m None.

(** src/error.cpp:36-40 Error(message, file_name, range) *)
Definition mk_error_range (m : string) (f : option string) (r : range) : error :=
  mkRawError (non_empty_message m) (Some (mk_location f r)).

(** src/error.cpp:58-63 Error::what, as the std::string what_message_ ... *)
Definition what_message (e : error) : string :=
  "Error" ++ (match location e with Some l => " at " ++ location_to_string l | None => "" end)
          ++ ": " ++ non_empty_message (message e).
(** ... and as seen by callers through the returned const char*. *)
Definition what (e : error) : string := c_str (what_message e).

(** src/error.cpp:103-108: a JSON position *)
Definition json_position (l c : N) : string :=
  "{""line"":" ++ dec_N l ++ ",""character"":" ++ dec_N c ++ "}".

(** src/error.cpp:79-99: the relatedInformation member *)
Definition related_information (signed : bool) (e : error) : string :=
  match location e with
  | Some l =>
      match file_name l with
      | Some f =>
          ",""relatedInformation"":[{""location"":{""uri"":""file:///" ++ url_encode f ++
          """,""range"":{""start"":{""line"":0,""character"":0},""end"":{""line"":0,""character"":0}}}" ++
          ",""message"":""" ++ json_encode signed unknown_error_message ++ """}]"
      | None => ""
      end
  | None => ""
  end.

(** src/error.cpp:78-122 Error::to_json *)
Definition error_to_json (signed : bool) (e : error) : string :=
  let '(l0, c0, l1, c1) :=
    match location e with
    | Some l => let r := loc_range l in
                (line (first r), column (first r), line (last r), column (last r))
    | None => (0, 0, 0, 0)%N
    end in
  "{""range"":{""start"":" ++ json_position l0 c0 ++ ",""end"":" ++ json_position l1 c1 ++ "}" ++
  ",""message"":""" ++ json_encode signed (message e) ++ """" ++
  ",""severity"":1" ++ related_information signed e ++ "}".

(** ** Results *)

(** ParseResult and AnalysisResult: a root (possibly empty) and errors.
    include/libqasm/v3x/{parse_result,analysis_result}.hpp *)
Record result (R : Type) := mkResult { res_root : option R; res_errors : list error }.
Arguments mkResult {R} _ _. Arguments res_root {R} _. Arguments res_errors {R} _.

(** include/libqasm/result.hpp:22-34 to_strings; [ser] is tree-gen's CBOR
    serialisation of the root (generated code, not modelled). *)
Definition to_strings {R : Type} (ser : option R -> string) (r : result R) : list string :=
  match res_errors r with
  | [] => [ser (res_root r)]
  | es => "" :: map what es
  end.

(** include/libqasm/result.hpp:36-40 errors_to_json *)
Definition errors_to_json (signed : bool) (es : list error) : string :=
  "{""errors"":[" ++ join "," (map (error_to_json signed) es) ++ "]}".

(** include/libqasm/result.hpp:42-55 root_to_json, to_json; [dump] is tree-gen's
    dump_json. Dereferencing an empty tree-gen One throws. *)
Definition to_json {R : Type} (dump : R -> string) (signed : bool) (r : result R) : outcome error string :=
  match res_errors r with
  | [] => match res_root r with Some x => Ok (dump x) | None => Throw "tree-gen: dereferencing empty node" end
  | es => Ok (errors_to_json signed es)
  end.

(** src/v3x/analysis_result.cpp:14-20 AnalysisResult::unwrap: what is written to
    the stream, and the outcome. AnalysisFailed derives from std::runtime_error. *)
Definition unwrap {R : Type} (r : result R) : string * outcome error (option R) :=
  match res_errors r with
  | [] => ("", Ok (res_root r))
  | es => (join (String (ascii_of_nat 10) "") (map what es), Throw "AnalysisFailed")
  end.
