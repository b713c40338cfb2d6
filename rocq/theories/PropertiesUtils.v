(** Properties C01-C13: string utilities, versions, locations, errors, results.
    Every theorem is followed by a case that meets its hypotheses and by the
    axioms it rests on. *)
From Verif Require Import Base ModelUtils ModelVersion ModelError SpecUtils SpecError
  ProofsUtils ProofsVersion ProofsError.
From Coq Require Import Permutation.
Local Open Scope string_scope.

(** C01: on ASCII input the encoded text between quotes is one JSON string that
    denotes the input, whatever the signedness of char. *)
Theorem C01_json_encode_round_trip : forall (signed : bool) (s : string),
  ascii_text s -> reads_as_json ("""" ++ json_encode signed s ++ """") (JStr s).
Proof. intros signed s H. exact (json_string_reads signed s (or_intror H)). Qed.
Theorem C01_json_reading_unique : forall (s : string) (v w : json),
  reads_as_json s v -> reads_as_json s w -> v = w.
Proof. exact reads_as_json_unique. Qed.
Example C01_case : ascii_text ("say ""hi"" \ " ++ String (ascii_of_nat 10) "").
Proof. cbn. unfold byte_below. cbn. repeat split; lia. Qed.
Example C01_value : json_encode true ("a""" ++ String (ascii_of_nat 10) "") = "a\u0022\u000A".
Proof. reflexivity. Qed.
Print Assumptions C01_json_encode_round_trip.
Print Assumptions C01_json_reading_unique.

(** C02, refuted where char is signed: the UTF-8 text "e acute" (C3 A9) is not
    encoded to a JSON string. *)
Theorem C02_json_encode_legal_refuted : exists s : string,
  ~ exists v, reads_as_json ("""" ++ json_encode true s ++ """") v.
Proof.
  exists (String (ascii_of_nat 195) (String (ascii_of_nat 169) "")).
  rewrite json_encode_legal_iff. intros [H|H]; [discriminate|]. cbn in H. unfold byte_below in H. cbn in H. lia.
Qed.
(** What holds: the encoded text is a JSON string exactly when char is unsigned
    or the input is ASCII, and then it denotes the input. *)
Theorem C02_json_encode_legal_iff : forall (signed : bool) (s : string),
  (exists v, reads_as_json ("""" ++ json_encode signed s ++ """") v) <-> (signed = false \/ ascii_text s).
Proof. exact json_encode_legal_iff. Qed.
Theorem C02_json_encode_unsigned : forall s : string,
  reads_as_json ("""" ++ json_encode false s ++ """") (JStr s).
Proof. intros s. exact (json_string_reads false s (or_introl eq_refl)). Qed.
Example C02_case : json_encode true (String (ascii_of_nat 233) "") = "\u-017".
Proof. reflexivity. Qed.
Print Assumptions C02_json_encode_legal_refuted.
Print Assumptions C02_json_encode_legal_iff.
Print Assumptions C02_json_encode_unsigned.

(** C03: the output of url_encode consists of unreserved characters and %XX
    triplets, and denotes the input; hence it is injective. *)
Theorem C03_url_encode_denotes : forall s : string, url_denotes (url_encode s) s.
Proof. exact url_encode_denotes. Qed.
Theorem C03_url_encode_normal : forall s : string, url_normal (url_encode s) s.
Proof. exact url_encode_normal. Qed.
Theorem C03_url_decode_functional : forall s t u : string, url_denotes s t -> url_denotes s u -> t = u.
Proof. exact url_denotes_functional. Qed.
Theorem C03_url_encode_injective : forall s t : string, url_encode s = url_encode t -> s = t.
Proof. exact url_encode_inj. Qed.
Example C03_case : url_encode ("a~b/" ++ String (ascii_of_nat 255) " ") = "a~b%2F%FF%20".
Proof. reflexivity. Qed.
Print Assumptions C03_url_encode_denotes.
Print Assumptions C03_url_encode_normal.
Print Assumptions C03_url_decode_functional.
Print Assumptions C03_url_encode_injective.

(** C04 *)
Theorem C04_equal_case_insensitive_iff : forall a b : string,
  equal_case_insensitive a b = true <-> to_lowercase a = to_lowercase b.
Proof. exact equal_case_insensitive_iff. Qed.
Theorem C04_equivalence :
  (forall a, equal_case_insensitive a a = true) /\
  (forall a b, equal_case_insensitive a b = true -> equal_case_insensitive b a = true) /\
  (forall a b c, equal_case_insensitive a b = true -> equal_case_insensitive b c = true ->
                 equal_case_insensitive a c = true).
Proof.
  repeat split; intros *; rewrite ?equal_case_insensitive_iff; congruence.
Qed.
Theorem C04_to_lowercase_spec : forall s : string, bytewise lower_of s (to_lowercase s).
Proof. exact to_lowercase_spec. Qed.
Theorem C04_to_lowercase_idempotent : forall s : string,
  to_lowercase (to_lowercase s) = to_lowercase s /\ String.length (to_lowercase s) = String.length s.
Proof. intros s. exact (conj (to_lowercase_idempotent s) (to_lowercase_length s)). Qed.
Example C04_case : equal_case_insensitive "cQASM_[@Z" "CqAsM_[@z" = true /\ equal_case_insensitive "[" "{" = false.
Proof. split; reflexivity. Qed.
Print Assumptions C04_equal_case_insensitive_iff.
Print Assumptions C04_equivalence.
Print Assumptions C04_to_lowercase_spec.
Print Assumptions C04_to_lowercase_idempotent.

(** C05 (first half; the second is in PropertiesSyntactic) *)
Theorem C05_remove_triple_quotes : forall (E : Type) (t : string),
  @remove_triple_quotes E ("'''" ++ t ++ "'''") = Ok t.
Proof. exact @remove_triple_quotes_wrapped. Qed.
Example C05_case : @remove_triple_quotes error "'''a ' ''b'''" = Ok "a ' ''b".
Proof. reflexivity. Qed.
Print Assumptions C05_remove_triple_quotes.

(** C06 *)
Theorem C06_string_builder : forall calls : list sb_call,
  sb_run calls = String.concat "" (map (fun c => match c with
                                                 | PushString s => s
                                                 | PushEscape e => escape_meaning e
                                                 end) calls).
Proof. exact sb_run_spec. Qed.
Example C06_case : sb_run [PushString "a"; PushEscape "\t"; PushEscape "\q"; PushString "b"; PushEscape "\\"] =
  "a" ++ String (ascii_of_nat 9) "\qb\".
Proof. reflexivity. Qed.
Print Assumptions C06_string_builder.

(** C07 *)
Theorem C07_compare_lexicographic : forall l r : version,
  (version_compare l r = 0%Z <-> version_same l r) /\
  (version_compare l r = (-1)%Z <-> version_before l r) /\
  (version_compare l r = 1%Z <-> version_before r l).
Proof. intros l r. exact (conj (version_compare_eq l r) (conj (version_compare_lt l r) (version_compare_gt l r))). Qed.
Theorem C07_operators : forall l r : version,
  (version_eqb l r = true <-> version_same l r) /\
  (version_ltb l r = true <-> version_before l r) /\
  (version_leb l r = true <-> version_before l r \/ version_same l r).
Proof. intros l r. exact (conj (version_eqb_iff l r) (conj (version_ltb_iff l r) (version_leb_iff l r))). Qed.
Theorem C07_total_order :
  (forall v, version_leb v v = true) /\
  (forall a b, version_leb a b = true -> version_leb b a = true -> version_same a b) /\
  (forall a b c, version_leb a b = true -> version_leb b c = true -> version_leb a c = true) /\
  (forall a b, version_leb a b = true \/ version_leb b a = true).
Proof. exact (conj version_leb_refl (conj version_leb_antisym (conj version_leb_trans version_leb_total))). Qed.
Example C07_case : version_compare [3; 0]%Z [3]%Z = 0%Z /\ version_compare [3]%Z [3; 0; 1]%Z = (-1)%Z /\
  version_compare [10]%Z [9; 9]%Z = 1%Z.
Proof. repeat split. Qed.
Print Assumptions C07_compare_lexicographic.
Print Assumptions C07_operators.
Print Assumptions C07_total_order.

(** C08 *)
Theorem C08_version_round_trip : forall (E : Type) (v : version),
  v <> [] -> Forall (fun c => 0 <= c <= 2 ^ 31 - 1)%Z v ->
  @version_of_string E (version_to_string v) = Ok v.
Proof. exact @version_round_trip. Qed.
Theorem C08_version_components : forall (E : Type) (s : string) (v : version),
  @version_of_string E s = Ok v -> Forall (fun c => 0 <= c <= 2 ^ 31 - 1)%Z v.
Proof. exact @version_of_string_range. Qed.
Example C08_case : [3; 0; 2147483647]%Z <> [] /\ Forall (fun c => 0 <= c <= 2 ^ 31 - 1)%Z [3; 0; 2147483647]%Z /\
  version_to_string [3; 0; 2147483647]%Z = "3.0.2147483647".
Proof. split; [discriminate|]. split; [repeat constructor; lia|reflexivity]. Qed.
Print Assumptions C08_version_round_trip.
Print Assumptions C08_version_components.

(** C09 *)
Theorem C09_range_ordered : forall f l : index,
  ordered (mk_range f l) /\ first (mk_range f l) = f /\ (at_or_before f l -> last (mk_range f l) = l).
Proof.
  intros f l. split; [exact (mk_range_ordered f l)|split; [reflexivity|]].
  intros H. now rewrite (mk_range_ends f l H).
Qed.
Theorem C09_expand_least : forall (l : source_location) (ps : list index),
  ordered (loc_range l) ->
  least_enclosing (loc_range (fold_left expand_to_include ps l)) (loc_range l) ps /\
  file_name (fold_left expand_to_include ps l) = file_name l.
Proof.
  intros l ps H. rewrite expand_many_range, expand_many_file. exact (conj (expand_many_least ps (loc_range l) H) eq_refl).
Qed.
Theorem C09_expand_order_irrelevant : forall (l : source_location) (ps qs : list index),
  ordered (loc_range l) -> Permutation ps qs ->
  fold_left expand_to_include ps l = fold_left expand_to_include qs l.
Proof. exact expand_order_irrelevant. Qed.
Example C09_case : ordered (mkRawRange (mkIndex 2 5) (mkIndex 2 9)) /\
  expand_to_include (mkRawLocation None (mkRawRange (mkIndex 2 5) (mkIndex 2 9))) (mkIndex 3 1) =
  mkRawLocation None (mkRawRange (mkIndex 2 5) (mkIndex 3 1)).
Proof. split; [unfold ordered, at_or_before; cbn; lia|reflexivity]. Qed.
Print Assumptions C09_range_ordered.
Print Assumptions C09_expand_least.
Print Assumptions C09_expand_order_irrelevant.

(** C10 *)
Theorem C10_location_text_determines_range : forall a b : source_location,
  file_name a = file_name b ->
  one_based (loc_range a) -> one_based (loc_range b) -> ordered (loc_range a) -> ordered (loc_range b) ->
  location_to_string a = location_to_string b -> loc_range a = loc_range b.
Proof. exact location_to_string_inj. Qed.
Example C10_case :
  let a := mkRawLocation (Some "f.cq") (mkRawRange (mkIndex 12 3) (mkIndex 12 30)) in
  one_based (loc_range a) /\ ordered (loc_range a) /\ location_to_string a = "f.cq:12:3..30".
Proof. cbn. unfold one_based, ordered, at_or_before. cbn. repeat split; lia. Qed.
Print Assumptions C10_location_text_determines_range.

(** C11 *)
Theorem C11_context_innermost_wins : forall (e : error) (nodes : list (option source_location)),
  let e' := fold_left (fun e node => error_context node e) nodes e in
  message e' = message e /\ location e' = first_some (location e :: nodes).
Proof. intros e nodes. cbv zeta. rewrite context_fold. exact (conj eq_refl eq_refl). Qed.
Theorem C11_message_never_empty : forall m,
  (forall node, message (mk_error_at m node) <> "") /\
  (forall f r, message (mk_error_range m f r) <> "") /\
  (m <> "" -> (forall node, message (mk_error_at m node) = m) /\ (forall f r, message (mk_error_range m f r) = m)).
Proof.
  intros m. split; [exact (mk_error_at_message m)|split; [exact (mk_error_range_message m)|]].
  intros H. assert (Hm : non_empty_message m = m).
  { unfold non_empty_message. now destruct (String.eqb_spec m ""). }
  split; intros; exact Hm.
Qed.
Theorem C11_what_never_empty : forall e : error, exists t, what e = "Error" ++ t.
Proof. exact what_prefix. Qed.
Example C11_case : let l := mkRawLocation None (mkRawRange (mkIndex 1 2) (mkIndex 1 3)) in
  location (fold_left (fun e n => error_context n e) [None; Some l; None] (mk_error "m")) = Some l.
Proof. reflexivity. Qed.
Print Assumptions C11_context_innermost_wins.
Print Assumptions C11_message_never_empty.
Print Assumptions C11_what_never_empty.

(** C12: the range, message and file of the error as an LSP diagnostic; the URI
    is file:/// followed by a percent-encoding of the file name. *)
Theorem C12_error_to_json : forall (signed : bool) (e : error),
  (signed = false \/ ascii_text (message e)) ->
  exists uri : option string,
    reads_as_json (error_to_json signed e)
      (lsp_diagnostic (match location e with Some l => loc_range l | None => null_range end) (message e) uri) /\
    match location e with
    | Some l => match file_name l with
                | Some f => exists path, uri = Some ("file:///" ++ path) /\ url_denotes path f
                | None => uri = None
                end
    | None => uri = None
    end.
Proof.
  intros signed e H. eexists. split; [exact (renders_reads _ _ (error_to_json_renders signed e H))|].
  unfold error_file. destruct (location e) as [[[f|] r]|]; cbn; [|reflexivity..].
  eexists. split; [reflexivity|]. apply url_encode_denotes.
Qed.
Theorem C12_errors_to_json : forall (signed : bool) (es : list error),
  es <> [] -> Forall (fun e => signed = false \/ ascii_text (message e)) es ->
  exists ds, reads_as_json (errors_to_json signed es) (JObj [("errors", JArr ds)]) /\
    Forall2 (fun e d => reads_as_json (error_to_json signed e) d) es ds.
Proof.
  intros signed es Hne H. eexists. split; [exact (errors_to_json_reads signed es Hne H)|].
  clear Hne. induction H; cbn; constructor; [now apply renders_reads, error_to_json_renders|assumption].
Qed.
Example C12_case :
  error_to_json true (mk_error_range "bad ""x""" (Some "a b.cq") (mk_range (mkIndex 1 2) (mkIndex 1 4))) =
  "{""range"":{""start"":{""line"":1,""character"":2},""end"":{""line"":1,""character"":4}},""message"":""bad \u0022x\u0022"",""severity"":1,""relatedInformation"":[{""location"":{""uri"":""file:///a%20b.cq"",""range"":{""start"":{""line"":0,""character"":0},""end"":{""line"":0,""character"":0}}},""message"":""<unknown error message>""}]}".
Proof. reflexivity. Qed.
Print Assumptions C12_error_to_json.
Print Assumptions C12_errors_to_json.

(** C13 *)
Theorem C13_to_strings : forall (R : Type) (ser : option R -> string) (r : result R),
  (res_errors r = [] -> to_strings ser r = [ser (res_root r)]) /\
  (res_errors r <> [] -> to_strings ser r = "" :: map what (res_errors r)) /\
  (List.length (to_strings ser r) = 1%nat <-> res_errors r = []).
Proof.
  intros R ser r.
  exact (conj (to_strings_no_errors ser r) (conj (to_strings_errors ser r) (to_strings_length ser r))).
Qed.
Theorem C13_to_json : forall (R : Type) (dump : R -> string) (signed : bool) (r : result R),
  (res_errors r = [] -> forall root, res_root r = Some root -> to_json dump signed r = Ok (dump root)) /\
  (res_errors r <> [] -> to_json dump signed r = Ok (errors_to_json signed (res_errors r))).
Proof.
  intros R dump signed r. unfold to_json. split; intros H; [|now destruct (res_errors r)].
  intros root Hr. now rewrite H, Hr.
Qed.
Theorem C13_unwrap : forall (R : Type) (r : result R),
  (res_errors r = [] -> snd (unwrap r) = Ok (res_root r)) /\
  (res_errors r <> [] ->
     (exists w, snd (unwrap r) = Throw w) /\
     fst (unwrap r) = String.concat (String (ascii_of_nat 10) "") (map what (res_errors r))).
Proof.
  intros R r. rewrite unwrap_spec. split; intros H; [now rewrite H|].
  destruct (res_errors r); [easy|]. split; [eexists|]; reflexivity.
Qed.
Example C13_case : to_strings (fun _ : option nat => "tree") (mkResult (Some 1) []) = ["tree"] /\
  to_strings (fun _ : option nat => "tree") (mkResult (Some 1) [mk_error "a"; mk_error ""]) =
  [""; "Error: a"; "Error: <unknown error message>"].
Proof. split; reflexivity. Qed.
Print Assumptions C13_to_strings.
Print Assumptions C13_to_json.
Print Assumptions C13_unwrap.
