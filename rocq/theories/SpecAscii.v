(** Independent specification of C101: messages in plain characters, and what the JSON
    of an error says. *)
From Verif Require Import Base ModelError SpecUtils SpecError.
Local Open Scope string_scope.

(** Blanks, letters, digits and signs of ASCII: no control characters, nothing else. *)
Definition printable_char (c : ascii) : Prop := (32 <= N_of_ascii c <= 126)%N.
Definition printable (s : string) : Prop := all_bytes printable_char s.

(** The diagnostic [d] tells the range and the message of the error [e], and the URI of
    its file if it has one. *)
Definition tells (e : error) (d : json) : Prop :=
  exists uri, d = lsp_diagnostic (match location e with Some l => loc_range l | None => null_range end) (message e) uri /\
    match location e with
    | Some (mkRawLocation (Some f) _) => exists path, uri = Some ("file:///" ++ path) /\ url_denotes path f
    | _ => uri = None
    end.
