(** Properties C48-C50: printed trees parse back. *)
From Coq Require Import SpecFloat.
From Flocq Require Import BinarySingleNaN.
From Verif Require Import Base ModelUtils ModelVersion ModelError ModelTypes ModelAst ModelLexer ModelParser ModelSyntactic
  SpecUtils SpecTypes SpecLexer SpecParser SpecSyntax SpecReading SpecRelocate SpecLayout SpecPrint
  ProofsUtils ProofsLexer2 ProofsUtf8 ProofsReading ProofsPrint2 ProofsPrint3 ProofsPrint4 ProofsPrint5 PropertiesSyntax.
Local Open Scope string_scope.

(** The text with an expression as the operand of an instruction, and its tree *)
Definition reset_text (ws : list lexeme) : string := "version 3.0 ; reset" ++ after_spaces ws.
Definition reset_tree (e : expr) : program := mkProgram [3; 0]%Z None [SNonGate None "reset" [relocate_expr erase e] [] []] None.

Lemma after_spaces_cons w ws : after_spaces (w :: ws) = (" " ++ lx_text w) ++ after_spaces ws.
Proof. unfold after_spaces. cbn [map]. destruct ws as [|x ws]; [|reflexivity]. cbn [map String.concat]. now rewrite append_nil_r. Qed.
Lemma reset_reads everywhere e file rtl : writable e ->
  exists p, parse_string file rtl (reset_text (print_expr everywhere 0 e)) = Ok (mkResult (Some p) []) /\ relocate_program erase p = reset_tree e.
Proof.
  intros W. destruct (printed_program everywhere file rtl (mkProgram [3; 0]%Z None [SNonGate None "reset" [e] [] []] None)) as (p & E & R).
  { constructor; [split; [easy|vm_compute; discriminate]..|]. constructor; [|constructor]. constructor; [cbn; auto|exact W]. }
  exists p. split; [|exact R]. rewrite <- E. f_equal. unfold reset_text, print_program, print_block. cbn [prog_statements prog_version flat_map print_statement print_params app]. rewrite app_nil_r, !after_spaces_cons. reflexivity.
Qed.

(** ** C48: an expression printed with parentheses around every operation is read
    back. *)
Theorem C48_full_parentheses : forall e file rtl, writable e ->
  exists p, parse_string file rtl (reset_text (print_expr true 0 e)) = Ok (mkResult (Some p) []) /\ relocate_program erase p = reset_tree e.
Proof. intros e file rtl. exact (reset_reads true e file rtl). Qed.

(** ** C49: and so it is when printed with parentheses only where the precedence
    table requires them. *)
Theorem C49_minimal_parentheses : forall e file rtl, writable e ->
  exists p, parse_string file rtl (reset_text (print_expr false 0 e)) = Ok (mkResult (Some p) []) /\ relocate_program erase p = reset_tree e.
Proof. intros e file rtl. exact (reset_reads false e file rtl). Qed.

(** These are as few as possible: any text with that tree has as many. *)
Theorem C49_no_fewer_parentheses : forall e file rtl data s p, text_of data s -> utf8 s ->
  parse_string file rtl data = Ok (mkResult (Some p) []) -> relocate_program erase p = reset_tree e ->
  exists ts, tokens_of s ts /\ (parentheses (map lx_kind (print_expr false 0 e)) <= parentheses (map tk_kind ts))%nat.
Proof. intros e file rtl data s p T U E R. apply (parse_reads file rtl data s p T U) in E. exact (fewest_parentheses file s p e _ _ U E R). Qed.

(** (1 + 2) * 3 - -2 ** 2 ** q[0 : f(a, 4503599627370497.)] *)
Definition sample : expr :=
  let n z := EInt None z in
  EBinary None BSub (EBinary None BMul (EBinary None BAdd (n 1%Z) (n 2%Z)) (n 3%Z))
    (EBinary None BPow (EUnary None UMinus (n 2%Z)) (EBinary None BPow (n 2%Z)
      (EIndex None (EIdent None "q") [IRange None (n 0%Z) (ECall None "f" (Some [EIdent None "a"; EFloat None (S754_finite false 4503599627370497 0)]))]))).
Lemma usable_case c s : letter c -> forallb (fun c => (is_letter c || is_digit c)%bool) (list_ascii_of_string s) = true -> existsb (String.eqb (String c s)) (map snd words) = false -> usable (String c s).
Proof.
  intros L A R. split.
  - apply form_identifier; [exact L|]. clear R. induction s as [|d s IH]; [exact I|]. cbn [list_ascii_of_string forallb] in A. apply andb_true_iff in A. destruct A as [A1 A2]. split; [|auto].
    apply orb_true_iff in A1. destruct A1 as [A1|A1]; [left; now apply is_letter_iff|right; now apply is_digit_iff].
  - intros H. assert (existsb (String.eqb (String c s)) (map snd words) = true); [|congruence]. apply existsb_exists. exists (String c s). split; [exact H|apply String.eqb_refl].
Qed.
Ltac usable := apply usable_case; [apply is_letter_iff; reflexivity|reflexivity|reflexivity].
Ltac number := split; [easy|vm_compute; discriminate].
Ltac written :=
  match goal with
  | |- writable (EInt _ _) => constructor; number
  | |- writable (EFloat _ _) => constructor; [split; vm_compute; reflexivity|reflexivity]
  | |- usable _ => usable
  | |- _ <> [] => discriminate
  | |- _ => first [assumption|constructor]
  end.
Lemma sample_writable : writable sample.
Proof. unfold sample. cbv zeta. repeat written. Qed.
Example C48_case : writable sample /\
  reset_text (print_expr true 0 sample) = "version 3.0 ; reset ( ( ( 1 + 2 ) * 3 ) - ( ( - 2 ) ** ( 2 ** q [ 0 : f ( a , 4503599627370497. ) ] ) ) )".
Proof. split; [exact sample_writable|vm_compute; reflexivity]. Qed.
Example C49_case : writable sample /\
  reset_text (print_expr false 0 sample) = "version 3.0 ; reset ( 1 + 2 ) * 3 - - 2 ** 2 ** q [ 0 : f ( a , 4503599627370497. ) ]" /\
  exists p, parse_string None false "version 3.0;reset ((1+2))*3- -2**2**q[0:f(a,4503599627370497.)]" = Ok (mkResult (Some p) []) /\ relocate_program erase p = reset_tree sample.
Proof. split; [exact sample_writable|]. split; [vm_compute; reflexivity|]. apply tree_case. vm_compute. reflexivity. Qed.
Print Assumptions C48_full_parentheses. Print Assumptions C49_minimal_parentheses. Print Assumptions C49_no_fewer_parentheses.

(** ** C50: every tree of a program is the tree of some text. *)

(** A tree whose names are identifiers, whose literals are literals and whose
    lists are those of the grammar is the tree of its print, in either style; *)
Theorem C50_every_program : forall everywhere p file rtl, writable_program p ->
  exists p', parse_string file rtl (print_program everywhere p) = Ok (mkResult (Some p') []) /\ relocate_program erase p' = relocate_program erase p.
Proof. intros everywhere p file rtl. exact (printed_program everywhere file rtl p). Qed.
(** and the trees of texts are of that form. *)
Theorem C50_parsed_writable : forall file rtl data s p, text_of data s -> utf8 s -> parse_string file rtl data = Ok (mkResult (Some p) []) -> writable_program p.
Proof. intros file rtl data s p T U E. apply (parse_reads file rtl data s p T U) in E. exact (parsed_writable file s p U E). Qed.

Definition sample_program : program :=
  mkProgram [3; 0]%Z None
    [SVariable None "q" (mkAstType None "qubit" (Some 5%Z)) [];
     SVariable None "b" (mkAstType None "bit" None) [];
     SGateInstr None (Gate None "inv" (Some (Gate None "pow" (Some (Gate None "Rx" None [EInt None 1%Z] [])) [sample] [])) [] []) [EIdent None "q"; sample] [];
     SGateInstr None (Gate None "H" None [] []) [EBinary None BSub (EBinary None BAdd (EInt None 1%Z) (EInt None 2%Z)) (EInt None 3%Z)] [];
     SGateInstr None (Gate None "H" None [] []) [EBinary None BAdd (ETernary None (EBool None true) (EInt None 1%Z) (EInt None 2%Z)) (EInt None 3%Z)] [];
     SNonGate None "measure" [EIdent None "b"; EIdent None "q"] [] [];
     SNonGate None "wait" [EIdent None "q"] [sample] [];
     SNonGate None "barrier" [EIdent None "q"] [] [];
     SAsm None "backend" " a ' b " []] None.
Example C50_case : writable_program sample_program /\
  print_program false sample_program =
    "version 3.0 ; qubit [ 5 ] q ; bit b ; inv . pow ( ( 1 + 2 ) * 3 - - 2 ** 2 ** q [ 0 : f ( a , 4503599627370497. ) ] ) . Rx ( 1 ) q , ( 1 + 2 ) * 3 - - 2 ** 2 ** q [ 0 : f ( a , 4503599627370497. ) ] ; H 1 + 2 - 3 ; H ( ( true ? 1 : 2 ) + 3 ) ; b = measure q ; wait ( ( 1 + 2 ) * 3 - - 2 ** 2 ** q [ 0 : f ( a , 4503599627370497. ) ] ) q ; barrier q ; asm ( backend ) ''' a ' b '''".
Proof.
  split; [|vm_compute; reflexivity]. pose proof sample_writable as W. unfold sample_program. generalize dependent sample. intros smp W.
  constructor; [number..|]. repeat (apply Forall_cons); [..|apply Forall_nil].
  - constructor; [usable|auto|]. intros z [= <-]. number.
  - constructor; [usable|auto|discriminate].
  - repeat written.
  - repeat written.
  - repeat written.
  - repeat written.
  - repeat written.
  - constructor; [cbn; auto|]. repeat written.
  - constructor; [usable| |utf8_case]. intros a b E. cbn in E.
    repeat (destruct a as [|? a]; cbn in E; [try discriminate E; (now injection E) || (injection E as E; try discriminate E; now rewrite <- E)|injection E as _ E]). destruct a; discriminate E.
Qed.
Print Assumptions C50_every_program. Print Assumptions C50_parsed_writable.
