(** Lemmas about the order of evaluation (C70). *)
From Verif Require Import Base ModelUtils ModelVersion ModelError ModelTypes ModelFunctions ModelAst ModelLexer ModelParser ModelAnalyzer ModelSemantic ModelSyntactic SpecLexer SpecParser SpecSyntax SpecReading
  ProofsLexer3 ProofsParser ProofsParser2 ProofsSyntax ProofsSyntax2 ProofsReading ProofsPipeline.
Local Open Scope string_scope.

(** At most one literal of the text is out of range. *)
Definition one_out_of_range (ts : list token) : Prop :=
  forall t k lit col t' k' lit' col', In t ts -> In t' ts -> literal_in t k lit col -> literal_in t' k' lit' col' ->
    ~ literal_in_range k lit -> ~ literal_in_range k' lit' -> t = t' /\ k = k' /\ lit = lit' /\ col = col'.
Lemma same_parse file data s : text_of data s -> utf8 s -> (forall ts, tokens_of s ts -> sentence ts -> one_out_of_range ts) ->
  parse_string file true data = parse_string file false data.
Proof.
  intros T U O. destruct (program_or_error file true data s T U) as [(p & E)|(e & E)]; [rewrite E; symmetry; apply (parse_reads file _ data s p T U); now apply (parse_reads file true data s p T U)|].
  destruct (parse_outcome file true data s T U) as (r & Er & P). rewrite E in Er. injection Er as <-.
  inversion P as [|ts t k lit c To S Ht L N Eq|ts t m Sc NS F Eq].
  - destruct (out_of_range_reported file false data s ts T U To S) as (t' & k' & lit' & col' & Ht' & L' & N' & E'); [intros A; exact (N (A t k lit c Ht L))|].
    destruct (O ts To S t k lit c t' k' lit' col' Ht Ht' L L' N N') as (-> & -> & -> & ->). now rewrite E, E', Eq.
  - pose proof (text_of_unique _ _ _ (strip_bom_text data) T) as Es. unfold parse_string, scan. rewrite Es. destruct (valid_utf8 s); [|reflexivity]. cbn [negb].
    pose proof Sc as Sc'. apply scanned_tokenize in Sc'. destruct (tokenize_spec s) as (ls & rest & body & line & col & _ & _ & G & Et & _). rewrite Et in Sc' |- *. injection Sc' as <-.
    destruct (parse_program (body ++ [end_token rest line col])) as [c r|w|] eqn:Pp; [|reflexivity|reflexivity].
    apply parse_body in Pp; [|exact G|apply end_not_plain]. destruct Pp as (_ & _ & Tp & _). destruct NS. now exists c.
Qed.
