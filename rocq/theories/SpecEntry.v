(** Independent specification of what the entry points do with a text (C95): a text is
    accepted, rejected, not a text of the language, or has no result. *)
From Verif Require Import Base ModelError ModelFunctions ModelAst ModelAnalyzer ModelSemantic SpecReading SpecTree SpecEvaluate SpecMeaning SpecOutcome.
Local Open Scope string_scope.

(** What the text gives: a program, errors, or neither. *)
Definition text_accepted (lm : libm) (api : list Z) (file : option string) (s : string) (q : sem_program) : Prop :=
  exists p, text_means file s p /\ program_means lm api p q.
Definition text_rejected (lm : libm) (api : list Z) (file : option string) (s : string) (es : list error) : Prop :=
  exists p q, text_means file s p /\ program_gives lm api p q es /\ es <> [].
Definition not_a_text (file : option string) (s : string) : Prop := forall p, ~ text_means file s p.
Definition text_without_result (lm : libm) (api : list Z) (file : option string) (s : string) : Prop :=
  exists p, text_means file s p /\ forall q es, ~ program_gives lm api p q es.
