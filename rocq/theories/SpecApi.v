(** Independent specification of what the entry points report (C68, C69). *)
From Verif Require Import Base ModelError ModelAst ModelAnalyzer SpecAnalyzer.
Local Open Scope string_scope.

(** The statements that need an instruction *)
Definition instruction_statement (s : statement) : bool :=
  match s with SGateInstr _ _ _ _ | SNonGate _ _ _ _ _ => true | SVariable _ _ _ _ | SAsm _ _ _ _ => false end.
Definition only_asm (l : list sem_statement) : Prop := Forall (fun x => match x with SemAsm _ _ _ _ => True | _ => False end) l.

(** One message per line *)
Fixpoint lines (l : list string) : string :=
  match l with
  | [] => ""
  | [s] => s
  | s :: l' => s ++ String (ascii_of_nat 10) (lines l')
  end.

(** The error is located in the file [path]. *)
Definition names_file (path : string) (e : error) : Prop := exists l, location e = Some l /\ file_name l = Some path.

(** The empty file name is no file name. *)
Definition named (file : string) : option string := match file with "" => None | _ => Some file end.
