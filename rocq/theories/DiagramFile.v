(** Model of the names of the files that sensitivity diagrams are saved in: [cleanfilename] (gpkit/interactive/sankey.py:28-30) and the end of
    [Sankey.diagram] (182-190). Simplification: the separator of paths is that of Unix. *)
From Coq Require Import Strings.String Strings.Ascii.
From Verif Require Import Base.
Local Open Scope string_scope.

Definition backslash : ascii := "092"%char.
Definition slash : ascii := "/"%char.
(** The second alternative of the pattern (30): quote, greater, less, colon and star in a row *)
Definition five (c1 c2 c3 c4 c5 : ascii) : bool :=
  Ascii.eqb c1 "034" && Ascii.eqb c2 ">" && Ascii.eqb c3 "<" && Ascii.eqb c4 ":" && Ascii.eqb c5 "*".
(** [cleanfilename] (28-30): a backslash with the slash after it, if any, or those five characters, is replaced by an underscore. *)
Fixpoint cleanfilename (s : string) : string :=
  match s with
  | "" => ""
  | String c s' =>
      if Ascii.eqb c backslash then String "_" (match s' with String d s'' => if Ascii.eqb d slash then cleanfilename s'' else cleanfilename s' | "" => "" end)
      else match s' with
           | String c2 (String c3 (String c4 (String c5 r))) => if five c c2 c3 c4 c5 then String "_" (cleanfilename r) else String c (cleanfilename s')
           | _ => String c (cleanfilename s')
           end
  end.
(** The file for a model of that label, and a variable of that text, if any (182-190) *)
Definition diagram_file (label : string) (variable : option string) (extension : string) : string :=
  "sankey_autosaves/" ++ cleanfilename (match variable with Some v => label ++ "_" ++ v | None => label end) ++ extension.
