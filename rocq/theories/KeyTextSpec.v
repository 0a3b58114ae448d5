(** What a variable's text is to show, and which names are names of variables and of classes. *)
From Coq Require Import Strings.String Strings.Ascii.
From Verif Require Import Base Globals VarKeyProofs KeyText.
Local Open Scope list_scope.

(** The name of a class: it is not empty, neither starts nor ends with a digit, and has no brace or dot. *)
Definition class_name (s : string) : Prop :=
  (exists c r, chars s = c :: r /\ ~ is_digit c) /\ (exists r c, chars s = r ++ [c] /\ ~ is_digit c) /\ free "{" s /\ free "." s.

(** A lineage without the numbers of its models, or with *)
Definition renum (modelnums : bool) (l : list (string * nat)) : list (string * nat) := map (fun p => (fst p, if modelnums then snd p else 0)) l.

(** Models are named by their classes. *)
Definition classes (l : list (string * nat)) : Prop := Forall (fun p => class_name (fst p)) l.

(** What is not excluded of a variable *)
Definition shown_lineage (ex : excl) (v : vinfo) : list (string * nat) :=
  if no_lineage ex then [] else if no_unnecessary ex && negb (vi_necessary v) then [] else renum (negb (no_modelnums ex)) (vi_lineage v).
Definition shown_idx (ex : excl) (v : vinfo) : list nat := if no_idx ex then [] else vi_idx v.
Definition shown_vec (ex : excl) (v : vinfo) : bool := negb (no_vec ex) && negb (no_idx ex) && vi_shape v.

(** A name that is not itself such LaTeX: it starts with neither a brace nor an arrow *)
Definition latex_name (s : string) : Prop := (forall r, chars s <> "{"%char :: r) /\ (forall r, chars s <> chars "\vec{" ++ r).

(** A name that is not itself such text: it has no dot and no bracket *)
Definition str_name (s : string) : Prop := free "." s /\ free "[" s.
