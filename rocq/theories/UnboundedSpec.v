(** Specification for C71: docstrings that list unbounded variables. *)
From Verif Require Import Base Settings DocstringSpec.
From Coq Require Import Strings.String Strings.Ascii.
Local Open Scope list_scope.
Open Scope nat_scope.

(** The header of a list *)
Definition header (up : bool) : text := if up then chars "Upper Unbounded" else chars "Lower Unbounded".

(** An element of a list: an attribute, [wing.S], or one with a condition on another, [x (if fixed)], [x (if not fixed)]. Before the condition, there may be more
    spaces. *)
Record item := Item { i_path : list text; i_if : option (nat * bool * text) }.
Definition spaces (n : nat) : text := repeat " "%char n.
Definition item_text (i : item) : text :=
  join (chars ".") (i_path i) ++
  match i_if i with
  | None => []
  | Some (gap, negated, c) => spaces gap ++ chars " (if " ++ (if negated then chars "not " else []) ++ c ++ chars ")"
  end.
Definition item_ok (i : item) : Prop :=
  i_path i <> [] /\ Forall identifier (i_path i) /\ match i_if i with Some (_, _, c) => identifier c | None => True end.

(** A line: elements, with the spaces before each (besides the one after a comma) *)
Record line := Line { l_indent : nat; l_first : item; l_rest : list (nat * item) }.
Definition line_text (l : line) : text :=
  spaces (l_indent l) ++ item_text (l_first l) ++ flat_map (fun gi => chars ", " ++ spaces (fst gi) ++ item_text (snd gi)) (l_rest l).
Definition line_items (l : line) : list item := l_first l :: map snd (l_rest l).
Definition items (ls : list line) : list item := flat_map line_items ls.

(** A docstring lists these lines under a header: the header, at the end of a line, is found once in it, and after it come one more line and then these lines, up to
    an empty line. In the last part of a docstring, that is without empty lines, there is one line only. *)
Definition lists (doc : text) (up : bool) (ls : list line) : Prop :=
  exists pre under post, doc = pre ++ header up ++ [newline] ++ under ++ [newline] ++ lines_text (map line_text ls) ++ [newline] ++ post /\
  ~ contains (header up ++ [newline]) pre /\ ~ contains (header up ++ [newline]) (under ++ [newline] ++ lines_text (map line_text ls) ++ [newline] ++ post) /\
  ~ In newline under /\ ls <> [] /\ Forall item_ok (items ls) /\
  ((exists post', post = newline :: post') \/ (List.length ls = 1 /\ ~ contains [newline; newline] (newline :: post))).
(** Or it has no such header. *)
Definition says (doc : text) (up : bool) (ls : list line) : Prop :=
  lists doc up ls \/ (ls = [] /\ ~ contains (header up ++ [newline]) doc).

(** What the elements mean, for an object with attributes *)
Section Objects.
Context {obj : Type} (getattr : obj -> text -> option obj) (truth : obj -> res bool) (keys_of : obj -> res (list nat)).
Inductive leads : obj -> list text -> option obj -> Prop :=
| leads_here o : leads o [] (Some o)
| leads_on o n o' ns r : getattr o n = Some o' -> leads o' ns r -> leads o (n :: ns) r
| leads_nowhere o n ns : getattr o n = None -> leads o (n :: ns) None.
(** Whether the element counts; the attribute of the condition may be missing, or have no truth value. *)
Definition counts (inst : obj) (i : item) : res bool :=
  match i_if i with
  | None => Ok true
  | Some (_, negated, c) => match getattr inst c with Some o => rmap (fun t => if negated then negb t else t) (truth o) | None => Err AttributeErrorE end
  end.
(** The variables an element stands for *)
Inductive stands_for (inst : obj) (i : item) : res (list nat) -> Prop :=
| sf_no : counts inst i = Ok false -> stands_for inst i (Ok [])
| sf_error e : counts inst i = Err e -> stands_for inst i (Err e)
| sf_missing : counts inst i = Ok true -> leads inst (i_path i) None -> stands_for inst i (Err AttributeErrorE)
| sf_found o : counts inst i = Ok true -> leads inst (i_path i) (Some o) -> stands_for inst i (keys_of o).
(** The variables that elements stand for, or the first error *)
Inductive all_stand (inst : obj) : list item -> res (list nat) -> Prop :=
| as_nil : all_stand inst [] (Ok [])
| as_error i l e : stands_for inst i (Err e) -> all_stand inst (i :: l) (Err e)
| as_cons i l ks r : stands_for inst i (Ok ks) -> all_stand inst l r -> all_stand inst (i :: l) (rmap (app ks) r).
End Objects.
