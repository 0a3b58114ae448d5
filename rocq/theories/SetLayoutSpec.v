(** How a person reads a printed set of constraints, and what they should find. *)
From Coq Require Import NArith Ascii String.
From Verif Require Import Base ConTable SetLayout.
Open Scope nat_scope.
Local Open Scope list_scope.

(** ** Reading *)

(** A line: how far it is indented, and what it says; nothing for a blank one *)
Definition read_line (l : text) : option (nat * text) :=
  match rstrip (lstrip l) with
  | [] => None
  | t => Some (length l - length (lstrip l), t)
  end.
(** Headings that a line indented by [i] is below: those that are indented less *)
Fixpoint above (i : nat) (headings : list (nat * text)) : list (nat * text) :=
  match headings with
  | (j, h) :: hs => if j <? i then headings else above i hs
  | [] => []
  end.
(** A line is a heading if the next one is indented more. *)
Definition is_heading (i : nat) (next : list (nat * text)) : bool := match next with (j, _) :: _ => i <? j | [] => false end.
(** Lines that are no headings, each with the headings it is below, outermost first *)
Fixpoint read_block (headings ls : list (nat * text)) : list (list text * text) :=
  match ls with
  | [] => []
  | (i, t) :: ls' =>
      let hs := above i headings in
      if is_heading i ls' then read_block ((i, t) :: hs) ls' else (rev (map snd hs), t) :: read_block hs ls'
  end.
(** What comes after the heading "Constraints" *)
Fixpoint constraints_part (ls : list text) : list text :=
  match ls with
  | a :: ((b :: ls'') as ls') => if bool_decide (a = chars "Constraints" /\ b = chars "-----------") then ls'' else constraints_part ls'
  | _ => []
  end.
(** Reading a printed model, or a set that is not one *)
Definition read (is_model : bool) (s : text) : list (list text * text) :=
  let ls := split_lines s in
  read_block [] (omap read_line (if is_model then constraints_part ls else ls)).

(** ** What is there *)

(** The text of each constraint, in order, with the names of the models and the groups it is in, outermost first. [names]: names of groups count.
    The name of a group that is a model is that of the model. A model that has no constraints has "(no constraints)". *)
Definition label (names : bool) (k : option text) (c : cset) : list text :=
  match heading c, k with
  | Some name, _ => [name]
  | None, Some key => if names then [[34%N] ++ key ++ [34; 58]%N] else []
  | None, None => []
  end.
Definition under (names : list text) (l : list (list text * text)) : list (list text * text) := map (fun x => (names ++ fst x, snd x)) l.
Definition or_none (c : cset) (l : list (list text * text)) : list (list text * text) :=
  match heading c, l with Some _, [] => [([], chars "(no constraints)")] | _, _ => l end.
Fixpoint contents (names : bool) (c : cset) : list (list text * text) :=
  match c with
  | Con s => [([], s)]
  | Itself => [([], chars "(constraint contained itself)")]
  | Lst els | CSet _ els => flat_map (fun kc => under (label names (fst kc) (snd kc)) (or_none (snd kc) (contents names (snd kc)))) els
  end.

(** ** What can be read *)

(** Texts of one line that do not start or end with spaces *)
Definition plain (s : text) : Prop :=
  ~ In newline s /\ (exists c s', s = c :: s' /\ is_space c = false) /\ (exists s' c, s = s' ++ [c] /\ is_space c = false).
(** Texts and names are plain, and groups with a name that is printed are not empty. *)
Inductive readable (names : bool) : cset -> Prop :=
  | r_con s : plain s -> readable names (Con s)
  | r_itself : readable names Itself
  | r_lst els : (forall k c, In (k, c) els -> element names k c) -> readable names (Lst els)
  | r_cset lineage els : (forall name num, In (name, num) lineage -> plain name) -> (forall k c, In (k, c) els -> element names k c) -> readable names (CSet lineage els)
with element (names : bool) : option text -> cset -> Prop :=
  | el_intro k c : readable names c ->
      (forall key, k = Some key -> names = true -> heading c = None -> ~ In newline key /\ contents names c <> []) -> element names k c.
