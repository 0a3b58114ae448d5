(** Model of how constraint sets are printed: [recursively_line], [lines_without], [str_without] and [latex] of ConstraintSet
    (gpkit/constraints/set.py:212-287), the head of a model (gpkit/constraints/costed.py:34-51) and [lineagestr] (gpkit/repr_conventions.py:21-26). *)
From Coq Require Import NArith Ascii String Decimal DecimalString.
From Verif Require Import Base ConTable.
Open Scope nat_scope.
Local Open Scope list_scope.

(** Literals *)
Definition chars (s : string) : text := map N_of_ascii (list_ascii_of_string s).
Definition newline : N := 10%N.
(** [s.split("\n")] *)
Fixpoint split_lines (s : text) : list text :=
  match s with
  | [] => [[]]
  | c :: s' => if (c =? newline)%N then [] :: split_lines s'
               else match split_lines s' with l :: ls => (c :: l) :: ls | [] => [[c]] end
  end.
(** ["\n".join(lines)] *)
Fixpoint join_lines (ls : list text) : text :=
  match ls with
  | [] => []
  | [l] => l
  | l :: ls' => l ++ newline :: join_lines ls'
  end.
(** [str(num)] *)
Definition digits (n : nat) : text := chars (NilEmpty.string_of_uint (Nat.to_uint n)).

(** What constraint sets hold. [Con]: anything that is printed by [str_without] or [str] -- constraints, and arrays of constraints, whose
    [lines_without] (gpkit/constraints/array.py:19-21) splits the same text -- with this text. [Itself]: the list it is in. [Lst]: lists, tuples,
    arrays and dictionaries. [CSet]: a ConstraintSet with its lineage, () for None. Elements have a name if they came from a dictionary: keys of the
    dictionary itself (258-260), or [idxlookup] (261-262), formatted by [%s]. *)
Inductive cset :=
  | Con (s : text)
  | Itself
  | Lst (els : list (option text * cset))
  | CSet (lineage : list (text * nat)) (els : list (option text * cset)).

(** [name if not num else name + str(num)] (281) *)
Definition model_name (l : text * nat) : text := match snd l with O => fst l | S _ => fst l ++ digits (snd l) end.
(** The line above a set with a lineage (275-281) *)
Definition heading (c : cset) : option text :=
  match c with CSet lineage _ => option_map model_name (last lineage) | _ => None end.
(** [" " if getattr(self, "lineage", None) else ""] (226) *)
Definition lineage_indent (lineage : list (text * nat)) : text := match lineage with [] => [] | _ => [space] end.
(** [any(clines)] *)
Definition any_line (ls : list text) : bool := existsb (fun l => negb (bool_decide (l = []))) ls.
(** [if lines: lines.append("")] (279-280) *)
Definition blank_before (ls : list text) : list text := match ls with [] => [] | _ => ls ++ [[]] end.
Definition no_constraints : text := chars "(no constraints)".
Definition contained_itself : text := chars "(constraint contained itself)".
Definition quote : N := 34%N.
(** ["\"%s\":" % key] (283) *)
Definition key_line (key : text) : text := quote :: key ++ [quote; 58%N].
(** One turn of the loop of [recursively_line] (275-286), [clines] being the lines of the element. [names]: "constraint names" is not excluded. *)
Definition add_lines (names : bool) (lines : list text) (k : option text) (c : cset) (clines : list text) : list text :=
  match heading c with
  | Some name =>
      let clines := if any_line clines then clines else [space :: no_constraints] in
      blank_before lines ++ [name] ++ clines
  | None =>
      match k with
      | Some key => if names then lines ++ [key_line key] ++ map (fun l => space :: space :: l) clines else lines ++ clines
      | None => lines ++ clines
      end
  end.
(** The lines of an element (266-274). Of a ConstraintSet, that is [lines_without] (212-229) with "root" excluded. *)
Fixpoint clines (names : bool) (c : cset) : list text :=
  let loop := fix loop (els : list (option text * cset)) (lines : list text) : list text :=
    match els with
    | [] => lines
    | (k, c) :: els' => loop els' (add_lines names lines k c (clines names c))
    end in
  match c with
  | Con s => split_lines s
  | Itself => [contained_itself]
  | Lst els => loop els []
  | CSet lineage els => map (fun l => rstrip (lineage_indent lineage ++ l)) (loop els [])
  end.
(** [recursively_line(iterable, excluded)] (255-287) *)
Fixpoint recursively_line (names : bool) (els : list (option text * cset)) (lines : list text) : list text :=
  match els with
  | [] => lines
  | (k, c) :: els' => recursively_line names els' (add_lines names lines k c (clines names c))
  end.

(** [lineagestr] (repr_conventions.py:21-26) *)
Fixpoint lineagestr (lineage : list (text * nat)) : text :=
  match lineage with
  | [] => []
  | [l] => model_name l
  | l :: ls => model_name l ++ 46%N :: lineagestr ls
  end.
(** [_rootlines] (costed.py:34-46). The cost is printed if it has variables. *)
Definition rootlines (lineage : list (text * nat)) (cost : option text) : list text :=
  let description :=
    match cost with
    | Some t => [[]; chars "Cost Function"; chars "-------------"; space :: t; []; chars "Constraints"; chars "-----------"]
    | None => [[]; chars "Constraints"; chars "-----------"]
    end in
  match lineage with
  | [] => description
  | _ => let fullname := lineagestr lineage in fullname :: repeat 61%N (length fullname) :: description
  end.
(** [lines_without] (212-229) of a set printed on its own. [head]: it is a model, with this cost. [shorten]: "unnecessary lineage" is excluded.
    How that changes the texts of constraints is not modelled here: texts are those printed. *)
Definition lines_without (head : option (option text)) (shorten names : bool) (lineage : list (text * nat)) (els : list (option text * cset)) : list text :=
  let root := match head with Some cost => rootlines lineage cost | None => [] end in
  let lines := recursively_line names els [] in
  let indent := lineage_indent lineage ++ (if shorten then [space] else []) in
  root ++ map (fun l => rstrip (indent ++ l)) lines.
(** [str_without] (231-233) *)
Definition str_without head shorten names lineage els : text := join_lines (lines_without head shorten names lineage els).

(** ** LaTeX *)

(** Elements: with a LaTeX representation; plain lists and the like, which have none and are printed by [str] (gpkit/small_scripts.py:31-37);
    constraint sets *)
Inductive lset :=
  | LCon (tex : text)
  | LPlain (str : text) (els : list lset)
  | LSet (els : list lset).
Definition amp : text := chars "    & ".
Definition row_end : text := chars " \\".
(** The loop of [latex] (244-248) *)
Definition latex_row (cstr : text) : text := if bool_decide (firstn 6 cstr = amp) then cstr else amp ++ cstr ++ row_end.
(** [try_str_without(constraint, excluded, latex=True)] with "root" excluded *)
Fixpoint latex_in (c : lset) : text :=
  match c with
  | LCon tex => tex
  | LPlain str _ => str
  | LSet els => join_lines (map (fun c => latex_row (latex_in c)) els)
  end.
(** [_rootlatex] (costed.py:48-52) *)
Definition rootlatex (cost : text) : text := join_lines [chars "\text{minimize}"; amp ++ cost ++ row_end; chars "\text{subject to}"].
Definition begin_array : text := chars "\begin{array}{ll} \text{}".
Definition end_array : text := chars "\end{array}".
(** [latex(excluded)] (235-251): the text, and what [excluded] is afterwards. [excluded += ("root",)] (240) makes a new tuple, but changes a list. *)
Definition latex (is_list : bool) (excluded : list string) (cost : option text) (els : list lset) : text * list string :=
  let root := bool_decide ("root"%string ∉ excluded) in
  let lines := map (fun c => latex_row (latex_in c)) els in
  if root then (join_lines ([begin_array] ++ (match cost with Some t => [rootlatex t] | None => [] end) ++ lines ++ [end_array]),
                if is_list then excluded ++ ["root"%string] else excluded)
  else (join_lines lines, excluded).
