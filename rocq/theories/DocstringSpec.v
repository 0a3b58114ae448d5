(** Specification for C69: docstrings with tables of variables, and how Python reads a call's arguments. *)
From Verif Require Import Base Settings.
From Coq Require Import Strings.String Strings.Ascii.
Local Open Scope list_scope.
Open Scope nat_scope.

(** ** Docstrings *)

(** A row of a table: [name value [units] label], with whitespace in between *)
Record row := Row { r_indent : text; r_name : text; r_value : option (text * text); r_gap : text; r_units : text; r_gap' : text; r_label : text }.
Definition row_text (r : row) : text :=
  r_indent r ++ r_name r ++ (match r_value r with Some (gap, v) => gap ++ v | None => [] end) ++ r_gap r ++ chars "[" ++ r_units r ++ chars "]" ++ r_gap' r ++ r_label r.

(** Tables of constants, of variables and of vectors of a length *)
Inductive kind := Consts | Vars | Vecs (length : text).
(** A docstring: lines outside of tables, and tables with the line above the first row *)
Inductive block := Prose (l : text) | Table (k : kind) (header underline : text) (rows : list row).
Definition block_lines (b : block) : list text :=
  match b with Prose l => [l] | Table _ h u rows => h :: u :: map row_text rows end.
Definition doc_lines (blocks : list block) (last : text) : list text := flat_map block_lines blocks ++ [last].
Fixpoint lines_text (ls : list text) : text :=
  match ls with [] => [] | [l] => l | l :: ls' => l ++ [newline] ++ lines_text ls' end.
(** The rows with their line numbers, from 0 *)
Fixpoint placed (n : nat) (bs : list block) : list (kind * row * nat) :=
  match bs with
  | [] => []
  | Prose _ :: bs' => placed (n + 1) bs'
  | Table k _ _ rows :: bs' => combine (map (fun r => (k, r)) rows) (seq (n + 2) (List.length rows)) ++ placed (n + 2 + List.length rows) bs'
  end.

(** ** What Python makes of the arguments of a call *)
Inductive arg := Quoted (s : text) | Code (s : text).
Definition quote : ascii := "'"%char.
Definition backslash : ascii := "\"%char.
(** The rest of a string literal: its value, and what comes after it. Escapes other than of quotes and backslashes are left out. *)
Fixpoint read_quoted (s : text) : option (text * text) :=
  match s with
  | [] => None
  | c :: s' =>
      if Ascii.eqb c quote then Some ([], s')
      else if Ascii.eqb c backslash
      then match s' with
           | d :: s'' => if Ascii.eqb d quote || Ascii.eqb d backslash then option_map (fun r => (d :: fst r, snd r)) (read_quoted s'') else None
           | [] => None
           end
      else option_map (fun r => (c :: fst r, snd r)) (read_quoted s')
  end.
(** Other arguments, up to a comma or parenthesis that belongs to the call; [d] counts the parentheses that are open. *)
Fixpoint read_code (d : nat) (s : text) : text * text :=
  match s with
  | [] => ([], [])
  | c :: s' =>
      let go d' := let r := read_code d' s' in (c :: fst r, snd r) in
      if Ascii.eqb c "("%char then go (S d)
      else if Ascii.eqb c ")"%char then match d with O => ([], s) | S d' => go d' end
      else if Ascii.eqb c ","%char && (d =? 0)%nat then ([], s)
      else go d
  end.
Fixpoint read_args_go (fuel : nat) (s : text) : option (list arg * text) :=
  match fuel with
  | O => None
  | S fuel' =>
      let one := match s with
        | c :: s' => if Ascii.eqb c quote then option_map (fun r => (Quoted (fst r), snd r)) (read_quoted s') else let r := read_code 0 s in Some (Code (fst r), snd r)
        | [] => None end in
      match one with
      | Some (a, c :: rest) =>
          if Ascii.eqb c ")"%char then Some ([a], rest)
          else match rest with
               | sp :: rest' => if Ascii.eqb c ","%char && Ascii.eqb sp " "%char then option_map (fun r => (a :: fst r, snd r)) (read_args_go fuel' rest') else None
               | [] => None
               end
      | _ => None
      end
  end.
(** The arguments after the opening parenthesis of a call, and what comes after the call *)
Definition read_args (s : text) : option (list arg * text) := read_args_go (List.length s) s.

(** The call that a row stands for: its function and arguments *)
Definition row_function (k : kind) : text := match k with Vecs _ => chars "VectorVariable" | _ => chars "Variable" end.
Definition row_args (k : kind) (r : row) : list arg :=
  match k with Vecs n => [Code n] | _ => [] end ++ [Quoted (r_name r)] ++ match r_value r with Some (_, v) => [Code v] | None => [] end ++
  [Quoted (r_units r); Quoted (r_label r)] ++ match k with Consts => [Code (chars "constant=True")] | _ => [] end.

(** ** Which docstrings *)
Definition contains (p s : text) : Prop := exists a b, s = a ++ p ++ b.
Definition ends (p s : text) : Prop := exists a, s = a ++ p.
Definition spaces_only (s : text) : Prop := Forall (fun c => c = " "%char) s.
Definition white (s : text) : Prop := Forall (fun c => c = " "%char \/ c = "009"%char) s.
Definition identifier (s : text) : Prop :=
  s <> [] /\ Forall (fun c => let n := nat_of_ascii c in 48 <= n <= 57 \/ 65 <= n <= 90 \/ n = 95 \/ 97 <= n <= 122) s.
(** Code whose commas are in parentheses, which match *)
Fixpoint closed (d : nat) (s : text) : bool :=
  match s with
  | [] => d =? 0
  | c :: s' =>
      if Ascii.eqb c "("%char then closed (S d) s'
      else if Ascii.eqb c ")"%char then match d with O => false | S d' => closed d' s' end
      else if Ascii.eqb c ","%char && (d =? 0)%nat then false
      else closed d s'
  end.
(** Code on its own: not empty and without quotes *)
Definition code (s : text) : Prop := s <> [] /\ closed 0 s = true /\ ~ In quote s.

(** Rows *)
Definition row_ok (r : row) : Prop :=
  white (r_indent r) /\ identifier (r_name r) /\
  match r_value r with
  | Some (gap, v) => white gap /\ gap <> [] /\ code v /\ Forall (fun c => 33 <= nat_of_ascii c /\ c <> "["%char /\ c <> "]"%char) v
  | None => True
  end /\
  white (r_gap r) /\ ~ In newline (r_units r) /\ ~ In "]"%char (r_units r) /\ ~ In quote (r_units r) /\ ~ In backslash (r_units r) /\
  spaces_only (r_gap' r) /\ ~ In newline (r_label r) /\ ~ In backslash (r_label r) /\ (forall s, r_label r <> " "%char :: s) /\ (r_label r = [] -> r_gap' r = []).
(** In tables of constants the units and labels must not have a parenthesis after a quote, in tables of vectors nothing may look like a call of Variable *)
Definition row_fits (k : kind) (r : row) : Prop :=
  let others := r_units r :: r_label r :: match r_value r with Some (_, v) => [v] | None => [] end in
  match k with
  | Consts => (forall s, In s others -> ~ contains (chars "')") s) /\ (forall s, r_units r <> ")"%char :: s) /\ (forall s, r_label r <> ")"%char :: s)
  | Vars => True
  | Vecs n => code n /\ (forall s, In s others -> ~ contains (chars "Variable(") s)
  end.
(** Lines that are not headers *)
Definition plain_line (l : text) : Prop :=
  ~ In newline l /\ ~ ends (chars "Constants") l /\ ~ ends (chars "Variables") l /\ ~ contains (chars "Variables of length") l.
(** Headers *)
Definition header_ok (k : kind) (h : text) : Prop :=
  ~ In newline h /\
  match k with
  | Consts => ends (chars "Constants") h /\ ~ contains (chars "Variables of length") h
  | Vars => ends (chars "Variables") h /\ ~ contains (chars "Variables of length") h
  | Vecs n => ~ ends (chars "Constants") h /\ ~ ends (chars "Variables") h /\
      exists pre gap gap', h = pre ++ chars "Variables of length" ++ gap ++ n ++ gap' /\ white gap /\ white gap' /\
        (forall c s, n = c :: s \/ n = s ++ [c] -> 33 <= nat_of_ascii c) /\
        ~ contains (chars "Variables of length") pre /\ ~ contains (chars "Variables of length") (gap ++ n ++ gap')
  end.
Definition block_ok (b : block) : Prop :=
  match b with
  | Prose l => plain_line l
  | Table k h u rows => header_ok k h /\ plain_line u /\ (match k with Vecs _ => 18 <= List.length u | _ => True end) /\
      Forall (fun r => row_ok r /\ row_fits k r /\ plain_line (row_text r)) rows
  end.
(** A table ends with a line of only whitespace. *)
Definition closed_tables (blocks : list block) (last : text) : Prop :=
  forall b1 k h u rows b2, blocks = b1 ++ Table k h u rows :: b2 -> white (hd last (flat_map block_lines b2)).
(** The text of no row is part of an earlier line. *)
Definition distinct_rows (blocks : list block) : Prop :=
  forall b1 k h u rs1 r rs2 b2, blocks = b1 ++ Table k h u (rs1 ++ r :: rs2) :: b2 ->
  forall l, In l (flat_map block_lines b1 ++ h :: u :: map row_text rs1) -> ~ contains (row_text r) l.
