(** Model of how variables are declared by tables in docstrings: parse_varstring and what it calls (gpkit/tools/docstring.py:111-207).
    The result is the Python source that the decorator [parse_variables] inserts at the start of the function; the insertion itself (83-108), by way of
    the function's source and syntax tree, is not modelled.
    Simplification: characters are ASCII. *)
From Verif Require Import Base Settings.
From Coq Require Import Strings.String Strings.Ascii.
Local Open Scope list_scope.
Open Scope nat_scope.

(** *** Python's strings *)

Definition NL : text := [newline].
(** [s.find(p)], as an option; [s.index(p)] raises ValueError if there is none *)
Fixpoint find (p s : text) : option nat :=
  if starts p s then Some 0 else match s with [] => None | _ :: s' => option_map S (find p s') end.
Definition index_of (p s : text) : res nat := match find p s with Some i => Ok i | None => Err ValueErrorE end.
(** [s.count(p)] and [s.replace(p, r)], which go by the occurrences at which [s.split(p)] splits *)
Definition count (p s : text) : nat := List.length (split p s) - 1.
Definition replace (p r s : text) : text := join r (split p s).
(** Whitespace *)
Definition is_space (c : ascii) : bool := let n := nat_of_ascii c in (((9 <=? n) && (n <=? 13)) || ((28 <=? n) && (n <=? 32)))%nat.
(** [s.split()] *)
Fixpoint words_go (s cur : text) : list text :=
  match s with
  | [] => match cur with [] => [] | _ => [rev cur] end
  | c :: s' => if is_space c then match cur with [] => words_go s' [] | _ => rev cur :: words_go s' [] end else words_go s' (c :: cur)
  end.
Definition words (s : text) : list text := words_go s [].
(** [s.strip()] *)
Fixpoint lstrip (s : text) : text := match s with c :: s' => if is_space c then lstrip s' else s | [] => [] end.
Definition strip (s : text) : text := rev (lstrip (rev (lstrip s))).

(** *** docstring.py *)

(** [variable_declaration] (190-207). Without a name there is no [out] to return: UnboundLocalError *)
Definition variable_declaration (nameval : list text) (units label : text) : res text :=
  match nameval with
  | [n; v] => Ok (n ++ chars " = self." ++ n ++ chars " = Variable('" ++ n ++ chars "', " ++ v ++ chars ", '" ++ units ++ chars "', '" ++ label ++ chars "')" ++ NL)
  | [n] => Ok (n ++ chars " = self." ++ n ++ chars " = Variable('" ++ n ++ chars "', '" ++ units ++ chars "', '" ++ label ++ chars "')" ++ NL)
  | [] => Err UnboundLocalE
  | _ => Err ValueErrorE
  end.

(** [while line[labelstart] == " ": labelstart += 1], and the rest of the line *)
Fixpoint skip_spaces (s : text) : res text :=
  match s with
  | [] => Err IndexErrorE
  | c :: s' => if Ascii.eqb c " "%char then skip_spaces s' else Ok s
  end.
(** A line of a table (156-172) *)
Definition line_declaration (line : text) : res text :=
  let! i := index_of (chars "[") line in
  let! j := index_of (chars "]") line in
  let units := skipn (i + 1) (firstn j line) in
  let nameval := words (firstn i line) in
  let! label := if (List.length line <=? j + 1)%nat then Ok [] else skip_spaces (skipn (j + 1) line) in
  variable_declaration nameval units (replace (chars "'") (chars "\'") label).
(** [originalstr[:originalstr.index(line)].count("\n")] (174) *)
Definition line_index (original line : text) : res nat :=
  let! i := index_of line original in Ok (count NL (firstn i original)).
(** The loop over the lines of a table, up to one of only whitespace (153-174) *)
Fixpoint table_loop (original : text) (lines : list text) (countstr : text) (lineidxs : list nat) : res (text * list nat) :=
  match lines with
  | [] => Ok (countstr, lineidxs)
  | l :: lines' =>
      match strip l with
      | [] => Ok (countstr, lineidxs)
      | _ =>
          let! d := line_declaration l in
          let! i := line_index original l in
          table_loop original lines' (countstr ++ d) (lineidxs ++ [i])
      end
  end.

(** [vv_declare] (125-128) and [constant_declare] (132-134) *)
Definition vv_declare (string flag : text) (idx2 : nat) (countstr : text) : text :=
  let length := strip (skipn (List.length flag) (firstn idx2 string)) in
  replace (chars "Variable(") (chars "VectorVariable(" ++ length ++ chars ", ") countstr.
Definition constant_declare (string flag : text) (idx2 : nat) (countstr : text) : text := replace (chars "')") (chars "', constant=True)") countstr.
Definition plain_declare (string flag : text) (idx2 : nat) (countstr : text) : text := countstr.

(** The loop over the occurrences of a flag (142-180); [n] counts those still to come. *)
Fixpoint flag_loop (original flag : text) (declare : text -> text -> nat -> text -> text) (n : nat) (string : text) (overall : text) (lineidxs : list nat)
    : res (text * list nat) :=
  match n with
  | O => Ok (overall, lineidxs)
  | S n' =>
      let! idx := index_of flag string in
      let string := skipn idx string in
      let! idx2 := if bool_decide (newline ∈ flag) then Ok 0 else index_of NL string in
      let! r := table_loop original (skipn 2 (split NL (skipn idx2 string))) [] lineidxs in
      flag_loop original flag declare n' (skipn (idx2 + List.length flag) string) (overall ++ declare string flag idx2 (fst r)) (snd r)
  end.
(** [check_and_parse_flag] (138-181) *)
Definition check_and_parse_flag (string flag : text) (declare : text -> text -> nat -> text -> text) : res (text * list nat) :=
  flag_loop string flag declare (count flag string) string [] [].

Definition constants_flag : text := chars "Constants" ++ NL.
Definition variables_flag : text := chars "Variables" ++ NL.
Definition vectors_flag : text := chars "Variables of length".
(** [out[index] = line + "  # from '%s'" % out[index][1:].strip()] *)
Definition put_line (out : list text) (li : text * nat) : res (list text) :=
  match nth_error out (snd li) with
  | Some old => Ok (<[snd li := fst li ++ chars "  # from '" ++ strip (skipn 1 old) ++ chars "'"]> out)
  | None => Err IndexErrorE
  end.
Fixpoint put_lines (out : list text) (lis : list (text * nat)) : res (list text) :=
  match lis with [] => Ok out | li :: lis' => let! out := put_line out li in put_lines out lis' end.
(** [parse_varstring] (111-122) *)
Definition parse_varstring (string : text) : res text :=
  let! consts := check_and_parse_flag string constants_flag constant_declare in
  let! variables := check_and_parse_flag string variables_flag plain_declare in
  let! vecvars := check_and_parse_flag string vectors_flag vv_declare in
  let out := map (fun l => chars "# " ++ l) (split NL string) in
  let out := match out with l :: r => (chars "from gpkit import Variable, VectorVariable" ++ chars "  " ++ l) :: r | [] => [] end in
  let pairs r := combine (split NL (fst r)) (snd r) in
  let! out := put_lines out (pairs consts) in
  let! out := put_lines out (pairs variables) in
  let! out := put_lines out (pairs vecvars) in
  Ok (join NL out).
