(** Model of what a solution writes to files for other programs: the names given to variables, MATLAB files, dataframes and CSV files
    (gpkit/solution_array.py:338-348, 506-600, 777-860). A solution's variables are keys without an index (vectors as a whole), each with a value. *)
From Verif Require Import Base Globals Lookup Naming Layout.
From Coq Require Import Strings.String Strings.Ascii.
Local Open Scope list_scope.
Open Scope nat_scope.

Section Saved.
Context {T : Type} `{Num T}.

(** A value: a number, or an array with a shape that has elements. [None] is nan. *)
Inductive value := Scalar (c : option T) | Array (shape : list nat) (val : list nat -> option T).
(** The solution's variables, with their labels *)
Definition variables := list (vkey * (value * string)).

(** ** Names *)

(** [_parse_showvars] (solution_array.py:625-631): the variables called by some names; those of names that are not there are none. *)
Fixpoint parse_showvars (s : keyset) (names : list mapkey) (out : list vkey) : list vkey :=
  match names with
  | [] => out
  | m :: names' => let '(s, l) := getitem s m in parse_showvars s names' (fold_left (fun out k => add k out) l out)
  end.
(** [varnames] (solution_array.py:506-518) with "unnecessary lineage" and "vec" excluded; [showvars] are names of variables to show, [] if not given.
    Simplification: the keys in the table of names are those of the solution. *)
Definition varnames (vars : variables) (showvars : list mapkey) : list (string * vkey) :=
  let all := map fst vars in
  let name := printed_name (key_set all) in
  fold_left (fun d k => dset d (name k) k) (match parse_showvars (key_set all) showvars [] with [] => all | found => found end) [].

(** [name.replace(".", "_")] *)
Fixpoint undotted (s : string) : string :=
  match s with EmptyString => EmptyString | String c s' => String (if ascii_dec c "." then "_" else c)%char (undotted s') end.
(** [savemat] (520-526): what is in the file. [self["variables"][key]] is the value of the key. *)
Definition savemat (vars : variables) (showvars : list mapkey) : list (string * value) :=
  fold_left (fun d nk => match dget vars (snd nk) with Some v => dset d (undotted (fst nk)) (fst v) | None => d end) (varnames vars showvars) [].

(** [todataframe] (528-566): the rows, each with the key (name, units, label and lineage are columns of their own), the index and the value. *)
Fixpoint insert_name (x : string * vkey) (l : list (string * vkey)) : list (string * vkey) :=
  match l with
  | [] => [x]
  | y :: l' => match String.compare (fst x) (fst y) with Gt => y :: insert_name x l' | _ => x :: l end
  end.
Definition sort_names (l : list (string * vkey)) : list (string * vkey) := fold_right insert_name [] l.
Definition frame_rows (k : vkey) (v : value) : list (vkey * option (list nat) * option T) :=
  match v with
  | Scalar c => [(k, None, c)]
  | Array shape val => map (fun idx => (k, Some idx, val idx)) (indices shape)
  end.
Definition todataframe (vars : variables) (showvars : list mapkey) : list (vkey * option (list nat) * option T) :=
  flat_map (fun nk => match dget vars (snd nk) with Some v => frame_rows (snd nk) (fst v) | None => [] end) (sort_names (varnames vars showvars)).

(** ** CSV files *)

(** How a number is written: a word *)
Variable fmt : option T -> string.
(** The units as they are written in tables, without brackets and blanks *)
Variable unitstr : vkey -> string.

(** The number of columns for values (577-590): sizes of dimensions other than 1 *)
Definition spans (vars : variables) : list nat :=
  flat_map (fun kv => match fst (snd kv) with Array shape _ => List.filter (fun d => negb (d =? 1)) shape | Scalar _ => [] end) vars.
Definition columns (vars : variables) (valcols : nat) : nat :=
  let minspan := match spans vars with [] => None | d :: ds => Some (fold_left Nat.min ds d) end in
  let maxspan := fold_left Nat.max (spans vars) 1 in
  let valcols := match minspan with Some m => if valcols <? m then 1 else valcols | None => valcols end in
  if maxspan <? valcols then maxspan else valcols.

(** A row of the table: model, whether the value is an array, name, words of its lines, units, label *)
Record row := Row { r_model : string; r_array : bool; r_name : string; r_lines : list (list string); r_units : string; r_label : string }.
(** [np.isnan(v).all() or np.nanmax(np.abs(v)) <= 0] (781-782) *)
Definition cells (v : value) : list (option T) := match v with Scalar c => [c] | Array shape val => map val (indices shape) end.
Definition skipped (v : value) : bool := forallb (fun c => match c with Some x => nleb (nabs x) n0 | None => true end) (cells v).
(** The rows before sorting (780-793, 825-859), with the lines of Layout.v for arrays *)
Definition row_of (maxcolumns : nat) (k : vkey) (v : value * string) : row :=
  Row (match vk_lineage k with Some l => path l | None => "" end) (match fst v with Array _ _ => true | Scalar _ => false end) (vk_name k)
    (match fst v with Scalar c => [[fmt c]] | Array shape val => map (map fmt) (lines maxcolumns shape val) end) (unitstr k) (snd v).
Definition rows (maxcolumns : nat) (vars : variables) : list row :=
  flat_map (fun kv => if skipped (fst (snd kv)) then [] else [row_of maxcolumns (fst kv) (snd kv)]) vars.
(** [decorated.sort()] (806): by model, numbers before arrays, by name, and then in the order of the variables *)
Definition row_leb (a b : row) : bool :=
  match String.compare (r_model a) (r_model b) with
  | Lt => true | Gt => false
  | Eq => match r_array a, r_array b with
          | false, true => true | true, false => false
          | _, _ => match String.compare (r_name a) (r_name b) with Gt => false | _ => true end
          end
  end.
Fixpoint insert_row (x : row) (l : list row) : list row :=
  match l with
  | [] => [x]
  | y :: l' => if row_leb x y then x :: l else y :: insert_row x l'
  end.
Definition sort_rows (l : list row) : list row := fold_right insert_row [] l.

(** The table's lines (807-859) *)
Inductive rawline := Spacer | NewModel (model : string) | Line (name : string) (words : list string) (units label : string).
Definition row_lines (r : row) : list rawline :=
  match r_lines r with
  | [] => [Line (r_name r) [] (r_units r) (r_label r)]
  | l :: ls => Line (r_name r) l (r_units r) (r_label r) :: map (fun l => Line "" l "" "") ls
  end.
Fixpoint table_lines (previous : option string) (started : bool) (l : list row) : list rawline :=
  match l with
  | [] => []
  | r :: l' =>
      let heading := if bool_decide (previous = Some (r_model r)) then []
                     else (if started then [Spacer] else []) ++ (if bool_decide (r_model r = ""%string) then [] else [NewModel (r_model r)]) in
      heading ++ row_lines r ++ table_lines (Some (r_model r)) true l'
  end.

(** What is written (594-610) *)
Definition newline : string := String "010" EmptyString.
Fixpoint commas (n : nat) : string := match n with 0 => "" | S n' => String "," (commas n') end.
Definition write_line (valcols : nat) (l : rawline) : string :=
  match l with
  | NewModel model => model
  | Spacer => newline
  | Line name words units label =>
      "," ++ name ++ "," ++ String.concat "" (map (fun w => w ++ ",") words) ++ commas (valcols - List.length words) ++ units ++ "," ++ label ++ newline
  end%string.
Definition savecsv (vars : variables) (valcols : nat) : string :=
  let valcols := columns vars valcols in
  ("Model Name,Variable Name,Value(s)" ++ commas valcols ++ "Units,Description" ++ newline
   ++ String.concat "" (map (write_line valcols) (table_lines None false (sort_rows (rows valcols vars)))))%string.
End Saved.
