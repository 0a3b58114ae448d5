(** Model of the settings file: written by the build step (gpkit/build.py:193-198), read when gpkit is
    imported (gpkit/globals.py:7-45). Text is a list of characters. *)
From Verif Require Import Base.
From Coq Require Import Strings.String Strings.Ascii.
Local Open Scope list_scope.

Definition text := list ascii.
Notation chars := list_ascii_of_string.
Definition newline : ascii := "010"%char.
Definition return_ : ascii := "013"%char.
Definition colon : text := chars " : ".
Definition comma : text := chars ", ".

Fixpoint starts (p s : text) : bool :=
  match p, s with
  | [], _ => true
  | a :: p', b :: s' => Ascii.eqb a b && starts p' s'
  | _, [] => false
  end.

(** [s.split(sep)]: leftmost occurrences of [sep] that do not overlap; [skip] counts the characters of [sep] still to be passed over,
    [cur] is the part so far, reversed. *)
Fixpoint split_go (sep s : text) (skip : nat) (cur : text) : list text :=
  match s with
  | [] => [rev cur]
  | c :: s' =>
      match skip with
      | S k => split_go sep s' k cur
      | O => if starts sep s then rev cur :: split_go sep s' (List.length sep - 1) [] else split_go sep s' 0 (c :: cur)
      end
  end.
Definition split (sep s : text) : list text := split_go sep s 0 [].

(** Iterating over an open file: lines with their ends, "\r" and "\r\n" being read as "\n" (universal newlines). *)
Fixpoint newlines (s : text) : text :=
  match s with
  | [] => []
  | c :: s' => if Ascii.eqb c return_
               then match s' with
                    | d :: _ => if Ascii.eqb d newline then newlines s' else newline :: newlines s'
                    | [] => [newline]
                    end
               else c :: newlines s'
  end.
Fixpoint lines_go (s cur : text) : list text :=
  match s with
  | [] => match cur with [] => [] | _ => [rev cur] end
  | c :: s' => if Ascii.eqb c newline then rev (c :: cur) :: lines_go s' [] else lines_go s' (c :: cur)
  end.
Definition lines (s : text) : list text := lines_go (newlines s) [].

(** A setting's value: a string or a list of strings. *)
Inductive setting := One (s : text) | Many (l : list text).

Definition installed : text := chars "installed_solvers".
Definition default_solver : text := chars "default_solver".

(** The dict comprehensions (globals.py:13-15). [removelast] is [line[:-1]]. *)
Fixpoint read_lines (ls : list text) (d : list (text * list text)) : res (list (text * list text)) :=
  match ls with
  | [] => Ok d
  | l :: ls' =>
      if (List.length (split colon l) =? 2)%nat
      then match split colon (removelast l) with
           | [name; value] => read_lines ls' (dset d name (split comma value))
           | _ => Err ValueErrorE
           end
      else read_lines ls' d
  end.
(** Flattening (globals.py:16-19) *)
Definition flatten_setting (name : text) (v : list text) : setting :=
  match v with
  | [s] => if decide (name = installed) then Many v else One s
  | _ => Many v
  end.
(** [load_settings(path, trybuild=False)] of an existing file (globals.py:11-19, 43-44). With [trybuild] it builds first if no
    solver is found, which is not modelled. *)
Definition load_settings (file : text) : res (list (text * setting)) :=
  let! d := read_lines (lines file) [] in
  let s := map (fun kv => (fst kv, flatten_setting (fst kv) (snd kv))) d in
  match dget s installed with
  | None => Err KeyErrorE
  | Some (Many []) => Err IndexErrorE
  | Some (Many (x :: _)) => Ok (dset s default_solver (One x))
  | Some (One x) => Err AssertionE (* it is never flattened *)
  end.

(** [", ".join(l)] *)
Fixpoint join (sep : text) (l : list text) : text :=
  match l with
  | [] => []
  | [s] => s
  | s :: l' => s ++ sep ++ join sep l'
  end.
(** Writing the file (build.py:196-198); the settings come in the order of their names. *)
Definition write_settings (l : list (text * text)) : text :=
  flat_map (fun kv => fst kv ++ colon ++ snd kv ++ [newline]) l.
