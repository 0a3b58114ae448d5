(** Model of how the variables that a docstring says are unbounded are read from it: expected_unbounded (gpkit/tools/docstring.py:8-58).
    Simplifications: characters are ASCII; error messages are left out; Python's objects, and what their attributes, truth values and variables are, are given as
    functions. *)
From Verif Require Import Base Settings Docstring.
From Coq Require Import Strings.String Strings.Ascii.
Local Open Scope list_scope.
Open Scope nat_scope.

Section Objects.
Context {obj : Type} (getattr : obj -> text -> option obj) (truth : obj -> res bool) (keys_of : obj -> res (list nat)).

(** [re.sub(" +", " ", s)]; [after] says whether the last character was a space *)
Fixpoint collapse (after : bool) (s : text) : text :=
  match s with
  | [] => []
  | c :: s' => if Ascii.eqb c " "%char then (if after then [] else [c]) ++ collapse true s' else c :: collapse false s'
  end.
(** [p in s] *)
Definition has_sub (p s : text) : bool := match find p s with Some _ => true | None => false end.

(** [for subdot in var.split("."): obj = getattr(obj, subdot)] (42-43) *)
Fixpoint follow (o : obj) (names : list text) : option obj :=
  match names with
  | [] => Some o
  | n :: names' => match getattr o n with Some o' => follow o' names' | None => None end
  end.
(** The variables of an attribute (40-57) *)
Definition attr_bounds (inst : obj) (var : text) : res (list nat) :=
  match follow inst (split (chars ".") var) with
  | Some o => keys_of o
  | None => Err AttributeErrorE
  end.
(** An element of the list (29-57) *)
Definition item_bounds (inst : obj) (var : text) : res (list nat) :=
  if has_sub (chars " (if ") var then
    match split (chars " (if ") var with
    | [var; condition] =>
        match rev condition with
        | [] => Err IndexErrorE
        | c :: rest =>
            if Ascii.eqb c ")"%char then
              let condition := rev rest in
              let invert := starts (chars "not ") condition in
              let condition := if invert then skipn 4 condition else condition in
              match getattr inst condition with
              | None => Err AttributeErrorE
              | Some o =>
                  let! t := truth o in
                  if invert then (if t then Ok [] else attr_bounds inst var)
                  else (if t then attr_bounds inst var else Ok [])
              end
            else Err AssertionE
        end
    | _ => Err ValueErrorE
    end
  else attr_bounds inst var.
Fixpoint items_bounds (inst : obj) (vars : list text) : res (list nat) :=
  match vars with
  | [] => Ok []
  | v :: vars' => let! ks := item_bounds inst v in let! ks' := items_bounds inst vars' in Ok (ks ++ ks')
  end.

(** The list in the docstring (18-28), where there is one *)
Definition varstrs (flag doc : text) : res text :=
  let! i := index_of flag doc in
  let d := skipn (i + List.length flag) doc in
  let! i2 := index_of NL d in
  let d := skipn (i2 + 1) d in
  let! i3 := match find (NL ++ NL) d with Some i => Ok i | None => index_of NL d end in
  Ok (collapse false (replace NL (chars ", ") (strip (firstn i3 d)))).
(** The flags *)
Definition unbounded_flag (up : bool) : text := (if up then chars "Upper" else chars "Lower") ++ chars " Unbounded" ++ NL.
(** Of one direction (13-57) *)
Definition direction_bounds (inst : obj) (doc : text) (up : bool) : res (list nat) :=
  let flag := unbounded_flag up in
  match count flag doc with
  | O => Ok []
  | S O => let! s := varstrs flag doc in match s with [] => Ok [] | _ => items_bounds inst (split (chars ", ") s) end
  | _ => Err ValueErrorE
  end.
(** [expected_unbounded]; the set is a list here *)
Definition expected_unbounded (inst : obj) (doc : text) : res (list (nat * bool)) :=
  let! us := direction_bounds inst doc true in
  let! ls := direction_bounds inst doc false in
  Ok (map (fun k => (k, true)) us ++ map (fun k => (k, false)) ls).
End Objects.
