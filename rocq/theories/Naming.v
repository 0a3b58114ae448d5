(** Model of how the variables of a printed constraint set are named (gpkit/constraints/set.py:204-229, gpkit/varkey.py:63-75). *)
From Verif Require Import Base Globals Lookup.
From Coq Require Import Strings.String.
Local Open Scope list_scope.
Open Scope nat_scope.

(** The index's part of [VarKey.str_without] (varkey.py:70-74). Simplification: whole vectors ("[:]") are not printed. *)
Definition with_idx (name : string) (k : vkey) : string :=
  match vk_idx k with Some ((_ :: _) as i) => (name ++ "[" ++ join "," (map show_nat i) ++ "]")%string | _ => name end.
(** [key.str_without(["lineage", "vec"])] *)
Definition bare_name (k : vkey) : string := with_idx (vk_name k) k.

(** [name_collision_varkeys] (set.py:204-210), of a set's [varkeys]; each lookup may change them. The set is returned in the order of
    the variables. *)
Definition collides (s : keyset) (k : vkey) : keyset * bool :=
  let '(s, l) := getitem s (MStr (bare_name k)) in (s, 1 <? List.length l).
Fixpoint colliding (s : keyset) (ks : list vkey) : keyset * list vkey :=
  match ks with
  | [] => (s, [])
  | k :: ks' => let '(s, b) := collides s k in
                let '(s, l) := colliding s ks' in (s, if b then k :: l else l)
  end.
Definition name_collision_varkeys (s : keyset) : keyset * list vkey := colliding s (members s).

(** [key.str_without(["unnecessary lineage"])] (varkey.py:63-75) while the keys of [flagged] have [necessarylineage] set (set.py:217-219).
    Simplification: keys that are equal are the same object. *)
Definition shown (flagged : list vkey) (k : vkey) : string :=
  with_idx (if bool_decide (k ∈ flagged) then sort_name k else vk_name k) k.

(** The names in the text of a set: printing sets the flags, prints and unsets them (set.py:212-229). *)
Definition printed_name (s : keyset) : vkey -> string := shown (snd (name_collision_varkeys s)).
