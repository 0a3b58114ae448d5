(** Model of how variables are printed: [VarKey.str_without] and [VarKey.latex] (gpkit/varkey.py:63-75, 88-100), and [lineagestr]
    (gpkit/repr_conventions.py:21-26). Simplification: what is excluded is given by five flags, for the five words that these functions
    look for. *)
From Coq Require Import Strings.String Strings.Ascii.
From Verif Require Import Base Globals.
Local Open Scope string_scope.

(** What a VarKey prints of its description; [vi_lineage] and [vi_idx] are empty where the description has none, [vi_shape] says that it
    has a shape other than (), [vi_necessary] that its [necessarylineage] is set. *)
Record vinfo := VInfo { vi_name : string; vi_lineage : list (string * nat); vi_idx : list nat; vi_shape : bool; vi_necessary : bool }.

(** Whether "lineage", "unnecessary lineage", "modelnums", "idx" and "vec" are in [excluded]. *)
Record excl := Excl { no_lineage : bool; no_unnecessary : bool; no_modelnums : bool; no_idx : bool; no_vec : bool }.

(** [lineagestr] (repr_conventions.py:21-26) *)
Definition lineagestr (l : list (string * nat)) (modelnums : bool) : string :=
  join "." (map (fun p => if negb (Nat.eqb (snd p) 0) && modelnums then fst p ++ show_nat (snd p) else fst p) l).

(** the condition of varkey.py:66-68 and 95-97 *)
Definition prints_lineage (ex : excl) (v : vinfo) : bool :=
  negb (no_lineage ex) && (match vi_lineage v with [] => false | _ => true end) && (negb (no_unnecessary ex) || vi_necessary v).

(** [str_without] (varkey.py:63-75) *)
Definition key_str (ex : excl) (v : vinfo) : string :=
  let name := if prints_lineage ex v then lineagestr (vi_lineage v) (negb (no_modelnums ex)) ++ "." ++ vi_name v else vi_name v in
  if no_idx ex then name
  else match vi_idx v with
       | _ :: _ => name ++ "[" ++ join "," (map show_nat (vi_idx v)) ++ "]"
       | [] => if negb (no_vec ex) && vi_shape v then name ++ "[:]" else name
       end.

(** [latex] (varkey.py:88-100) *)
Definition key_latex (ex : excl) (v : vinfo) : string :=
  let name := vi_name v in
  let name := if negb (no_vec ex) && negb (no_idx ex) && vi_shape v then "\vec{" ++ name ++ "}" else name in
  let name := if negb (no_idx ex) && (match vi_idx v with [] => false | _ => true end)
              then "{" ++ name ++ "}_{" ++ join "," (map show_nat (vi_idx v)) ++ "}" else name in
  if prints_lineage ex v then "{" ++ name ++ "}_{" ++ lineagestr (vi_lineage v) (negb (no_modelnums ex)) ++ "}" else name.
