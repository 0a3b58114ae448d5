(** Model of solving a geometric program from its constraints as written, with the sensitivities of its result: EndToEnd.v continued with the
    rest of [_compile_result] (gpkit/constraints/gp.py:287-343). Simplification: no variable is linked to others ([gradients], gp.py:326-341;
    Sens.v is about those). *)
From Verif Require Import Base HashVec Nomial NomialSem Sub Mono Constraint GPGen Dual Sens Multipliers Solvers EndToEnd.
Open Scope R_scope.

(** [as_hmapslt1] of a constraint: the constraint with what it keeps for its sensitivities, and its posynomials with [from_meq]
    (gpkit/nomials/math.py:466-481, 537-542). A signomial constraint is not made outside SignomialsEnabled. *)
Definition asked (inf : R) (pick : hmap R -> schedule) (fixed : gmap nat R) (c : constr R) : res (cobj R * list (bool * hmap R)) :=
  match c with
  | CPosy st us => let! r := as_hmapslt1 inf pick fixed st us in Ok (OPosy (hd [] us) (fst r), map (pair false) (snd r))
  | CMeq st us => let! r := as_hmapslt1 inf pick fixed st us in Ok (OMeq us [], map (pair true) (snd r))
  | CSig _ => Err TypeErrorE
  end.
(** [hmap.parent] of every posynomial (math.py:478), as the place of its constraint; and the constraints. *)
Fixpoint parents (inf : R) (pick : hmap R -> schedule) (fixed : gmap nat R) (i : nat) (cs : list (constr R)) : res (list (cobj R) * list nat) :=
  match cs with
  | [] => Ok ([], [])
  | c :: cs' =>
      let! a := asked inf pick fixed c in
      let! b := parents inf pick fixed (S i) cs' in
      Ok (fst a :: fst b, repeat i (length (snd a)) ++ snd b)
  end.

(** [zip(la[1:], self.nu_by_posy[1:], self.hmaps[1:])] (gp.py:311-313) *)
Definition rows_from (la : list R) (by_posy : list (list R)) (owner : list nat) : list (Multipliers.row R) :=
  map (fun lno => Row (snd lno) (fst (fst lno)) (snd (fst lno))) (combine (combine (tl la) (tl by_posy)) owner).

(** The result's cost, variables and [["sensitivities"]["variables"]] *)
Definition solve_senss (inf : R) (pick : hmap R -> schedule) (ord : var_order R) (optimize : optimizer) (fixed : gmap nat R)
    (cost : hmap R) (ws : list written) : res (R * gmap nat R * gmap nat R) :=
  let! cs := make_all ws in
  let! hmaps := gp_hmaps inf pick false fixed cost cs in
  let! ps := parents inf pick fixed 0 cs in
  let g := gen ord hmaps in
  match optimize (g_cs g) (matrix_of g) (g_k g) (g_pidxs g) (g_all g) (g_first g) (columns g) with
  | Err e => Err e
  | Ok (c, x, la) =>
      if decide (length (g_varlocs g) = length x) then
        match generate_nula g x None (Some la) with
        | None => Err RuntimeWarningE   (* "The dual solution was not returned." *)
        | Some (_, la', by_posy) =>
            let! a := compile_senss (fun i => i) (fun i => i) (fun i => i) (fun i => nth i (fst ps) (OMeq [] []))
                        (cost_sens (nth 0 by_posy []) cost) (rows_from la' by_posy (snd ps)) in
            Ok (c, fixed ∪ list_to_map (combine (dkeys (g_varlocs g)) (map exp x)), sa_vars a)
        end
      else Err RuntimeWarningE
  end.
