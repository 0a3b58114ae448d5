(** Model of the check of a model's docstring against its bounds: Model.verify_docstring (gpkit/constraints/model.py:81-133), and how the variables that are
    expected to be unbounded are read from the docstring: expected_unbounded (gpkit/tools/docstring.py:8-58). *)
From Verif Require Import Base Bounds.
Open Scope nat_scope.

(** What comes of the check: an error about bounds that are there although they should not be, or about missing ones, or nothing. The messages are left out, and
    with them the conditions that would give bounds (108-116), which change the sets of conditions only where an error is raised. *)
Inductive verdict := Excess (bs : list bound) | Missing (bs : list bound) | Fine.

(** [verify_docstring]: [varkeys] are those of the model, [expected] what [expected_unbounded] returns, [bounded] and [q] the model's [bounded] and [meq_bounded]. *)
Definition verify (fuel : nat) (varkeys : list nat) (expected bounded : list bound) (q : conds) : option verdict :=
  match List.filter (fun b => bmem b expected) bounded with
  | (_ :: _) as bs => Some (Excess bs)
  | [] =>
      match add_meq_bounds fuel (bounded ++ expected) q with
      | None => None
      | Some (bounded', q') =>
          let missing := dkeys q' in
          let missing :=
            if length (remove_dups bounded') + length missing =? 2 * length varkeys then missing
            else missing ++ List.filter (fun b => negb (bmem b bounded') && negb (bmem b missing)) (flat_map (fun k => [(k, true); (k, false)]) varkeys) in
          Some (match missing with [] => Fine | _ => Missing missing end)
      end
  end.
(** Of a model with these elements and substitutions *)
Definition verify_docstring (fuel : nat) (varkeys : list nat) (expected : list bound) (t : ctree) : option verdict :=
  match cset_bounds fuel t with
  | Some (bounded, q) => verify fuel varkeys expected bounded q
  | None => None
  end.
