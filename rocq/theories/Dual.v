(** Model of what GeometricProgram makes of a solver's answer: the completion of
    the dual variables and the check of the solution. Over the reals, since it
    takes logarithms and exponentials. *)
From Verif Require Import Base HashVec Nomial NomialSem GPGen.
Open Scope R_scope.

(** [self.A.dot(primal)] *)
Definition prow (g : gpdata R) (primal : list R) (i : nat) : R := coo_dot (g_coo g) (fun j => nth j primal 0) i.

(** [sum(l)], [l.sum()] *)
Definition total (l : list R) : R := fold_right Rplus 0 l.
(** [l[mi]] for a slice [mi] *)
Definition slice {A} (l : list A) (mi : nat * nat) : list A := take (snd mi - fst mi) (drop (fst mi) l).

(** [_generate_nula] (gpkit/constraints/gp.py:274-294): [nu], [la] and
    [nu_by_posy] from what the solver returned; [None] is the RuntimeWarning.
    [np.log(self.cs)] is [ln] (the coefficients of a program are positive). *)
Definition generate_nula (g : gpdata R) (primal : list R) (nu la : option (list R))
  : option (list R * list R * list (list R)) :=
  match nu with
  | Some nu =>
      let by_posy := map (slice nu) (g_midxs g) in
      Some (nu, map total by_posy, by_posy)
  | None =>
      match la with
      | Some la =>
          let la := if (length la =? length (g_midxs g) - 1)%nat then 1 :: la else la in
          let z i := ln (nth i (g_cs g) 0) + prow g primal i in
          let by_posy :=
            map (fun p => let rows := List.filter (fun i => Nat.eqb (nth i (g_pidxs g) 0%nat) p) (seq 0 (length (g_pidxs g))) in
                          let s := total (map (fun i => exp (z i)) rows) in
                          map (fun i => nth p la 0 * exp (z i) / s) rows)
                (seq 0 (length la)) in
          Some (concat by_posy, la, by_posy)
      | None => None
      end
  end.

(** Comparisons that involve nan are false. [None] is nan. *)
Definition Reqb (a b : R) : bool := if Req_EM_T a b then true else false.
(** [almost_equal] (gp.py:365-368) *)
Definition almost_equal (tol abstol : R) (a b : R) : bool :=
  Reqb a b
  || (if Reqb (a + b) 0 then false else Rltb (Rabs ((a - b) / (a + b))) tol)
  || Rltb (Rabs (a - b)) abstol.

(** One term of the dual cost (gp.py:393-396): where [nu/la] is not positive,
    [np.log] gives -inf or nan, and the product is nan (0 times inf at 0). *)
Definition dual_term (c nu la : R) : option R :=
  if Rlt_dec 0 (nu / la) then Some (nu * (ln c - ln (nu / la))) else None.
Definition oadd (a b : option R) : option R :=
  match a, b with Some x, Some y => Some (x + y) | _, _ => None end.
Definition osum (l : list (option R)) : option R := fold_right oadd (Some 0) l.
Definition dual_cost (g : gpdata R) (la : list R) (by_posy : list (list R)) : option R :=
  osum (map (fun pm => let '(p, mi) := pm in
               if Reqb (nth p la 0) 0 then Some 0
               else osum (map (fun cn => dual_term (fst cn) (snd cn) (nth p la 0))
                              (combine (slice (g_cs g) mi) (nth p by_posy []))))
            (enumerate (g_midxs g))).

(** [A.T.dot(nu)] *)
Definition coo_tdot (coo : list (nat * nat * R)) (y : nat -> R) (j : nat) : R :=
  fold_left (fun acc t => acc + snd t * y (fst (fst t))) (List.filter (fun t => Nat.eqb (snd (fst t)) j) coo) 0.

(** The exceptions of [check_solution], in order. *)
Inductive check :=
| ChkOk | ChkCostMismatch | ChkViolated | ChkNuSum | ChkNegative | ChkResidual | ChkDualMismatch.

(** [check_solution] (gp.py:347-400) *)
Definition check_solution (g : gpdata R) (cost : R) (primal nu la : list R) (by_posy : list (list R))
    (tol abstol : R) : check :=
  let vals := map (fun i => nth i (g_cs g) 0 * exp (prow g primal i)) (seq 0 (length (g_cs g))) in
  match g_midxs g with
  | [] => ChkCostMismatch (* not reached: there always is a cost *)
  | m0 :: mis =>
      if negb (almost_equal tol abstol (total (slice vals m0)) cost) then ChkCostMismatch
      else if existsb (fun mi => Rltb (1 + tol) (total (slice vals mi))) mis then ChkViolated
      else if negb (almost_equal tol abstol (total (nth 0 by_posy [])) 1) then ChkNuSum
      else if existsb (fun n => Rltb n 0) nu && existsb (fun n => Rltb n (- tol / 1000)) nu then ChkNegative
      else if existsb (fun j => Rltb tol (Rabs (coo_tdot (g_coo g) (fun i => nth i nu 0) j)))
                      (seq 0 (snd (coo_shape (g_coo g)))) then ChkResidual
      else match dual_cost g la by_posy with
           | Some d => if almost_equal tol abstol (exp d) cost then ChkOk else ChkDualMismatch
           | None => ChkDualMismatch
           end
  end.
