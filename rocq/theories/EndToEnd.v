(** Model of solving a geometric program from its constraints as written: making constraints (gpkit/nomials/math.py:405-464, 505-542),
    building the program (gpkit/constraints/gp.py:73-95, 120-162), handing it to a solver (189-210) and packing the result (287-296). *)
From Verif Require Import Base HashVec Nomial Sub Mono Constraint GPGen Solvers.
Open Scope R_scope.

(** [left <= right], [left >= right] and [left == right] *)
Inductive written := Ineq (left : hmap R) (op : oper) (right : hmap R) | Equal (left right : hmap R).
(** The constraint objects that are made of them (PosynomialInequality, MonomialEquality), outside SignomialsEnabled *)
Definition make (w : written) : res (constr R) :=
  match w with
  | Ineq l op r => rmap (CPosy (CS None None)) (posy_ineq false l op r)
  | Equal l r => rmap (CMeq (CS None None)) (meq_unsubbed false l r)
  end.
Fixpoint make_all (ws : list written) : res (list (constr R)) :=
  match ws with
  | [] => Ok []
  | w :: ws' => let! c := make w in let! cs := make_all ws' in Ok (c :: cs)
  end.

(** [A.tocsr()] (small_classes.py:57-60), by rows; [A.shape[1]] *)
Definition row_of (g : gpdata R) (i : nat) : row := map (fun t => (snd (fst t), snd t)) (coo_row (g_coo g) i).
Definition matrix_of (g : gpdata R) : matrix := map (row_of g) (seq 0 (length (g_cs g))).
Definition columns (g : gpdata R) : nat := snd (coo_shape (g_coo g)).

(** A solver's [optimize]: c, A, k, p_idxs, meq_idxs.all, meq_idxs.first_half and A.shape[1] go in; the objective, the primal solution
    and multipliers come out. *)
Definition optimizer := list R -> matrix -> list nat -> list nat -> list nat -> list nat -> nat -> res (R * list R * list R).

(** [GeometricProgram(cost, constraints, substitutions).solve()] with bounds unchecked: the result's cost and variables. Sensitivities are
    left out (Sens.v is about them), and so are exceptions' messages (Solve.v). *)
Definition solve (inf : R) (pick : hmap R -> schedule) (ord : var_order R) (optimize : optimizer) (fixed : gmap nat R)
    (cost : hmap R) (ws : list written) : res (R * gmap nat R) :=
  let! cs := make_all ws in
  let! hmaps := gp_hmaps inf pick false fixed cost cs in
  let g := gen ord hmaps in
  match optimize (g_cs g) (matrix_of g) (g_k g) (g_pidxs g) (g_all g) (g_first g) (columns g) with
  | Err e => Err e
  | Ok (c, x, _) =>
      if decide (length (g_varlocs g) = length x)
      then Ok (c, fixed ∪ list_to_map (combine (dkeys (g_varlocs g)) (map exp x)))
      else Err RuntimeWarningE   (* "The primal solution was not returned." *)
  end.

(** The interfaces to CVXOPT and to MOSEK *)
Definition cvxopt (gp : cvx -> res cvx_out) (use_leqs : bool) : optimizer :=
  fun c A k _ all first m => cvx_optimize gp c A k all first use_leqs (m - 1).
Definition mosek_conif (task : conic -> msk_out) : optimizer := fun c A k p_idxs _ _ m => msk_optimize task c A k p_idxs m.
