(** What the problems handed to solvers mean. Nothing here comes from gpkit except the layout of a GP's arrays, as described in the
    docstrings of [optimize] (gpkit/solvers/cvxopt.py:10-40, gpkit/solvers/mosek_conif.py:9-45). *)
From Verif Require Import Base Solvers.
Open Scope R_scope.

Definition sum (l : list R) : R := fold_right Rplus 0 l.
Definition dot (r : row) (x : nat -> R) : R := fold_right (fun ja s => snd ja * x (fst ja) + s) 0 r.

(** A GP in the logarithms [x] of its variables: monomials are a coefficient and exponents, and a posynomial a list of monomials;
    the first posynomial is minimized and the others are to be at most 1. *)
Notation mono := (R * row)%type.
Notation posy := (list mono).
Definition mval (x : nat -> R) (m : mono) : R := fst m * exp (dot (snd m) x).
Definition pval (x : nat -> R) (p : posy) : R := sum (map (mval x) p).
Definition gp_cost (ps : list posy) (x : nat -> R) : R := pval x (hd [] ps).
Definition gp_feasible (ps : list posy) (x : nat -> R) : Prop := Forall (fun p => pval x p <= 1) (tl ps).
(** every posynomial has a monomial, and coefficients are positive *)
Definition proper (ps : list posy) : Prop := ps <> [] /\ Forall (fun p => p <> [] /\ Forall (fun m => 0 < fst m) p) ps.

(** The arrays [c], [A], [k], [p_idxs] *)
Definition c_of (ps : list posy) : list R := map fst (concat ps).
Definition A_of (ps : list posy) : matrix := map snd (concat ps).
Definition k_of (ps : list posy) : list nat := map length ps.
Definition p_of (ps : list posy) : list nat := flat_map (fun ip => repeat (fst ip) (length (snd ip))) (combine (seq 0 (length ps)) ps).

(** there are [m] columns *)
Definition bounded_columns (ps : list posy) (m : nat) : Prop := Forall (Forall (fun mo : mono => Forall (fun ja => (fst ja < m)%nat) (snd mo))) ps.

(** A point that is feasible and at least as good as any other *)
Definition best {X} (feasible : X -> Prop) (cost : X -> R) (x : X) : Prop := feasible x /\ forall x', feasible x' -> cost x <= cost x'.

(** ** CVXOPT's geometric programs *)
Fixpoint chunks {X} (K : list nat) (l : list X) : list (list X) :=
  match K with [] => [] | n :: K' => firstn n l :: chunks K' (skipn n l) end.
Definition lse (x : nat -> R) (b : list (row * R)) : R := ln (sum (map (fun rg => exp (dot (fst rg) x + snd rg)) b)).
Definition cvx_blocks (q : cvx) : list (list (row * R)) := chunks (q_K q) (combine (q_F q) (q_g q)).
Definition cvx_cost (q : cvx) (x : nat -> R) : R := lse x (hd [] (cvx_blocks q)).
Definition rows_hold (rel : R -> R -> Prop) (M : option (matrix * list R)) (x : nat -> R) : Prop :=
  match M with None => True | Some (G, h) => Forall2 (fun r b => rel (dot r x) b) G h end.
Definition cvx_feasible (q : cvx) (x : nat -> R) : Prop :=
  Forall (fun b => lse x b <= 0) (tl (cvx_blocks q)) /\ rows_hold Rle (q_G q) x /\ rows_hold eq (q_A q) x.
(** sizes agree *)
Definition cvx_sizes (q : cvx) : Prop :=
  length (q_F q) = length (q_g q) /\ length (q_F q) = list_sum (q_K q) /\
  (forall M b, q_G q = Some (M, b) -> length M = length b) /\ (forall M b, q_A q = Some (M, b) -> length M = length b).

(** Answers have a multiplier for each inequality and equality. *)
Definition rows_of (M : option (matrix * list R)) : nat := match M with None => 0%nat | Some (G, _) => length G end.
Definition fits (q : cvx) (out : cvx_out) : Prop :=
  S (length (o_znl out)) = length (q_K q) /\ length (o_zl out) = rows_of (q_G q) /\ length (o_y out) = rows_of (q_A q).
(** The Lagrangians of both problems, as functions of the point *)
Definition excess (M : option (matrix * list R)) (vs : list R) (x : nat -> R) : R :=
  match M with None => 0 | Some (G, h) => sum (zip_with (fun v rb => v * (dot (fst rb) x - snd rb)) vs (combine G h)) end.
Definition cvx_lagrangian (q : cvx) (out : cvx_out) (x : nat -> R) : R :=
  cvx_cost q x + sum (zip_with (fun v b => v * lse x b) (o_znl out) (tl (cvx_blocks q))) + excess (q_G q) (o_zl out) x + excess (q_A q) (o_y out) x.
Definition gp_lagrangian (ps : list posy) (la : list R) (x : nat -> R) : R := sum (zip_with (fun v p => v * ln (pval x p)) la ps).

(** The place of posynomial [i]'s first monomial, and what [meq_idxs] means: the monomials of equality constraints come in
    pairs of consecutive posynomials, of which the second is the reciprocal of the first and the cost is neither. *)
Definition place (ps : list posy) (i : nat) : nat := list_sum (firstn i (k_of ps)).
Definition reciprocal (m m' : mono) : Prop := fst m' = / fst m /\ forall x, dot (snd m') x = - dot (snd m) x.
Definition meq_pairs (ps : list posy) (all first : list nat) : Prop :=
  (forall i, (i < length ps)%nat -> place ps i ∈ all -> place ps i ∈ first ->
     exists m m', i <> 0%nat /\ ps !! i = Some [m] /\ ps !! (i + 1)%nat = Some [m'] /\ reciprocal m m' /\
       place ps (i + 1) ∈ all /\ place ps (i + 1) ∉ first) /\
  (forall i, (i < length ps)%nat -> place ps i ∈ all -> place ps i ∉ first ->
     exists i', i = (i' + 1)%nat /\ place ps i' ∈ all /\ place ps i' ∈ first).

(** ** Conic problems *)
Definition within (b : bkey) (v : R) : Prop := match b with Free => True | Fixed a => v = a | Up a => v <= a end.
(** MOSEK's primal exponential cone *)
Definition in_pexp (t0 t1 t2 : R) : Prop := (0 < t1 /\ t1 * exp (t2 / t1) <= t0) \/ (t1 = 0 /\ 0 <= t0 /\ t2 <= 0).
Definition conic_feasible (P : conic) (w : nat -> R) : Prop :=
  (forall i b, m_vars P !! i = Some b -> within b (w i)) /\
  Forall (fun rb => within (snd rb) (dot (fst rb) w)) (m_rows P) /\
  Forall (fun i => in_pexp (w i) (w (i + 1)%nat) (w (i + 2)%nat)) (m_cones P).

(** The same problem with some upper bounds moved: those of the variables after the objective by [dz], and those of the last rows by [dl]. *)
Definition move (b : bkey) (d : R) : bkey := match b with Up a => Up (a + d) | _ => b end.
Definition moved (P : conic) (dz dl : list R) : conic :=
  let nz := S (m_obj P) in
  let nl := (length (m_rows P) - length dl)%nat in
  Conic (firstn nz (m_vars P) ++ zip_with move (skipn nz (m_vars P)) dz)
        (firstn nl (m_rows P) ++ zip_with (fun rb d => (fst rb, move (snd rb) d)) (skipn nl (m_rows P)) dl)
        (m_cones P) (m_obj P).
