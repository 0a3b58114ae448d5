(** Specification vocabulary for the iterates of a sequential geometric program
    (C36): what a solver is given, which points it may return, and when a point
    satisfies a signomial constraint. Numbers are of any kind, so that concrete
    programs can be run over the rationals. *)
From Verif Require Import Base HashVec Nomial Sub Mono Constraint GPGen SGP SGPSem.

Open Scope nat_scope.

Section Iterates.
Context {T : Type} `{Num T}.

Definition total (l : list T) : T := fold_right nadd n0 l.
Definition product (l : list T) : T := fold_right nmul n1 l.

(** ** The geometric program a solver is given *)

(** The value of row [i] at the point whose coordinates, by column, are [vals]:
    the coefficient times the variables to the powers in that row of the matrix. *)
Definition row_at (g : gpdata T) (vals : list T) (i : nat) : T :=
  nmul (nth i (g_cs g) n0)
       (product (map (fun t => npow (nth (snd (fst t)) vals n1) (snd t)) (coo_row (g_coo g) i))).

(** The value of posynomial [p]: the sum of its rows, those with [p_idxs[i] = p]. *)
Definition posy_at (g : gpdata T) (vals : list T) (p : nat) : T :=
  total (map (row_at g vals) (List.filter (fun i => nth i (g_pidxs g) 0 =? p) (seq 0 (length (g_pidxs g))))).

(** A value for each column, all positive, and every posynomial but the first
    at most 1. *)
Definition gp_feasible (g : gpdata T) (vals : list T) : Prop :=
  length vals = length (g_varlocs g) /\ (forall x, In x vals -> nltb n0 x = true) /\
  forall p, 1 <= p < length (g_k g) -> nleb (posy_at g vals p) n1 = true.

(** A true optimum: feasible, and with the least cost of all feasible points. *)
Definition gp_optimum (g : gpdata T) (vals : list T) (cost : T) : Prop :=
  gp_feasible g vals /\ cost = posy_at g vals 0 /\
  forall vals', gp_feasible g vals' -> nleb cost (posy_at g vals' 0) = true.

(** A solver that returns true optima, when it returns. *)
Definition optimal_solver (solver : solver_fn T) : Prop :=
  forall n g vals cost, solver n g = Ok (vals, cost) -> gp_optimum g vals cost.

(** ** The original constraints *)

(** The value of a term [c * x1^a1 * x2^a2 * ...]. *)
Definition term_at (env : nat -> T) (t : gmap nat T * T) : T :=
  nmul (snd t) (product (map (fun kx => npow (env (fst kx)) (snd kx)) (map_to_list (fst t)))).

(** The two sides of [siglt0 <= 0]: the terms with positive coefficients, and
    those with negative coefficients moved to the other side. *)
Definition lesser_side (env : nat -> T) (h : hmap T) : T :=
  total (map (fun t => if nltb n0 (snd t) then term_at env t else n0) h).
Definition greater_side (env : nat -> T) (h : hmap T) : T :=
  total (map (fun t => if nltb (snd t) n0 then nopp (term_at env t) else n0) h).

(** [a <= b], up to a relative tolerance. *)
Definition at_most (tol a b : T) : Prop := nleb a (nmul (nadd n1 tol) b) = true.

(** A point satisfies a signomial inequality or equality. Constraints of other
    kinds are not considered. *)
Definition meets (tol : T) (env : nat -> T) (c : sp_constr T) : Prop :=
  match c with
  | SPc (CSig h) => at_most tol (lesser_side env h) (greater_side env h)
  | SPeq h => at_most tol (lesser_side env h) (greater_side env h) /\
              at_most tol (greater_side env h) (lesser_side env h)
  | _ => True
  end.
Definition inequality (c : sp_constr T) : Prop := match c with SPeq _ => False | _ => True end.

(** ** Points of a solution *)

(** A point with the values of a solution: the substituted value where there is
    one, that of its column if the variable has one, and any positive value for
    a variable that is neither substituted nor in the program. *)
Definition solution_point (fixed : gmap nat T) (s : solved T) (env : nat -> T) : Prop :=
  (forall k, nltb n0 (env k) = true) /\
  (forall k v, fixed !! k = Some v -> env k = v) /\
  (forall j k, dkeys (g_varlocs (sg_gp (so_sgp s))) !! j = Some k -> fixed !! k = None ->
     so_vals s !! j = Some (env k)).

(** ** Conditions on a run *)

(** The history of solves [localsolve] made, whether it returned or raised. *)
Definition made (out : outcome T) (hist : list (solved T)) : Prop :=
  out = Returned hist \/ exists e, out = Raised e hist.

(** Each program solved has posynomials with as many terms as if it were built
    anew around the same point. *)
Definition always (build : gmap nat T -> res (sgp T)) (ok : sgp T -> sgp T -> Prop) (hist : list (solved T)) : Prop :=
  forall s f, In s hist -> build (sg_x0 (so_sgp s)) = Ok f -> ok (so_sgp s) f.

(** Dividing a posynomial by a monomial, term by term and in place, no quotient
    equals a term still to be divided. *)
Definition clean_division (p : hmap T) (m : gmap nat T) : Prop :=
  forall i j ei ci ej cj, i < j -> p !! i = Some (ei, ci) -> p !! j = Some (ej, cj) -> exp_sub ei m <> ej.

(** So it is for the divisions made of the signomial constraints: of the
    positive part by the approximation of the negative part around each point
    visited, and by the negative part itself if it is one term. *)
Definition clean (inf : T) (pick : gmap nat T -> hmap T -> schedule) (vks_of : hmap T -> list nat) (se : bool)
    (fixed : gmap nat T) (cs : list (sp_constr T)) (hist : list (solved T)) : Prop :=
  forall h, In (SPc (CSig h)) cs ->
  (forall s me mc, In s hist ->
     let negy := snd (posy_negy h) in
     let x0 := x0_of (sg_x0 (so_sgp s)) (vks_of negy) in
     mono_approx inf x0 (pick x0) se negy (vks_of negy) = Ok [(me, mc)] -> clean_division (fst (posy_negy h)) me) /\
  (forall st me mc, nm_sub inf fixed h (pick fixed h) = Ok st ->
     snd (posy_negy (s_cp st)) = [(me, mc)] -> clean_division (fst (posy_negy (s_cp st))) me).

(** Every column of a variable of a signomial constraint is among the variables
    whose values later approximations are made around ([sgpvks]). *)
Definition columns_listed (cs : list (sp_constr T)) (s : sgp T) : Prop :=
  forall k, In k (dkeys (g_varlocs (sg_gp s))) -> sp_var cs k -> In k (sg_vks s).

(** The cost and the posynomials compared with 1 are collected. *)
Definition posys_proper (cost : hmap T) (cs : list (sp_constr T)) : Prop :=
  collected cost /\
  forall st us u, In (SPc (CPosy st us)) cs \/ In (SPc (CMeq st us)) cs -> In u us -> collected u.

(** The starting point gives no value to a substituted variable. *)
Definition apart (x0 fixed : gmap nat T) : Prop := forall k, x0 !! k <> None -> fixed !! k = None.
End Iterates.
