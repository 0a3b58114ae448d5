(** What it means to solve a model, in terms of its constraints as written. *)
From Verif Require Import Base HashVec Nomial NomialSem Sub SubSem Mono Constraint ConstraintSem GPGen Solvers SolversSpec EndToEnd.
Open Scope R_scope.

Definition holds_at (q : point) (w : written) : Prop :=
  match w with Ineq l op r => holds q l op r | Equal l r => eval q l = eval q r end.
(** A point with positive values, substituted ones where there are substitutions, at which all constraints hold *)
Definition meets (fixed : gmap nat R) (ws : list written) (q : point) : Prop :=
  positive_point q /\ (forall k v, fixed !! k = Some v -> q k = v) /\ Forall (holds_at q) ws.

(** Constraints that belong in a geometric program. The last part of the first case excludes the fault in C18. *)
Definition geometric (w : written) : Prop :=
  match w with
  | Ineq l op r => op <> OpEq /\ is_posy (lesser l op r) /\ is_mono (greater l op r) /\
                   forall e c, greater l op r = [(e, c)] -> no_clash (lesser l op r) e
  | Equal l r => is_mono l /\ is_mono r
  end.

(** A constraint whose sides are in a ratio that doesn't depend on free variables, and is at most 1 or a little more *)
Definition constant_ratio (fixed : gmap nat R) (w : written) : Prop :=
  exists c, c <= 1 + tolerance /\
    match w with
    | Ineq l op r => forall q, positive_point q -> (forall k v, fixed !! k = Some v -> q k = v) -> eval q (lesser l op r) = c * eval q (greater l op r)
    | Equal l r => / c <= 1 + tolerance /\ forall q, positive_point q -> (forall k v, fixed !! k = Some v -> q k = v) -> eval q l = c * eval q r
    end.
(** A point at which constraints hold, except that such constants may be out by the tolerance *)
Definition nearly_meets (fixed : gmap nat R) (ws : list written) (q : point) : Prop :=
  positive_point q /\ (forall k v, fixed !! k = Some v -> q k = v) /\ Forall (fun w => holds_at q w \/ constant_ratio fixed w) ws.

(** A point that has these values *)
Definition shows (q : point) (vs : gmap nat R) : Prop := forall k v, vs !! k = Some v -> q k = v.

(** A solver that, given the arrays of a GP (SolversSpec.v), returns an optimum of it or fails *)
Definition pt (l : list R) (j : nat) : R := List.nth j l 0.
Definition honest (optimize : optimizer) : Prop :=
  forall ps all first m, proper ps -> meq_pairs ps all first -> bounded_columns ps m -> (0 < m)%nat ->
  match optimize (c_of ps) (A_of ps) (k_of ps) (p_of ps) all first m with
  | Ok (c, x, _) => length x = m /\ best (gp_feasible ps) (gp_cost ps) (pt x) /\ c = gp_cost ps (pt x)
  | Err _ => True
  end.
(** It fails on a GP that has an optimum *)
Definition fails (optimize : optimizer) (e : exn) : Prop :=
  exists ps all first m, proper ps /\ meq_pairs ps all first /\ bounded_columns ps m /\ (0 < m)%nat /\
  (exists x, best (gp_feasible ps) (gp_cost ps) x) /\ optimize (c_of ps) (A_of ps) (k_of ps) (p_of ps) all first m = Err e.
