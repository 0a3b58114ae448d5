(** Specification vocabulary for sensitivities. *)
From Verif Require Import Base HashVec Nomial NomialSem SubSem.
Open Scope R_scope.

(** [d] is the derivative of [log f] with respect to the log of variable [k],
    at the point [p]. *)
Definition log_deriv (f : point -> R) (p : point) (k : nat) (d : R) : Prop :=
  derivable_pt_lim (fun s => ln (f (upd p k (p k * exp s)))) 0 d.

(** The value of one term. *)
Definition term_val (p : point) (t : expv R * R) : R := snd t * mono_val p (fst t).

(** The terms of [u] all of whose variables are fixed, and the others. *)
Definition constant_terms (fixed : gmap nat R) (u : hmap R) : hmap R :=
  List.filter (fun t => bool_decide (surviving fixed (fst t) = ∅)) u.
Definition free_terms (fixed : gmap nat R) (u : hmap R) : hmap R :=
  List.filter (fun t => negb (bool_decide (surviving fixed (fst t) = ∅))) u.

(** The constraint [u <= 1] after its constant terms have been moved to the
    right and divided out, as a function of all variables: it reads
    [simplified <= 1]. *)
Definition simplified (fixed : gmap nat R) (u : hmap R) (p : point) : R :=
  lsum (term_val p) (free_terms fixed u) / (1 - lsum (term_val p) (constant_terms fixed u)).

(** The duals of the terms of [v] at a point: each term's share of the dual of
    the constraint. *)
Definition dual_shares (la : R) (v : hmap R) (env : point) : list R :=
  map (fun t => la * term_val env t / eval env v) v.

(** A signomial constraint [s <= 0], written as a quotient [<= 1]: the terms that
    become the monomial with exponents [ne] are negated and divide the others. *)
Definition sig_simplified (fixed : gmap nat R) (s : hmap R) (ne : expv R) (p : point) : R :=
  lsum (term_val p) (List.filter (fun t => negb (bool_decide (surviving fixed (fst t) = ne))) s) /
  - lsum (term_val p) (List.filter (fun t => bool_decide (surviving fixed (fst t) = ne)) s).
