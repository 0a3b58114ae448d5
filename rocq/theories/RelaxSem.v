(** Specification vocabulary for relaxed and bounded sets. *)
From Verif Require Import Base HashVec Nomial NomialSem Sub Mono Constraint ConstraintSem Flat Relax.
Open Scope R_scope.

(** A point satisfies every constraint found anywhere in a nested set. *)
Definition holds_set (env : point) (l : list (item (eqn R))) : Prop :=
  forall p left op right, at_path l p = Some (Leaf (left, op, right)) -> holds env left op right.

(** A point has the values substituted. *)
Definition agrees (env : point) (subs : list (nat * R)) : Prop :=
  forall k v, dget subs k = Some v -> env k = v.

(** A variable occurs nowhere in a set. *)
Definition absent (l : list (item (eqn R))) (k : nat) : Prop :=
  forall p left op right, at_path l p = Some (Leaf (left, op, right)) -> in_vks left k = false /\ in_vks right k = false.

(** Which constants are to be relaxed: not zero, named by [include_only] unless that is
    empty, and not named by [exclude]. *)
Definition chosen (name : nat -> nat) (include_only exclude : list nat) (k : nat) (v : R) : Prop :=
  v <> 0 /\ (include_only = [] \/ In (name k) include_only) /\ ~ In (name k) exclude.

(** The variables made for the constants are new: none is a constant, has a substitution, or is made twice. *)
Definition fresh (rk ok : nat -> nat) (subs constants : list (nat * R)) : Prop :=
  (forall k k', In k (dkeys constants) -> In k' (dkeys constants) -> ok k = ok k' -> k = k') /\
  (forall k k', In k (dkeys constants) -> In k' (dkeys constants) -> rk k <> ok k') /\
  (forall k, In k (dkeys constants) -> ~ In (ok k) (dkeys subs) /\ ~ In (rk k) (dkeys subs)).

(** A box around the free variables. *)
Definition in_box (lo up : R) (free : nat -> Prop) (env : point) : Prop := forall k, free k -> lo <= env k <= up.
