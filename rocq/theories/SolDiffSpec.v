(** What a diff of two solutions should show. *)
From Coq Require Import Reals.
From Verif Require Import Base SolDiff.
Open Scope nat_scope.
Local Open Scope list_scope.

(** [c] has, element by element, what [f] makes of [a] and [b]; a number counts for every element of an array. *)
Inductive elementwise {A B C} (f : A -> B -> C) : arr A -> arr B -> arr C -> Prop :=
  | ew_num x y : elementwise f (Scal x) (Scal y) (Scal (f x y))
  | ew_left x lb lc : length lb = length lc -> (forall i b c, lb !! i = Some b -> lc !! i = Some c -> elementwise f (Scal x) b c) ->
      elementwise f (Scal x) (Arr lb) (Arr lc)
  | ew_right y la lc : length la = length lc -> (forall i a c, la !! i = Some a -> lc !! i = Some c -> elementwise f a (Scal y) c) ->
      elementwise f (Arr la) (Scal y) (Arr lc)
  | ew_arr la lb lc : length la = length lc -> length lb = length lc ->
      (forall i a b c, la !! i = Some a -> lb !! i = Some b -> lc !! i = Some c -> elementwise f a b c) -> elementwise f (Arr la) (Arr lb) (Arr lc).
(** Arrays of the same shape, or a number and an array *)
Inductive same_shape {A B} : arr A -> arr B -> Prop :=
  | ss_num x y : same_shape (Scal x) (Scal y)
  | ss_arr la lb : length la = length lb -> (forall i a b, la !! i = Some a -> lb !! i = Some b -> same_shape a b) -> same_shape (Arr la) (Arr lb).
Definition comparable {A B} (a : arr A) (b : arr B) : Prop := same_shape a b \/ (exists x, a = Scal x) \/ (exists y, b = Scal y).

(** Differences, in percent of the baseline and absolute *)
Definition percent (x y : R) : ext R := Val (100 * (x / y - 1))%R.
Definition delta (x y : R) : ext R := Val (x - y)%R.
(** A difference beyond the tolerance *)
Definition exceeds (tol : R) (c : ext R) : Prop := match c with Val x => (tol < Rabs x)%R | Inf _ => True | Nan => False end.
(** The first is at most as large as the second. *)
Definition at_most (c d : ext R) : Prop := match c, d with Val x, Val y => (Rabs x <= Rabs y)%R | Val _, Inf _ | Inf _, Inf _ => True | _, _ => False end.
(** In tables, elements of arrays that are not beyond a tolerance, other than zero, are left out. *)
Definition cell_shown (tol : R) (c c' : ext R) : Prop :=
  (exceeds tol c \/ tol = 0%R -> c' = c) /\ (~ exceeds tol c -> tol <> 0%R -> c' = Nan).
Inductive shown_as (tol : R) : arr (ext R) -> arr (ext R) -> Prop :=
  | sa_num c c' : cell_shown tol c c' -> shown_as tol (Scal c) (Scal c')
  | sa_arr l l' : length l = length l' -> (forall i v v', l !! i = Some v -> l' !! i = Some v' -> shown_as tol v v') -> shown_as tol (Arr l) (Arr l').

(** The variable is shown, and has these values in the two solutions. *)
Definition shared (opts : options R) (s o : solution R) (k : nat) : Prop :=
  dget (vars s) k <> None /\ dget (vars o) k <> None /\ (showvars opts = [] \/ In k (showvars opts)).
(** A section about [f] of what the variables have in [s] and [o]: it has a row for each variable with a difference beyond the tolerance, and for no other;
    without rows, it gives a largest difference. *)
Definition section_right (f : R -> R -> ext R) (tol : R) (vs : nat -> Prop) (s o : list (nat * arr R)) (sec : section R) : Prop :=
  NoDup (map fst (s_rows sec)) /\
  (forall k v, In (k, v) (s_rows sec) <->
     vs k /\ exists a b d, dget s k = Some a /\ dget o k = Some b /\ elementwise f a b d /\ (exists c, In c (cells d) /\ exceeds tol c) /\ shown_as tol d v) /\
  (s_rows sec <> [] -> s_largest sec = None) /\
  (s_rows sec = [] -> (exists k, vs k) -> exists c, s_largest sec = Some c /\
     (exists k a b d, vs k /\ dget s k = Some a /\ dget o k = Some b /\ elementwise f a b d /\ In c (cells d)) /\
     (forall k a b d c', vs k -> dget s k = Some a -> dget o k = Some b -> elementwise f a b d -> In c' (cells d) -> at_most c' c)).
Definition asked (tol : option R) (f : R -> R -> ext R) (vs : nat -> Prop) (s o : list (nat * arr R)) (sec : option (section R)) : Prop :=
  match tol, sec with
  | None, None => True
  | Some t, Some sec => section_right f t vs s o sec
  | _, _ => False
  end.
Definition right_report (opts : options R) (s o : solution R) (r : report R) : Prop :=
  (forall k, In k (only_self r) <-> dget (vars s) k <> None /\ dget (vars o) k = None /\ (showvars opts = [] \/ In k (showvars opts))) /\
  (forall k, In k (only_other r) <-> dget (vars o) k <> None /\ dget (vars s) k = None /\ (showvars opts = [] \/ In k (showvars opts))) /\
  asked (reltol opts) percent (shared opts s o) (vars s) (vars o) (r_rel r) /\
  asked (abstol opts) delta (shared opts s o) (vars s) (vars o) (r_abs r) /\
  asked (sensstol opts) delta (shared opts s o) (senss s) (senss o) (r_senss r).

(** ** Conditions *)
(** In each, shown variables have values that can be compared, and are not arrays without elements. *)
Definition comparable_at (vs : nat -> Prop) (s o : list (nat * arr R)) : Prop :=
  forall k, vs k -> exists a b, dget s k = Some a /\ dget o k = Some b /\ comparable a b /\ cells a <> [] /\ cells b <> [].
(** No element is zero. *)
Definition no_zeros (vs : nat -> Prop) (o : list (nat * arr R)) : Prop :=
  forall k b, vs k -> dget o k = Some b -> ~ In 0%R (cells b).
