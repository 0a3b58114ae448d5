(** What is expected of the reports about a solution, in words of magnitudes, means and tolerances. *)
From Verif Require Import Base Report.
Open Scope R_scope.

(** A number of a value, and its magnitude *)
Definition number_of (v : value R) (x : R) : Prop := In (Some x) (cells v).
(** All elements of a value are numbers. *)
Definition complete (v : value R) : Prop := cells v <> [] /\ forall c, In c (cells v) -> c <> None.
(** Too small to be shown. *)
Definition small (x : R) : Prop := Rabs x <= 1 / 1000.

(** ** What printing may change *)
Definition element_kept (c c' : option R) : Prop := c' = c \/ (c' = None /\ exists x, c = Some x /\ small x).
Definition value_kept (v v' : value R) : Prop :=
  match v, v' with
  | One c, One c' => c' = c
  | Many cs, Many cs' => Forall2 element_kept cs cs'
  | _, _ => False
  end.
(** No array has both elements that are too small and others that are not. *)
Definition unmixed (sens : table R) : Prop :=
  forall k cs x y, In (k, Many cs) sens -> In (Some x) cs -> In (Some y) cs -> small x -> small y.

(** ** The largest sensitivities *)
(** [m] is the mean magnitude of the elements of [v]. *)
Definition mean_magnitude (v : value R) (m : R) : Prop :=
  exists xs, cells v = map Some xs /\ xs <> [] /\ m * INR (length xs) = fold_right Rplus 0 (map Rabs xs).
(** How many are to be listed, if [shown] are in another table already: that many less, but three if there are as many. *)
Definition room (nvars shown : Z) : Z := if (nvars <=? 3)%Z then nvars else Z.max 3 (nvars - shown).

Record top_ok (sens : table R) (showvars : list nat) (nvars : Z) (top : table R) (shown : list nat) : Prop := {
  top_values : forall k v, In (k, v) top -> In (k, v) sens /\ ~ In k showvars;
  top_distinct : NoDup (map fst top);
  top_shown : NoDup shown /\ forall k, In k shown <-> In k showvars /\ In k (map fst sens);
  top_number : (Z.of_nat (length top) <= room nvars (Z.of_nat (length shown)))%Z;
  top_full : (Z.of_nat (length top) < room nvars (Z.of_nat (length shown)))%Z ->
    forall k v, In (k, v) sens -> ~ In k showvars -> In (k, v) top;
  top_largest : forall k v m k' v' m', In (k, v) top -> In (k', v') sens -> ~ In k' showvars -> ~ In (k', v') top ->
    mean_magnitude v m -> mean_magnitude v' m' -> m' <= m }.

(** ** Almost equal *)
Definition close (reltol x y : R) : Prop := x = y \/ Rabs (x - y) < reltol * Rabs y.
Definition same_variables (s o : solution R) : Prop := forall k, In k (map fst (s_vars s)) <-> In k (map fst (s_vars o)).
Definition numbers_close (ok : R -> R -> Prop) (d d' : table R) : Prop :=
  forall k v v', In (k, v) d -> In (k, v') d' -> exists x y, v = One (Some x) /\ v' = One (Some y) /\ ok x y.
Definition alike (reltol abstol : R) (s o : solution R) : Prop :=
  same_variables s o /\ numbers_close (close reltol) (s_vars s) (s_vars o) /\
  numbers_close (fun x y => Rabs (x - y) < abstol) (s_senss s) (s_senss o).
(** A solution's dictionaries: sensitivities are there for the variables. *)
Definition solution_wf (s : solution R) : Prop :=
  NoDup (map fst (s_vars s)) /\ NoDup (map fst (s_senss s)) /\ forall k, In k (map fst (s_vars s)) <-> In k (map fst (s_senss s)).
Definition all_scalars (d : table R) : Prop := forall k v, In (k, v) d -> exists x, v = One (Some x).
Definition scalars (s : solution R) : Prop := all_scalars (s_vars s) /\ all_scalars (s_senss s).
