(** Properties C12-C13: monomial approximation; and the canonical form of
    derivatives (C04, C07).
    Specification vocabulary: NomialSem.v, SubSem.v. *)
From Verif Require Import Base HashVec Nomial NomialSem NomialProofs CanonProofs DiffProofs
  Sub SubSem SubProofs SubExtra Mono MonoProofs.
Open Scope R_scope.

Theorem C07_diff_canonical : forall (h : hmap R) (x : nat), canonical h -> canonical (nm_diff h x).
Proof. exact diff_canonical. Qed.
Print Assumptions C07_diff_canonical.

(** What a call [p.mono_approximation(x0)] supplies: positive values for all
    variables of [p], some iteration order of [p.vks], and some iteration order
    inside every [sub]. The point itself is [x0] extended by 1 elsewhere. *)
Definition expansion_ok (h : hmap R) (x0 : gmap nat R) (pick : hmap R -> schedule) (vks : list nat) : Prop :=
  canonical h /\ h <> [] /\
  (forall k v, x0 !! k = Some v -> 0 < v) /\ (forall k, in_vks h k = true -> x0 !! k <> None) /\
  (forall h', valid_schedule x0 h' (pick h')) /\ NoDup vks /\ (forall k, In k vks <-> in_vks h k = true).
Definition at_point (x0 : gmap nat R) : point := override (fun _ => 1) x0.

(** ** C12 *)
Theorem C12_mono_approximation_exists :
  forall (inf : R) (se : bool) (h : hmap R) (x0 : gmap nat R) (pick : hmap R -> schedule) (vks : list nat),
  expansion_ok h x0 pick vks -> eval (at_point x0) h <> 0 -> 0 < eval (at_point x0) h \/ se = true ->
  exists e c, mono_approx inf x0 pick se h vks = Ok [(e, c)] /\ exp_canon e.
Proof.
  intros inf se h x0 pick vks (H1 & H2 & H3 & H4 & H5 & H6 & H7) H8 H9.
  exact (mono_approx_total inf x0 pick se h vks H1 H2 H3 H4 H5 H6 H7 H8 H9).
Qed.
Print Assumptions C12_mono_approximation_exists.

(** Same value and same partial derivatives at the point. *)
Theorem C12_mono_approximation_tangent :
  forall (inf : R) (se : bool) (h m : hmap R) (x0 : gmap nat R) (pick : hmap R -> schedule) (vks : list nat),
  expansion_ok h x0 pick vks -> eval (at_point x0) h <> 0 ->
  mono_approx inf x0 pick se h vks = Ok m ->
  eval (at_point x0) m = eval (at_point x0) h /\
  forall k, exists d,
    derivable_pt_lim (fun t => eval (upd (at_point x0) k t) h) (at_point x0 k) d /\
    derivable_pt_lim (fun t => eval (upd (at_point x0) k t) m) (at_point x0 k) d.
Proof.
  intros inf se h m x0 pick vks (H1 & H2 & H3 & H4 & H5 & H6 & H7) H8 H9.
  exact (mono_approx_tangent inf x0 pick se h vks m H1 H2 H3 H4 H5 H6 H7 H8 H9).
Qed.
Print Assumptions C12_mono_approximation_tangent.

(** ** C13 *)
Theorem C13_mono_lower_bound :
  forall (inf : R) (se : bool) (h m : hmap R) (x0 : gmap nat R) (pick : hmap R -> schedule) (vks : list nat),
  expansion_ok h x0 pick vks -> all_positive h ->
  mono_approx inf x0 pick se h vks = Ok m ->
  forall env, positive_point env -> 0 < eval env m <= eval env h.
Proof.
  intros inf se h m x0 pick vks (H1 & H2 & H3 & H4 & H5 & H6 & H7) Hp H9.
  exact (mono_approx_lower inf x0 pick se h vks m H1 H2 Hp H3 H4 H5 H6 H7 H9).
Qed.
Print Assumptions C13_mono_lower_bound.

(** *** A case: [2*x*y + 3] about x = 5, y = 7. *)
Example C12_nonvacuous :
  let h : hmap R := [(list_to_map [(0%nat, 1); (1%nat, 1)], 2); (∅, 3)] in
  let x0 : gmap nat R := list_to_map [(0%nat, 5); (1%nat, 7)] in
  expansion_ok h x0 (std_schedule x0) [1%nat; 0%nat] /\ all_positive h.
Proof.
  cbn zeta. split; [|intros e c [[= <- <-]|[[= <- <-]|[]]]; lra].
  split; [split|].
  { apply NoDup_ListNoDup. cbn [dkeys map fst]. repeat constructor; cbn [In]; intros Hin; repeat destruct Hin as [Hin|Hin]; auto.
    apply (f_equal (fun e : gmap nat R => e !! 0%nat)) in Hin. discriminate. }
  { intros e c [[= <- <-]|[[= <- <-]|[]]]; (split; [|lra]); intros k x Hk.
    - apply (elem_of_list_to_map_2 [(0%nat, 1); (1%nat, 1)]), elem_of_list_In in Hk. destruct Hk as [[= <- <-]|[[= <- <-]|[]]]; lra.
    - rewrite lookup_empty in Hk. discriminate. }
  split; [discriminate|]. split.
  { intros k v Hk. apply elem_of_list_to_map_2, elem_of_list_In in Hk.
    destruct Hk as [[= <- <-]|[[= <- <-]|[]]]; lra. }
  assert (V : forall k, in_vks (T := R) [(list_to_map [(0%nat, 1); (1%nat, 1)], 2); (∅, 3)] k = true <-> k = 0%nat \/ k = 1%nat).
  { intros k. unfold in_vks. cbn [existsb fst list_to_map fold_right foldr uncurry]. rewrite lookup_empty. destruct k as [|[|k]].
    - split; auto.
    - split; auto.
    - rewrite !lookup_insert_ne by lia. rewrite lookup_empty. cbn. split; [discriminate|lia]. }
  split; [intros k Hk; apply V in Hk as [->| ->]; discriminate|].
  split; [intros h'; apply std_schedule_valid|].
  split; [apply NoDup_ListNoDup; repeat constructor; cbn; intuition lia|].
  intros k. rewrite V. cbn. intuition.
Qed.

Example C12_computed : (* x^2 + x^4 about x = 1 is 2*x^3 *)
  let h : hmap Q := [({[0%nat := 2%Q]}, 1%Q); ({[0%nat := 4%Q]}, 1%Q)] in
  let x0 : gmap nat Q := {[0%nat := 1%Q]} in
  rmap items (mono_approx 0%Q x0 (std_schedule x0) false h [0%nat]) = Ok [([(0%nat, 3%Q)], 2%Q)].
Proof. vm_compute. reflexivity. Qed.
