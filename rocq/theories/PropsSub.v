(** Properties C09-C11: substitution.
    Specification vocabulary: NomialSem.v, SubSem.v. *)
From Verif Require Import Base HashVec Nomial NomialSem NomialProofs CanonProofs Sub SubSem SubProofs XNum SubExtra.
Open Scope R_scope.

(** ** C09 *)

(** Under every schedule: substitution succeeds, the substituted variables are
    gone, and the result at any point is the original at the overridden point.
    [h] itself is a value, so it is unchanged. *)
Theorem C09_sub_evaluates : forall (inf : R) (h : hmap R) (fixed : gmap nat R) (sched : schedule),
  canonical h -> powers_defined fixed h -> valid_schedule fixed h sched ->
  exists st, nm_sub inf fixed h sched = Ok st /\
    (forall e k v, In e (dkeys (s_cp st)) -> fixed !! k = Some v -> e !! k = None) /\
    (forall env, evalp env (s_cp st) = evalp (override env fixed) h).
Proof.
  intros inf h fixed sched Hc Hp Hv.
  destruct (sub_main inf h fixed (proj1 Hc) Hp sched Hv) as (st & E & _ & Hk & Hev).
  exact (ex_intro _ st (conj E (conj Hk Hev))).
Qed.
Print Assumptions C09_sub_evaluates.

(** For positive substitutions at positive points, in the vocabulary of C03. *)
Theorem C09_sub_evaluates_positive :
  forall (inf : R) (h : hmap R) (fixed : gmap nat R) (sched : schedule) (st : sst R),
  canonical h -> (forall k v, fixed !! k = Some v -> 0 < v) -> valid_schedule fixed h sched ->
  nm_sub inf fixed h sched = Ok st ->
  forall env, positive_point env -> eval env (s_cp st) = eval (override env fixed) h.
Proof.
  intros inf h fixed sched st Hc Hp Hv E env He.
  destruct (sub_main inf h fixed (proj1 Hc) (positive_defined fixed h Hp) sched Hv) as (st' & E' & _ & _ & Hev).
  rewrite <- (evalp_pos _ (s_cp st) He), <- (evalp_pos _ h (override_positive env fixed He Hp)), <- Hev. congruence.
Qed.
Print Assumptions C09_sub_evaluates_positive.

(** No two iteration orders give results the user can tell apart with [==]. *)
Theorem C09_any_order_same_result :
  forall (inf : R) (h : hmap R) (fixed : gmap nat R) (s1 s2 : schedule) (st1 st2 : sst R),
  canonical h -> powers_defined fixed h ->
  valid_schedule fixed h s1 -> valid_schedule fixed h s2 ->
  nm_sub inf fixed h s1 = Ok st1 -> nm_sub inf fixed h s2 = Ok st2 ->
  hmap_eqb (s_cp st1) (s_cp st2) = true.
Proof. exact (fun inf h fixed s1 s2 st1 st2 Hc Hp V1 V2 R1 R2 => sub_order_irrelevant inf h fixed s1 s2 st1 st2 Hc Hp V1 V2 R1 R2). Qed.
Print Assumptions C09_any_order_same_result.

(** The result is again canonical, or is the constant 0. *)
Theorem C09_sub_canonical :
  forall (inf : R) (h : hmap R) (fixed : gmap nat R) (sched : schedule) (st : sst R),
  canonical h -> powers_defined fixed h -> valid_schedule fixed h sched ->
  nm_sub inf fixed h sched = Ok st ->
  canonical (s_cp st) \/ s_cp st = [(e_empty, 0)].
Proof. exact sub_canonical. Qed.
Print Assumptions C09_sub_canonical.

(** *** A case that meets the hypotheses: [2*x*y + 3*x/z + y*z], x and z fixed. *)
Definition ex_sub : hmap R :=
  [(list_to_map [(0%nat, 1); (1%nat, 1)], 2); (list_to_map [(0%nat, 1); (2%nat, -1)], 3); (list_to_map [(1%nat, 1); (2%nat, 1)], 1)].
Definition ex_fixed : gmap nat R := list_to_map [(0%nat, 5); (2%nat, 7)].
Definition ex_sched : schedule := [(2, [2; 1]); (0, [0; 1])]%nat.

Example C09_nonvacuous : canonical ex_sub /\ all_positive ex_sub /\
  (forall k v, ex_fixed !! k = Some v -> 0 < v) /\ powers_defined ex_fixed ex_sub /\
  valid_schedule ex_fixed ex_sub ex_sched.
Proof.
  assert (F : forall k v, ex_fixed !! k = Some v -> 0 < v).
  { intros k v Hk. apply elem_of_list_to_map_2, elem_of_list_In in Hk.
    destruct Hk as [[= <- <-]|[[= <- <-]|[]]]; lra. }
  split; [split|].
  - apply NoDup_ListNoDup. unfold dkeys, ex_sub. cbn [map fst].
    assert (D : forall (a b : gmap nat R) k, a !! k <> None -> b !! k = None -> a <> b)
      by (intros a b k H1 H2 ->; contradiction).
    repeat constructor; cbn [In]; intros Hin; repeat destruct Hin as [Hin|Hin]; auto; revert Hin.
    + apply (D _ _ 2%nat); [discriminate|reflexivity].
    + apply (D _ _ 2%nat); [discriminate|reflexivity].
    + apply (D _ _ 1%nat); [discriminate|reflexivity].
  - intros e c Hin. destruct Hin as [[= <- <-]|[[= <- <-]|[[= <- <-]|[]]]]; (split; [|lra]);
      intros k x Hx; repeat (apply lookup_insert_Some in Hx as [[_ <-]|[_ Hx]]; [lra|]);
      rewrite lookup_empty in Hx; discriminate.
  - split.
    + intros e c Hin. destruct Hin as [[= <- <-]|[[= <- <-]|[[= <- <-]|[]]]]; lra.
    + split; [exact F|]. split; [apply positive_defined; exact F|].
      apply valid_scheduleb_ok. reflexivity.
Qed.

(** ** C10 *)

(** Where the power is defined: 0 for a variable whose exponents are all
    positive removes exactly the terms that contain it. *)
Theorem C10_zero_removes_terms_partial :
  forall (inf : R) (h : hmap R) (k : nat) (sched : schedule),
  canonical h -> (forall e c x, In (e, c) h -> e !! k = Some x -> 0 < x) ->
  valid_schedule {[k := 0]} h sched ->
  exists st, nm_sub inf {[k := 0]} h sched = Ok st /\
    forall e, coef (s_cp st) e = if decide (e !! k = None) then coef h e else 0.
Proof. exact zero_removes. Qed.
Print Assumptions C10_zero_removes_terms_partial.

(** The claim fails for negative exponents: the coefficient is nan, for every
    such term (and the object is then called a Monomial). *)
Theorem C10_zero_negative_exponent_refuted :
  forall (e : expv xnum) (c x : Q) (k : nat),
  e !! k = Some (Fin x) -> (x < 0)%Q ->
  exists st, nm_sub PInf {[k := Fin 0]} [(e, Fin c)] [(k, [0%nat])] = Ok st /\
    s_cp st = [(delete k e, NaN)] /\ classify (s_cp st) = CMonomial.
Proof. exact zero_nan. Qed.
Print Assumptions C10_zero_negative_exponent_refuted.

(** ** C11 *)

(** Full claim, for every posynomial, positive substitution and schedule. *)
Definition C11_claim : Prop :=
  forall (inf : R) (h : hmap R) (fixed : gmap nat R) (sched : schedule) (st : sst R),
  canonical h -> all_positive h -> (forall k v, fixed !! k = Some v -> 0 < v) ->
  valid_schedule fixed h sched -> nm_sub inf fixed h sched = Ok st ->
  fractions_right fixed h (s_cp st) (mmap st).

(** It holds when no two terms become like terms, and when one variable is
    substituted. Missing: substitutions of several variables that merge terms,
    where it is false (next theorem). *)
Theorem C11_fractions_without_merging_partial :
  forall (inf : R) (h : hmap R) (fixed : gmap nat R) (sched : schedule) (st : sst R),
  canonical h -> all_positive h -> (forall k v, fixed !! k = Some v -> 0 < v) ->
  no_like_terms fixed h ->
  valid_schedule fixed h sched -> nm_sub inf fixed h sched = Ok st ->
  fractions_right fixed h (s_cp st) (mmap st).
Proof. exact fractions_no_like. Qed.
Print Assumptions C11_fractions_without_merging_partial.

Theorem C11_fractions_one_variable_partial :
  forall (inf : R) (h : hmap R) (k : nat) (v : R) (sched : schedule) (st : sst R),
  canonical h -> all_positive h -> 0 < v ->
  valid_schedule {[k := v]} h sched -> nm_sub inf {[k := v]} h sched = Ok st ->
  fractions_right {[k := v]} h (s_cp st) (mmap st).
Proof. exact fractions_single. Qed.
Print Assumptions C11_fractions_one_variable_partial.

(** [p = x2*w + x1*y*z + x2*y*z] with x1, x2, y, z all set to 1, variables
    taken in the order x2, x1, y, z (w=0, x1=1, x2=2, y=3, z=4): the constant
    term 2 is attributed half to the second term and to nothing else. *)
Definition bad_posy : hmap Q :=
  [(list_to_map [(2, 1%Q); (0, 1%Q)], 1%Q);
   (list_to_map [(1, 1%Q); (3, 1%Q); (4, 1%Q)], 1%Q);
   (list_to_map [(2, 1%Q); (3, 1%Q); (4, 1%Q)], 1%Q)]%nat.
Definition bad_fixed : gmap nat Q := list_to_map [(1, 1%Q); (2, 1%Q); (3, 1%Q); (4, 1%Q)]%nat.
Definition bad_sched : schedule := [(2, [0; 2]); (1, [1]); (3, [1; 2]); (4, [1; 2])]%nat.

Theorem C11_fractions_lost_refuted :
  valid_schedule bad_fixed bad_posy bad_sched /\
  exists st, nm_sub 0%Q bad_fixed bad_posy bad_sched = Ok st /\
    items (s_cp st) = [([(0%nat, 1%Q)], 1%Q); ([], 2%Q)] /\
    mmap st = [[(0%nat, 1%Q)]; [(1%nat, (1 # 2)%Q)]].
Proof.
  split; [apply valid_scheduleb_ok; vm_compute; reflexivity|].
  eexists. split; [vm_compute; reflexivity|]. split; vm_compute; reflexivity.
Qed.
Print Assumptions C11_fractions_lost_refuted.

(** Cases that meet the hypotheses of the two positive theorems. *)
Example C11_nonvacuous :
  no_like_terms ex_fixed [(list_to_map [(0%nat, 1); (1%nat, 1)], 2); (list_to_map [(0%nat, 1); (3%nat, -1)], 3)] /\
  valid_schedule {[0%nat := 5]} ex_sub [(0, [1; 0])]%nat.
Proof.
  split; [|apply valid_scheduleb_ok; reflexivity].
  intros i j o1 c1 o2 c2 Hi Hj Hs.
  destruct i as [|[|i]], j as [|[|j]]; cbn in Hi, Hj; try discriminate; auto;
    injection Hi as <- <-; injection Hj as <- <-; exfalso;
    apply (f_equal (fun e : gmap nat R => e !! 1%nat)) in Hs; vm_compute in Hs; discriminate.
Qed.

Example C10_nonvacuous : (forall e c x, In (e, c) ex_sub -> e !! 1%nat = Some x -> 0 < x) /\
  valid_schedule {[1%nat := 0]} ex_sub [(1, [2; 0])]%nat.
Proof.
  split; [|apply valid_scheduleb_ok; reflexivity].
  intros e c x Hin Hx. destruct Hin as [[= <- <-]|[[= <- <-]|[[= <- <-]|[]]]];
    vm_compute in Hx; try discriminate; injection Hx as <-; lra.
Qed.
