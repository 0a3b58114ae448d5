(** Proofs about autosweeps (Autosweep.v), with the specification they are stated in. *)
From Verif Require Import Base Autosweep.
Open Scope R_scope.

(** ** Specification *)

(** A cost that is positive and log-log convex between [lo] and [hi]. *)
Definition convex_cost (f : R -> R) (lo hi : R) : Prop :=
  (forall v, lo <= v <= hi -> 0 < f v) /\
  (forall u v t, lo <= u <= hi -> lo <= v <= hi -> 0 <= t <= 1 ->
     ln (f (exp (t * ln u + (1 - t) * ln v))) <= t * ln (f u) + (1 - t) * ln (f v)).
(** Solutions have that cost, and sensitivities are slopes of lines that touch it from below. *)
Definition solves (f : R -> R) (lo hi : R) (solve : R -> sol) : Prop :=
  forall x, lo <= x <= hi -> s_cost (solve x) = f x /\
    forall v, lo <= v <= hi -> ln (f x) + s_sens (solve x) * (ln v - ln x) <= ln (f v).

(** ** Lines *)

Definition line (x0 y0 x1 y1 u : R) : R := (x1 - u) / (x1 - x0) * y0 + (1 - (x1 - u) / (x1 - x0)) * y1.
Lemma line_slope x0 y0 x1 y1 u : x0 <> x1 -> line x0 y0 x1 y1 u = y0 + (y1 - y0) / (x1 - x0) * (u - x0).
Proof. intros H. unfold line. field. lra. Qed.
Lemma line_left x0 y0 x1 y1 : x0 <> x1 -> line x0 y0 x1 y1 x0 = y0.
Proof. intros H. unfold line. field. lra. Qed.
Lemma line_right x0 y0 x1 y1 : x0 <> x1 -> line x0 y0 x1 y1 x1 = y1.
Proof. intros H. unfold line. field. lra. Qed.
(** Lines between points of a line are that line. *)
Lemma line_split1 x0 y0 x1 y1 x u : x0 < x < x1 -> line x0 y0 x (line x0 y0 x1 y1 x) u = line x0 y0 x1 y1 u.
Proof. intros H. unfold line. field. lra. Qed.
Lemma line_split2 x0 y0 x1 y1 x u : x0 < x < x1 -> line x (line x0 y0 x1 y1 x) x1 y1 u = line x0 y0 x1 y1 u.
Proof. intros H. unfold line. field. lra. Qed.
Lemma line_avg1 x0 y0 x a b u : x0 <> x -> line x0 y0 x ((a + b) / 2) u = (line x0 y0 x a u + line x0 y0 x b u) / 2.
Proof. intros H. unfold line. field. lra. Qed.
Lemma line_avg2 x a b x1 y1 u : x <> x1 -> line x ((a + b) / 2) x1 y1 u = (line x a x1 y1 u + line x b x1 y1 u) / 2.
Proof. intros H. unfold line. field. lra. Qed.

Definition eps : R := 1 / 10000000.

Section Seg.
Variables x0 x1 y0 y1 s0 s1 : R.
Hypothesis Hx : x0 < x1.
Hypothesis H0 : y0 + s0 * (x1 - x0) <= y1.
Hypothesis H1 : y1 + s1 * (x0 - x1) <= y0.
Let chord u := line x0 y0 x1 y1 u.
Let x := (y1 - y0 + x0 * s0 - x1 * s1) / (s0 - s1).

Lemma slopes : s0 <= s1.
Proof. assert (H : 0 <= (s1 - s0) * (x1 - x0)) by lra. destruct (Rle_lt_dec s0 s1); auto. exfalso. assert (0 < (s0 - s1) * (x1 - x0)) by (apply Rmult_lt_0_compat; lra). lra. Qed.

Lemma chord_t0 u : s0 <> s1 -> (chord u - (y0 + s0 * (u - x0))) * (x1 - x0) = (s1 - s0) * (x1 - x) * (u - x0).
Proof. intros Hs. unfold chord, line, x. field. split; lra. Qed.
Lemma chord_t1 u : s0 <> s1 -> (chord u - (y1 + s1 * (u - x1))) * (x1 - x0) = (s1 - s0) * (x - x0) * (x1 - u).
Proof. intros Hs. unfold chord, line, x. field. split; lra. Qed.

(** A nearly straight line. *)
Definition straight : Prop :=
  (forall u, x0 <= u <= x1 -> chord u <= y0 + s0 * (u - x0) + eps * (s1 - s0) * (x1 - x0)) \/
  (forall u, x0 <= u <= x1 -> chord u <= y1 + s1 * (u - x1) + eps * (s1 - s0) * (x1 - x0)).
(** The tangents cross at [x]. *)
Definition crossing (lb ub : R) : Prop :=
  s0 < s1 /\ x0 < x < x1 /\ lb = y0 + s0 * (x - x0) /\ lb = y1 + s1 * (x - x1) /\ ub = chord x /\
  (ub - lb) * (x1 - x0) = (s1 - s0) * (x1 - x) * (x - x0).

Lemma divm a b c : 0 < c -> a * c = b * c -> a = b.
Proof. intros Hc H. apply Rmult_eq_reg_r in H; lra. Qed.
Lemma divl a b c : 0 < c -> a * c <= b * c -> a <= b.
Proof. intros Hc H. apply Rmult_le_reg_r in H; auto. Qed.

Lemma tol_cases :
  (s0 = s1 /\ straight) \/
  (s0 <> s1 /\ let interp := (x1 - x) / (x1 - x0) in
    ((interp < eps \/ 1 - eps < interp) /\ straight) \/
    (~ interp < eps /\ ~ 1 - eps < interp /\ crossing (y0 + s0 * (x - x0)) (y0 * interp + y1 * (1 - interp)))).
Proof.
  destruct (Req_EM_T s0 s1) as [E|E].
  - left. split; auto. left. intros u Hu. rewrite <- E. replace (s0 - s0) with 0 by ring.
    assert (Ey : y1 = y0 + s0 * (x1 - x0)) by (rewrite <- E in H1; lra).
    unfold chord. rewrite line_slope by lra. rewrite Ey. replace ((y0 + s0 * (x1 - x0) - y0) / (x1 - x0)) with s0 by (field; lra). lra.
  - right. split; auto. intros interp. assert (Hs : s0 < s1) by (assert (Hsl := slopes); lra).
    assert (Hi : interp * (x1 - x0) = x1 - x) by (unfold interp; field; lra).
    assert (Hp : 0 < eps) by (unfold eps; lra). assert (Hp2 : eps < 1 / 2) by (unfold eps; lra).
    destruct (Rlt_dec interp eps) as [I1|I1]; [|destruct (Rlt_dec (1 - eps) interp) as [I2|I2]].
    + left. split; auto. left. intros u Hu. assert (C := chord_t0 u E).
      assert (x1 - x <= eps * (x1 - x0)) by (rewrite <- Hi; apply Rmult_le_compat_r; lra).
      apply (divl _ _ (x1 - x0)); [lra|].
      assert ((s1 - s0) * (x1 - x) * (u - x0) <= (s1 - s0) * (eps * (x1 - x0)) * (x1 - x0)).
      { apply Rle_trans with ((s1 - s0) * (eps * (x1 - x0)) * (u - x0)).
        - apply Rmult_le_compat_r; [lra|]. apply Rmult_le_compat_l; lra.
        - apply Rmult_le_compat_l; [|lra]. apply Rmult_le_pos; [lra|]. apply Rmult_le_pos; lra. }
      lra.
    + left. split; auto. right. intros u Hu. assert (C := chord_t1 u E).
      assert (x - x0 <= eps * (x1 - x0)).
      { assert ((1 - eps) * (x1 - x0) <= x1 - x) by (rewrite <- Hi; apply Rmult_le_compat_r; lra). lra. }
      apply (divl _ _ (x1 - x0)); [lra|].
      assert ((s1 - s0) * (x - x0) * (x1 - u) <= (s1 - s0) * (eps * (x1 - x0)) * (x1 - x0)).
      { apply Rle_trans with ((s1 - s0) * (eps * (x1 - x0)) * (x1 - u)).
        - apply Rmult_le_compat_r; [lra|]. apply Rmult_le_compat_l; lra.
        - apply Rmult_le_compat_l; [|lra]. apply Rmult_le_pos; [lra|]. apply Rmult_le_pos; lra. }
      lra.
    + right. split; auto. split; auto.
      assert (Hxi : x0 < x < x1).
      { assert (eps * (x1 - x0) <= x1 - x) by (rewrite <- Hi; apply Rmult_le_compat_r; lra).
        assert (x1 - x <= (1 - eps) * (x1 - x0)) by (rewrite <- Hi; apply Rmult_le_compat_r; lra).
        assert (0 < eps * (x1 - x0)) by (apply Rmult_lt_0_compat; lra). lra. }
      assert (Eu : y0 * interp + y1 * (1 - interp) = chord x) by (unfold interp, chord, line; ring).
      split; auto. split; auto. split; auto. split; [unfold x; field; lra|]. split; auto.
      rewrite Eu. assert (C := chord_t0 x E). lra.
Qed.
End Seg.

(** ** A leaf *)

Lemma interpolate_line lo hi a b v : interpolate lo hi a b v = exp (line (ln lo) (ln a) (ln hi) (ln b) (ln v)).
Proof. reflexivity. Qed.

Section Leaf.
Variables (f : R -> R) (lo hi : R) (solve : R -> sol).
Hypothesis Hlo : 0 < lo.
Hypothesis Hf : convex_cost f lo hi.
Hypothesis Hs : solves f lo hi solve.

(** A segment after [add_splitcost] of what [get_tol] gives. *)
Definition done_seg (a b x lb ub : R) : seg := MkSeg a b (solve a) (solve b) (Some x) (Some lb) (Some ub).
Definition fresh_seg (a b : R) : seg := MkSeg a b (solve a) (solve b) None None None.

Section AB.
Variables a b : R.
Hypothesis Ha : lo <= a.
Hypothesis Hab : a < b.
Hypothesis Hb : b <= hi.
Let x0 := ln a. Let x1 := ln b. Let y0 := ln (f a). Let y1 := ln (f b).
Let s0 := s_sens (solve a). Let s1 := s_sens (solve b).

Lemma log_order : x0 < x1.
Proof. apply ln_increasing; lra. Qed.
Lemma tangent0 v : lo <= v <= hi -> y0 + s0 * (ln v - x0) <= ln (f v).
Proof. intros Hv. apply Hs; auto; lra. Qed.
Lemma tangent1 v : lo <= v <= hi -> y1 + s1 * (ln v - x1) <= ln (f v).
Proof. intros Hv. apply Hs; auto; lra. Qed.
Lemma chord_above v : a <= v <= b -> ln (f v) <= line x0 y0 x1 y1 (ln v).
Proof.
  intros Hv. assert (Hx := log_order). set (t := (x1 - ln v) / (x1 - x0)).
  assert (Hl : x0 <= ln v <= x1).
  { split; [destruct (proj1 Hv) as [H|<-]; [left; apply ln_increasing; lra|right; reflexivity]|].
    destruct (proj2 Hv) as [H| -> ]; [left; apply ln_increasing; lra|right; reflexivity]. }
  assert (Ht : 0 <= t <= 1).
  { split; unfold t; [apply Rmult_le_pos; [lra|left; apply Rinv_0_lt_compat; lra]|]. apply (Rmult_le_reg_r (x1 - x0)); [lra|].
    replace ((x1 - ln v) / (x1 - x0) * (x1 - x0)) with (x1 - ln v) by (field; lra). lra. }
  assert (E : v = exp (t * ln a + (1 - t) * ln b)).
  { rewrite <- (exp_ln v) at 1 by lra. f_equal. unfold t. fold x0 x1. field. lra. }
  rewrite E at 1. apply (proj2 Hf); auto; lra.
Qed.

Lemma ends0 : y0 + s0 * (x1 - x0) <= y1.
Proof. apply tangent0. lra. Qed.
Lemma ends1 : y1 + s1 * (x0 - x1) <= y0.
Proof. apply tangent1. lra. Qed.

(** What [get_tol] gives. *)
Lemma get_tol_spec n : b0 n = a -> b1 n = b -> sol0 n = solve a -> sol1 n = solve b ->
  (get_tol n = (exp ((x0 + x1) / 2), (y0 + y1) / 2, (y0 + y1) / 2) /\ straight x0 x1 y0 y1 s0 s1) \/
  (exists lb ub, get_tol n = (exp ((y1 - y0 + x0 * s0 - x1 * s1) / (s0 - s1)), lb, ub) /\ crossing x0 x1 y0 y1 s0 s1 lb ub).
Proof.
  intros E0 E1 E2 E3. unfold get_tol. rewrite E0, E1, E2, E3.
  rewrite (proj1 (Hs a ltac:(lra))), (proj1 (Hs b ltac:(lra))). fold x0 x1 y0 y1 s0 s1.
  destruct (tol_cases x0 x1 y0 y1 s0 s1 log_order ends0 ends1) as [[Es Hst]|(Es & [[Hi Hst]|(I1 & I2 & Hc)])].
  - left. split; auto. destruct (Req_EM_T (s0 - s1) 0); [auto|exfalso; lra].
  - left. split; auto. destruct (Req_EM_T (s0 - s1) 0); auto. fold eps. destruct (Rlt_dec _ eps); auto. destruct (Rlt_dec (1 - eps) _); auto. tauto.
  - right. destruct (Req_EM_T (s0 - s1) 0); [exfalso; lra|]. fold eps. destruct (Rlt_dec _ eps); [tauto|]. destruct (Rlt_dec (1 - eps) _); [tauto|]. eauto.
Qed.

Lemma inside u : x0 < u < x1 -> a < exp u < b.
Proof. intros [H1 H2]. split; [rewrite <- (exp_ln a) by lra|rewrite <- (exp_ln b) by lra]; apply exp_increasing; auto. Qed.
Lemma le_exp v u : 0 < v -> (v <= exp u <-> ln v <= u).
Proof.
  intros Hv. rewrite <- (exp_ln v) at 1 by auto. split; intros H.
  - destruct H as [H|H]; [left; apply exp_lt_inv; auto|right; apply exp_inv; auto].
  - destruct H as [H|H]; [left; apply exp_increasing; auto|right; f_equal; auto].
Qed.

(** The costs a leaf gives at a value: their logarithms. *)
Lemma leaf_costs x lb ub v : get_tol (fresh_seg a b) = (x, lb, ub) -> a <= v <= b ->
  let n := done_seg a b x lb ub in
  let U := line x0 y0 x1 y1 (ln v) in
  exists L, a < x < b /\ lb <= ub /\
    seg_cost_at n v (Some Lower) = exp L /\ seg_cost_at n v (Some Upper) = exp U /\ seg_cost_at n v None = exp ((L + U) / 2) /\
    (v = a \/ v = b -> L = U) /\
    ((L <= ln (f v) /\ U - L <= ub - lb) \/
     (L = U /\ (lb = 0 \/ L <= ln (f v) + eps * (s1 - s0) * (x1 - x0)))).
Proof.
  intros Eg Hv n U. assert (Hx := log_order).
  assert (Ec0 : s_cost (solve a) = f a) by (apply Hs; lra). assert (Ec1 : s_cost (solve b) = f b) by (apply Hs; lra).
  assert (Hlv : x0 <= ln v <= x1).
  { split; [destruct (proj1 Hv) as [H|<-]; [left; apply ln_increasing; lra|right; reflexivity]|].
    destruct (proj2 Hv) as [H| -> ]; [left; apply ln_increasing; lra|right; reflexivity]. }
  assert (Hbe : lo <= v <= hi) by lra.
  assert (Hflat : lb = 0 -> a < x < b -> lb <= ub -> exists L, a < x < b /\ lb <= ub /\
    seg_cost_at n v (Some Lower) = exp L /\ seg_cost_at n v (Some Upper) = exp U /\ seg_cost_at n v None = exp ((L + U) / 2) /\
    (v = a \/ v = b -> L = U) /\
    ((L <= ln (f v) /\ U - L <= ub - lb) \/ (L = U /\ (lb = 0 \/ L <= ln (f v) + eps * (s1 - s0) * (x1 - x0))))).
  { intros -> Hxx Hle. exists U. split; auto. split; auto. unfold seg_cost_at, n, done_seg, truthy. cbn [splitlb splitub splitval b0 b1 sol0 sol1].
    destruct (Req_EM_T 0 0); [|contradiction]. rewrite !interpolate_line, Ec0, Ec1. fold x0 x1 y0 y1 U.
    split; auto. split; auto. split; [f_equal; lra|]. split; auto. }
  assert (Htruthy : lb <> 0 -> forall bd, seg_cost_at n v bd =
    let c := match bd with Some Lower => lb | Some Upper => ub | None => (lb + ub) / 2 end in
    if Rle_dec v x then exp (line x0 y0 (ln x) c (ln v)) else exp (line (ln x) c x1 y1 (ln v))).
  { intros Hne bd. unfold seg_cost_at, n, done_seg, truthy. cbn [splitlb splitub splitval b0 b1 sol0 sol1].
    destruct (Req_EM_T lb 0); [contradiction|]. destruct bd as [[]|]; rewrite !interpolate_line, Ec0, Ec1, ln_exp; reflexivity. }
  destruct (get_tol_spec (fresh_seg a b) eq_refl eq_refl eq_refl eq_refl) as [[E Hst]|(lb' & ub' & E & Hc)]; rewrite E in Eg; injection Eg as <- <- <-.
  - set (m := (x0 + x1) / 2) in *. set (c := (y0 + y1) / 2) in *.
    assert (Hm : a < exp m < b) by (apply inside; unfold m; lra).
    destruct (Req_EM_T c 0) as [Hz|Hz]; [apply Hflat; auto; lra|].
    exists U. split; auto. split; [lra|]. rewrite !(Htruthy Hz). replace ((c + c) / 2) with c by lra. simpl.
    assert (Ecm : c = line x0 y0 x1 y1 m) by (unfold c, line, m; field; lra).
    assert (El : line x0 y0 m c (ln v) = U) by (rewrite Ecm; apply line_split1; unfold m; lra).
    assert (Er : line m c x1 y1 (ln v) = U) by (rewrite Ecm; apply line_split2; unfold m; lra).
    rewrite ln_exp, El, Er. replace ((U + U) / 2) with U by lra.
    destruct (Rle_dec v (exp m)); (split; [auto|]; split; [auto|]; split; [auto|]; split; [auto|]; right; split; auto; right);
      (destruct Hst as [Hst|Hst]; specialize (Hst (ln v) Hlv); fold U in Hst;
       [assert (Ht := tangent0 v Hbe)|assert (Ht := tangent1 v Hbe)]; lra).
  - destruct Hc as (Hss & Hxx & El0 & El1 & Eu & Egap).
    set (x := (y1 - y0 + x0 * s0 - x1 * s1) / (s0 - s1)) in *.
    assert (Hm : a < exp x < b) by (apply inside; auto).
    assert (Hge : lb' <= ub').
    { apply (divl _ _ (x1 - x0)); [lra|]. assert (0 <= (s1 - s0) * (x1 - x) * (x - x0)); [|lra].
      apply Rmult_le_pos; [apply Rmult_le_pos|]; lra. }
    destruct (Req_EM_T lb' 0) as [Hz|Hz]; [apply Hflat; auto|].
    assert (Hcases := Htruthy Hz). clear Htruthy Hflat.
    assert (Eul : line x0 y0 x ub' (ln v) = U) by (rewrite Eu; apply line_split1; lra).
    assert (Eur : line x ub' x1 y1 (ln v) = U) by (rewrite Eu; apply line_split2; lra).
    assert (Ell : line x0 y0 x lb' (ln v) = y0 + s0 * (ln v - x0)).
    { rewrite line_slope by lra. rewrite El0. replace ((y0 + s0 * (x - x0) - y0) / (x - x0)) with s0 by (field; lra). auto. }
    assert (Elr : line x lb' x1 y1 (ln v) = y1 + s1 * (ln v - x1)).
    { rewrite line_slope by lra. rewrite El1. replace ((y1 - (y1 + s1 * (x - x1))) / (x1 - x)) with s1 by (field; lra). ring. }
    destruct (Rle_dec v (exp x)) as [Hle|Hle].
    + exists (y0 + s0 * (ln v - x0)). split; auto. split; auto. rewrite !Hcases. simpl. rewrite ln_exp.
      rewrite line_avg1 by lra. rewrite Eul, Ell.
      split; auto. split; auto. split; auto. split.
      { intros [->| ->]; [unfold U; fold x0; rewrite line_left by lra; ring|exfalso; lra]. }
      left. split; [apply tangent0; auto|].
      assert (Hu : ln v <= x) by (apply le_exp; [lra|auto]).
      assert (C := chord_t0 x0 x1 y0 y1 s0 s1 Hx (ln v) ltac:(lra)). fold x in C. cbv beta in C. fold U in C.
      apply (divl _ _ (x1 - x0)); [lra|]. rewrite Egap.
      replace (U - (y0 + s0 * (ln v - x0))) with (U - (y0 + s0 * (ln v - x0))) in C by auto. rewrite C.
      apply Rmult_le_compat_l; [apply Rmult_le_pos|]; lra.
    + exists (y1 + s1 * (ln v - x1)). split; auto. split; auto. rewrite !Hcases. simpl. rewrite ln_exp.
      rewrite line_avg2 by lra. rewrite Eur, Elr.
      split; auto. split; auto. split; auto. split.
      { intros [->| ->]; [exfalso; lra|unfold U; fold x1; rewrite line_right by lra; ring]. }
      left. split; [apply tangent1; auto|].
      assert (Hu : x <= ln v). { destruct (Rle_lt_dec x (ln v)); auto. exfalso. apply Hle. apply le_exp; lra. }
      assert (C := chord_t1 x0 x1 y0 y1 s0 s1 Hx (ln v) ltac:(lra)). fold x in C. cbv beta in C. fold U in C.
      apply (divl _ _ (x1 - x0)); [lra|]. rewrite Egap, C.
      replace ((s1 - s0) * (x1 - x) * (x - x0)) with ((s1 - s0) * (x - x0) * (x1 - x)) by ring.
      apply Rmult_le_compat_l; [apply Rmult_le_pos|]; lra.
Qed.
End AB.

(** ** Trees *)

Lemma sens_mono p q : lo <= p -> p <= q -> q <= hi -> s_sens (solve p) <= s_sens (solve q).
Proof.
  intros H1 [H2| ->] H3; [|lra]. apply (slopes (ln p) (ln q) (ln (f p)) (ln (f q))).
  - apply ln_increasing; lra.
  - apply ends0; auto.
  - apply ends1; auto.
Qed.

Variable logtol : R.
Hypothesis Htol : 0 < logtol.

(** The trees autosweeping makes, and the tolerances. *)
Inductive built : R -> R -> bst -> R -> Prop :=
| built_seg a b x lb ub : lo <= a -> a < b -> b <= hi -> get_tol (fresh_seg a b) = (x, lb, ub) -> (ub - lb) / 2 < logtol ->
    built a b (Seg (done_seg a b x lb ub)) ((ub - lb) / 2)
| built_split a b x l r Tl Tr : a < x < b -> built a x l Tl -> built x b r Tr ->
    built a b (Split (MkSeg a b (solve a) (solve b) (Some x) None None) l r) (Rmax Tl Tr).

Lemma gap_bound a b x lb ub : lo <= a -> a < b -> b <= hi -> get_tol (fresh_seg a b) = (x, lb, ub) ->
  a < x < b /\ 0 <= ub - lb /\
  (0 < ub - lb -> let DS := s_sens (solve hi) - s_sens (solve lo) in ub - lb <= DS * (ln x - ln a) /\ ub - lb <= DS * (ln b - ln x)).
Proof.
  intros Ha Hab Hb Eg. assert (Hx := log_order a b Ha Hab).
  destruct (get_tol_spec a b Ha Hab Hb (fresh_seg a b) eq_refl eq_refl eq_refl eq_refl) as [[E _]|(lb' & ub' & E & Hc)]; rewrite E in Eg; injection Eg as <- <- <-.
  - split; [apply inside; auto; lra|]. split; lra.
  - destruct Hc as (Hss & Hxx & El0 & El1 & Eu & Egap). set (xx := _ / _) in *.
    split; [apply inside; auto|].
    assert (Hm0 := sens_mono lo a ltac:(lra) Ha ltac:(lra)). assert (Hm1 := sens_mono b hi ltac:(lra) Hb ltac:(lra)).
    assert (Hn : 0 <= ub' - lb').
    { apply (divl _ _ (ln b - ln a)); [lra|]. rewrite Egap. assert (0 <= (s_sens (solve b) - s_sens (solve a)) * (ln b - xx) * (xx - ln a)); [|lra]. apply Rmult_le_pos; [apply Rmult_le_pos|]; lra. }
    split; auto. intros _ DS. rewrite ln_exp.
    assert (HDS : s_sens (solve b) - s_sens (solve a) <= DS) by (unfold DS; lra).
    assert (G1 : ub' - lb' <= (s_sens (solve b) - s_sens (solve a)) * (xx - ln a)).
    { apply (divl _ _ (ln b - ln a)); [lra|]. rewrite Egap.
      replace ((s_sens (solve b) - s_sens (solve a)) * (ln b - xx) * (xx - ln a)) with ((s_sens (solve b) - s_sens (solve a)) * (xx - ln a) * (ln b - xx)) by ring.
      apply Rmult_le_compat_l; [apply Rmult_le_pos|]; lra. }
    assert (G2 : ub' - lb' <= (s_sens (solve b) - s_sens (solve a)) * (ln b - xx)).
    { apply (divl _ _ (ln b - ln a)); [lra|]. rewrite Egap. apply Rmult_le_compat_l; [apply Rmult_le_pos|]; lra. }
    split.
    + eapply Rle_trans; [exact G1|]. apply Rmult_le_compat_r; lra.
    + eapply Rle_trans; [exact G2|]. apply Rmult_le_compat_r; lra.
Qed.

Lemma get_tol_fields n a b : b0 n = a -> b1 n = b -> sol0 n = solve a -> sol1 n = solve b -> get_tol n = get_tol (fresh_seg a b).
Proof. intros E0 E1 E2 E3. unfold get_tol. rewrite E0, E1, E2, E3. reflexivity. Qed.

Lemma add_split_fresh a b x : a < x < b -> add_split (Seg (fresh_seg a b)) x (solve x) =
  Ok (Split (MkSeg a b (solve a) (solve b) (Some x) None None) (Seg (fresh_seg a x)) (Seg (fresh_seg x b))).
Proof.
  intros Hx. unfold add_split, fresh_seg, new. simpl.
  destruct (Rle_dec x a); [lra|]. destruct (Rle_dec b x); [lra|]. reflexivity.
Qed.
Lemma add_splitcost_fresh a b x lb ub : a < x < b -> add_splitcost (Seg (fresh_seg a b)) x lb ub = Ok (Seg (done_seg a b x lb ub)).
Proof.
  intros Hx. unfold add_splitcost, fresh_seg. simpl.
  destruct (Rle_dec x a); [lra|]. destruct (Rle_dec b x); [lra|]. reflexivity.
Qed.

Lemma recurse_built fuel : forall a b r, lo <= a -> a < b -> b <= hi -> recurse_splits solve logtol fuel (Seg (fresh_seg a b)) = Some r ->
  exists t T, r = Ok (t, T) /\ built a b t T.
Proof.
  induction fuel as [|fuel IH]; intros a b r Ha Hab Hb; simpl; [discriminate|].
  destruct (get_tol (fresh_seg a b)) as [[x lb] ub] eqn:Eg. destruct (gap_bound a b x lb ub Ha Hab Hb Eg) as (Hx & Hg & _).
  destruct (Rle_dec logtol ((ub - lb) / 2)) as [Hs'|Hs'].
  - rewrite add_split_fresh by auto.
    destruct (recurse_splits solve logtol fuel (Seg (fresh_seg a x))) as [rl|] eqn:El; [|discriminate].
    destruct (IH a x rl ltac:(lra) ltac:(lra) ltac:(lra) El) as (tl' & Tl & -> & Bl).
    destruct (recurse_splits solve logtol fuel (Seg (fresh_seg x b))) as [rr|] eqn:Er; [|discriminate].
    destruct (IH x b rr ltac:(lra) ltac:(lra) ltac:(lra) Er) as (tr & Tr & -> & Br).
    intros [= <-]. eexists _, _. split; [reflexivity|]. apply built_split; auto.
  - rewrite add_splitcost_fresh by auto. intros [= <-]. eexists _, _. split; [reflexivity|]. apply built_seg; auto. lra.
Qed.

(** Recursion ends: each split leaves both parts at least [2 logtol / DS] long. *)
Lemma recurse_ends fuel : forall a b, lo <= a -> a < b -> b <= hi -> (1 <= fuel)%nat ->
  (ln b - ln a) * (s_sens (solve hi) - s_sens (solve lo)) < INR fuel * (2 * logtol) -> recurse_splits solve logtol fuel (Seg (fresh_seg a b)) <> None.
Proof.
  set (DS := s_sens (solve hi) - s_sens (solve lo)).
  induction fuel as [|fuel IH]; intros a b Ha Hab Hb Hf1 Hlen; [lia|]. cbn [recurse_splits root].
  destruct (get_tol (fresh_seg a b)) as [[x lb] ub] eqn:Eg. destruct (gap_bound a b x lb ub Ha Hab Hb Eg) as (Hx & Hg & Hgap).
  destruct (Rle_dec logtol ((ub - lb) / 2)) as [Hs'|Hs']; [|rewrite add_splitcost_fresh by auto; discriminate].
  rewrite add_split_fresh by auto. destruct (Hgap ltac:(lra)) as [G1 G2]. fold DS in G1, G2.
  assert (Hfu : (1 <= fuel)%nat).
  { destruct fuel; [|lia]. exfalso. replace (INR 1) with 1 in Hlen by reflexivity. lra. }
  rewrite S_INR in Hlen.
  assert (Nl := IH a x ltac:(lra) ltac:(lra) ltac:(lra) Hfu ltac:(lra)). assert (Nr := IH x b ltac:(lra) ltac:(lra) ltac:(lra) Hfu ltac:(lra)).
  destruct (recurse_splits solve logtol fuel (Seg (fresh_seg a x))) as [[[tl' Tl]|e]|]; [|discriminate|contradiction].
  destruct (recurse_splits solve logtol fuel (Seg (fresh_seg x b))) as [[[tr Tr]|e]|]; [discriminate|discriminate|contradiction].
Qed.

Lemma built_bounds a b t T : built a b t T -> lo <= a /\ a < b /\ b <= hi /\ b0 (root t) = a /\ b1 (root t) = b /\ 0 <= T < logtol.
Proof.
  induction 1 as [a b x lb ub Ha Hab Hb Eg Ht|a b x l r Tl Tr Hx _ (A1 & A2 & A3 & A4 & A5 & A6) _ (B1 & B2 & B3 & B4 & B5 & B6)]; simpl.
  - destruct (gap_bound a b x lb ub Ha Hab Hb Eg) as (_ & Hg & _). do 5 (split; [auto|]). lra.
  - do 3 (split; [lra|]). do 2 (split; [auto|]). unfold Rmax. destruct (Rle_dec Tl Tr); lra.
Qed.

(** The leaf a query descends to. *)
Lemma built_leaf a b t T v : built a b t T -> a <= v <= b -> exists a' b' x lb ub, min_bst t v = done_seg a' b' x lb ub /\
  lo <= a' /\ a' < b' /\ b' <= hi /\ a' <= v <= b' /\ get_tol (fresh_seg a' b') = (x, lb, ub) /\ (ub - lb) / 2 <= T.
Proof.
  induction 1 as [a b x lb ub Ha Hab Hb Eg Ht|a b x l r Tl Tr Hx Bl IHl Br IHr]; intros Hv; simpl.
  - exists a, b, x, lb, ub. repeat (split; auto). lra.
  - destruct (Rle_dec v x) as [Hle|Hle].
    + destruct (IHl ltac:(lra)) as (a' & b' & x' & lb & ub & H1 & H2 & H3 & H4 & H5 & H6 & H7). exists a', b', x', lb, ub. repeat (split; auto).
      eapply Rle_trans; [exact H7|apply Rmax_l].
    + destruct (IHr ltac:(lra)) as (a' & b' & x' & lb & ub & H1 & H2 & H3 & H4 & H5 & H6 & H7). exists a', b', x', lb, ub. repeat (split; auto).
      eapply Rle_trans; [exact H7|apply Rmax_r].
Qed.

(** The costs a tree gives at a value, as logarithms. *)
Lemma tree_costs a b t T v : built a b t T -> a <= v <= b -> exists L U,
  cost_at t v (Some Lower) = Ok (exp L) /\ cost_at t v (Some Upper) = Ok (exp U) /\ cost_at t v None = Ok (exp ((L + U) / 2)) /\
  ln (f v) <= U /\ L <= U /\ U - L <= 2 * T /\
  (v = b0 (min_bst t v) \/ v = b1 (min_bst t v) -> L = U /\ U = ln (f v)) /\
  (L <= ln (f v) \/
   (L = U /\ (splitlb (min_bst t v) = Some 0 \/ L <= ln (f v) + eps * (s_sens (solve hi) - s_sens (solve lo)) * (ln hi - ln lo)))).
Proof.
  intros Hb Hv. destruct (built_bounds a b t T Hb) as (B1 & B2 & B3 & B4 & B5 & B6).
  destruct (built_leaf a b t T v Hb Hv) as (a' & b' & x & lb & ub & Em & H2 & H3 & H4 & H5 & Eg & H7).
  destruct (leaf_costs a' b' H2 H3 H4 x lb ub v Eg H5) as (L & Hx & Hge & C1 & C2 & C3 & Hends & Hc).
  assert (Hab := chord_above a' b' H2 H3 H4 v H5).
  set (U := line _ _ _ _ _) in *. exists L, U. unfold cost_at. rewrite B4, B5, Em.
  destruct (Rlt_dec v a); [lra|]. destruct (Rlt_dec b v); [lra|]. rewrite C1, C2, C3.
  split; auto. split; auto. split; auto. split; auto.
  assert (Hx' : ln a' < ln b') by (apply ln_increasing; lra).
  split; [destruct Hc as [[Hc _]|[-> _]]; lra|]. split; [destruct Hc as [[_ Hc]|[-> _]]; lra|]. split.
  { simpl. intros He. split; [apply Hends; auto|]. unfold U. destruct He as [->| ->]; [apply line_left; lra|apply line_right; lra]. }
  destruct Hc as [[Hc _]|[-> Hc]]; [left; auto|right]. split; auto. destruct Hc as [->|Hc]; [left; auto|right].
  eapply Rle_trans; [exact Hc|]. apply Rplus_le_compat_l.
  assert (Hm0 := sens_mono lo a' ltac:(lra) H2 ltac:(lra)). assert (Hm1 := sens_mono b' hi ltac:(lra) H4 ltac:(lra)). assert (Hm := sens_mono a' b' H2 ltac:(lra) H4).
  assert (ln lo <= ln a') by (destruct H2 as [H2|H2]; [left; apply ln_increasing; auto|right; f_equal; auto]).
  assert (ln b' <= ln hi) by (destruct H4 as [H4|H4]; [left; apply ln_increasing; lra|right; f_equal; auto]).
  assert (0 < eps) by (unfold eps; lra).
  apply Rmult_le_compat; try lra; [apply Rmult_le_pos; lra|]. apply Rmult_le_compat_l; lra.
Qed.

(** Values that were solved at. *)
Fixpoint solved (t : bst) (v : R) : Prop :=
  match t with
  | Seg n => v = b0 n \/ v = b1 n
  | Split _ l r => solved l v \/ solved r v
  end.
Lemma solved_ends a b t T : built a b t T -> solved t a /\ solved t b.
Proof. induction 1; simpl; tauto. Qed.
Lemma solved_range a b t T v : built a b t T -> solved t v -> a <= v <= b.
Proof.
  induction 1 as [a b x lb ub Ha Hab Hb Eg Ht|a b x l r Tl Tr Hx Bl IHl Br IHr]; simpl.
  - intros [->| ->]; lra.
  - intros [H|H]; [apply IHl in H|apply IHr in H]; lra.
Qed.
Lemma solved_leaf a b t T v : built a b t T -> solved t v -> v = b0 (min_bst t v) \/ v = b1 (min_bst t v).
Proof.
  induction 1 as [a b x lb ub Ha Hab Hb Eg Ht|a b x l r Tl Tr Hx Bl IHl Br IHr]; simpl; auto.
  intros Hsv. destruct (Rle_dec v x) as [Hle|Hle].
  - apply IHl. destruct Hsv as [H|H]; auto. apply (solved_range x b r Tr) in H; auto. assert (v = x) as -> by lra. apply (solved_ends a x l Tl). auto.
  - apply IHr. destruct Hsv as [H|H]; auto. apply (solved_range a x l Tl) in H; auto. lra.
Qed.
End Leaf.
