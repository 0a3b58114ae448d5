(** C46, C47 and C61: autosweeps. The specification of C46 and C61 is at the top of AutosweepProofs.v. *)
From Verif Require Import Base Autosweep AutosweepProofs.
From Coq Require Import Permutation Sorting.Sorted.
Open Scope R_scope.

(** ** C46: Autosweep's cost bounds are guaranteed *)

(** At any value an autosweep's lower bound, cost and upper bound are in order around the true cost. *)
Definition C46_for (cond : bst -> R -> Prop) : Prop :=
  forall f lo hi solve logtol fuel t T v, 0 < lo -> lo < hi -> convex_cost f lo hi -> solves f lo hi solve -> 0 < logtol ->
    autosweep_1d solve logtol fuel lo hi = Some (Ok (t, T)) -> lo <= v <= hi -> cond t v ->
    exists l c u, cost_at t v (Some Lower) = Ok l /\ cost_at t v None = Ok c /\ cost_at t v (Some Upper) = Ok u /\
      l <= c <= u /\ l <= f v <= u.

Lemma autosweep_built f lo hi solve logtol fuel t T : 0 < lo -> lo < hi -> convex_cost f lo hi -> solves f lo hi solve -> 0 < logtol ->
  autosweep_1d solve logtol fuel lo hi = Some (Ok (t, T)) -> built lo hi solve logtol lo hi t T.
Proof.
  intros Hlo Hlt Hf Hs Ht. unfold autosweep_1d, new. destruct (Rle_dec hi lo); [lra|]. intros E.
  destruct (recurse_built f lo hi solve Hlo Hs logtol fuel lo hi (Ok (t, T))) as (t' & T' & Et & Hb); auto; try lra. injection Et as <- <-. auto.
Qed.
Lemma exp_le a b : a <= b -> exp a <= exp b.
Proof. intros [H| ->]; [left; apply exp_increasing; auto|lra]. Qed.
Lemma exp_below a x : 0 < x -> a <= ln x -> exp a <= x.
Proof. intros Hx H. rewrite <- (exp_ln x) by auto. apply exp_le. auto. Qed.
Lemma exp_above a x : 0 < x -> ln x <= a -> x <= exp a.
Proof. intros Hx H. rewrite <- (exp_ln x) at 1 by auto. apply exp_le. auto. Qed.

(** Proved wherever the two bounds differ. Missing: where they are the same between solved points. *)
Theorem C46_bounds_partial : C46_for (fun t v => cost_at t v (Some Lower) <> cost_at t v (Some Upper)).
Proof.
  intros f lo hi solve logtol fuel t T v Hlo Hlt Hf Hs Ht E Hv Hne.
  assert (Hb := autosweep_built f lo hi solve logtol fuel t T Hlo Hlt Hf Hs Ht E).
  destruct (tree_costs f lo hi solve Hlo Hf Hs logtol lo hi t T v Hb Hv) as (L & U & E1 & E2 & E3 & H1 & H2 & H3 & _ & H4).
  assert (Hfv : 0 < f v) by (apply Hf; auto).
  exists (exp L), (exp ((L + U) / 2)), (exp U). split; auto. split; auto. split; auto. split; [split; apply exp_le; lra|].
  split; [|apply exp_above; auto]. apply exp_below; auto. destruct H4 as [H4|[-> _]]; auto. congruence.
Qed.
Print Assumptions C46_bounds_partial.

(** The upper bound always holds, and the lower one is below it. *)
Theorem C46_upper : forall f lo hi solve logtol fuel t T v, 0 < lo -> lo < hi -> convex_cost f lo hi -> solves f lo hi solve -> 0 < logtol ->
  autosweep_1d solve logtol fuel lo hi = Some (Ok (t, T)) -> lo <= v <= hi ->
  exists l c u, cost_at t v (Some Lower) = Ok l /\ cost_at t v None = Ok c /\ cost_at t v (Some Upper) = Ok u /\ l <= c <= u /\ f v <= u.
Proof.
  intros f lo hi solve logtol fuel t T v Hlo Hlt Hf Hs Ht E Hv.
  assert (Hb := autosweep_built f lo hi solve logtol fuel t T Hlo Hlt Hf Hs Ht E).
  destruct (tree_costs f lo hi solve Hlo Hf Hs logtol lo hi t T v Hb Hv) as (L & U & E1 & E2 & E3 & H1 & H2 & H3 & _ & H4).
  exists (exp L), (exp ((L + U) / 2)), (exp U). do 3 (split; auto). split; [split; apply exp_le; lra|]. apply exp_above; auto. apply Hf; auto.
Qed.
Print Assumptions C46_upper.

(** Unless the bound at a split was taken for missing, the lower bound is wrong by a factor that is close to one at most. *)
Theorem C46_lower_factor : forall f lo hi solve logtol fuel t T v, 0 < lo -> lo < hi -> convex_cost f lo hi -> solves f lo hi solve -> 0 < logtol ->
  autosweep_1d solve logtol fuel lo hi = Some (Ok (t, T)) -> lo <= v <= hi -> splitlb (min_bst t v) <> Some 0 ->
  exists l, cost_at t v (Some Lower) = Ok l /\ l <= f v * exp (1 / 10000000 * (s_sens (solve hi) - s_sens (solve lo)) * (ln hi - ln lo)).
Proof.
  intros f lo hi solve logtol fuel t T v Hlo Hlt Hf Hs Ht E Hv Hz.
  assert (Hb := autosweep_built f lo hi solve logtol fuel t T Hlo Hlt Hf Hs Ht E).
  destruct (tree_costs f lo hi solve Hlo Hf Hs logtol lo hi t T v Hb Hv) as (L & U & E1 & E2 & E3 & H1 & H2 & H3 & _ & H4).
  assert (Hfv : 0 < f v) by (apply Hf; auto). fold eps. set (d := eps * _ * _) in *.
  assert (Hd : 0 <= d).
  { unfold d. assert (Hm := sens_mono f lo hi solve Hlo Hs lo hi ltac:(lra) ltac:(lra) ltac:(lra)).
    assert (ln lo < ln hi) by (apply ln_increasing; auto). assert (0 < eps) by (unfold eps; lra). apply Rmult_le_pos; [apply Rmult_le_pos|]; lra. }
  exists (exp L). split; auto. rewrite <- (exp_ln (f v)) by auto. rewrite <- exp_plus. apply exp_le.
  destruct H4 as [H4|[_ [H4|H4]]]; [lra|contradiction|auto].
Qed.
Print Assumptions C46_lower_factor.

(** At the solved points all three are the cost, and posynomials have the values they have in the solutions. *)
Theorem C46_solved : forall f lo hi solve logtol fuel t T v, 0 < lo -> lo < hi -> convex_cost f lo hi -> solves f lo hi solve -> 0 < logtol ->
  autosweep_1d solve logtol fuel lo hi = Some (Ok (t, T)) -> solved t v ->
  (forall bd, cost_at t v bd = Ok (f v)) /\
  (forall p, (forall x, lo <= x <= hi -> 0 < s_posy (solve x) p) -> posy_at t p v = Ok (s_posy (solve v) p)).
Proof.
  intros f lo hi solve logtol fuel t T v Hlo Hlt Hf Hs Ht E Hsv.
  assert (Hb := autosweep_built f lo hi solve logtol fuel t T Hlo Hlt Hf Hs Ht E).
  assert (Hv := solved_range lo hi solve logtol lo hi t T v Hb Hsv). assert (He := solved_leaf lo hi solve logtol lo hi t T v Hb Hsv).
  assert (Hfv : 0 < f v) by (apply Hf; auto). split.
  - destruct (tree_costs f lo hi solve Hlo Hf Hs logtol lo hi t T v Hb Hv) as (L & U & E1 & E2 & E3 & H1 & H2 & H3 & H5 & H4).
    destruct (H5 He) as [-> ->]. intros [[]|]; rewrite ?E1, ?E2, ?E3; f_equal; replace ((ln (f v) + ln (f v)) / 2) with (ln (f v)) by lra; apply exp_ln; auto.
  - intros p Hp. unfold posy_at. destruct (built_bounds f lo hi solve Hlo Hs logtol lo hi t T Hb) as (_ & _ & _ & R0 & R1 & _). rewrite R0, R1.
    destruct (Rlt_dec v lo); [lra|]. destruct (Rlt_dec hi v); [lra|]. f_equal.
    destruct (built_leaf lo hi solve logtol lo hi t T v Hb Hv) as (a' & b' & x & lb & ub & Em & K1 & K2 & K3 & K4 & _ & _).
    rewrite Em in *. simpl in *. rewrite interpolate_line. assert (ln a' < ln b') by (apply ln_increasing; lra).
    destruct He as [->| ->]; [rewrite line_left by lra|rewrite line_right by lra]; apply exp_ln; apply Hp; lra.
Qed.
Print Assumptions C46_solved.

(** *** Costs that are bent once *)

Lemma one_inside : exp (-1) <= 1 <= exp 1.
Proof. assert (H1 : exp (-1) <= exp 0) by (apply exp_le; lra). assert (H2 : exp 0 <= exp 1) by (apply exp_le; lra). rewrite exp_0 in H1, H2. auto. Qed.

Definition bent (c v : R) : R := exp (2 * Rabs (ln v) + c).
Definition bent_solve (c x : R) : sol := Sol (bent c x) (if Rle_dec (ln x) 0 then -2 else 2) (fun _ => x).
Lemma bent_convex c lo hi : convex_cost (bent c) lo hi.
Proof.
  split; [intros v _; apply exp_pos|]. intros u v t _ _ Ht. unfold bent. rewrite !ln_exp.
  assert (H : Rabs (t * ln u + (1 - t) * ln v) <= t * Rabs (ln u) + (1 - t) * Rabs (ln v)).
  { eapply Rle_trans; [apply Rabs_triang|]. rewrite !Rabs_mult, (Rabs_pos_eq t), (Rabs_pos_eq (1 - t)); lra. }
  lra.
Qed.
Lemma bent_solves c lo hi : solves (bent c) lo hi (bent_solve c).
Proof.
  intros x _. split; auto. intros v _. unfold bent, bent_solve. simpl. rewrite !ln_exp.
  destruct (Rle_dec (ln x) 0); unfold Rabs; destruct (Rcase_abs (ln x)), (Rcase_abs (ln v)); lra.
Qed.
Definition bent_seg (c : R) : seg := MkSeg (exp (-1)) (exp 1) (bent_solve c (exp (-1))) (bent_solve c (exp 1)) (Some 1) (Some c) (Some (2 + c)).
Lemma bent_swept c : autosweep_1d (bent_solve c) 2 1 (exp (-1)) (exp 1) = Some (Ok (Seg (bent_seg c), 1)).
Proof.
  unfold autosweep_1d, new. assert (Hlt : exp (-1) < exp 1) by (apply exp_increasing; lra). destruct (Rle_dec (exp 1) (exp (-1))); [lra|].
  cbn [recurse_splits root]. unfold get_tol. cbn [sol0 sol1 b0 b1 bent_solve s_cost s_sens]. unfold bent. rewrite !ln_exp.
  destruct (Rle_dec (-1) 0); [|lra]. destruct (Rle_dec 1 0); [lra|].
  destruct (Req_EM_T (-2 - 2) 0); [lra|].
  replace (Rabs (-1)) with 1 by (unfold Rabs; destruct (Rcase_abs (-1)); lra). replace (Rabs 1) with 1 by (unfold Rabs; destruct (Rcase_abs 1); lra).
  replace ((2 * 1 + c - (2 * 1 + c) + -1 * -2 - 1 * 2) / (-2 - 2)) with 0 by (field; lra).
  replace ((1 - 0) / (1 - -1)) with (1 / 2) by lra.
  destruct (Rlt_dec (1 / 2) (1 / 10000000)); [lra|]. destruct (Rlt_dec (1 - 1 / 10000000) (1 / 2)); [lra|].
  replace (2 * 1 + c + -2 * (0 - -1)) with c by lra. replace ((2 * 1 + c) * (1 / 2) + (2 * 1 + c) * (1 - 1 / 2)) with (2 + c) by lra.
  replace ((2 + c - c) / 2) with 1 by lra. destruct (Rle_dec 2 1); [lra|]. unfold add_splitcost. cbn [root truthy splitval b0 b1 sol0 sol1].
  rewrite exp_0. assert (exp (-1) < 1) by (rewrite <- exp_0; apply exp_increasing; lra). assert (1 < exp 1) by (rewrite <- exp_0 at 1; apply exp_increasing; lra).
  destruct (Rle_dec 1 (exp (-1))); [lra|]. destruct (Rle_dec (exp 1) 1); [lra|]. reflexivity.
Qed.
Lemma bent_cost c bd : cost_at (Seg (bent_seg c)) 1 bd =
  Ok (exp (if Req_EM_T c 0 then 2 else match bd with Some Lower => c | Some Upper => 2 + c | None => 1 + c end)).
Proof.
  unfold cost_at. cbn [root bent_seg b0 b1 min_bst]. assert (exp (-1) < 1) by (rewrite <- exp_0; apply exp_increasing; lra).
  assert (1 < exp 1) by (rewrite <- exp_0 at 1; apply exp_increasing; lra).
  destruct (Rlt_dec 1 (exp (-1))); [lra|]. destruct (Rlt_dec (exp 1) 1); [lra|]. f_equal.
  unfold seg_cost_at. cbn [bent_seg splitlb splitub splitval b0 b1 sol0 sol1 truthy bent_solve s_cost]. unfold bent. rewrite !ln_exp.
  replace (Rabs (-1)) with 1 by (unfold Rabs; destruct (Rcase_abs (-1)); lra). replace (Rabs 1) with 1 by (unfold Rabs; destruct (Rcase_abs 1); lra).
  destruct (Req_EM_T c 0) as [->|Hc].
  - rewrite interpolate_line, !ln_exp, ln_1. f_equal. unfold line. field.
  - destruct (Rle_dec 1 1); [|lra]. rewrite interpolate_line, ln_1. destruct bd as [[]|]; rewrite !ln_exp, line_right by lra; f_equal; lra.
Qed.

(** Hypotheses met: the bounds at the bend are the cost there, and the costs at the ends. *)
Example C46_met : 0 < exp (-1) /\ exp (-1) < exp 1 /\ convex_cost (bent 1) (exp (-1)) (exp 1) /\ solves (bent 1) (exp (-1)) (exp 1) (bent_solve 1) /\
  autosweep_1d (bent_solve 1) 2 1 (exp (-1)) (exp 1) = Some (Ok (Seg (bent_seg 1), 1)) /\ exp (-1) <= 1 <= exp 1 /\
  cost_at (Seg (bent_seg 1)) 1 (Some Lower) = Ok (exp 1) /\ cost_at (Seg (bent_seg 1)) 1 (Some Upper) = Ok (exp 3) /\
  cost_at (Seg (bent_seg 1)) 1 (Some Lower) <> cost_at (Seg (bent_seg 1)) 1 (Some Upper) /\ bent 1 1 = exp 1.
Proof.
  split; [apply exp_pos|]. split; [apply exp_increasing; lra|]. split; [apply bent_convex|]. split; [apply bent_solves|]. split; [apply bent_swept|].
  split; [apply one_inside|].
  rewrite !bent_cost. destruct (Req_EM_T 1 0); [lra|]. split; auto. split; [do 2 f_equal; lra|]. split.
  - intros [= E]. apply exp_inv in E. lra.
  - unfold bent. rewrite ln_1, Rabs_R0. f_equal. lra.
Qed.

(** A lower bound whose logarithm is zero is taken for a missing one, and the upper bound is given instead. *)
Theorem C46_zero_refuted : ~ C46_for (fun t v => True).
Proof.
  intros H. assert (Hlt : exp (-1) < exp 1) by (apply exp_increasing; lra).
  destruct (H (bent 0) (exp (-1)) (exp 1) (bent_solve 0) 2 1%nat (Seg (bent_seg 0)) 1 1 (exp_pos _) Hlt (bent_convex _ _ _) (bent_solves _ _ _) ltac:(lra) (bent_swept 0))
    as (l & c & u & E1 & _ & _ & _ & Hb & _); auto.
  - apply one_inside.
  - rewrite bent_cost in E1. destruct (Req_EM_T 0 0); [|lra]. injection E1 as <-. unfold bent in Hb. rewrite ln_1, Rabs_R0 in Hb.
    replace (2 * 0 + 0) with 0 in Hb by lra. assert (exp 0 < exp 2) by (apply exp_increasing; lra). lra.
Qed.
Print Assumptions C46_zero_refuted.

(** A cost that is bent near an end is taken for a straight line. *)
Definition corner : R := 1 - 1 / 100000000.
Definition late (v : R) : R := exp (Rmax 0 (ln v - corner)).
Definition late_solve (x : R) : sol := Sol (late x) (if Rle_dec (ln x) corner then 0 else 1) (fun _ => x).
Lemma late_convex lo hi : convex_cost late lo hi.
Proof.
  split; [intros v _; apply exp_pos|]. intros u v t _ _ Ht. unfold late. rewrite !ln_exp.
  assert (H1 := Rmax_l 0 (ln u - corner)). assert (H2 := Rmax_r 0 (ln u - corner)). assert (H3 := Rmax_l 0 (ln v - corner)). assert (H4 := Rmax_r 0 (ln v - corner)).
  set (a := Rmax 0 (ln u - corner)) in *. set (b := Rmax 0 (ln v - corner)) in *.
  assert (0 <= t * a + (1 - t) * b) by (assert (0 <= t * a) by (apply Rmult_le_pos; lra); assert (0 <= (1 - t) * b) by (apply Rmult_le_pos; lra); lra).
  assert (t * (ln u - corner) <= t * a) by (apply Rmult_le_compat_l; lra). assert ((1 - t) * (ln v - corner) <= (1 - t) * b) by (apply Rmult_le_compat_l; lra).
  apply Rmax_lub; lra.
Qed.
Lemma late_solves lo hi : solves late lo hi late_solve.
Proof.
  intros x _. split; auto. intros v _. unfold late, late_solve. simpl. rewrite !ln_exp.
  destruct (Rle_dec (ln x) corner); unfold Rmax; destruct (Rle_dec 0 (ln x - corner)), (Rle_dec 0 (ln v - corner)); lra.
Qed.
Definition late_seg : seg := MkSeg 1 (exp 1) (late_solve 1) (late_solve (exp 1)) (Some (exp (1 / 2))) (Some (1 / 200000000)) (Some (1 / 200000000)).
Lemma late_swept : autosweep_1d late_solve 1 1 1 (exp 1) = Some (Ok (Seg late_seg, 0)).
Proof.
  unfold autosweep_1d, new. assert (Hlt : 1 < exp 1) by (rewrite <- exp_0 at 1; apply exp_increasing; lra). destruct (Rle_dec (exp 1) 1); [lra|].
  cbn [recurse_splits root]. unfold get_tol. cbn [sol0 sol1 b0 b1 late_solve s_cost s_sens]. unfold late. rewrite !ln_exp, ln_1.
  destruct (Rle_dec 0 corner); [|unfold corner in *; lra]. destruct (Rle_dec 1 corner); [unfold corner in *; lra|].
  destruct (Req_EM_T (0 - 1) 0); [lra|].
  replace (Rmax 0 (0 - corner)) with 0 by (unfold Rmax, corner; destruct (Rle_dec 0 (0 - _)); lra).
  replace (Rmax 0 (1 - corner)) with (1 / 100000000) by (unfold Rmax, corner; destruct (Rle_dec 0 (1 - _)); lra).
  replace ((1 - (1 / 100000000 - 0 + 0 * 0 - 1 * 1) / (0 - 1)) / (1 - 0)) with (1 / 100000000) by (field; lra).
  destruct (Rlt_dec (1 / 100000000) (1 / 10000000)); [|lra].
  replace ((0 + 1 / 100000000) / 2) with (1 / 200000000) by lra. replace ((0 + 1) / 2) with (1 / 2) by lra.
  replace ((1 / 200000000 - 1 / 200000000) / 2) with 0 by lra. destruct (Rle_dec 1 0); [lra|]. unfold add_splitcost. cbn [root truthy splitval b0 b1 sol0 sol1].
  assert (1 < exp (1 / 2)) by (rewrite <- exp_0 at 1; apply exp_increasing; lra). assert (exp (1 / 2) < exp 1) by (apply exp_increasing; lra).
  destruct (Rle_dec (exp (1 / 2)) 1); [lra|]. destruct (Rle_dec (exp 1) (exp (1 / 2))); [lra|]. reflexivity.
Qed.
Lemma late_cost bd : cost_at (Seg late_seg) (exp (1 / 2)) bd = Ok (exp (1 / 200000000)).
Proof.
  unfold cost_at. cbn [root late_seg b0 b1 min_bst]. assert (1 < exp (1 / 2)) by (rewrite <- exp_0 at 1; apply exp_increasing; lra).
  assert (exp (1 / 2) < exp 1) by (apply exp_increasing; lra).
  destruct (Rlt_dec (exp (1 / 2)) 1); [lra|]. destruct (Rlt_dec (exp 1) (exp (1 / 2))); [lra|]. f_equal.
  unfold seg_cost_at. cbn [late_seg splitlb splitub splitval b0 b1 sol0 sol1 truthy]. destruct (Req_EM_T (1 / 200000000) 0); [lra|].
  destruct (Rle_dec (exp (1 / 2)) (exp (1 / 2))); [|lra]. rewrite interpolate_line, ln_1.
  destruct bd as [[]|]; rewrite !ln_exp, line_right by lra; f_equal; lra.
Qed.
Theorem C46_straight_refuted : ~ C46_for (fun t v => splitlb (min_bst t v) <> Some 0).
Proof.
  intros H. assert (Hlt : 1 < exp 1) by (rewrite <- exp_0 at 1; apply exp_increasing; lra).
  destruct (H late 1 (exp 1) late_solve 1 1%nat (Seg late_seg) 0 (exp (1 / 2)) ltac:(lra) Hlt (late_convex _ _) (late_solves _ _) ltac:(lra) late_swept)
    as (l & c & u & E1 & _ & _ & _ & Hb & _).
  - split; [rewrite <- exp_0 at 1|]; apply exp_le; lra.
  - simpl. intros [= E]. lra.
  - rewrite late_cost in E1. injection E1 as <-. unfold late in Hb. rewrite ln_exp in Hb.
    replace (Rmax 0 (1 / 2 - corner)) with 0 in Hb by (unfold Rmax, corner; destruct (Rle_dec 0 (1 / 2 - _)); lra).
    assert (exp 0 < exp (1 / 200000000)) by (apply exp_increasing; lra). lra.
Qed.
Print Assumptions C46_straight_refuted.

(** ** C61: An autosweep ends, and its costs are within the tolerance *)

(** It ends, without errors, and the tolerance it reports is below the one asked for. *)
Theorem C61_ends : forall f lo hi solve logtol, 0 < lo -> lo < hi -> convex_cost f lo hi -> solves f lo hi solve -> 0 < logtol ->
  exists fuel t T, autosweep_1d solve logtol fuel lo hi = Some (Ok (t, T)) /\ 0 <= T < logtol.
Proof.
  intros f lo hi solve logtol Hlo Hlt Hf Hs Ht.
  set (len := (ln hi - ln lo) * (s_sens (solve hi) - s_sens (solve lo))).
  destruct (archimed (len / (2 * logtol))) as [Hup _].
  assert (Hlen : 0 <= len).
  { unfold len. assert (Hm := sens_mono f lo hi solve Hlo Hs lo hi ltac:(lra) ltac:(lra) ltac:(lra)).
    assert (ln lo < ln hi) by (apply ln_increasing; auto). apply Rmult_le_pos; lra. }
  assert (Hq : 0 <= len / (2 * logtol)) by (apply Rmult_le_pos; [auto|left; apply Rinv_0_lt_compat; lra]).
  assert (Hz : (0 < up (len / (2 * logtol)))%Z) by (apply lt_IZR; simpl; lra).
  set (fuel := Z.to_nat (up (len / (2 * logtol)))).
  assert (Hfu : INR fuel = IZR (up (len / (2 * logtol)))) by (unfold fuel; rewrite INR_IZR_INZ, Z2Nat.id by lia; auto).
  assert (Hne : autosweep_1d solve logtol fuel lo hi <> None).
  { unfold autosweep_1d, new. destruct (Rle_dec hi lo); [lra|]. apply (recurse_ends f lo hi solve Hlo Hs logtol Ht fuel lo hi); try lra; [unfold fuel; lia|].
    fold len. rewrite Hfu. apply (Rmult_lt_reg_r (/ (2 * logtol))); [apply Rinv_0_lt_compat; lra|].
    replace (IZR (up (len / (2 * logtol))) * (2 * logtol) * / (2 * logtol)) with (IZR (up (len / (2 * logtol)))) by (field; lra). exact Hup. }
  destruct (autosweep_1d solve logtol fuel lo hi) as [r|] eqn:E; [|contradiction].
  assert (E' := E). unfold autosweep_1d, new in E'. destruct (Rle_dec hi lo); [lra|].
  destruct (recurse_built f lo hi solve Hlo Hs logtol fuel lo hi r) as (t & T & -> & Hb); auto; try lra.
  exists fuel, t, T. split; auto. apply (built_bounds f lo hi solve Hlo Hs logtol lo hi t T Hb).
Qed.
Print Assumptions C61_ends.

(** With a tolerance of zero it need not. *)
Theorem C61_ends_refuted : ~ (forall f lo hi solve logtol, 0 < lo -> lo < hi -> convex_cost f lo hi -> solves f lo hi solve -> 0 <= logtol ->
  exists fuel r, autosweep_1d solve logtol fuel lo hi = Some r).
Proof.
  intros H. set (solve := fun x : R => Sol 1 0 (fun _ => x)).
  assert (Hno : forall fuel a b, 0 < a -> a < b -> recurse_splits solve 0 fuel (Seg (MkSeg a b (solve a) (solve b) None None None)) = None).
  { induction fuel as [|fuel IH]; intros a b Ha Hab; auto. cbn [recurse_splits root]. unfold get_tol. cbn [sol0 sol1 b0 b1 solve s_cost s_sens]. rewrite ln_1.
    destruct (Req_EM_T (0 - 0) 0); [|lra]. set (x := exp ((ln a + ln b) / 2)). replace (((0 + 0) / 2 - (0 + 0) / 2) / 2) with 0 by lra.
    destruct (Rle_dec 0 0); [|lra]. assert (ln a < ln b) by (apply ln_increasing; auto).
    assert (Hx : a < x < b). { unfold x. split; [rewrite <- (exp_ln a) at 1 by lra|rewrite <- (exp_ln b) at 2 by lra]; apply exp_increasing; lra. }
    unfold add_split, new. cbn [root truthy splitval b0 b1 sol0 sol1]. destruct (Rle_dec x a); [lra|]. destruct (Rle_dec b x); [lra|]. simpl rbind.
    assert (E := IH a x ltac:(lra) ltac:(lra)). cbv beta iota delta [solve] in E |- *. rewrite E. auto. }
  destruct (H (fun _ => 1) 1 2 solve 0) as (fuel & r & E); try lra.
  - split; [intros; lra|]. intros u v t _ _ _. rewrite ln_1. lra.
  - intros x _. split; auto. intros v _. simpl. lra.
  - unfold autosweep_1d, new in E. destruct (Rle_dec 2 1); [lra|]. rewrite (Hno fuel 1 2) in E by lra. discriminate.
Qed.
Print Assumptions C61_ends_refuted.

(** The cost given for a value is within the reported tolerance of the true one. *)
Definition C61_for (cond : bst -> R -> Prop) : Prop :=
  forall f lo hi solve logtol fuel t T v, 0 < lo -> lo < hi -> convex_cost f lo hi -> solves f lo hi solve -> 0 < logtol ->
    autosweep_1d solve logtol fuel lo hi = Some (Ok (t, T)) -> lo <= v <= hi -> cond t v ->
    exists c, cost_at t v None = Ok c /\ Rabs (ln c - ln (f v)) <= T.
(** Missing: where the bounds are the same. *)
Theorem C61_tolerance_partial : C61_for (fun t v => cost_at t v (Some Lower) <> cost_at t v (Some Upper)).
Proof.
  intros f lo hi solve logtol fuel t T v Hlo Hlt Hf Hs Ht E Hv Hne.
  assert (Hb := autosweep_built f lo hi solve logtol fuel t T Hlo Hlt Hf Hs Ht E).
  destruct (tree_costs f lo hi solve Hlo Hf Hs logtol lo hi t T v Hb Hv) as (L & U & E1 & E2 & E3 & H1 & H2 & H3 & _ & H4).
  exists (exp ((L + U) / 2)). split; auto. rewrite ln_exp. destruct H4 as [H4|[-> _]]; [|congruence].
  apply Rabs_le. lra.
Qed.
Print Assumptions C61_tolerance_partial.
(** The bounds are always within twice the tolerance of each other. *)
Theorem C61_bounds_close : forall f lo hi solve logtol fuel t T v, 0 < lo -> lo < hi -> convex_cost f lo hi -> solves f lo hi solve -> 0 < logtol ->
  autosweep_1d solve logtol fuel lo hi = Some (Ok (t, T)) -> lo <= v <= hi ->
  exists l u, cost_at t v (Some Lower) = Ok l /\ cost_at t v (Some Upper) = Ok u /\ ln u - ln l <= 2 * T.
Proof.
  intros f lo hi solve logtol fuel t T v Hlo Hlt Hf Hs Ht E Hv.
  assert (Hb := autosweep_built f lo hi solve logtol fuel t T Hlo Hlt Hf Hs Ht E).
  destruct (tree_costs f lo hi solve Hlo Hf Hs logtol lo hi t T v Hb Hv) as (L & U & E1 & E2 & E3 & H1 & H2 & H3 & _ & H4).
  exists (exp L), (exp U). rewrite !ln_exp. auto.
Qed.
Print Assumptions C61_bounds_close.
Theorem C61_tolerance_refuted : ~ C61_for (fun t v => True).
Proof.
  intros H. assert (Hlt : exp (-1) < exp 1) by (apply exp_increasing; lra).
  destruct (H (bent 0) (exp (-1)) (exp 1) (bent_solve 0) 2 1%nat (Seg (bent_seg 0)) 1 1 (exp_pos _) Hlt (bent_convex _ _ _) (bent_solves _ _ _) ltac:(lra) (bent_swept 0))
    as (c & E1 & Hb); auto.
  - apply one_inside.
  - rewrite bent_cost in E1. destruct (Req_EM_T 0 0); [|lra]. injection E1 as <-. unfold bent in Hb. rewrite !ln_exp, ln_1, Rabs_R0 in Hb.
    replace (2 - (2 * 0 + 0)) with 2 in Hb by lra. rewrite Rabs_pos_eq in Hb by lra. lra.
Qed.
Print Assumptions C61_tolerance_refuted.

(** ** C47: The autosweep tree is an ordered partition *)

(** A history of splits, and of bounds recorded, anywhere in a tree; [added] are the solutions added by splits. [at_value] is the value a
    solution is for. *)
Section C47.
Variable at_value : sol -> R.
Inductive step : bst -> list sol -> bst -> Prop :=
| step_split t x s t' : at_value s = x -> add_split t x s = Ok t' -> step t [s] t'
| step_cost t x lb ub t' : add_splitcost t x lb ub = Ok t' -> step t [] t'
| step_left n l r added l' : step l added l' -> step (Split n l r) added (Split n l' r)
| step_right n l r added r' : step r added r' -> step (Split n l r) added (Split n l r').
Inductive steps : bst -> list sol -> bst -> Prop :=
| steps_nil t : steps t [] t
| steps_cons t added t' more t'' : step t added t' -> steps t' more t'' -> steps t (added ++ more) t''.

(** The leaves, from left to right. *)
Fixpoint leaf_segs (t : bst) : list seg := match t with Seg n => [n] | Split _ l r => leaf_segs l ++ leaf_segs r end.

Inductive ok : R -> R -> bst -> Prop :=
| ok_seg a b n : 0 < a -> a < b -> b0 n = a -> b1 n = b -> at_value (sol0 n) = a -> at_value (sol1 n) = b ->
    (forall x, splitval n = Some x -> a < x < b) -> ok a b (Seg n)
| ok_split a b n x l r : splitval n = Some x -> a < x < b -> b0 n = a -> b1 n = b -> ok a x l -> ok x b r ->
    sol0 n = sol0 (root l) -> sol1 (root l) = sol0 (root r) -> sol1 n = sol1 (root r) -> ok a b (Split n l r).
Lemma ok_root a b t : ok a b t -> 0 < a /\ a < b /\ b0 (root t) = a /\ b1 (root t) = b /\ at_value (sol0 (root t)) = a /\ at_value (sol1 (root t)) = b.
Proof.
  induction 1 as [a b n Ha Hab E0 E1 A0 A1 Hx|a b n x l r Ex Hx E0 E1 _ (A1 & A2 & A3 & A4 & A5 & A6) _ (B1 & B2 & B3 & B4 & B5 & B6) S0 S1 S2]; simpl; [auto 10|].
  rewrite S0, S2. repeat (split; [lra || auto|]). auto.
Qed.
(** [sollist] from its ends. *)
Lemma sollist_split n l r s p q e1 e2 : sollist l = s :: p ++ [e1] -> sollist r = e1 :: q ++ [e2] -> sol0 n = s -> sol1 n = e2 ->
  sollist (Split n l r) = s :: p ++ [e1] ++ q ++ [e2].
Proof.
  intros El Er <- <-. simpl. rewrite El, Er. simpl. rewrite removelast_app by discriminate. simpl. rewrite app_nil_r, <- app_assoc. auto.
Qed.
Lemma sollist_ends a b t : ok a b t -> exists mid, sollist t = sol0 (root t) :: mid ++ [sol1 (root t)].
Proof.
  induction 1 as [a b n Ha Hab E0 E1 A0 A1 Hx|a b n x l r Ex Hx E0 E1 _ (p & Ep) _ (q & Eq) S0 S1 S2]; [exists []; auto|].
  rewrite <- S1 in Eq. rewrite (sollist_split n l r _ _ _ _ _ Ep Eq S0 S2). exists (p ++ [sol1 (root l)] ++ q). simpl root. rewrite S0, S2, <- !app_assoc. auto.
Qed.
Lemma truthy_pos x : 0 < x -> truthy (Some x) = true.
Proof. intros Hx. unfold truthy. destruct (Req_EM_T x 0); [lra|auto]. Qed.
Lemma step_ok a b t added t' : ok a b t -> step t added t' -> ok a b t' /\ sol0 (root t') = sol0 (root t) /\ sol1 (root t') = sol1 (root t) /\ Permutation (sollist t') (sollist t ++ added).
Proof.
  intros Hok Hst. revert a b Hok. induction Hst as [t x s t' Es Ea|t x lb ub t' Ea|n l r added l' Hl IH|n l r added r' Hr IH]; intros a b Hok.
  - destruct Hok as [a b n Ha Hab E0 E1 A0 A1 Hx|a b n y l r Ex Hx E0 E1 Hl Hr S0 S1 S2].
    + unfold add_split in Ea. simpl root in Ea. destruct (truthy (splitval n)); [discriminate|]. unfold new in Ea.
      destruct (Rle_dec x (b0 n)); [discriminate|]. destruct (Rle_dec (b1 n) x); [discriminate|]. simpl in Ea. injection Ea as <-.
      rewrite E0, E1 in *. split; [|split; [|split]]; auto.
      * apply ok_split with x; simpl; auto; [lra| |]; apply ok_seg; simpl; auto; try lra; discriminate.
      * simpl. apply perm_skip. apply perm_swap.
    + exfalso. unfold add_split in Ea. simpl root in Ea. rewrite Ex in Ea. rewrite truthy_pos in Ea; [discriminate|].
      destruct (ok_root a y l Hl) as (Hp & _). lra.
  - destruct Hok as [a b n Ha Hab E0 E1 A0 A1 Hx|a b n y l r Ex Hx E0 E1 Hl Hr S0 S1 S2].
    + unfold add_splitcost in Ea. simpl root in Ea. destruct (truthy (splitval n)); [discriminate|].
      destruct (Rle_dec x (b0 n)); [discriminate|]. destruct (Rle_dec (b1 n) x); [discriminate|]. injection Ea as <-.
      rewrite E0, E1 in *. split; [|split; [|split]]; auto. apply ok_seg; simpl; auto. intros x' [= <-]. lra.
    + exfalso. unfold add_splitcost in Ea. simpl root in Ea. rewrite Ex in Ea. rewrite truthy_pos in Ea; [discriminate|].
      destruct (ok_root a y l Hl) as (Hp & _). lra.
  - inversion Hok as [|a' b' n' y l0 r0 Ex Hx E0 E1 Hl' Hr' S0 S1 S2]; subst. destruct (IH _ _ Hl') as (O & R0 & R1 & Hp).
    assert (O' : ok (b0 n) (b1 n) (Split n l' r)) by (apply ok_split with y; auto; congruence).
    split; auto. split; auto. split; auto.
    destruct (sollist_ends _ _ _ Hl') as (p & Ep). destruct (sollist_ends _ _ _ O) as (p' & Ep'). destruct (sollist_ends _ _ _ Hr') as (q & Eq).
    rewrite <- S1 in Eq. rewrite (sollist_split n l r _ _ _ _ _ Ep Eq S0 S2). rewrite R0, R1 in Ep'. rewrite (sollist_split n l' r _ _ _ _ _ Ep' Eq S0 S2).
    rewrite Ep, Ep' in Hp. transitivity ((sol0 (root l) :: p' ++ [sol1 (root l)]) ++ q ++ [sol1 (root r)]); [simpl; rewrite <- app_assoc; auto|].
    rewrite Hp. transitivity ((sol0 (root l) :: p ++ [sol1 (root l)]) ++ added ++ (q ++ [sol1 (root r)])); [rewrite <- app_assoc; auto|].
    simpl. apply perm_skip. rewrite <- !app_assoc. apply Permutation_app_head. simpl. apply perm_skip.
    transitivity ((q ++ [sol1 (root r)]) ++ added); [apply Permutation_app_comm|rewrite <- app_assoc; auto].
  - inversion Hok as [|a' b' n' y l0 r0 Ex Hx E0 E1 Hl' Hr' S0 S1 S2]; subst. destruct (IH _ _ Hr') as (O & R0 & R1 & Hp).
    assert (O' : ok (b0 n) (b1 n) (Split n l r')) by (apply ok_split with y; auto; congruence).
    split; auto. split; auto. split; auto.
    destruct (sollist_ends _ _ _ Hl') as (p & Ep). destruct (sollist_ends _ _ _ O) as (q' & Eq'). destruct (sollist_ends _ _ _ Hr') as (q & Eq).
    rewrite R0, R1 in Eq'. rewrite Eq, Eq' in Hp. rewrite <- S1 in Eq, Eq', Hp. rewrite (sollist_split n l r _ _ _ _ _ Ep Eq S0 S2). rewrite (sollist_split n l r' _ _ _ _ _ Ep Eq' S0 S2).
    simpl. apply perm_skip. rewrite <- !app_assoc. apply Permutation_app_head. exact Hp.
Qed.
Lemma steps_ok a b t added t' : steps t added t' -> ok a b t -> ok a b t' /\ Permutation (sollist t') (sollist t ++ added).
Proof.
  induction 1 as [t|t added t' more t'' H1 H2 IH]; intros Hok.
  - split; auto. rewrite app_nil_r. auto.
  - destruct (step_ok a b t added t' Hok H1) as (O & _ & _ & Hp). destruct (IH O) as [O' Hp']. split; auto. rewrite Hp', Hp, app_assoc. auto.
Qed.

Lemma combine_app_mid {A} (p q : list A) e : combine (p ++ [e] ++ q) (tl (p ++ [e] ++ q)) = combine (p ++ [e]) (tl (p ++ [e])) ++ combine ([e] ++ q) (tl ([e] ++ q)).
Proof.
  induction p as [|a p IH]; auto. simpl app. simpl tl in *. destruct p as [|a' p]; auto.
  simpl app in *. simpl in *. f_equal. exact IH.
Qed.
Lemma sorted_join (p q : list R) e : StronglySorted Rlt (p ++ [e]) -> StronglySorted Rlt (e :: q) -> StronglySorted Rlt (p ++ [e] ++ q).
Proof.
  induction p as [|a p IH]; intros Hp Hq; auto. simpl in *. inversion Hp as [|? ? Hp1 Hp2]; subst. constructor; auto.
  apply List.Forall_forall. intros z Hz. rewrite List.Forall_forall in Hp2. apply in_app_iff in Hz as [Hz|Hz].
  - apply Hp2. apply in_app_iff. auto.
  - assert (a < e) by (apply Hp2; apply in_app_iff; right; left; auto). destruct Hz as [<-|Hz]; auto.
    inversion Hq as [|? ? _ Hq2]; subst. rewrite List.Forall_forall in Hq2. specialize (Hq2 z Hz). lra.
Qed.
Lemma ok_partition a b t : ok a b t ->
  StronglySorted Rlt (map at_value (sollist t)) /\
  map (fun n => (b0 n, b1 n)) (leaf_segs t) = combine (map at_value (sollist t)) (tl (map at_value (sollist t))).
Proof.
  induction 1 as [a b n Ha Hab E0 E1 A0 A1 Hx|a b n x l r Ex Hx E0 E1 Hl (L1 & L2) Hr (R1 & R2) S0 S1 S2].
  - simpl. rewrite E0, E1, A0, A1. split; auto. repeat constructor. auto.
  - destruct (sollist_ends _ _ _ Hl) as (p & Ep). destruct (sollist_ends _ _ _ Hr) as (q & Eq). rewrite <- S1 in Eq.
    rewrite (sollist_split n l r _ _ _ _ _ Ep Eq S0 S2). rewrite Ep in L1, L2. rewrite Eq in R1, R2.
    set (P := sol0 (root l) :: p) in *. set (Q := q ++ [sol1 (root r)]) in *. set (e := sol1 (root l)) in *.
    change (sol0 (root l) :: p ++ [e] ++ Q) with (P ++ [e] ++ Q). change (sol0 (root l) :: p ++ [e]) with (P ++ [e]) in L1, L2.
    change (e :: Q) with ([e] ++ Q) in R1, R2. rewrite !map_app in *. simpl map in *. split; [apply sorted_join; auto|].
    simpl leaf_segs. rewrite map_app, L2, R2. symmetry. apply (combine_app_mid (map at_value P) (map at_value Q) (at_value e)).
Qed.
Lemma ok_query a b t v : ok a b t -> a <= v <= b -> In (min_bst t v) (leaf_segs t) /\ b0 (min_bst t v) <= v <= b1 (min_bst t v).
Proof.
  induction 1 as [a b n Ha Hab E0 E1 A0 A1 Hx|a b n x l r Ex Hx E0 E1 Hl IHl Hr IHr S0 S1 S2]; intros Hv; simpl.
  - split; auto. lra.
  - rewrite Ex. destruct (Rle_dec v x); [destruct (IHl ltac:(lra)) as [I1 I2]|destruct (IHr ltac:(lra)) as [I1 I2]]; split; auto; apply in_app_iff; auto.
Qed.
End C47.

(** After any history of splits of a tree between positive bounds: the solutions are those it started with and those added, sorted by their values
    and without duplicates; leaves are the intervals between one and the next; a query
    descends to a leaf with its value. *)
Theorem C47_partition : forall at_value lo hi slo shi t0 added t, 0 < lo -> at_value slo = lo -> at_value shi = hi ->
  new lo hi slo shi = Ok t0 -> steps at_value t0 added t ->
  Permutation (sollist t) (slo :: shi :: added) /\
  StronglySorted Rlt (map at_value (sollist t)) /\
  List.hd 0 (map at_value (sollist t)) = lo /\ List.last (map at_value (sollist t)) 0 = hi /\
  map (fun n => (b0 n, b1 n)) (leaf_segs t) = combine (map at_value (sollist t)) (tl (map at_value (sollist t))) /\
  forall v, lo <= v <= hi -> In (min_bst t v) (leaf_segs t) /\ b0 (min_bst t v) <= v <= b1 (min_bst t v).
Proof.
  intros at_value lo hi slo shi t0 added t Hlo E0 E1 En Hst.
  unfold new in En. destruct (Rle_dec hi lo); [discriminate|]. injection En as <-.
  assert (O0 : ok at_value lo hi (Seg (MkSeg lo hi slo shi None None None))) by (apply ok_seg; simpl; auto; [lra|discriminate]).
  destruct (steps_ok at_value lo hi _ added t Hst O0) as [O Hp]. destruct (ok_partition at_value lo hi t O) as [P1 P2].
  destruct (ok_root at_value lo hi t O) as (_ & _ & _ & _ & A0 & A1). destruct (sollist_ends at_value lo hi t O) as (mid & Em).
  split; [exact Hp|]. split; auto. split; [rewrite Em; auto|]. split; [|split; auto; intros v Hv; apply (ok_query at_value lo hi); auto].
  rewrite Em. rewrite app_comm_cons, map_app. simpl map at 2. rewrite last_last. auto.
Qed.
Print Assumptions C47_partition.

(** Autosweeping is such a history. *)
Lemma recurse_steps at_value solve logtol : (forall x, at_value (solve x) = x) -> forall fuel t t' T,
  recurse_splits solve logtol fuel t = Some (Ok (t', T)) -> exists added, steps at_value t added t'.
Proof.
  intros Hat. induction fuel as [|fuel IH]; intros t t' T; simpl; [discriminate|].
  destruct (get_tol (root t)) as [[x lb] ub]. destruct (Rle_dec logtol ((ub - lb) / 2)) as [Hd|Hd].
  - destruct (add_split t x (solve x)) as [[n|n l r]|e] eqn:Ea; try discriminate.
    + intros [= <- <-]. exists ([solve x] ++ []). eapply steps_cons; [eapply step_split; eauto|constructor].
    + destruct (recurse_splits solve logtol fuel l) as [[[l' Tl]|e]|] eqn:El; try discriminate.
      destruct (recurse_splits solve logtol fuel r) as [[[r' Tr]|e]|] eqn:Er; try discriminate.
      intros [= <- <-]. destruct (IH _ _ _ El) as (al & Sl). destruct (IH _ _ _ Er) as (ar & Sr).
      assert (Gr : forall r0 ar, steps at_value r0 ar r' -> steps at_value (Split n l' r0) ar (Split n l' r')).
      { clear - at_value. intros r0 ar H. induction H; [constructor|]. eapply steps_cons; eauto. apply step_right. auto. }
      assert (Gl : forall l0 al l1, steps at_value l0 al l1 -> forall b, steps at_value (Split n l1 r) b (Split n l' r') -> exists c, steps at_value (Split n l0 r) c (Split n l' r')).
      { clear - at_value. intros l0 al l1 H. induction H as [|l0 a l1 m l2 H1 H2 IH]; intros b Hb; eauto. destruct (IH b Hb) as (c & Hc).
        exists (a ++ c). eapply steps_cons; eauto. apply step_left. auto. }
      destruct (Gl l al l' Sl ar (Gr r ar Sr)) as (c & Hc). exists ([solve x] ++ c). eapply steps_cons; eauto. eapply step_split; eauto.
  - destruct (add_splitcost t x lb ub) as [t1|e] eqn:Ea; [|discriminate]. intros [= <- <-]. exists ([] ++ []). eapply steps_cons; [eapply step_cost; eauto|constructor].
Qed.
Theorem C47_autosweep : forall at_value solve logtol fuel lo hi t T, 0 < lo -> (forall x, at_value (solve x) = x) ->
  autosweep_1d solve logtol fuel lo hi = Some (Ok (t, T)) ->
  StronglySorted Rlt (map at_value (sollist t)) /\
  List.hd 0 (map at_value (sollist t)) = lo /\ List.last (map at_value (sollist t)) 0 = hi /\
  map (fun n => (b0 n, b1 n)) (leaf_segs t) = combine (map at_value (sollist t)) (tl (map at_value (sollist t))) /\
  forall v, lo <= v <= hi -> In (min_bst t v) (leaf_segs t) /\ b0 (min_bst t v) <= v <= b1 (min_bst t v).
Proof.
  intros at_value solve logtol fuel lo hi t T Hlo Hat E. unfold autosweep_1d in E.
  destruct (new lo hi (solve lo) (solve hi)) as [t0|e] eqn:En; [|discriminate]. destruct (recurse_steps at_value solve logtol Hat fuel t0 t T E) as (added & Hst).
  destruct (C47_partition at_value lo hi (solve lo) (solve hi) t0 added t Hlo (Hat lo) (Hat hi) En Hst) as (_ & H). exact H.
Qed.
Print Assumptions C47_autosweep.

(** Hypotheses met: splits at 2 and at 3 of a tree from 1 to 4. *)
Definition val_sol (x : R) : sol := Sol x 1 (fun _ => x).
Definition val_seg (a b : R) : bst := Seg (MkSeg a b (val_sol a) (val_sol b) None None None).
Definition val_split (a x b : R) (l r : bst) : bst := Split (MkSeg a b (val_sol a) (val_sol b) (Some x) None None) l r.
Example C47_met : new 1 4 (val_sol 1) (val_sol 4) = Ok (val_seg 1 4) /\
  steps s_cost (val_seg 1 4) [val_sol 2; val_sol 3] (val_split 1 2 4 (val_seg 1 2) (val_split 2 3 4 (val_seg 2 3) (val_seg 3 4))) /\
  map s_cost (sollist (val_split 1 2 4 (val_seg 1 2) (val_split 2 3 4 (val_seg 2 3) (val_seg 3 4)))) = [1; 2; 3; 4].
Proof.
  split; [unfold new; destruct (Rle_dec 4 1); [lra|reflexivity]|]. split; [|reflexivity].
  apply (steps_cons s_cost _ [val_sol 2] (val_split 1 2 4 (val_seg 1 2) (val_seg 2 4)) [val_sol 3]).
  - apply step_split with 2; [reflexivity|]. unfold add_split, new. simpl. destruct (Rle_dec 2 1); [lra|]. destruct (Rle_dec 4 2); [lra|]. reflexivity.
  - apply (steps_cons s_cost _ [val_sol 3] (val_split 1 2 4 (val_seg 1 2) (val_split 2 3 4 (val_seg 2 3) (val_seg 3 4))) []); [|constructor].
    apply step_right. apply step_split with 3; [reflexivity|].
    unfold add_split, new. simpl. destruct (Rle_dec 3 2); [lra|]. destruct (Rle_dec 4 3); [lra|]. reflexivity.
Qed.
