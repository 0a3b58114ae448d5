(** Log-convexity of simplified constraints: sensitivities bound the cost of
    changed programs. *)
From Verif Require Import Base HashVec Nomial NomialSem NomialProofs CanonProofs DiffProofs
  Sub SubSem SubProofs Mono MonoProofs Constraint ConstraintSem ConstraintProofs DualProofs Sens SensSem SensProofs.
Open Scope R_scope.

Lemma ln_le x y : 0 < x -> x <= y -> ln x <= ln y.
Proof. intros Hx [H| ->]; [left; apply ln_increasing; auto|right; auto]. Qed.

(** All variables of [u] are listed in [L]. *)
Definition covers (L : list nat) (u : hmap R) : Prop := List.NoDup L /\ forall k, in_vks u k = true -> In k L.

Section Convex.
Variable L : list nat.
Variables p p' : point.
Hypothesis Hp : positive_point p.
Hypothesis Hp' : positive_point p'.
Let D k := ln (p' k) - ln (p k).
Let z (t : expv R * R) := lsum (fun k => eget (fst t) k * D k) L.

Lemma term_ratio u t : covers L u -> In t u -> term_val p' t = term_val p t * exp (z t).
Proof.
  intros [Hn Hc] Ht. destruct t as [e c]. unfold term_val. cbn [fst snd]. rewrite !mono_val_exp, Rmult_assoc, <- exp_plus. f_equal. f_equal.
  unfold dot. rewrite !(esum_cover _ e L); auto.
  - unfold z. cbn [fst]. rewrite <- lsum_plus. apply lsum_ext. intros k _. unfold D. ring.
  - intros; ring.
  - intros k x Hk. apply Hc. apply in_vks_true. exists e, c. split; [auto|congruence].
  - intros; ring.
  - intros k x Hk. apply Hc. apply in_vks_true. exists e, c. split; [auto|congruence].
Qed.

Lemma logsum_total u : lsum (fun k => logsum k p u * D k) L = lsum (fun t => term_val p t * z t) u.
Proof.
  unfold logsum. rewrite (lsum_ext _ (fun k => lsum (fun t => eget (fst t) k * term_val p t * D k) u)).
  2:{ intros k _. rewrite Rmult_comm, <- lsum_scale. apply lsum_ext. intros; ring. }
  rewrite lsum_swap. apply lsum_ext. intros t _. unfold z. rewrite <- lsum_scale. apply lsum_ext. intros; ring.
Qed.

Lemma free_convex u : covers L u -> all_positive u -> u <> [] ->
  lsum (fun t => term_val p t * z t) u / lsum (term_val p) u <= ln (lsum (term_val p') u) - ln (lsum (term_val p) u).
Proof.
  intros Hc Hu Hne. assert (HS : 0 < lsum (term_val p) u) by (rewrite <- eval_terms; apply eval_all_positive; auto).
  assert (HS' : 0 < lsum (term_val p') u) by (rewrite <- eval_terms; apply eval_all_positive; auto).
  set (S := lsum (term_val p) u) in *. set (m := lsum (fun t => term_val p t * z t) u / S).
  assert (exp m * S <= lsum (term_val p') u).
  { rewrite (lsum_ext (term_val p') (fun t => term_val p t * exp (z t))) by (intros; eapply term_ratio; eauto).
    apply Rle_trans with (lsum (fun t => exp m * (1 - m) * term_val p t + exp m * (term_val p t * z t)) u).
    - rewrite lsum_plus, !lsum_scale. fold S. unfold m at 2. 
      replace (lsum (fun t => term_val p t * z t) u) with (m * S) by (unfold m; field; lra).
      replace (m * S / S) with m by (field; lra). nra.
    - apply lsum_le. intros [e c] Ht. pose proof (exp_tangent (z (e, c)) m) as He.
      assert (0 <= term_val p (e, c)). { unfold term_val. cbn. apply Rlt_le, Rmult_lt_0_compat; [eapply Hu; eauto|apply mono_val_pos]. }
      nra. }
  assert (ln (exp m * S) <= ln (lsum (term_val p') u)).
  { apply ln_le; auto. apply Rmult_lt_0_compat; auto. apply exp_pos. }
  rewrite ln_mult, ln_exp in H0 by (auto; apply exp_pos). lra.
Qed.

Lemma const_convex u : covers L u -> all_positive u -> lsum (term_val p) u < 1 -> lsum (term_val p') u < 1 ->
  lsum (fun t => term_val p t * z t) u / (1 - lsum (term_val p) u) <= ln (1 - lsum (term_val p) u) - ln (1 - lsum (term_val p') u).
Proof.
  intros Hc Hu H1 H2. set (c := lsum (term_val p) u) in *. set (c' := lsum (term_val p') u) in *.
  assert (Hge : c + lsum (fun t => term_val p t * z t) u <= c').
  { unfold c, c'. rewrite (lsum_ext (term_val p') (fun t => term_val p t * exp (z t))) by (intros; eapply term_ratio; eauto).
    rewrite <- lsum_plus. apply lsum_le. intros [e x] Ht. pose proof (exp_ineq1_le (z (e, x))).
    assert (0 <= term_val p (e, x)). { unfold term_val. cbn. apply Rlt_le, Rmult_lt_0_compat; [eapply Hu; eauto|apply mono_val_pos]. }
    nra. }
  pose proof (ln_le_sub1 ((1 - c') / (1 - c)) ltac:(apply Rdiv_lt_0_compat; lra)) as Hl.
  unfold Rdiv in Hl. rewrite ln_mult, ln_Rinv in Hl by (try apply Rinv_0_lt_compat; lra).
  assert ((1 - c') * / (1 - c) - 1 <= - (lsum (fun t => term_val p t * z t) u / (1 - c))).
  { apply Rmult_le_reg_r with (1 - c); [lra|]. field_simplify; lra. }
  lra.
Qed.

(** The simplified constraint lies above its tangent in the logs. *)
Lemma simplified_convex fixed u (d : nat -> R) : covers L u -> all_positive u -> free_terms fixed u <> [] ->
  lsum (term_val p) (constant_terms fixed u) < 1 -> lsum (term_val p') (constant_terms fixed u) < 1 ->
  (forall k, In k L -> log_deriv (simplified fixed u) p k (d k)) ->
  lsum (fun k => d k * D k) L <= ln (simplified fixed u p') - ln (simplified fixed u p).
Proof.
  intros [Hn Hc] Hu Hne H1 H2 Hd. set (N := free_terms fixed u) in *. set (C := constant_terms fixed u) in *.
  assert (HinN : forall t, In t N -> In t u) by (intros t Ht; apply filter_In in Ht; tauto).
  assert (HinC : forall t, In t C -> In t u) by (intros t Ht; apply filter_In in Ht; tauto).
  assert (CN : covers L N). { split; auto. intros k Hk. apply Hc. apply in_vks_true in Hk as (e & c & Hi & Hk). apply in_vks_true. exists e, c. auto. }
  assert (CC : covers L C). { split; auto. intros k Hk. apply Hc. apply in_vks_true in Hk as (e & c & Hi & Hk). apply in_vks_true. exists e, c. auto. }
  assert (PN : all_positive N) by (intros e c Hi; eapply Hu; eauto).
  assert (PC : all_positive C) by (intros e c Hi; eapply Hu; eauto).
  pose proof (free_convex N CN PN Hne) as F1. pose proof (const_convex C CC PC H1 H2) as F2.
  assert (HS : 0 < lsum (term_val p) N) by (rewrite <- eval_terms; apply eval_all_positive; auto).
  assert (HS' : 0 < lsum (term_val p') N) by (rewrite <- eval_terms; apply eval_all_positive; auto).
  assert (Hdk : forall k, In k L -> d k = logsum k p N / lsum (term_val p) N + logsum k p C / (1 - lsum (term_val p) C)).
  { intros k Hk. eapply uniqueness_limite; [apply (Hd k Hk)|].
    set (C' := map (fun t => (fst t, - snd t)) C).
    assert (EC : forall q, lsum (term_val q) C' = - lsum (term_val q) C).
    { intros q. unfold C'. rewrite lsum_map. replace (- lsum (term_val q) C) with (-1 * lsum (term_val q) C) by ring.
      rewrite <- lsum_scale. apply lsum_ext. intros [e c] _. unfold term_val. cbn. ring. }
    assert (EL : logsum k p C' = - logsum k p C).
    { unfold logsum, C'. rewrite lsum_map. replace (- lsum (fun t => eget (fst t) k * term_val p t) C) with (-1 * lsum (fun t => eget (fst t) k * term_val p t) C) by ring.
      rewrite <- lsum_scale. apply lsum_ext. intros [e c] _. unfold term_val. cbn. ring. }
    pose proof (log_deriv_quot N C' 1 p k (Hp k) HS ltac:(rewrite EC; lra)) as HQ.
    rewrite EC, EL in HQ.
    replace (logsum k p N / lsum (term_val p) N + logsum k p C / (1 - lsum (term_val p) C))
      with (logsum k p N / lsum (term_val p) N - - logsum k p C / (1 + - lsum (term_val p) C)) by (field; lra).
    unfold log_deriv in HQ. eapply derivable_pt_lim_ext; [|exact HQ]. intros s. cbv beta. unfold simplified. fold N C. rewrite EC. reflexivity. }
  rewrite (lsum_ext (fun k => d k * D k) (fun k => / lsum (term_val p) N * (logsum k p N * D k) + / (1 - lsum (term_val p) C) * (logsum k p C * D k))).
  2:{ intros k Hk. rewrite (Hdk k Hk). unfold Rdiv. ring. }
  rewrite lsum_plus, !lsum_scale, !logsum_total. unfold simplified. fold N C.
  unfold Rdiv. rewrite !ln_mult, !ln_Rinv by (try apply Rinv_0_lt_compat; lra). unfold Rdiv in F1, F2. lra.
Qed.
End Convex.

(** What [C32] and [C56] say of the parts of a program. *)
Definition cost_part (p : point) (cost : hmap R) (ss : expv R) : Prop :=
  forall k, log_deriv (fun q => eval q cost) p k (eget ss k).
Definition constraint_part (fixed : gmap nat R) (p : point) (u : hmap R) (la : R) (ss : expv R) : Prop :=
  forall k, exists d, log_deriv (simplified fixed u) p k d /\ eget ss k = la * d.

(** The constraint [u <= 1] at [q], once its constant terms are moved. *)
Definition met (fixed : gmap nat R) (q : point) (u : hmap R) : Prop :=
  lsum (term_val q) (constant_terms fixed u) < 1 /\ simplified fixed u q <= 1.

Lemma cost_convex L p p' cost (d : nat -> R) : positive_point p -> positive_point p' -> covers L cost -> all_positive cost -> cost <> [] ->
  (forall k, In k L -> log_deriv (fun q => eval q cost) p k (d k)) ->
  lsum (fun k => d k * (ln (p' k) - ln (p k))) L <= ln (eval p' cost) - ln (eval p cost).
Proof.
  intros Hp Hp' Hc Hu Hne Hd.
  pose proof (free_convex L p p' cost Hc Hu Hne) as F.
  cbv zeta beta in F. pose proof (logsum_total L p p' cost) as HT. cbv zeta beta in HT. rewrite <- HT in F. rewrite !eval_terms.
  assert (HS : 0 < lsum (term_val p) cost) by (rewrite <- eval_terms; apply eval_all_positive; auto).
  eapply Rle_trans; [|exact F]. right. unfold Rdiv. rewrite Rmult_comm, <- lsum_scale. apply lsum_ext. intros k Hk.
  assert (d k = logsum k p cost / lsum (term_val p) cost) as ->; [|unfold Rdiv; ring].
  eapply uniqueness_limite; [apply (Hd k Hk)|].
  pose proof (log_deriv_quot cost [] 1 p k (Hp k) HS ltac:(cbn [lsum]; lra)) as HQ. unfold logsum in HQ at 2. cbn [lsum] in HQ.
  replace (logsum k p cost / lsum (term_val p) cost) with (logsum k p cost / lsum (term_val p) cost - 0 / (1 + 0)) by lra.
  unfold log_deriv in HQ. eapply derivable_pt_lim_ext; [|exact HQ]. intros s. cbv beta. rewrite eval_terms. f_equal. field.
Qed.

Lemma perturbed_cost L fixed p p' cost ss0 (cs : list (hmap R * (R * expv R))) :
  positive_point p -> positive_point p' -> covers L cost -> all_positive cost -> cost <> [] -> cost_part p cost ss0 ->
  (forall u la ss, In (u, (la, ss)) cs -> covers L u /\ all_positive u /\ free_terms fixed u <> [] /\
     0 <= la /\ constraint_part fixed p u la ss /\
     met fixed p u /\ met fixed p' u /\ (la = 0 \/ simplified fixed u p = 1)) ->
  ln (eval p cost) + lsum (fun k => eget (total_sens ss0 (map (fun c => snd (snd c)) cs)) k * (ln (p' k) - ln (p k))) L <= ln (eval p' cost).
Proof.
  intros Hp Hp' Hc Hu Hne H0 Hcs.
  rewrite (lsum_ext _ (fun k => eget ss0 k * (ln (p' k) - ln (p k)) + lsum (fun c => eget (snd (snd c)) k * (ln (p' k) - ln (p k))) cs)).
  2:{ intros k _. rewrite total_sens_eget, lsum_map. rewrite Rmult_plus_distr_r. f_equal.
      rewrite Rmult_comm, <- lsum_scale. apply lsum_ext. intros; ring. }
  rewrite lsum_plus. pose proof (cost_convex L p p' cost (eget ss0) Hp Hp' Hc Hu Hne (fun k _ => H0 k)) as HC.
  enough (lsum (fun k => lsum (fun c => eget (snd (snd c)) k * (ln (p' k) - ln (p k))) cs) L <= 0) by lra.
  rewrite lsum_swap.
  apply Rle_trans with (lsum (fun _ : hmap R * (R * expv R) => 0) cs); [|rewrite lsum_zero; lra].
  apply lsum_le. intros [u [la ss]] Hin. cbn [snd].
  destruct (Hcs u la ss Hin) as (C1 & C2 & C3 & C4 & C5 & [C6 C6'] & [C7 C7'] & C8).
  assert (HS : 0 < simplified fixed u p').
  { unfold simplified. apply Rdiv_lt_0_compat; [|lra]. rewrite <- eval_terms. apply eval_all_positive; auto.
    intros e c Hi. unfold free_terms in Hi. apply filter_In in Hi. eapply C2. apply Hi. }
  destruct (decide (la = 0)) as [->|Hla].
  - right. rewrite (lsum_ext _ (fun _ => 0)); [apply lsum_zero|]. intros k _. destruct (C5 k) as (d & _ & ->). ring.
  - destruct C8 as [C8|C8]; [congruence|].
    set (d k := eget ss k / la).
    assert (Hd : forall k, In k L -> log_deriv (simplified fixed u) p k (d k)).
    { intros k _. destruct (C5 k) as (dk & Hdk & E). unfold d. rewrite E. replace (la * dk / la) with dk by (field; auto). auto. }
    pose proof (simplified_convex L p p' Hp fixed u d C1 C2 C3 C6 C7 Hd) as HX.
    rewrite C8, ln_1 in HX.
    assert (ln (simplified fixed u p') <= 0). { rewrite <- ln_1. apply ln_le; auto. }
    rewrite (lsum_ext _ (fun k => la * (d k * (ln (p' k) - ln (p k))))) by (intros; unfold d; field; auto).
    rewrite lsum_scale. nra.
Qed.

Lemma mono_log_deriv e c p k : 0 < c -> 0 < p k -> log_deriv (fun q => term_val q (e, c)) p k (eget e k).
Proof.
  intros Hc Hk. unfold log_deriv.
  apply (derivable_pt_lim_ext (fun s => ln (term_val p (e, c)) + eget e k * s)).
  - intros s. rewrite (term_val_log p k s (e, c) Hk). cbn [fst].
    rewrite ln_mult, ln_exp; auto; [|apply exp_pos]. unfold term_val. cbn. apply Rmult_lt_0_compat; [auto|apply mono_val_pos].
  - generalize (eget e k). intros a.
    assert (H : derivable_pt_lim (fun s => ln (term_val p (e, c)) + a * s) 0 (0 + a * 1)).
    { apply (derivable_pt_lim_plus (fun _ => ln (term_val p (e, c))) (fun s => a * s)); [apply derivable_pt_lim_const|].
      apply (derivable_pt_lim_scal (fun s => s)). apply derivable_pt_lim_id. }
    replace (0 + a * 1) with a in H by ring. exact H.
Qed.
