(** C34 and C35: the problems handed to CVXOPT and MOSEK. What problems mean is specified in SolversSpec.v. *)
From Verif Require Import Base Solvers SolversSpec SolversProofs.
Open Scope R_scope.

Definition pt (l : list R) (j : nat) : R := List.nth j l 0.

(** ** C34: The cvxopt problem is the GP *)

(** Whether or not equalities are handed over as such, CVXOPT's problem has the GP's feasible points and (the log of) its cost. *)
Theorem C34_problem : forall ps all first use_leqs maxcol, proper ps -> meq_pairs ps all first ->
  let q := cvx_problem (c_of ps) (A_of ps) (k_of ps) all first use_leqs maxcol in
  cvx_sizes q /\ forall x, (cvx_feasible q x <-> gp_feasible ps x) /\ exp (cvx_cost q x) = gp_cost ps x.
Proof.
  intros ps all first use_leqs maxcol Hp Hm q. split; [apply cvx_sizes_ok; assumption|]. intros x. split; [apply cvx_feasible_iff|apply cvx_cost_eq]; assumption.
Qed.
Print Assumptions C34_problem.

(** The multipliers made of CVXOPT's, one for each posynomial and 1 for the cost, give the GP the same Lagrangian; and
    none are negative if those of inequalities are not. *)
Theorem C34_multipliers : forall ps all first use_leqs maxcol out, proper ps -> meq_pairs ps all first ->
  let q := cvx_problem (c_of ps) (A_of ps) (k_of ps) all first use_leqs maxcol in
  fits q out ->
  exists la, cvx_la (k_of ps) all first use_leqs out = Ok la /\ length la = length ps /\ List.nth 0 la 0 = 1 /\
    (Forall (fun v => 0 <= v) (o_zl out) -> Forall (fun v => 0 <= v) (o_znl out) -> Forall (fun v => 0 <= v) la) /\
    forall x, gp_lagrangian ps la x = cvx_lagrangian q out x.
Proof. intros ps all first use_leqs maxcol out Hp Hm q Hf. exact (lagrangian_eq ps all first use_leqs maxcol Hp Hm out Hf). Qed.
Print Assumptions C34_multipliers.

(** With a solver that returns an optimum when it says so, what is returned is an optimum of the GP and its cost; a solver that doesn't
    say so, or fails, always makes for an exception. *)
Definition cvx_honest (gp : cvx -> res cvx_out) : Prop :=
  forall q out, gp q = Ok out -> o_optimal out = true ->
    best (cvx_feasible q) (cvx_cost q) (pt (o_x out)) /\ o_obj out = cvx_cost q (pt (o_x out)) /\ fits q out.
Theorem C34_optimize : forall gp ps all first use_leqs maxcol, cvx_honest gp -> proper ps -> meq_pairs ps all first ->
  match cvx_optimize gp (c_of ps) (A_of ps) (k_of ps) all first use_leqs maxcol with
  | Ok (cost, x, la) => best (gp_feasible ps) (gp_cost ps) (pt x) /\ cost = gp_cost ps (pt x) /\ length la = length ps
  | Err e => match gp (cvx_problem (c_of ps) (A_of ps) (k_of ps) all first use_leqs maxcol) with
             | Ok out => o_optimal out = false /\ e = UnknownInfeasibleE
             | Err e' => (e' = ValueErrorE -> e = DualInfeasibleE) /\ (e' <> ValueErrorE -> e = e')
             end
  end.
Proof.
  intros gp ps all first use_leqs maxcol Hg Hp Hm. unfold cvx_optimize.
  set (q := cvx_problem _ _ _ _ _ _ _). destruct (gp q) as [out|e] eqn:E; [|destruct e; split; intros; congruence].
  destruct (o_optimal out) eqn:Eo; [|auto]. destruct (Hg q out E Eo) as ([Hf Hb] & Ho & Hfit).
  destruct (C34_multipliers ps all first use_leqs maxcol out Hp Hm Hfit) as (la & Ela & Lla & _). rewrite Ela. simpl.
  destruct (C34_problem ps all first use_leqs maxcol Hp Hm) as [_ HP]. fold q in HP. split; [|split; [|exact Lla]].
  - split; [apply HP; exact Hf|]. intros x' Hx'. rewrite <- (proj2 (HP (pt (o_x out)))), <- (proj2 (HP x')).
    specialize (Hb x' (proj2 (proj1 (HP x')) Hx')). destruct Hb as [Hb| -> ]; [left; apply exp_increasing; exact Hb|lra].
  - rewrite Ho. apply HP.
Qed.
Print Assumptions C34_optimize.

(** A GP of every kind: minimize x + 1/y with x/2 + y/3 <= 1, x*y == 2 and 1/(5*x) <= 1. *)
Definition sample : list posy :=
  [[(1, [(0%nat, 1)]); (1, [(1%nat, -1)])]; [(1/2, [(0%nat, 1)]); (1/3, [(1%nat, 1)])];
   [(1/2, [(0%nat, 1); (1%nat, 1)])]; [(/ (1/2), [(0%nat, -1); (1%nat, -1)])]; [(1/5, [(0%nat, -1)])]].
Example C34_nonvacuous : proper sample /\ meq_pairs sample [4; 5]%nat [4]%nat /\
  let pt := classify (k_of sample) [4; 5]%nat [4]%nat true in
  lse_posys pt = [0; 1]%nat /\ lin_posys pt = [4]%nat /\ leq_posys pt = [2]%nat /\
  (lse_mons pt = [0; 1; 2; 3] /\ lin_mons pt = [6] /\ leq_mons pt = [4])%nat.
Proof.
  split; [|split; [|vm_compute; repeat split]].
  - split; [discriminate|]. unfold sample. repeat constructor; simpl; try discriminate; try lra; try (apply Rinv_0_lt_compat; lra).
  - split.
    + intros [|[|[|[|[|i]]]]] Hi Ha Hf; unfold place, k_of, sample in *; simpl in *; try lia;
        rewrite ?elem_of_cons, ?elem_of_nil in Hf; try lia.
      eexists _, _. split; [lia|]. do 2 (split; [reflexivity|]). split; [split; [reflexivity|intros x; simpl; lra]|].
      rewrite !elem_of_cons, elem_of_nil. lia.
    + intros [|[|[|[|[|i]]]]] Hi Ha Hf; unfold place, k_of, sample in *; simpl in *; try lia;
        rewrite ?elem_of_cons, ?elem_of_nil in *; try lia.
      exists 2%nat. simpl. rewrite ?elem_of_cons, ?elem_of_nil. lia.
Qed.

(** ** C35: The MOSEK conic problem is the GP *)

(** For [x] and [v] there are t and z that make a feasible point with objective [v] just when [x] is feasible for the GP and [v]
    is at least the log of its cost. *)
Theorem C35_problem : forall ps m, proper ps -> bounded_columns ps m ->
  let P := msk_problem (c_of ps) (A_of ps) (k_of ps) (p_of ps) m in
  forall x v, (exists w, conic_feasible P w /\ (forall j, (j < m)%nat -> w j = x j) /\ w (m_obj P) = v) <-> gp_feasible ps x /\ gp_cost ps x <= exp v.
Proof. intros ps m Hp Hc P x v. apply base_iff; assumption. Qed.
Print Assumptions C35_problem.

Lemma cost_pos ps x : proper ps -> 0 < gp_cost ps x.
Proof.
  intros [Hn F]. unfold gp_cost. destruct ps as [|p l]; [congruence|]. inversion F as [|? ? [A B] _]; subst. apply pval_pos; assumption.
Qed.
(** Optima of one are optima of the other. *)
Theorem C35_optima : forall ps m, proper ps -> bounded_columns ps m ->
  let P := msk_problem (c_of ps) (A_of ps) (k_of ps) (p_of ps) m in
  (forall w, best (conic_feasible P) (fun w => w (m_obj P)) w -> best (gp_feasible ps) (gp_cost ps) w /\ exp (w (m_obj P)) = gp_cost ps w) /\
  (forall x, best (gp_feasible ps) (gp_cost ps) x -> exists w, (forall j, (j < m)%nat -> w j = x j) /\ best (conic_feasible P) (fun w => w (m_obj P)) w).
Proof.
  intros ps m Hp Hc P. pose proof (fun x v => C35_problem ps m Hp Hc x v) as H. fold P in H. split.
  - intros w [Hf Hb].
    destruct (proj1 (H w (w (m_obj P)))) as [H1 H2]; [exists w; auto|].
    assert (B : forall x', gp_feasible ps x' -> w (m_obj P) <= ln (gp_cost ps x')).
    { intros x' Hx'. destruct (proj2 (H x' (ln (gp_cost ps x')))) as (w' & F' & _ & E').
      - split; [exact Hx'|]. rewrite exp_ln by (apply cost_pos; exact Hp). lra.
      - rewrite <- E'. apply Hb. exact F'. }
    assert (E : exp (w (m_obj P)) = gp_cost ps w).
    { apply Rle_antisym; [|exact H2]. specialize (B w H1). rewrite <- (exp_ln (gp_cost ps w)) by (apply cost_pos; exact Hp).
      destruct B as [B|B]; [left; apply exp_increasing; exact B|rewrite B; lra]. }
    split; [|exact E]. split; [exact H1|]. intros x' Hx'. rewrite <- E. specialize (B x' Hx').
    rewrite <- (exp_ln (gp_cost ps x')) by (apply cost_pos; exact Hp).
    destruct B as [B|B]; [left; apply exp_increasing; exact B|rewrite B; lra].
  - intros x [Hf Hb]. destruct (proj2 (H x (ln (gp_cost ps x)))) as (w & F & Hx & E).
    { split; [exact Hf|]. rewrite exp_ln by (apply cost_pos; exact Hp). lra. }
    exists w. split; [exact Hx|]. split; [exact F|]. intros w' F'. rewrite E.
    destruct (proj1 (H w' (w' (m_obj P)))) as [H1 H2]; [exists w'; auto|]. specialize (Hb w' H1).
    rewrite <- (ln_exp (w' (m_obj P))). assert (L : gp_cost ps x <= exp (w' (m_obj P))) by lra.
    destruct L as [L|L]; [left; apply ln_increasing; [apply cost_pos; exact Hp|exact L]|rewrite L; lra].
Qed.
Print Assumptions C35_optima.

Lemma lin_count ps : proper ps -> length (List.filter (fun p => Nat.eqb (length p) 1) (tl ps)) = length (msk_lin (k_of ps)).
Proof.
  intros [_ F]. unfold msk_lin, k_of. destruct ps as [|p l]; [reflexivity|]. inversion F as [|? ? _ F']; subst. simpl tl.
  rewrite !map_length. clear -F'. revert F'. induction l as [|q l IH]; intros F; [reflexivity|].
  inversion F as [|? ? [Hn _] F']; subst. cbn [length map seq List.filter List.nth]. rewrite <- seq_shift, filter_map.
  destruct q as [|a [|b q]]; [congruence| |]; cbn [length Nat.eqb Nat.ltb Nat.leb negb]; rewrite IH by assumption; cbn [length]; rewrite map_length; reflexivity.
Qed.
(** Duals: [dz] and [dl] stand for numbers that belong to the upper bounds of the variables z[1:] and of the last rows. To
    move those bounds by them is to relax each constraint of the GP by the number that [msk_la] gives it. *)
Theorem C35_duals : forall ps m dz dl, proper ps -> bounded_columns ps m ->
  let P := msk_problem (c_of ps) (A_of ps) (k_of ps) (p_of ps) m in
  length dz = (length (m_vars P) - S (m_obj P))%nat -> length dl = length (List.filter (fun p => Nat.eqb (length p) 1) (tl ps)) ->
  Forall (fun d => 0 <= d) dz -> Forall (fun d => 0 <= d) dl ->
  exists la, msk_la (k_of ps) dz dl = Ok la /\ length la = length (tl ps) /\
    forall x v, (exists w, conic_feasible (moved P dz dl) w /\ (forall j, (j < m)%nat -> w j = x j) /\ w (m_obj P) = v) <->
      gp_cost ps x <= exp v /\ Forall2 (fun p d => pval x p <= exp d) (tl ps) la.
Proof.
  intros ps m dz dl Hp Hc P Ez El Fz Fl.
  assert (Ez' : length dz = (length (posys ps (msk_lse (k_of ps))) - 1)%nat).
  { rewrite Ez. unfold P. rewrite msk_problem_eq by assumption. cbn [m_vars m_obj]. rewrite !app_length, !repeat_length, triple_length. simpl. lia. }
  assert (El' : length dl = length (msk_lin (k_of ps))).
  { rewrite El. apply lin_count. exact Hp. }
  destruct (moved_iff ps m Hp Hc dz dl (fun _ => 0) 0 Ez' El' Fz Fl) as (la & E & L & _).
  exists la. split; [exact E|]. split; [exact L|]. intros x v.
  destruct (moved_iff ps m Hp Hc dz dl x v Ez' El' Fz Fl) as (la' & E' & _ & H). assert (la' = la) as -> by congruence. exact H.
Qed.
Print Assumptions C35_duals.

(** With a solver that returns an optimum when it says so, what is returned is an optimum of the GP, its cost and a multiplier for each
    constraint; a solver that doesn't say so makes for an exception. *)
Definition msk_honest (solve : conic -> msk_out) : Prop :=
  forall P, a_status (solve P) = SOptimal ->
    best (conic_feasible P) (fun w => w (m_obj P)) (pt (a_xx (solve P))) /\ a_obj (solve P) = pt (a_xx (solve P)) (m_obj P) /\
    length (a_xx (solve P)) = length (m_vars P) /\ length (a_sux (solve P)) = length (m_vars P) /\ length (a_suc (solve P)) = length (m_rows P).
Lemma pval_agree ps m x y : bounded_columns ps m -> (forall j, (j < m)%nat -> x j = y j) -> forall p, In p ps -> pval x p = pval y p.
Proof.
  intros Hc H p Hin. pose proof (proj1 (List.Forall_forall _ _) Hc p Hin) as F. unfold pval. f_equal. apply map_ext_in. intros mo Hmo.
  unfold mval. rewrite (dot_agree (snd mo) x y); [reflexivity|]. eapply Forall_impl; [exact (proj1 (List.Forall_forall _ _) F mo Hmo)|].
  intros ja Hja. apply H. exact Hja.
Qed.
Lemma best_agree ps m x y : ps <> [] -> bounded_columns ps m -> (forall j, (j < m)%nat -> x j = y j) ->
  gp_cost ps x = gp_cost ps y /\ (best (gp_feasible ps) (gp_cost ps) x -> best (gp_feasible ps) (gp_cost ps) y).
Proof.
  intros Hn Hc H. pose proof (pval_agree ps m x y Hc H) as A.
  assert (E : gp_cost ps x = gp_cost ps y) by (unfold gp_cost; apply A; destruct ps; [congruence|left; reflexivity]).
  split; [exact E|]. intros [Hf Hb]. split; [|intros x'; rewrite <- E; apply Hb].
  unfold gp_feasible in *. rewrite List.Forall_forall in *. intros p Hp. rewrite <- A by (destruct ps; [destruct Hp|right; exact Hp]). apply Hf. exact Hp.
Qed.

Lemma clip_length d : length (clip d) = length d.
Proof. unfold clip. apply map_length. Qed.
Lemma clip_clip d : clip (clip d) = clip d.
Proof. unfold clip. rewrite map_map. apply map_ext. intros v. destruct (Rlt_dec v 0); [destruct (Rlt_dec 0 0); [lra|reflexivity]|destruct (Rlt_dec v 0); [lra|reflexivity]]. Qed.
Lemma clip_nonneg d : Forall (fun v => 0 <= v) (clip d).
Proof. unfold clip. apply Forall_map. apply List.Forall_forall. intros v _. destruct (Rlt_dec v 0); lra. Qed.
Lemma msk_la_clip k dz dl : msk_la k (clip dz) (clip dl) = msk_la k dz dl.
Proof. unfold msk_la. rewrite !clip_clip. reflexivity. Qed.

Theorem C35_optimize : forall solve ps m, msk_honest solve -> proper ps -> bounded_columns ps m ->
  let P := msk_problem (c_of ps) (A_of ps) (k_of ps) (p_of ps) m in
  match msk_optimize solve (c_of ps) (A_of ps) (k_of ps) (p_of ps) m with
  | Ok (cost, x, la) => best (gp_feasible ps) (gp_cost ps) (pt x) /\ cost = gp_cost ps (pt x) /\ length la = length (tl ps) /\
      let nl := length (List.filter (fun p => Nat.eqb (length p) 1) (tl ps)) in
      msk_la (k_of ps) (skipn (S (m_obj P)) (a_sux (solve P))) (skipn (length (m_rows P) - nl) (a_suc (solve P))) = Ok la
  | Err e => a_status (solve P) = SPrimInfeas /\ e = PrimalInfeasibleE \/ a_status (solve P) = SDualInfeas /\ e = DualInfeasibleE \/
             a_status (solve P) = SOther /\ e = UnknownInfeasibleE
  end.
Proof.
  intros solve ps m Hh Hp Hc P.
  set (nl := length (List.filter (fun p => Nat.eqb (length p) 1) (tl ps))).
  assert (El : nl = length (msk_lin (k_of ps))).
  { apply lin_count. exact Hp. }
  unfold msk_optimize. fold P. destruct (a_status (solve P)) eqn:Es; try (cbv zeta; tauto).
  destruct (Hh P Es) as (Hb & Ho & Lx & Lz & Ll). cbv zeta.
  destruct (C35_optima ps m Hp Hc) as [Opt _]. fold P in Opt. destruct (Opt _ Hb) as [Best Ecost].
  set (k_lse := select 0%nat (k_of ps) (msk_lse (k_of ps))).
  assert (Ek : k_lse = map length (posys ps (msk_lse (k_of ps)))) by (apply select_k, (lses_lt ps m Hp Hc)).
  assert (En : list_sum k_lse = length (concat (posys ps (msk_lse (k_of ps))))) by (rewrite Ek; apply sum_lengths).
  assert (Ep : length k_lse = length (posys ps (msk_lse (k_of ps)))) by (rewrite Ek, map_length; reflexivity).
  assert (EP : m_obj P = (m + 3 * list_sum k_lse)%nat) by (unfold P; rewrite msk_problem_eq by assumption; rewrite En; reflexivity).
  assert (LV : length (m_vars P) = (m + 3 * list_sum k_lse + length k_lse)%nat).
  { unfold P. rewrite msk_problem_eq by assumption. cbn [m_vars]. rewrite !app_length, !repeat_length, triple_length, En, Ep.
    assert (0 < length (posys ps (msk_lse (k_of ps))))%nat by (unfold posys, msk_lse; rewrite map_length; simpl; lia). simpl. lia. }
  assert (LN : length (concat (posys ps (msk_lin (k_of ps)))) = nl) by (rewrite (N_length ps m Hp Hc); congruence).
  assert (LR : length (m_rows P) = (list_sum k_lse + length k_lse + nl)%nat).
  { unfold P. rewrite msk_problem_eq by assumption. cbn [m_rows]. rewrite !app_length. unfold cone_rows, sum_rows, lin_rows. rewrite !map_length, !seq_length.
    rewrite En, Ep, LN. lia. }
  assert (Sz : slice (a_sux (solve P)) (m + 3 * list_sum k_lse + 1) (m + 3 * list_sum k_lse + length k_lse) = skipn (S (m_obj P)) (a_sux (solve P))).
  { unfold slice. rewrite EP. replace (m + 3 * list_sum k_lse + 1)%nat with (S (m + 3 * list_sum k_lse)) by lia. apply firstn_all2. rewrite skipn_length. lia. }
  rewrite Sz. clear Sz.
  assert (Li : length (lin_idxs (p_of ps) (msk_lin (k_of ps))) = nl).
  { rewrite <- LN. pose proof (f_equal (@length _) (lin_monos ps m Hp Hc)) as X. unfold select in X. rewrite map_length in X. exact X. }
  set (aff := match msk_lin (k_of ps) with [] => [] | _ => _ end).
  assert (Sl : msk_la (k_of ps) (skipn (S (m_obj P)) (a_sux (solve P))) aff =
               msk_la (k_of ps) (skipn (S (m_obj P)) (a_sux (solve P))) (skipn (length (m_rows P) - nl) (a_suc (solve P)))).
  { unfold aff, msk_la. destruct (msk_lin (k_of ps)) as [|l0 lr] eqn:E0; [reflexivity|].
    rewrite Li. unfold slice. replace (length (m_rows P) - nl)%nat with (list_sum k_lse + length k_lse)%nat by lia.
    rewrite (firstn_all2 (skipn (list_sum k_lse + length k_lse) (a_suc (solve P)))); [reflexivity|]. rewrite skipn_length. lia. }
  rewrite Sl. clear Sl aff.
  destruct (C35_duals ps m (clip (skipn (S (m_obj P)) (a_sux (solve P)))) (clip (skipn (length (m_rows P) - nl) (a_suc (solve P)))) Hp Hc) as (la & Ela & Lla & _).
  { fold P. rewrite clip_length, skipn_length. lia. }
  { fold nl. rewrite clip_length, skipn_length. lia. }
  { apply clip_nonneg. }
  { apply clip_nonneg. }
  rewrite msk_la_clip in Ela. rewrite Ela. simpl rbind.
  destruct (best_agree ps m (pt (a_xx (solve P))) (pt (firstn m (a_xx (solve P))))) as [C1 C2]; [exact (proj1 Hp)|exact Hc| |].
  { intros j Hj. unfold pt. generalize (a_xx (solve P)). intros l. clear -Hj. revert m Hj l. induction j as [|j IH]; intros [|m] Hj [|a l]; try lia; try reflexivity.
    simpl. apply IH. lia. }
  split; [apply C2; exact Best|]. split; [rewrite Ho, Ecost; exact C1|]. split; [exact Lla|]. fold nl. reflexivity.
Qed.
Print Assumptions C35_optimize.

Example C35_nonvacuous : proper sample /\ bounded_columns sample 2 /\
  msk_lse (k_of sample) = [0; 1]%nat /\ msk_lin (k_of sample) = [2; 3; 4]%nat /\
  length (m_vars (msk_problem (c_of sample) (A_of sample) (k_of sample) (p_of sample) 2)) = 16%nat /\
  msk_la (k_of sample) [10] [1; 2; 3] = Ok [10; 1; 2; 3].
Proof.
  split; [apply C34_nonvacuous|]. split; [unfold sample; repeat constructor; simpl; lia|]. do 3 (split; [reflexivity|]).
  unfold msk_la, clip. simpl. destruct (Rlt_dec 10 0), (Rlt_dec 1 0), (Rlt_dec 2 0), (Rlt_dec 3 0); try lra. reflexivity.
Qed.
