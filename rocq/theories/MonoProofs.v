(** Proofs about monomial approximation (C12, C13). *)
From Verif Require Import Base HashVec HashVecProofs Nomial NomialSem NomialProofs CanonProofs DiffProofs
  Sub SubSem SubProofs SubExtra Mono.
Open Scope R_scope.

(** The variables of a nomial. *)
Definition var_of (h : hmap R) (k : nat) : Prop := exists e c, In (e, c) h /\ e !! k <> None.

Lemma in_vks_true (h : hmap R) k : in_vks h k = true <-> var_of h k.
Proof.
  unfold in_vks, var_of. rewrite existsb_exists. split.
  - intros ([e c] & Hin & Hk). cbn in Hk. exists e, c. split; auto. destruct (e !! k); congruence.
  - intros (e & c & Hin & Hk). exists (e, c). split; auto. cbn. destruct (e !! k); congruence.
Qed.

(** Substituting every variable leaves a constant. *)
Lemma sub_constant inf (h : hmap R) x0 sched : NoDup (dkeys h) -> h <> [] ->
  (forall k v, x0 !! k = Some v -> 0 < v) -> (forall k, var_of h k -> x0 !! k <> None) ->
  valid_schedule x0 h sched ->
  exists st, nm_sub inf x0 h sched = Ok st /\
    s_cp st = [(e_empty, eval (override (fun _ => 1) x0) h)].
Proof.
  intros Hn Hne Hpos Hvars Hv.
  pose proof (positive_defined x0 h Hpos) as Hpd.
  destruct (sub_main inf h x0 Hn Hpd sched Hv) as (st & E & Hg & Hcl & Hev).
  exists st. split; auto.
  assert (Hall : forall e, In e (dkeys (s_cp st)) -> e = e_empty).
  { intros e He. destruct Hg as [_ (L1 & _ & Ht) Hw]. destruct (Hw e He) as [->|(i & Hi)]; auto.
    destruct (h !! i) as [[o c]|] eqn:Eh.
    2:{ exfalso. apply lookup_ge_None in Eh. apply lookup_lt_Some in Hi. unfold hmap in *. lia. }
    destruct (Ht i o c Eh) as (e' & Ee' & Hk). assert (e' = e) as -> by congruence.
    apply map_eq. intros k. unfold e_empty. rewrite lookup_empty.
    destruct (Hk k) as [Hk1|[Hk1 _]]; auto.
    destruct (o !! k) as [x|] eqn:Eo; [|congruence].
    destruct (x0 !! k) as [v|] eqn:Ex; [eapply Hcl; eauto|].
    exfalso. apply (Hvars k); auto. exists o, c. split; [apply lookup_In; eauto|congruence]. }
  pose proof (passes_nonempty inf x0 sched (sub_init h) st Hne E) as N.
  destruct Hg as [Hnd _ _]. specialize (Hev (fun _ => 1)).
  rewrite (evalp_pos (override _ _)) in Hev by (apply override_positive; [intros ?; lra|auto]).
  destruct (s_cp st) as [|[e c] [|[e' c'] l]]; [congruence| |].
  - assert (e = e_empty) as -> by (apply Hall; left; auto). f_equal. f_equal.
    rewrite <- Hev. cbn [evalp]. unfold mono_valp, e_empty. rewrite map_fold_empty. lra.
  - exfalso. assert (e = e_empty) by (apply Hall; left; auto).
    assert (e' = e_empty) by (apply Hall; right; left; auto). subst.
    cbn in Hnd. inversion Hnd as [|? ? Hx]; subst. apply Hx. left.
Qed.

(** ** The derivative map *)
Lemma nm_diff_unfold (h : hmap R) x : nm_diff h x = fold_left (fun out t =>
    let '(e, c) := t in
    match e !! x with Some p => dset out (dexp x e p) (c * p) | None => out end) h [].
Proof. reflexivity. Qed.

Lemma nm_diff_inv (P : hmap R -> Prop) (h : hmap R) x :
  P [] -> (forall out e c p, P out -> In (e, c) h -> e !! x = Some p -> P (dset out (dexp x e p) (c * p))) ->
  P (nm_diff h x).
Proof.
  rewrite nm_diff_unfold. generalize (@nil (expv R * R)). induction h as [|[e c] h IH]; intros out H0 Hs; cbn [fold_left]; auto.
  apply IH.
  - destruct (e !! x) as [p|] eqn:E; auto. apply Hs; auto. left; auto.
  - intros out' e' c' p' HP Hin. apply Hs; auto. right; auto.
Qed.

Lemma nm_diff_NoDup (h : hmap R) x : NoDup (dkeys (nm_diff h x)).
Proof. apply nm_diff_inv; [constructor|]. intros; apply NoDup_dset; auto. Qed.

Lemma nm_diff_terms (h : hmap R) x t : In t (nm_diff h x) ->
  exists e c p, In (e, c) h /\ e !! x = Some p /\ t = (dexp x e p, c * p).
Proof.
  revert t. apply nm_diff_inv; [intros t []|].
  intros out e c p IH Hin Hp t Ht. apply In_dset in Ht as [->|Ht]; [|auto]. exists e, c, p. auto.
Qed.

Lemma dset_nonempty {K V} `{EqDecision K} (d : list (K * V)) k v : dset d k v <> [].
Proof. destruct d as [|[k' v'] d]; cbn; [discriminate|]. destruct (decide (k = k')); discriminate. Qed.

Lemma nm_diff_nonempty (h : hmap R) x : var_of h x -> nm_diff h x <> [].
Proof.
  rewrite nm_diff_unfold. generalize (@nil (expv R * R)) at 1.
  assert (G : forall (l : hmap R) out, out <> [] -> fold_left (fun out t =>
    let '(e, c) := t in
    match e !! x with Some p => dset out (dexp x e p) (c * p) | None => out end) l out <> []).
  { induction l as [|[e c] l IH]; intros out Ho; cbn [fold_left]; auto. apply IH.
    destruct (e !! x); auto. apply dset_nonempty. }
  induction h as [|[e c] h IH]; intros out (e' & c' & Hin & Hk); cbn [fold_left]; [destruct Hin|].
  destruct Hin as [[= -> ->]|Hin].
  - destruct (e' !! x) as [p|]; [|congruence]. apply G, dset_nonempty.
  - apply IH. exists e', c'. auto.
Qed.

Lemma nm_diff_vars (h : hmap R) x k : var_of (nm_diff h x) k -> var_of h k.
Proof.
  intros (e & c & Hin & Hk). apply nm_diff_terms in Hin as (e' & c' & p & Hin & Hp & [= -> ->]).
  exists e', c'. split; auto. unfold dexp in Hk. destruct (decide (p = 1)).
  - destruct (decide (x = k)) as [->|Hne]; [rewrite lookup_delete in Hk; congruence|].
    rewrite lookup_delete_ne in Hk; auto.
  - destruct (decide (x = k)) as [->|Hne]; [congruence|]. rewrite lookup_insert_ne in Hk; auto.
Qed.

(** [x * dp/dx] is the sum of exponents times terms. *)
Lemma eval_nm_diff env x (h : hmap R) : NoDup (dkeys h) -> 0 < env x ->
  env x * eval env (nm_diff h x) = lsum (fun t => eget (fst t) x * (snd t * mono_val env (fst t))) h.
Proof.
  intros Hn Hx. unfold nm_diff. rewrite eval_nm_diff_gen by auto. cbn [eval]. rewrite Rplus_0_l, <- lsum_scale.
  apply lsum_ext. intros [e c] _. cbn [fst snd]. unfold eget. destruct (e !! x) as [p|] eqn:E; [|lra].
  assert (Hm : env x * mono_val env (dexp x e p) = mono_val env e).
  { rewrite (mono_val_delete env x e p E). unfold dexp. destruct (decide (p = 1)) as [->|Hp].
    - rewrite Rpower_1; auto.
    - rewrite <- insert_delete_insert, mono_val_insert by apply lookup_delete.
      unfold Rminus. rewrite Rpower_plus, Rpower_Ropp, Rpower_1 by auto. field. lra. }
  transitivity (c * p * (env x * mono_val env (dexp x e p))); [lra|]. rewrite Hm. lra.
Qed.

(** ** The loop *)
Section Approx.
Variables (inf : R) (x0 : gmap nat R) (pick : hmap R -> schedule) (h : hmap R) (vks : list nat).
Hypothesis Hn : NoDup (dkeys h).
Hypothesis Hpos : forall k v, x0 !! k = Some v -> 0 < v.
Hypothesis Hvars : forall k, var_of h k -> x0 !! k <> None.
Hypothesis Hpick : forall h', valid_schedule x0 h' (pick h').
Hypothesis Hvks : forall k, In k vks <-> var_of h k.
Hypothesis Hvnd : NoDup vks.

Let p0 : point := override (fun _ => 1) x0.
Let c0 := eval p0 h.
Hypothesis Hc0 : c0 <> 0.

(** The exponent of variable [k] in the approximation. *)
Definition mexp (k : nat) : R := lsum (fun t => eget (fst t) k * (snd t * mono_val p0 (fst t))) h / c0.

Lemma p0_pos : positive_point p0.
Proof. apply override_positive; auto. intros ?; lra. Qed.

Lemma mexp_var k : ~ var_of h k -> mexp k = 0.
Proof.
  intros Hk. unfold mexp. replace (lsum _ h) with 0; [unfold Rdiv; lra|]. symmetry.
  transitivity (lsum (fun _ : expv R * R => 0) h); [|apply lsum_zero]. apply lsum_ext. intros [e c] Hin. cbn [fst snd].
  unfold eget. destruct (e !! k) eqn:E; [|lra]. exfalso. apply Hk. exists e, c. split; auto. congruence.
Qed.

Lemma mono_step_ok acc k : var_of h k ->
  mono_step inf x0 pick h c0 acc k =
  Ok (fst acc / Rpower (p0 k) (mexp k), if decide (mexp k = 0) then snd acc else <[k := mexp k]> (snd acc)).
Proof.
  intros Hk. unfold mono_step. destruct (x0 !! k) as [v|] eqn:Ev; [|exfalso; eapply Hvars; eauto].
  assert (Hp0 : p0 k = v) by (unfold p0, override; rewrite Ev; auto).
  destruct (sub_constant inf (nm_diff h k) x0 (pick (nm_diff h k))) as (st & E & Ecp); auto.
  - apply nm_diff_NoDup.
  - apply nm_diff_nonempty; auto.
  - intros j Hj. apply Hvars. eapply nm_diff_vars; eauto.
  - rewrite E. cbn [rbind]. rewrite Ecp. rewrite decide_False by exact Hc0.
    assert (He : ndiv (nmul v (eval (override (fun _ => 1) x0) (nm_diff h k))) c0 = mexp k).
    { cbn [ndiv nmul ninv R_num]. unfold mexp. rewrite <- eval_nm_diff by (auto; apply p0_pos). rewrite Hp0. reflexivity. }
    rewrite He. cbn [n0 R_num npow]. rewrite Rpow_pos by (eapply Hpos; eauto). rewrite <- Hp0. reflexivity.
Qed.

Lemma mono_loop_ok l : forall c e, (forall k, In k l -> var_of h k) -> NoDup l ->
  (forall k, In k l -> e !! k = None) ->
  exists c' e', mono_loop inf x0 pick h c0 (c, e) l = Ok (c', e') /\
    (forall k, eget e' k = if in_dec Nat.eq_dec k l then mexp k else eget e k) /\
    (exp_canon e -> exp_canon e') /\
    c' * exp (lsum (fun k => mexp k * ln (p0 k)) l) = c.
Proof.
  induction l as [|k l IH]; intros c e Hl Hnd He.
  - exists c, e. split; auto. split; [intros; destruct (in_dec _ _ _) as [[]|]; auto|]. split; auto.
    cbn [lsum]. rewrite exp_0. lra.
  - cbn [mono_loop]. rewrite mono_step_ok by (apply Hl; left; auto). cbn [rbind fst snd].
    inversion Hnd as [|? ? Hx Hnd']; subst.
    assert (Hx' : ~ In k l) by (intros Hin; apply Hx, elem_of_list_In; auto).
    destruct (IH (c / Rpower (p0 k) (mexp k)) (if decide (mexp k = 0) then e else <[k := mexp k]> e)) as (c' & e' & E & Hg & Hcn & Hc).
    + intros; apply Hl; right; auto.
    + auto.
    + intros j Hj. dcase D; [apply He; right; auto|]. rewrite lookup_insert_ne; [apply He; right; auto|].
      intros ->. contradiction.
    + exists c', e'. split; auto. split; [|split].
      * intros j. rewrite Hg. destruct (in_dec Nat.eq_dec j l) as [Hj|Hj], (in_dec Nat.eq_dec j (k :: l)) as [Hj'|Hj']; auto.
        -- exfalso. apply Hj'. right; auto.
        -- destruct Hj' as [->|]; [|contradiction]. dcase D.
           ++ unfold eget. rewrite He by (left; auto). auto.
           ++ unfold eget. rewrite lookup_insert. auto.
        -- assert (k <> j) by (intros ->; apply Hj'; left; auto). dcase D; auto.
           unfold eget. rewrite lookup_insert_ne; auto.
      * intros Hce. apply Hcn. dcase D; auto. intros j x. destruct (decide (k = j)) as [->|Hne].
        -- rewrite lookup_insert. intros [= <-]. auto.
        -- rewrite lookup_insert_ne by auto. apply Hce.
      * cbn [lsum]. rewrite exp_plus.
        assert (Hr : Rpower (p0 k) (mexp k) = exp (mexp k * ln (p0 k))) by reflexivity. rewrite Hr in Hc.
        pose proof (exp_pos (mexp k * ln (p0 k))).
        transitivity ((c' * exp (lsum (fun k0 => mexp k0 * ln (p0 k0)) l)) * exp (mexp k * ln (p0 k))); [ring|].
        rewrite Hc. field. lra.
Qed.

Lemma sig_mono_approx_ok se : h <> [] -> 0 < c0 \/ se = true ->
  exists e c, sig_mono_approx inf x0 pick se h vks = Ok [(e, c)] /\ exp_canon e /\
    (forall k, eget e k = mexp k) /\ (forall k, e !! k <> None -> var_of h k) /\
    forall env, positive_point env ->
      eval env [(e, c)] = c0 * exp (lsum (fun k => mexp k * (ln (env k) - ln (p0 k))) vks).
Proof.
  intros Hne Hse. unfold sig_mono_approx.
  destruct (sub_constant inf h x0 (pick h) Hn Hne Hpos Hvars (Hpick h)) as (st & E & Ecp).
  rewrite E. cbn [rbind]. rewrite Ecp. rewrite decide_True by auto.
  fold p0. fold c0.
  destruct (mono_loop_ok vks c0 e_empty) as (c & e & El & Hg & Hcn & Hc).
  - intros k Hk. apply Hvks; auto.
  - auto.
  - intros; apply lookup_empty.
  - rewrite El. cbn [rbind fst snd]. exists e, c.
    assert (Hexp : forall k, eget e k = mexp k).
    { intros k. rewrite Hg. destruct (in_dec _ _ _) as [|Hk]; auto. rewrite mexp_var.
      - unfold eget, e_empty. rewrite lookup_empty. auto.
      - rewrite <- Hvks. auto. }
    assert (Hce : exp_canon e) by (apply Hcn; intros k x; unfold e_empty; rewrite lookup_empty; discriminate).
    split.
    { unfold signomial_init. destruct (any_nonpositive [(e, c)] && true && negb se) eqn:En; auto. exfalso.
      apply andb_prop in En as [En1 En2]. destruct Hse as [Hse|Hse]; [|rewrite Hse in En2; discriminate].
      apply andb_prop in En1 as [En1 _]. cbn in En1. rewrite orb_false_r in En1. unfold Rleb in En1.
      destruct (Rle_dec c 0) as [Hle|]; [|discriminate]. 
      pose proof (exp_pos (lsum (fun k => mexp k * ln (p0 k)) vks)). rewrite <- Hc in Hse.
      apply (Rmult_le_compat_r (exp (lsum (fun k => mexp k * ln (p0 k)) vks))) in Hle; lra. }
    split; auto. split; auto. split.
    { intros k Hk. destruct (e !! k) as [x|] eqn:Ek; [|congruence]. 
      destruct (in_dec Nat.eq_dec k vks) as [Hi|Hi]; [apply Hvks; auto|]. exfalso.
      specialize (Hg k). destruct (in_dec Nat.eq_dec k vks); [contradiction|].
      unfold eget, e_empty in Hg. rewrite Ek, lookup_empty in Hg. apply (Hce k x Ek Hg). }
    intros env Hp. cbn [eval]. rewrite mono_val_exp.
    rewrite (dot_ks env e vks).
    + rewrite <- Hc.
      assert (Hd : lsum (fun k => mexp k * (ln (env k) - ln (p0 k))) vks =
                   lsum (fun k => eget e k * ln (env k)) vks - lsum (fun k => mexp k * ln (p0 k)) vks).
      { clear - Hexp. induction vks as [|k l IH]; cbn [lsum]; [lra|]. rewrite IH, Hexp. lra. }
      rewrite Hd. unfold Rminus. rewrite exp_plus, exp_Ropp.
      pose proof (exp_pos (lsum (fun k => mexp k * ln (p0 k)) vks)). field. lra.
    + apply NoDup_ListNoDup; auto.
    + intros k x Hk. destruct (in_dec Nat.eq_dec k vks) as [Hi|Hi]; auto. exfalso.
      specialize (Hg k). destruct (in_dec Nat.eq_dec k vks); [contradiction|].
      unfold eget, e_empty in Hg. rewrite Hk, lookup_empty in Hg. apply (Hce k x Hk Hg).
Qed.

(** A Monomial, which is its own approximation. *)
Lemma mono_approx_ok se : (forall e c, In (e, c) h -> exp_canon e) -> h <> [] -> 0 < c0 \/ se = true ->
  exists e c, mono_approx inf x0 pick se h vks = Ok [(e, c)] /\ exp_canon e /\
    (forall k, eget e k = mexp k) /\ (forall k, e !! k <> None -> var_of h k) /\
    forall env, positive_point env ->
      eval env [(e, c)] = c0 * exp (lsum (fun k => mexp k * (ln (env k) - ln (p0 k))) vks).
Proof.
  intros Hcan Hne Hse. unfold mono_approx. destruct (decide (classify h = CMonomial)) as [Hm|Hm];
    [|apply sig_mono_approx_ok; auto].
  assert (Hone : exists e c, h = [(e, c)]).
  { revert Hm Hne. clear. destruct h as [|[e c] [|t l]]; [congruence|eauto|].
    unfold classify. destruct (any_nonpositive _); discriminate. }
  destruct Hone as (e & c & Eh).
  exists e, c. assert (Hcc : c0 = c * mono_val p0 e) by (unfold c0; rewrite Eh; cbn [eval]; lra).
  assert (Hx : forall k, eget e k = mexp k).
  { intros k. unfold mexp. rewrite Eh. cbn [lsum fst snd]. rewrite <- Hcc. field. auto. }
  assert (Hin : In (e, c) h) by (rewrite Eh; left; auto).
  split; [rewrite Eh; auto|]. split; [eapply Hcan; eauto|]. split; auto. split.
  { intros k Hk. exists e, c. auto. }
  intros env He. cbn [eval]. rewrite Rplus_0_r, Hcc, Rmult_assoc. f_equal. rewrite !mono_val_exp, <- exp_plus. f_equal.
  assert (Hcov : forall k x, e !! k = Some x -> In k vks).
  { intros k x Hk. apply Hvks. exists e, c. split; [auto|congruence]. }
  rewrite !(dot_ks _ e vks) by (auto; apply NoDup_ListNoDup; auto). rewrite <- lsum_plus. apply lsum_ext.
  intros k _. rewrite <- Hx. lra.
Qed.

(** Same value and same partial derivatives at [x0]. *)
Lemma mono_value m : (forall env, positive_point env ->
      eval env m = c0 * exp (lsum (fun k => mexp k * (ln (env k) - ln (p0 k))) vks)) ->
  eval p0 m = c0.
Proof.
  intros Hm. rewrite Hm by apply p0_pos.
  replace (lsum _ vks) with 0; [rewrite exp_0; lra|]. symmetry.
  transitivity (lsum (fun _ : nat => 0) vks); [|apply lsum_zero]. apply lsum_ext. intros; lra.
Qed.

Lemma mono_tangent e c k : eval p0 [(e, c)] = c0 -> (forall j, eget e j = mexp j) ->
  exists d, derivable_pt_lim (fun t => eval (upd p0 k t) h) (p0 k) d /\
            derivable_pt_lim (fun t => eval (upd p0 k t) [(e, c)]) (p0 k) d.
Proof.
  intros Hv He. exists (eval p0 (sig_diff h k)).
  pose proof (p0_pos k) as Hk. split; [apply diff_correct; auto|].
  assert (Hnd : NoDup (dkeys [(e, c)])) by apply NoDup_singleton.
  pose proof (diff_correct p0 k [(e, c)] Hnd Hk) as Hd.
  replace (eval p0 (sig_diff h k)) with (eval p0 (sig_diff [(e, c)] k)); auto.
  assert (S : forall g : hmap R, NoDup (dkeys g) ->
    p0 k * eval p0 (sig_diff g k) = lsum (fun t => eget (fst t) k * (snd t * mono_val p0 (fst t))) g).
  { intros g Hg. unfold sig_diff. destruct (in_vks g k) eqn:Ev; [apply eval_nm_diff; auto|].
    unfold num_hmap. cbn [eval n0 R_num]. transitivity 0; [lra|]. symmetry.
    transitivity (lsum (fun _ : expv R * R => 0) g); [|apply lsum_zero]. apply lsum_ext. intros [e' c'] Hin. cbn [fst snd].
    unfold eget. rewrite (in_vks_false g k Ev e' c' Hin). lra. }
  apply Rmult_eq_reg_l with (p0 k); [|lra]. rewrite !S by auto. cbn [lsum fst snd].
  cbn [eval] in Hv. rewrite Rplus_0_r in *. rewrite Hv, He. unfold mexp. field. auto.
Qed.

(** AM-GM. *)
Lemma exp_tangent y z : exp z * (1 + (y - z)) <= exp y.
Proof.
  replace (exp y) with (exp z * exp (y - z)) by (rewrite <- exp_plus; f_equal; lra).
  apply Rmult_le_compat_l; [left; apply exp_pos|]. apply exp_ineq1_le.
Qed.

Lemma mono_below m env : all_positive h -> (forall env, positive_point env ->
      eval env m = c0 * exp (lsum (fun k => mexp k * (ln (env k) - ln (p0 k))) vks)) ->
  positive_point env -> eval env m <= eval env h.
Proof.
  intros Hp Hm He. rewrite Hm by auto.
  set (D := fun k => ln (env k) - ln (p0 k)).
  change (c0 * exp (lsum (fun k => mexp k * D k) vks) <= eval env h).
  (* the exponent is the weighted mean of the terms' exponents *)
  assert (Hmean : c0 * lsum (fun k => mexp k * D k) vks =
    lsum (fun t => snd t * mono_val p0 (fst t) * lsum (fun k => eget (fst t) k * D k) vks) h).
  { rewrite <- lsum_scale. transitivity (lsum (fun k => lsum (fun t => eget (fst t) k * (snd t * mono_val p0 (fst t)) * D k) h) vks).
    - apply lsum_ext. intros k _. unfold mexp.
      transitivity (D k * lsum (fun t => eget (fst t) k * (snd t * mono_val p0 (fst t))) h); [field; auto|].
      rewrite <- lsum_scale. apply lsum_ext. intros; lra.
    - clear. induction h as [|t l IH]; cbn [lsum].
      + apply lsum_zero.
      + rewrite <- IH. rewrite lsum_plus. f_equal. rewrite <- lsum_scale. apply lsum_ext. intros; lra. }
  (* terms of h at env *)
  assert (Hterm : forall e c, In (e, c) h ->
    mono_val env e = mono_val p0 e * exp (lsum (fun k => eget e k * D k) vks)).
  { intros e c Hin.
    assert (Hcov : forall k x, e !! k = Some x -> In k vks).
    { intros k x Hk. apply Hvks. exists e, c. split; auto. congruence. }
    rewrite !mono_val_exp, <- exp_plus. f_equal.
    rewrite !(dot_ks _ e vks) by (auto; apply NoDup_ListNoDup; auto).
    rewrite <- lsum_plus. apply lsum_ext. intros k _. unfold D. lra. }
  set (z := lsum (fun k => mexp k * D k) vks) in *.
  rewrite eval_lsum.
  apply Rle_trans with (lsum (fun t => snd t * mono_val p0 (fst t) *
     (exp z * (1 + (lsum (fun k => eget (fst t) k * D k) vks - z)))) h).
  - right. transitivity (exp z * (c0 + (c0 * z - z * c0))); [ring|]. rewrite Hmean.
    unfold c0. rewrite eval_lsum. clear.
    assert (W : forall (w g : expv R * R -> R) (z E : R) (l : hmap R),
      E * (lsum w l + (lsum (fun t => w t * g t) l - z * lsum w l)) = lsum (fun t => w t * (E * (1 + (g t - z)))) l).
    { intros w g z' E l. induction l as [|t l IH]; cbn [lsum]; [ring|]. rewrite <- IH. ring. }
    apply (W (fun t => snd t * mono_val p0 (fst t))).
  - apply lsum_le. intros [e c] Hin. cbn [fst snd]. rewrite (Hterm e c Hin).
    assert (0 < c) by (eapply Hp; eauto). pose proof (mono_val_pos p0 e).
    rewrite <- (Rmult_assoc c (mono_val p0 e)). apply Rmult_le_compat_l; [apply Rlt_le, Rmult_lt_0_compat; auto|]. apply exp_tangent.
Qed.
End Approx.

(** ** The statements of the properties *)
Section Statements.
Variables (inf : R) (x0 : gmap nat R) (pick : hmap R -> schedule) (se : bool) (h : hmap R) (vks : list nat) (m : hmap R).

Lemma mono_approx_total : canonical h -> h <> [] ->
  (forall k v, x0 !! k = Some v -> 0 < v) -> (forall k, in_vks h k = true -> x0 !! k <> None) ->
  (forall h', valid_schedule x0 h' (pick h')) -> NoDup vks -> (forall k, In k vks <-> in_vks h k = true) ->
  eval (override (fun _ => 1) x0) h <> 0 -> 0 < eval (override (fun _ => 1) x0) h \/ se = true ->
  exists e c, mono_approx inf x0 pick se h vks = Ok [(e, c)] /\ exp_canon e.
Proof.
  intros Hn Hne Hpos Hvars Hpick Hvnd Hvks Hc0 Hse.
  destruct (mono_approx_ok inf x0 pick h vks (proj1 Hn) Hpos) with (se := se) as (e & c & E & He & _); auto.
  - intros k Hk. apply Hvars, in_vks_true; auto.
  - intros k. rewrite Hvks. apply in_vks_true.
  - intros ? ? Hin; apply (proj2 Hn _ _ Hin).
  - exists e, c. auto.
Qed.

Lemma mono_approx_vars : canonical h -> h <> [] ->
  (forall k v, x0 !! k = Some v -> 0 < v) -> (forall k, in_vks h k = true -> x0 !! k <> None) ->
  (forall h', valid_schedule x0 h' (pick h')) -> NoDup vks -> (forall k, In k vks <-> in_vks h k = true) ->
  eval (override (fun _ => 1) x0) h <> 0 -> 0 < eval (override (fun _ => 1) x0) h \/ se = true ->
  mono_approx inf x0 pick se h vks = Ok m -> forall k, in_vks m k = true -> in_vks h k = true.
Proof.
  intros Hn Hne Hpos Hvars Hpick Hvnd Hvks Hc0 Hse Hm k Hk.
  destruct (mono_approx_ok inf x0 pick h vks (proj1 Hn) Hpos) with (se := se) as (e & c & E & He & _ & Hv & _); auto.
  - intros j Hj. apply Hvars, in_vks_true; auto.
  - intros j. rewrite Hvks. apply in_vks_true.
  - intros ? ? Hin; apply (proj2 Hn _ _ Hin).
  - assert (m = [(e, c)]) as -> by congruence. apply in_vks_true in Hk as (e' & c' & [[= <- <-]|[]] & Hek).
    apply in_vks_true, Hv; auto.
Qed.

Lemma mono_approx_tangent : canonical h -> h <> [] ->
  (forall k v, x0 !! k = Some v -> 0 < v) -> (forall k, in_vks h k = true -> x0 !! k <> None) ->
  (forall h', valid_schedule x0 h' (pick h')) -> NoDup vks -> (forall k, In k vks <-> in_vks h k = true) ->
  eval (override (fun _ => 1) x0) h <> 0 ->
  mono_approx inf x0 pick se h vks = Ok m ->
  eval (override (fun _ => 1) x0) m = eval (override (fun _ => 1) x0) h /\
  forall k, exists d,
    derivable_pt_lim (fun t => eval (upd (override (fun _ => 1) x0) k t) h) (override (fun _ => 1) x0 k) d /\
    derivable_pt_lim (fun t => eval (upd (override (fun _ => 1) x0) k t) m) (override (fun _ => 1) x0 k) d.
Proof.
  intros Hn Hne Hpos Hvars Hpick Hvnd Hvks Hc0 Hm.
  destruct (mono_approx_ok inf x0 pick h vks (proj1 Hn) Hpos) with (se := true) as (e & c & E & _ & Hg & _ & Hev); auto.
  - intros k Hk. apply Hvars, in_vks_true; auto.
  - intros k. rewrite Hvks. apply in_vks_true.
  - intros ? ? Hin; apply (proj2 Hn _ _ Hin).
  - assert (m = [(e, c)]) as ->.
    { unfold mono_approx in *. destruct (decide _); [congruence|]. unfold sig_mono_approx in *. destruct (nm_sub inf x0 h (pick h)) as [st|]; [|discriminate]. cbn [rbind] in *.
      destruct (s_cp st) as [|[e' c'] [|]]; try discriminate. destruct (decide (e' = e_empty)); [|discriminate].
      destruct (mono_loop _ _ _ _ _ _ _) as [r|]; [|discriminate]. cbn [rbind] in *. unfold signomial_init in *.
      destruct (any_nonpositive _ && true && negb se); [discriminate|].
      rewrite andb_false_r in E. congruence. }
    assert (Hv : eval (override (fun _ => 1) x0) [(e, c)] = eval (override (fun _ => 1) x0) h).
    { eapply mono_value; eauto. }
    split; auto. intros k. eapply mono_tangent; eauto. apply Hn.
Qed.

Lemma mono_approx_lower : canonical h -> h <> [] -> all_positive h ->
  (forall k v, x0 !! k = Some v -> 0 < v) -> (forall k, in_vks h k = true -> x0 !! k <> None) ->
  (forall h', valid_schedule x0 h' (pick h')) -> NoDup vks -> (forall k, In k vks <-> in_vks h k = true) ->
  mono_approx inf x0 pick se h vks = Ok m ->
  forall env, positive_point env -> 0 < eval env m <= eval env h.
Proof.
  intros Hn Hne Hp Hpos Hvars Hpick Hvnd Hvks Hm env He.
  assert (Hc0 : 0 < eval (override (fun _ => 1) x0) h) by (apply eval_all_positive; auto).
  destruct (mono_approx_ok inf x0 pick h vks (proj1 Hn) Hpos) with (se := se) as (e & c & E & _ & Hg & _ & Hev); auto.
  - intros k Hk. apply Hvars, in_vks_true; auto.
  - intros k. rewrite Hvks. apply in_vks_true.
  - lra.
  - intros ? ? Hin; apply (proj2 Hn _ _ Hin).
  - assert (m = [(e, c)]) as -> by congruence. split.
    + rewrite Hev by auto. apply Rmult_lt_0_compat; auto. apply exp_pos.
    + eapply mono_below; eauto; [|lra]. intros k. rewrite Hvks. apply in_vks_true.
Qed.
End Statements.

Lemma diff_canonical (h : hmap R) x : canonical h -> canonical (nm_diff h x).
Proof.
  intros [Hn Hc]. split; [apply nm_diff_NoDup|]. intros e c Hin.
  apply nm_diff_terms in Hin as (e' & c' & p & Hin & Hp & [= -> ->]).
  destruct (Hc _ _ Hin) as [He Hc']. pose proof (He _ _ Hp) as Hp0. split.
  - intros k y Hy. unfold dexp in Hy. destruct (decide (p = 1)).
    + apply lookup_delete_Some in Hy as [_ Hy]. eauto.
    + apply lookup_insert_Some in Hy as [[_ <-]|[_ Hy]]; [lra|eauto].
  - apply Rmult_integral_contrapositive_currified; auto.
Qed.
