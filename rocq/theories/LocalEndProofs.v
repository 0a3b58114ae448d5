(** Proofs for LocalEnd.v. *)
From Verif Require Import Base HashVec HashVecProofs Nomial NomialSem NomialProofs CanonProofs DiffProofs Sub SubSem SubProofs SubExtra
  Mono MonoProofs Constraint ConstraintSem ConstraintProofs PropsConstraint GPGen GPGenProofs EndToEnd EndToEndSpec EndToEndProofs
  SGP SGPSem SGPProofs ApproxProofs RebuildProofs SGPIterSpec SGPIterProofs SGPIterSub SGPIterLin SGPIterRun SGPIterCols PenaltyProofs
  LocalEnd LocalEndSpec.
Open Scope R_scope.

(** ** Sums of terms weighed by any function of their exponents *)
Section Weighed.
Variable w : expv R -> R.
Definition weigh (h : hmap R) : R := lsum (fun t => snd t * w (fst t)) h.
Lemma weigh_dset h e c : weigh (dset h e c) = weigh h + (c - coef h e) * w e.
Proof.
  unfold coef, weigh. induction h as [|[e' c'] h IH]; simpl; [lra|].
  destruct (decide (e = e')) as [->|Hne]; simpl; [lra|]. rewrite IH. lra.
Qed.
Lemma weigh_ddel h e : weigh (ddel h e) = weigh h - coef h e * w e.
Proof.
  unfold coef, weigh. induction h as [|[e' c'] h IH]; simpl; [lra|].
  destruct (decide (e = e')) as [->|Hne]; simpl; [lra|]. rewrite IH. lra.
Qed.
Lemma weigh_add_item h t : weigh (hv_add_item h t) = weigh h + snd t * w (fst t).
Proof.
  destruct t as [e c]. unfold hv_add_item. simpl. destruct (dget h e) as [s|] eqn:E.
  - dcase Ec.
    + rewrite weigh_ddel. unfold coef. rewrite E. cbn in Ec. rewrite Ec. lra.
    + rewrite weigh_dset. unfold coef. rewrite E. cbn. lra.
  - rewrite weigh_dset. unfold coef. rewrite E. cbn. lra.
Qed.
Lemma weigh_add a b : weigh (hv_add a b) = weigh a + weigh b.
Proof.
  revert a; induction b as [|t b IH]; intros a; [cbn; unfold weigh; cbn; lra|]. cbn [hv_add fold_left].
  change (fold_left hv_add_item b (hv_add_item a t)) with (hv_add (hv_add_item a t) b).
  rewrite IH, weigh_add_item. unfold weigh. cbn. lra.
Qed.
Lemma weigh_mul a c : weigh (hv_mul a c) = c * weigh a.
Proof. unfold weigh. induction a as [|[e x] a IH]; simpl; [lra|]. rewrite IH. cbn. lra. Qed.
End Weighed.

(** ** The difference of two sides *)
Lemma lsum_le' {A} (f g : A -> R) l : (forall a, In a l -> f a <= g a) -> lsum f l <= lsum g l.
Proof. induction l as [|a l IH]; intros Hf; cbn; [lra|]. pose proof (Hf a (or_introl eq_refl)). specialize (IH (fun x Hx => Hf x (or_intror Hx))). lra. Qed.
Lemma lsum_opp' {A} (f : A -> R) l : lsum (fun a => - f a) l = - lsum f l.
Proof. induction l as [|a l IH]; cbn; [lra|]. rewrite IH. lra. Qed.

Definition pos_part env (h : hmap R) := lsum (fun t => if Rltb 0 (snd t) then snd t * mono_val env (fst t) else 0) h.
Definition neg_part env (h : hmap R) := lsum (fun t => if Rltb (snd t) 0 then - (snd t * mono_val env (fst t)) else 0) h.
Lemma lesser_pos env h : positive_point env -> lesser_side env h = pos_part env h.
Proof.
  intros He. unfold lesser_side. rewrite total_lsum. apply lsum_ext. intros [e c] _. cbn [fst snd nltb n0 R_num].
  rewrite term_at_val by auto. auto.
Qed.
Lemma greater_neg env h : positive_point env -> greater_side env h = neg_part env h.
Proof.
  intros He. unfold greater_side. rewrite total_lsum. apply lsum_ext. intros [e c] _. cbn [fst snd nltb n0 nopp R_num].
  rewrite term_at_val by auto. auto.
Qed.
Lemma parts_eval env h : pos_part env h - neg_part env h = eval env h.
Proof.
  unfold pos_part, neg_part. rewrite eval_lsum. induction h as [|[e c] h IH]; cbn [lsum fst snd]; [lra|]. unfold Rltb.
  destruct (Rlt_dec 0 c), (Rlt_dec c 0); cbn; try lra; unfold Rltb in IH; try lra. assert (c = 0) as -> by lra. lra.
Qed.
Lemma worth_eval env (h : hmap R) : positive_point env -> worth env h = eval env h.
Proof.
  intros He. unfold worth. rewrite total_lsum, eval_lsum. apply lsum_ext. intros [e c] _. cbn [fst snd]. apply term_at_val; auto.
Qed.

(** The difference is what adding and negating make of it. *)
Lemma sig_ineq_diff (l r h : hmap R) op : sig_ineq true l op r = Ok h -> op <> OpEq /\
  (h = hv_add (smaller l op r) (hv_mul (larger l op r) (-1)) \/ h = hv_add (hv_mul (larger l op r) (-1)) (smaller l op r)).
Proof.
  assert (G : forall a b : hmap R, match py_sub true (VNom a) (VNom b) with
    | Ok (VNom h) => Ok h | Ok (VNum c) => Ok (num_hmap c) | Err e => Err e end = Ok h ->
    h = hv_add a (hv_mul b (-1)) \/ h = hv_add (hv_mul b (-1)) a).
  { intros a b. unfold py_sub, py_neg. cbn [py_mul]. destruct (decide _) as [D|_]; [cbn in D; lra|].
    unfold rmap at 1. destruct (signomial_init true true (hv_mul b (nopp n1))) as [nb|] eqn:En; [|discriminate]. cbn [rbind].
    apply init_ok in En as [-> _]. change (nopp n1 : R) with (-1)%R. unfold py_add.
    destruct (hv_mul b (-1)) as [|t nb] eqn:Eb.
    - destruct a as [|ta a]; [discriminate|]. destruct (decide _); [discriminate|]. unfold rmap.
      destruct (signomial_init true true _) as [w|] eqn:Ew; [|discriminate]. cbn [rbind]. intros [= <-]. apply init_ok in Ew as [-> _]. right. auto.
    - unfold rmap. destruct (signomial_init true true _) as [w|] eqn:Ew; [|discriminate]. cbn [rbind]. intros [= <-]. apply init_ok in Ew as [-> _].
      left. auto. }
  unfold sig_ineq. cbn [negb]. destruct op; cbn [smaller larger]; intros E; try discriminate; (split; [discriminate|apply G; exact E]).
Qed.
Lemma diff_weigh w (l r h : hmap R) op : sig_ineq true l op r = Ok h -> weigh w h = weigh w (smaller l op r) - weigh w (larger l op r).
Proof. intros E. apply sig_ineq_diff in E as [_ [-> | ->]]; rewrite weigh_add, weigh_mul; lra. Qed.
Lemma diff_eval env (l r h : hmap R) op : sig_ineq true l op r = Ok h -> eval env h = eval env (smaller l op r) - eval env (larger l op r).
Proof. intros E. rewrite !eval_lsum. exact (diff_weigh (mono_val env) l r h op E). Qed.

(** Cancelling terms takes as much from either side. *)
Lemma cancelled env (l r h : hmap R) op : NoDup (dkeys h) -> sig_ineq true l op r = Ok h ->
  exists d, 0 <= d /\ pos_part env (smaller l op r) + neg_part env (larger l op r) = pos_part env h + d /\
    pos_part env (larger l op r) + neg_part env (smaller l op r) = neg_part env h + d.
Proof.
  intros Hn E. set (a := smaller l op r). set (b := larger l op r). exists (pos_part env a + neg_part env b - pos_part env h).
  assert (HE := diff_eval env l r h op E). fold a b in HE. rewrite <- !parts_eval in HE. split; [|lra].
  set (w := fun e => if Rltb 0 (coef h e) then mono_val env e else 0).
  assert (Hh : pos_part env h = weigh w h).
  { apply lsum_ext. intros [e c] Hin. cbn [fst snd]. unfold w. unfold coef. rewrite (In_dget h e c Hn Hin). destruct (Rltb 0 c); lra. }
  assert (W := diff_weigh w l r h op E). fold a b in W.
  assert (Hw : forall e, 0 <= w e <= mono_val env e).
  { intros e. unfold w. pose proof (mono_val_pos env e). destruct (Rltb _ _); lra. }
  assert (Ha : weigh w a <= pos_part env a).
  { apply lsum_le'. intros [e c] _. cbn [fst snd]. specialize (Hw e). unfold Rltb. destruct (Rlt_dec 0 c); cbn; nra. }
  assert (Hb : - weigh w b <= neg_part env b).
  { unfold weigh. rewrite <- lsum_opp'. apply lsum_le'. intros [e c] _. cbn [fst snd]. specialize (Hw e). unfold Rltb. destruct (Rlt_dec c 0); cbn; nra. }
  lra.
Qed.
Lemma add_vars (a b : hmap R) k : in_vks (hv_add a b) k = true -> in_vks a k = true \/ in_vks b k = true.
Proof.
  revert a; induction b as [|[e c] b IH]; intros a Hk; [left; exact Hk|]. cbn [hv_add fold_left] in Hk.
  change (fold_left hv_add_item b (hv_add_item a (e, c))) with (hv_add (hv_add_item a (e, c)) b) in Hk.
  apply IH in Hk as [Hk|Hk].
  - rewrite !in_vks_true in *. destruct Hk as (e' & c' & Hin & Hv).
    assert (K : In e' (dkeys a) \/ e' = e).
    { assert (Hin' : In e' (dkeys (hv_add_item a (e, c)))) by (apply in_map_iff; exists (e', c'); auto). clear - Hin'.
      unfold hv_add_item in Hin'. destruct (dget a e) as [s|] eqn:Eg; [destruct (decide _)|].
      - left. apply in_map_iff in Hin' as ([e1 c1] & <- & Hin). apply In_ddel in Hin. apply in_map_iff. exists (e1, c1). auto.
      - apply dkeys_dset_In in Hin'. destruct Hin' as [->|Hin']; auto.
      - apply dkeys_dset_In in Hin'. destruct Hin' as [->|Hin']; auto. }
    destruct K as [K| ->]; [left|right; exists e, c; split; [left; auto|auto]].
    apply in_map_iff in K as ([e1 c1] & <- & K). exists e1, c1. auto.
  - right. rewrite !in_vks_true in *. destruct Hk as (e' & c' & Hin & Hv). exists e', c'. split; [right; auto|auto].
Qed.
Lemma mul_vars (a : hmap R) c k : in_vks (hv_mul a c) k = in_vks a k.
Proof. unfold in_vks, hv_mul. induction a as [|[e x] a IH]; cbn [map existsb fst snd]; [auto|]. f_equal. exact IH. Qed.
Lemma diff_vars (l r h : hmap R) op k : sig_ineq true l op r = Ok h -> in_vks h k = true -> in_vks l k = true \/ in_vks r k = true.
Proof.
  intros E Hk. apply sig_ineq_diff in E as [Ho [-> | ->]]; apply add_vars in Hk; rewrite mul_vars in Hk; destruct op; cbn in Hk; tauto.
Qed.

(** ** Sides as the lemmas on reals want them *)
Lemma collected_canonical (h : hmap R) : collected h <-> canonical h.
Proof. split; intros H; exact H. Qed.
Lemma posynomial_posy (h : hmap R) : posynomial h -> is_posy h.
Proof. intros (H1 & H2 & H3). split; [exact H1|]. split; [|exact H3]. intros e c Hin. apply Rltb_true, (H2 e c Hin). Qed.
Lemma monomial_mono (h : hmap R) : monomial h -> is_mono h.
Proof.
  intros ((H1 & H2 & H3) & H4). destruct h as [|[e c] [|]]; try discriminate. exists e, c. split; [auto|].
  split; [exact (proj1 (proj2 H1 e c (or_introl eq_refl)))|apply Rltb_true, (H2 e c); left; auto].
Qed.
(** The corresponding constraint of a geometric program *)
Definition gp_side (w : stated R) : option written :=
  match w with Posy l op r => Some (Ineq l op r) | Mono l r => Some (Equal l r) | Sig _ _ _ => None end.
Lemma admissible_geometric w g : admissible w -> gp_side w = Some g -> geometric g.
Proof.
  destruct w as [l op r|l r|l op r]; cbn [gp_side]; intros Ha [= <-]; cbn.
  - destruct Ha as (H1 & H2 & H3 & H4). split; [auto|]. split; [apply posynomial_posy; exact H2|]. split; [apply monomial_mono; exact H3|]. exact H4.
  - destruct Ha. split; apply monomial_mono; auto.
Qed.
Lemma holds_gp q w g : positive_point q -> gp_side w = Some g -> admissible w -> (holds_exactly q w <-> holds_at q g).
Proof.
  intros Hq. destruct w as [l op r|l r|l op r]; cbn [gp_side]; intros [= <-] Ha; cbn.
  - rewrite !worth_eval by auto. destruct op; cbn [smaller larger holds]; [apply Rleb_true|apply Rleb_true|]. destruct Ha. congruence.
  - rewrite !worth_eval by auto. tauto.
Qed.
Lemma point_with_R fixed (q : nat -> R) : point_with fixed q <-> positive_point q /\ forall k v, fixed !! k = Some v -> q k = v.
Proof.
  split; intros [H1 H2]; (split; [|exact H2]); intros k; [apply Rltb_true, H1|apply Rltb_true, H1].
Qed.
Lemma settled_gp fixed w g : gp_side w = Some g -> constant_ratio fixed g -> settled fixed tolerance w.
Proof.
  destruct w as [l op r|l r|l op r]; cbn [gp_side]; intros [= <-] (c & Hc & H); exists c; (split; [apply Rleb_true; exact Hc|]).
  - intros q Hq. apply point_with_R in Hq as [Hq Hf]. rewrite !worth_eval by auto. apply (H q Hq Hf).
  - destruct H as [H1 H2]. split.
    + intros q Hq. apply point_with_R in Hq as [Hq Hf]. rewrite !worth_eval by auto. apply (H2 q Hq Hf).
    + apply Rleb_true. change (1 / c <= 1 + tolerance). replace (1 / c) with (/ c) by (unfold Rdiv; ring). exact H1.
Qed.
Lemma construct_gp w g c : gp_side w = Some g -> construct w = Ok c -> exists c', c = SPc c' /\ make g = Ok c' /\
  match c' with CSig _ => False | _ => True end.
Proof.
  destruct w as [l op r|l r|l op r]; cbn [gp_side construct]; intros [= <-] E; apply rbind_ok in E as (us & E & E2); injection E2 as <-;
    eexists; (split; [reflexivity|]); unfold make, rmap; rewrite E; auto.
Qed.
Lemma construct_all_In (ws : list (stated R)) cs : construct_all ws = Ok cs ->
  (forall w, In w ws -> exists c, construct w = Ok c /\ In c cs) /\ (forall c, In c cs -> exists w, In w ws /\ construct w = Ok c).
Proof.
  revert cs. induction ws as [|w ws IH]; intros cs E; cbn [construct_all] in E; [injection E as <-; split; intros ? []|].
  apply rbind_ok in E as (c & Ec & E). apply rbind_ok in E as (cs' & Es & E). injection E as <-. destruct (IH cs' Es) as [I1 I2]. split.
  - intros w' [<-|Hw]; [exists c; split; [auto|left; auto]|]. destruct (I1 w' Hw) as (c' & E1 & E2). exists c'. split; [auto|right; auto].
  - intros c' [<-|Hc]; [exists w; split; [left; auto|auto]|]. destruct (I2 c' Hc) as (w' & E1 & E2). exists w'. split; [right; auto|auto].
Qed.
Lemma construct_sig (w : stated R) h : construct w = Ok (SPc (CSig h)) -> exists l op r, w = Sig l op r /\ sig_ineq true l op r = Ok h.
Proof.
  destruct w as [l op r|l r|l op r]; cbn [construct]; intros E; apply rbind_ok in E as (us & E & E2); try discriminate.
  injection E2 as <-. exists l, op, r. auto.
Qed.
Lemma construct_noeq (w : stated R) h : construct w <> Ok (SPeq h).
Proof. destruct w as [l op r|l r|l op r]; cbn [construct]; intros E; apply rbind_ok in E as (us & E & E2); discriminate. Qed.

Section End_.
Variables (inf : R) (pick : gmap nat R -> hmap R -> schedule) (vks_of : hmap R -> list nat) (ord : var_order R) (se : bool).
Hypothesis Hord : forall e, List.NoDup (ord e) /\ forall k, In k (ord e) <-> e !! k <> None.
Hypothesis Hvks : forall h, NoDup (vks_of h) /\ forall k, In k (vks_of h) <-> in_vks h k = true.
Hypothesis Hpick : forall x0 h, valid_schedule x0 h (pick x0 h).
Variables (slack : option nat) (penalty : R) (cost : hmap R) (ws : list (stated R)) (cs : list (sp_constr R)) (fixed : gmap nat R).
Hypothesis Hf : forall k v, fixed !! k = Some v -> 0 < v.
Hypothesis Hws : Forall admissible ws.
Hypothesis Hcost : canonical cost.
Hypothesis Hslack : fresh_slack slack cost ws fixed.
Hypothesis Ecs : construct_all ws = Ok cs.

Lemma made_sig h : In (SPc (CSig h)) cs -> exists l op r, In (Sig l op r) ws /\ sig_ineq true l op r = Ok h /\ canonical l /\ canonical r /\ canonical h.
Proof.
  intros Hin. apply (proj2 (construct_all_In ws cs Ecs)) in Hin as (w & Hw & E). apply construct_sig in E as (l & op & r & -> & E).
  exists l, op, r. rewrite List.Forall_forall in Hws. destruct (Hws _ Hw) as (_ & Hl & Hr). split; [auto|]. split; [auto|]. split; [exact Hl|].
  split; [exact Hr|]. apply (sig_ineq_correct true l r h op); auto.
Qed.
Lemma cons_ok s : In (SPc (CSig s)) cs \/ In (SPeq s) cs -> canonical s /\ fresh slack s.
Proof.
  intros [Hin|Hin].
  - destruct (made_sig s Hin) as (l & op & r & Hw & E & _ & _ & Hs). split; [auto|]. unfold fresh, fresh_slack in *. destruct slack as [k|]; [|auto].
    destruct (in_vks s k) eqn:Ek; [|auto]. destruct Hslack as (_ & _ & Hn).
    apply (diff_vars l r s op k E) in Ek as [Ek|Ek]; rewrite (Hn _ _ Hw) in Ek; try discriminate; cbn; auto.
  - exfalso. apply (proj2 (construct_all_In ws cs Ecs)) in Hin as (w & _ & E). exact (construct_noeq w s E).
Qed.
Lemma sp_variable k : sp_var cs k -> signomial_variable ws k.
Proof.
  intros (h & [Hin|Hin] & Hk).
  - destruct (made_sig h Hin) as (l & op & r & Hw & E & _). exists l, op, r. split; [auto|]. eapply diff_vars; eauto.
  - exfalso. apply (proj2 (construct_all_In ws cs Ecs)) in Hin as (w & _ & E). exact (construct_noeq w h E).
Qed.

Let good := RebuildProofs.good inf pick vks_of ord se slack penalty cost cs fixed.
Let build := sgp_build inf pick vks_of ord se slack penalty cost cs fixed.
Let update := sgp_gp inf pick vks_of ord se.
Definition undivided (h : hmap R) (x : gmap nat R) : Prop :=
  forall me mc, let negy := snd (posy_negy h) in let x0 := x0_of x (vks_of negy) in
    mono_approx inf x0 (pick x0) se negy (vks_of negy) = Ok [(me, mc)] -> no_clash (fst (posy_negy h)) me.
Definition unsubstituted (h : hmap R) : Prop :=
  forall st me mc, nm_sub inf fixed h (pick fixed h) = Ok st ->
    snd (posy_negy (s_cp st)) = [(me, mc)] -> no_clash (fst (posy_negy (s_cp st))) me.

Lemma sorted_gp l g c x : sorts inf pick se fixed l g c -> In (SPc x) l -> match x with CSig _ => False | _ => True end -> In x g.
Proof.
  induction 1; cbn; [tauto| | | | |]; (intros [Hx|Hx] Hn; [try discriminate; injection Hx as <-; try contradiction; auto|
    specialize (IHsorts Hx Hn); auto]).
Qed.
Lemma chain_con g : forall G c, chain inf pick se fixed g = Ok G -> In c g ->
  exists out, constr_hmaps inf (pick fixed) se fixed c = Ok out /\ forall v, In v out -> In v G.
Proof.
  unfold chain. induction g as [|x g IH]; intros G c E Hin; [contradiction|]. cbn [chain_hmaps] in E.
  apply rbind_ok in E as (a & E1 & E). apply rbind_ok in E as (b & E2 & E). injection E as <-. destruct Hin as [->|Hin].
  - exists a. split; [auto|]. intros v Hv. apply in_app_iff. auto.
  - destruct (IH b c E2 Hin) as (out & E3 & Ho). exists out. split; [auto|]. intros v Hv. apply in_app_iff. auto.
Qed.
Lemma chain_from g : forall G v, chain inf pick se fixed g = Ok G -> In v G ->
  exists c out, In c g /\ constr_hmaps inf (pick fixed) se fixed c = Ok out /\ In v out.
Proof.
  unfold chain. induction g as [|x g IH]; intros G v E Hin; cbn [chain_hmaps] in E; [injection E as <-; contradiction|].
  apply rbind_ok in E as (a & E1 & E). apply rbind_ok in E as (b & E2 & E). injection E as <-. apply in_app_iff in Hin as [Hin|Hin].
  - exists x, a. split; [left; auto|auto].
  - destruct (IH b v E2 Hin) as (c & out & H1 & H2). exists c, out. split; [right; auto|auto].
Qed.
Lemma no_flag c : match c with CSig _ => False | _ => True end -> constr_hmaps inf (pick fixed) se fixed c = constr_hmaps inf (pick fixed) false fixed c.
Proof. destruct c; [reflexivity|reflexivity|intros []]. Qed.
Lemma subs_fixed : subs_ok fixed (pick fixed).
Proof. split; [exact Hf|apply Hpick]. Qed.

Definition sl (env : point) : R := slack_value slack env.

(** ** The posynomials of a program, and the constraints *)
Lemma program_meets s env : good s -> positive_point env ->
  (forall h, In (SPc (CSig h)) cs -> undivided h (sg_x0 s) /\ unsubstituted h) ->
  (forall p b u, (1 <= p)%nat -> sg_hmaps s !! p = Some (b, u) -> eval env u <= 1) ->
  let q := override env fixed in
  1 <= sl q /\ Forall (fits fixed tolerance (sl q) q) ws.
Proof.
  intros Hg He Hcl Hall q. assert (Hq : positive_point q) by (apply override_positive; auto).
  destruct (gd_parts _ _ _ _ _ _ _ _ _ _ _ Hg) as (first & cost' & c0 & g & G & hs & A & P1 & Ea & EA & Eh).
  assert (Hin0 : forall b h, In (b, h) (map (pair false) A ++ G) -> eval env h <= 1).
  { intros b u Hin. apply elem_of_list_In, elem_of_list_lookup in Hin as [p Hp]. apply (Hall (S p) b); [lia|]. rewrite Eh. exact Hp. }
  assert (HA : forall v, In v A -> eval env v <= 1) by (intros v Hv; apply (Hin0 false), in_app_iff; left; apply in_map; auto).
  assert (HG : forall b v, In (b, v) G -> eval env v <= 1) by (intros b v Hv; apply (Hin0 b), in_app_iff; auto).
  pose proof (pa_sorts _ _ _ _ _ _ _ _ _ _ _ _ _ _ P1) as Hso.
  pose proof (pa_G _ _ _ _ _ _ _ _ _ _ _ _ _ _ P1) as EG. apply chain_app in EG as (F & G2 & EF & EG & ->).
  assert (Hu : forall u, In u hs -> usable slack u).
  { intros u Hu. eapply (approx_usable inf pick vks_of se Hvks Hpick slack cs fixed cons_ok); [exact Hso|apply Hg|exact Ea|exact Hu]. }
  assert (HS : 1 <= sl q /\ forall u, In u hs -> eval q u <= (1 + tolerance) * sl q).
  { pose proof (pa_first _ _ _ _ _ _ _ _ _ _ _ _ _ _ P1) as Ef. unfold sl, slack_value in *. pose proof tol_pos. destruct slack as [k|].
    - destruct Hslack as (Hk & _). apply rbind_ok in Ef as (us & Ef & Ef2). injection Ef2 as <-.
      destruct (first_ok inf pick se Hpick fixed Hf k Hk us F Ef EF) as (v & -> & Hv).
      assert (Qk : q k = env k) by (unfold q, override; rewrite Hk; auto). rewrite Qk.
      assert (1 <= env k) by (apply (Hv env He); apply (HG false); apply in_app_iff; left; left; auto). split; [auto|].
      intros u Hin. assert (eval q u <= env k); [|nra].
      apply (proj1 (chain_slack inf pick se Hpick fixed Hf k Hk hs Hu A EA env He) HA u Hin).
    - cbn. split; [lra|]. rewrite Rmult_1_r. intros u Hin.
      apply (proj1 (chain_posys inf pick se Hpick fixed Hf hs Hu A env He EA) HA u Hin). }
  destruct HS as [S1 S2]. split; [exact S1|]. apply List.Forall_forall. intros w Hw.
  destruct (proj1 (construct_all_In ws cs Ecs) w Hw) as (c & Ec & Hc). pose proof Hws as Had. rewrite List.Forall_forall in Had. specialize (Had w Hw).
  destruct (gp_side w) as [gw|] eqn:Egw.
  - destruct (construct_gp w gw c Egw Ec) as (c' & -> & Em & Hns).
    assert (Hin : In c' g) by (eapply sorted_gp; eauto).
    destruct (chain_con g G2 c' EG Hin) as (out & Eo & Ho). rewrite no_flag in Eo by auto.
    pose proof (one_stands inf (pick fixed) fixed subs_fixed gw (admissible_geometric w gw Had Egw)) as HS. rewrite Em, Eo in HS.
    destruct HS as (_ & _ & HS & _). specialize (HS env He).
    assert (Hsat : sat env (map snd out)).
    { intros u Hin2. apply in_map_iff in Hin2 as ([b u'] & <- & Hin2). apply (HG b). apply in_app_iff. right. apply Ho. auto. }
    specialize (HS Hsat). inversion HS as [|? ? Hn _]; subst. destruct Hn as [Hn|Hn].
    + assert (holds_exactly q w) by (eapply holds_gp; eauto). destruct w; try discriminate; left; auto.
    + assert (settled fixed tolerance w) by (eapply settled_gp; eauto). destruct w; try discriminate; right; auto.
  - destruct w as [| |l op r]; try discriminate. cbn [construct] in Ec. apply rbind_ok in Ec as (h & Eh2 & Ec). injection Ec as <-.
    destruct Had as (_ & Hl & Hr). destruct (Hcl h Hc) as [Hc1 Hc2].
    assert (Hh : canonical h) by (apply (sig_ineq_correct true l r h op); auto).
    cbn [fits]. apply Rleb_true. cbn [nadd nmul n1 R_num]. rewrite !lesser_pos, !greater_neg by auto.
    destruct (cancelled q l r h op (proj1 Hh) Eh2) as (d & Hd & -> & ->).
    rewrite <- lesser_pos, <- greater_neg by auto. destruct (posy_negy h) as [P N] eqn:EPN.
    destruct (sides h P N q (proj1 Hh) EPN Hq) as [-> ->]. pose proof tol_pos.
    assert (HN0 : 0 <= eval q N).
    { destruct (posy_negy_parts h P N Hh EPN) as (_ & [_ PN] & _). apply eval_nonneg. auto. }
    assert (HB : 1 + tolerance <= (1 + tolerance) * sl q) by nra.
    assert (HPN : eval q P <= ((1 + tolerance) * sl q) * eval q N); [|nra].
    unfold undivided in Hc1. rewrite EPN in Hc1. cbn [fst snd] in Hc1.
    destruct (sorts_sig inf pick se fixed cs g (sg_cons s) h Hso Hc) as [Hin|Hin].
    + destruct (chain_sig inf pick se fixed g G2 h EG Hin) as (out & Eo & Ho).
      assert (eval q P <= (1 + tolerance) * eval q N); [|nra].
      apply (sig_within inf (pick fixed) fixed Hf (Hpick fixed) se h P N out env Hh Hc2 Eo EPN He).
      intros v Hin2. apply (HG false). apply in_app_iff. right. auto.
    + destruct (approx_all_In inf pick vks_of se (sg_x0 s) (sg_cons s) hs (SIneq h) Ea Hin) as (l' & El & Hl2).
      apply (approx_within inf pick vks_of se Hvks Hpick (sg_x0 s) h P N l' Hh (gd_x0 _ _ _ _ _ _ _ _ _ _ _ Hg) EPN Hc1 El q _ Hq HB).
      intros u Hin2. apply S2, Hl2. auto.
Qed.

Lemma program_cost s env : good s -> positive_point env -> forall b c0, sg_hmaps s !! 0%nat = Some (b, c0) ->
  eval env c0 = charged slack penalty cost (override env fixed).
Proof.
  intros Hg He b c0' E0. assert (Hq : positive_point (override env fixed)) by (apply override_positive; auto).
  destruct (gd_parts _ _ _ _ _ _ _ _ _ _ _ Hg) as (first & cost' & c0 & g & G & hs & A & P1 & Ea & EA & Eh).
  rewrite Eh in E0. injection E0 as <- <-.
  destruct (pa_c0 _ _ _ _ _ _ _ _ _ _ _ _ _ _ P1) as (st & Es & -> & _). pose proof (pa_cost' _ _ _ _ _ _ _ _ _ _ _ _ _ _ P1) as Ec.
  unfold charged. rewrite worth_eval by auto. destruct slack as [k|].
  - destruct Hslack as (Hk & _). cbn [nmul npow R_num]. rewrite Rpow_pos by apply Hq.
    replace (override env fixed k) with (env k) by (unfold override; rewrite Hk; auto).
    eapply (cost_eval inf pick se Hpick fixed Hf k Hk penalty cost Hcost); eauto.
  - unfold slack_cost in Ec. cbn [py_mul] in Ec. rewrite decide_False in Ec by (cbn; lra).
    apply rbind_ok in Ec as (w & Ew & Ec). unfold rmap in Ew. apply rbind_ok in Ew as (w' & Ew & Ew2). injection Ew2 as <-.
    injection Ec as <-. apply init_ok in Ew as [-> _].
    assert (Hc' : canonical (hv_mul cost n1)) by (apply canonical_mul; [cbn; lra|auto]).
    destruct (sub_any inf (pick fixed) fixed Hf (Hpick fixed) _ Hc') as (s' & Es' & _ & _ & Hev). assert (s' = st) as -> by congruence.
    rewrite (Hev env He), eval_hv_mul. cbn. lra.
Qed.

(** ** Points that meet the constraints, where the approximations are exact *)
Lemma program_admits s q : good s -> positive_point q -> (forall k v, fixed !! k = Some v -> q k = v) -> sl q = 1 ->
  (forall h, In (SPc (CSig h)) cs -> undivided h (sg_x0 s) /\ unsubstituted h) ->
  Forall (holds_exactly q) ws -> (forall k, sp_var cs k -> q k = default 1 (sg_x0 s !! k)) ->
  forall p b u, (1 <= p)%nat -> sg_hmaps s !! p = Some (b, u) -> eval q u <= 1.
Proof.
  intros Hg Hq Hfx Hs1 Hcl Hh Hag p b u Hp Hu0.
  assert (Hov : override q fixed = q).
  { apply FunctionalExtensionality.functional_extensionality. intros k. unfold override. destruct (fixed !! k) eqn:E; auto. symmetry. auto. }
  destruct (gd_parts _ _ _ _ _ _ _ _ _ _ _ Hg) as (first & cost' & c0 & g & G & hs & A & P1 & Ea & EA & Eh).
  pose proof (pa_sorts _ _ _ _ _ _ _ _ _ _ _ _ _ _ P1) as Hso.
  pose proof (pa_G _ _ _ _ _ _ _ _ _ _ _ _ _ _ P1) as EG. apply chain_app in EG as (F & G2 & EF & EG & ->).
  assert (Hu : forall u, In u hs -> usable slack u).
  { intros v Hu. eapply (approx_usable inf pick vks_of se Hvks Hpick slack cs fixed cons_ok); [exact Hso|apply Hg|exact Ea|exact Hu]. }
  rewrite List.Forall_forall in Hh.
  assert (Hsig : forall l op r h, In (Sig l op r) ws -> sig_ineq true l op r = Ok h -> eval q h <= 0).
  { intros l op r h Hw E. specialize (Hh _ Hw). cbn [holds_exactly] in Hh. apply Rleb_true in Hh. rewrite !worth_eval in Hh by auto.
    rewrite (diff_eval q l r h op E). lra. }
  assert (Hhs : forall v, In v hs -> eval q v <= 1).
  { intros v Hv. destruct (approx_all_from inf pick vks_of se (sg_x0 s) (sg_cons s) hs v Ea Hv) as (x & l & Hx & El & Hl).
    pose proof (sorts_from inf pick se fixed cs g (sg_cons s) x Hso Hx) as Hin. destruct x as [z|z].
    - destruct (made_sig z Hin) as (a & op & b' & Hw & E & _ & _ & Hz). destruct (Hcl z Hin) as [Hc1 _]. unfold undivided in Hc1.
      destruct (posy_negy z) as [P N] eqn:EPN. cbn [fst snd] in Hc1.
      assert (HPN : eval q P <= eval q N).
      { pose proof (Hsig a op b' z Hw E) as H0. rewrite <- parts_eval, <- lesser_pos, <- greater_neg in H0 by auto.
        destruct (sides z P N q (proj1 Hz) EPN Hq) as [E1 E2]. rewrite E1, E2 in H0. lra. }
      apply (approx_ineq inf pick vks_of se Hvks Hpick (sg_x0 s) z P N l Hz (gd_x0 _ _ _ _ _ _ _ _ _ _ _ Hg) EPN Hc1 El q Hq); auto.
      intros k Hk. unfold override. rewrite (Hag k); [destruct (sg_x0 s !! k); auto|]. exists z. split; [auto|]. eapply posy_negy_vars; eauto.
    - exfalso. apply (proj2 (construct_all_In ws cs Ecs)) in Hin as (w & _ & E). exact (construct_noeq w z E). }
  destruct p as [|p]; [lia|]. rewrite Eh in Hu0. change ((map (pair false) A ++ F ++ G2) !! p = Some (b, u)) in Hu0.
  apply elem_of_list_lookup_2, elem_of_list_In in Hu0. apply in_app_iff in Hu0 as [Hin|Hin]; [|apply in_app_iff in Hin as [Hin|Hin]].
  - apply in_map_iff in Hin as (v & [= <- <-] & Hin). unfold sl, slack_value in Hs1. destruct slack as [k|].
    + destruct Hslack as (Hk & _). apply (chain_slack inf pick se Hpick fixed Hf k Hk hs Hu A EA q Hq); auto. rewrite Hov. intros h Hin2.
      rewrite Hs1. auto.
    + apply (chain_posys inf pick se Hpick fixed Hf hs Hu A q Hq EA); auto. rewrite Hov. auto.
  - pose proof (pa_first _ _ _ _ _ _ _ _ _ _ _ _ _ _ P1) as Ef. unfold sl, slack_value in Hs1. destruct slack as [k|].
    + destruct Hslack as (Hk & _). apply rbind_ok in Ef as (us & Ef & Ef2). injection Ef2 as <-.
      destruct (first_ok inf pick se Hpick fixed Hf k Hk us F Ef EF) as (v & -> & Hv).
      destruct Hin as [[= <- <-]|[]]. apply Hv; [auto|lra].
    + injection Ef as <-. cbn in EF. injection EF as <-. destruct Hin.
  - destruct (chain_from g G2 _ EG Hin) as (c & out & Hc & Eo & Hv).
    assert (Hcc : In (SPc c) cs) by (eapply sorts_gp'; eauto).
    destruct (proj2 (construct_all_In ws cs Ecs) _ Hcc) as (w & Hw & Ew). pose proof Hws as Had. rewrite List.Forall_forall in Had. specialize (Had w Hw).
    destruct (gp_side w) as [gw|] eqn:Egw.
    + destruct (construct_gp w gw _ Egw Ew) as (c' & [= <-] & Em & Hns). rewrite no_flag in Eo by auto.
      pose proof (one_stands inf (pick fixed) fixed subs_fixed gw (admissible_geometric w gw Had Egw)) as HS. rewrite Em, Eo in HS.
      destruct HS as (_ & HS & _ & _). apply (HS q Hq); [|apply in_map_iff; exists (b, u); auto].
      constructor; [|constructor]. rewrite Hov. apply (holds_gp q w gw Hq Egw Had). auto.
    + destruct w as [| |l op r]; try discriminate. cbn [construct] in Ew. apply rbind_ok in Ew as (h & E2 & Ew). injection Ew as <-.
      destruct Had as (Hop & Hl & Hr). destruct (Hcl h Hcc) as [_ Hc2].
      pose proof (C21_signomial_inequality_partial inf (pick fixed) fixed true se l r h op subs_fixed Hl Hr E2 Hc2) as C. cbv zeta in C.
      cbn [constr_hmaps] in Eo. unfold rmap in Eo. apply rbind_ok in Eo as (out' & Eo & Eo2). injection Eo2 as <-. rewrite Eo in C.
      destruct C as (_ & C & _). apply in_map_iff in Hv as (v' & [= <- <-] & Hv). apply (C q Hq); [|exact Hv].
      rewrite Hov. apply (sig_ineq_correct true l r h op Hl Hr E2); [auto|]. apply (Hsig l op r); auto.
Qed.

(** ** Runs *)
Variable solver : solver_fn R.
Hypothesis Hsolver : optimal_solver solver.
Lemma run_good' s0 x00 s x0 hist : good s0 -> (forall k v, x00 !! k = Some v -> 0 < v) ->
  run inf pick vks_of ord se solver s0 x00 s x0 hist -> always build steady hist ->
  good s /\ (forall k v, x0 !! k = Some v -> 0 < v) /\
  (forall a, In a hist -> good (so_sgp a) /\ gp_optimum (sg_gp (so_sgp a)) (so_vals a) (so_cost a)) /\
  (forall a l, hist = a :: l -> update s0 x00 = Ok (so_sgp a)).
Proof.
  intros Hg0 Hx0. induction 1 as [|s x0 hist s' vals c Hr IH Eu Ev]; intros Hal.
  { split; [auto|]. split; [auto|]. split; [intros a []|intros a l; discriminate]. }
  destruct IH as (Hg & Hx & Hh & Hfirst); [intros a f Hin; apply Hal, in_app_iff; auto|].
  pose proof (Hsolver _ _ _ _ Ev) as Hopt.
  assert (Hg' : good s').
  { destruct (decide (x0 = ∅)) as [->|Hne].
    - unfold sgp_gp in Eu. rewrite decide_True in Eu by auto. injection Eu as <-. auto.
    - destruct (good_rebuild inf pick vks_of ord se Hord Hvks Hpick slack penalty cost cs fixed cons_ok s x0 s' Hg Hx Eu Hne) as (f & Ef & Hst).
      apply Hst. apply (Hal (SOL s' vals c) f); [apply in_app_iff; right; left; auto|exact Ef]. }
  split; [auto|]. split; [|split].
  - intros k v. apply dict_pos. intros y Hy. apply Rltb_true. apply Hopt. auto.
  - intros a Hin. apply in_app_iff in Hin as [Hin|[<-|[]]]; auto.
  - intros a l E. destruct hist as [|h0 hist]; cbn in E.
    + injection E as <- _. inversion Hr; subst; [exact Eu|]. destruct hist; discriminate.
    + injection E as <- _. apply (Hfirst h0 hist eq_refl).
Qed.
Lemma program_values s vals env p b h : good s -> length vals = length (g_varlocs (sg_gp s)) -> (forall x, In x vals -> 0 < x) ->
  sg_hmaps s !! p = Some (b, h) -> posy_at (sg_gp s) vals p = eval (point1 (sg_gp s) vals env) h.
Proof.
  intros Hg Hl Hv Hp. eapply posy_at_eval; eauto; [apply Hg|]. intros j k Hj. apply point1_column; auto. apply (gd_inv _ _ _ _ _ _ _ _ _ _ _ Hg).
Qed.
Lemma solved_point s vals c env : good s -> gp_feasible (sg_gp s) vals -> solution_point fixed (SOL s vals c) env ->
  let env1 := point1 (sg_gp s) vals env in
  positive_point env1 /\ override env1 fixed = env /\ (forall p b u, (1 <= p)%nat -> sg_hmaps s !! p = Some (b, u) -> eval env1 u <= 1).
Proof.
  intros Hg HF (S1 & S2 & S3) env1. cbn [so_sgp so_vals] in S3. destruct (feasible_values (sg_gp s) vals HF) as (Hl & Hv & Hle).
  assert (He : positive_point env) by (intros k; apply Rltb_true, S1).
  split; [apply point1_pos; auto|]. split.
  - apply FunctionalExtensionality.functional_extensionality. intros k. unfold override.
    destruct (fixed !! k) as [v|] eqn:Ek; [symmetry; auto|]. unfold env1, point1.
    destruct (position _ k) as [j|] eqn:Ep; auto. apply position_in in Ep. apply nth_lookup_Some. auto.
  - intros p b u Hp Hu. unfold env1. rewrite <- (program_values s vals env p b u Hg Hl Hv Hu). apply Hle. split; [auto|].
    rewrite (mi_k _ _ _ _ _ (gd_inv _ _ _ _ _ _ _ _ _ _ _ Hg)), map_length. eapply lookup_lt_Some; eauto.
Qed.
End End_.
