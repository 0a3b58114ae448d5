(** Lemmas about units. *)
From Verif Require Import Base HashVec HashVecProofs Nomial NomialSem NomialProofs CanonProofs
  DiffProofs Constraint ConstraintSem ConstraintProofs Units UnitsSem.
Open Scope R_scope.

Section U.
Variable reg : nat -> unitdef R.
Hypothesis Hreg : registry_ok reg.

Lemma uscale_scale u : uscale reg u = scale_of reg (Some u).
Proof.
  unfold uscale, scale_of, mono_val. cbn [nmul npow n1 R_num].
  unfold map_fold. cbn. induction (map_to_list u) as [|[n a] l IH]; cbn; auto.
  rewrite IH. f_equal. apply Rpow_pos. apply Hreg.
Qed.

Lemma scale_pos u : 0 < scale_of reg u.
Proof. destruct u; cbn; [apply mono_val_pos|lra]. Qed.

Lemma udim_gen (l : list (nat * R)) :
  let m := foldr (uncurry (fun n a acc => exp_add (if decide (a = 0) then ∅ else exp_mul (ud_dims (reg n)) a) acc)) ∅ l in
  exp_canon m /\ forall d, eget m d = foldr (uncurry (fun n a acc => eget (ud_dims (reg n)) d * a + acc)) 0 l.
Proof.
  cbn zeta. induction l as [|[n a] l [IH1 IH2]]; cbn [foldr].
  - split; [apply exp_canon_empty|intros; apply eget_empty].
  - split.
    + apply exp_canon_add; auto. destruct (decide (a = 0)); [apply exp_canon_empty|].
      apply exp_canon_mul; auto. apply Hreg.
    + intros d. etransitivity; [exact (eget_add _ _ d)|]. rewrite IH2. apply Rplus_eq_compat_r. destruct (decide (a = 0)) as [->|].
      * change (eget e_empty d = eget (ud_dims (reg n)) d * 0). rewrite eget_empty. lra.
      * apply eget_mul.
Qed.

Lemma udim_canon u : exp_canon (udim reg u).
Proof. exact (proj1 (udim_gen (map_to_list u))). Qed.

Lemma eget_udim u d : eget (udim reg u) d = dim_of reg (Some u) d.
Proof. exact (proj2 (udim_gen (map_to_list u)) d). Qed.

Lemma udim_eq u v : udim reg u = udim reg v <-> forall d, dim_of reg (Some u) d = dim_of reg (Some v) d.
Proof.
  split.
  - intros E d. rewrite <- !eget_udim, E. auto.
  - intros E. apply exp_canon_ext; try apply udim_canon. intros d. rewrite !eget_udim. auto.
Qed.

Lemma dim_of_esum u d : dim_of reg (Some u) d = esum (fun n a => eget (ud_dims (reg n)) d * a) u.
Proof. reflexivity. Qed.

Lemma dim_add u v d : dim_of reg (Some (exp_add u v)) d = dim_of reg (Some u) d + dim_of reg (Some v) d.
Proof.
  rewrite !dim_of_esum.
  assert (Hz : forall k, eget (ud_dims (reg k)) d * 0 = 0) by (intros; lra).
  rewrite (esum_cover _ (exp_add u v) (cover2 u v)); [|auto|apply cover2_NoDup|].
  - rewrite (esum_cover _ u (cover2 u v)); [|auto|apply cover2_NoDup|apply cover2_l].
    rewrite (esum_cover _ v (cover2 u v)); [|auto|apply cover2_NoDup|apply cover2_r].
    rewrite <- lsum_plus. apply lsum_ext. intros k _. rewrite eget_add. lra.
  - intros k x. rewrite lookup_exp_add. destruct (u !! k) eqn:E1; [intros _; eapply cover2_l; eauto|].
    destruct (v !! k) eqn:E2; [intros _; eapply cover2_r; eauto|discriminate].
Qed.

Lemma dim_mul u c d : dim_of reg (Some (exp_mul u c)) d = dim_of reg (Some u) d * c.
Proof.
  rewrite !dim_of_esum.
  assert (Hz : forall k, eget (ud_dims (reg k)) d * 0 = 0) by (intros; lra).
  rewrite (esum_cover _ u (keys_of u)); [|auto|apply keys_of_NoDup|].
  - rewrite (esum_cover _ (exp_mul u c) (keys_of u)); [|auto|apply keys_of_NoDup|].
    + rewrite Rmult_comm, <- lsum_scale. apply lsum_ext. intros k _. rewrite eget_mul. lra.
    + intros k x. unfold exp_mul. rewrite lookup_fmap. destruct (u !! k) eqn:E; [|discriminate].
      intros _. unfold keys_of. apply elem_of_list_In, elem_of_elements, elem_of_dom. eauto.
  - intros k x E. unfold keys_of. apply elem_of_list_In, elem_of_elements, elem_of_dom. eauto.
Qed.

Lemma dim_neg u d : dim_of reg (Some (exp_neg u)) d = - dim_of reg (Some u) d.
Proof. unfold exp_neg. rewrite dim_mul. cbn [nopp n1 R_num]. lra. Qed.

Lemma dim_sub u v d : dim_of reg (Some (exp_sub u v)) d = dim_of reg (Some u) d - dim_of reg (Some v) d.
Proof. unfold exp_sub. rewrite dim_add, dim_neg. lra. Qed.

Lemma dim_empty d : dim_of reg (Some ∅) d = 0.
Proof. rewrite dim_of_esum. apply esum_empty. Qed.

Lemma scale_add u v : scale_of reg (Some (exp_add u v)) = scale_of reg (Some u) * scale_of reg (Some v).
Proof. apply mono_val_add. Qed.
Lemma scale_sub u v : scale_of reg (Some (exp_sub u v)) = scale_of reg (Some u) / scale_of reg (Some v).
Proof. apply mono_val_sub. Qed.
Lemma scale_neg u : scale_of reg (Some (exp_neg u)) = / scale_of reg (Some u).
Proof. apply mono_val_neg. Qed.
Lemma scale_mul u c : scale_of reg (Some (exp_mul u c)) = Rpower (scale_of reg (Some u)) c.
Proof. apply mono_val_mul. Qed.
Lemma scale_empty : scale_of reg (Some ∅) = 1.
Proof. apply mono_val_empty. Qed.

Lemma float_some u f : float_of reg u = Some f <-> f = scale_of reg (Some u) /\ forall d, dim_of reg (Some u) d = 0.
Proof.
  unfold float_of. rewrite uscale_scale. destruct (decide (udim reg u = ∅)) as [E|E].
  - split.
    + intros [= <-]. split; auto. intros d. rewrite <- eget_udim, E. apply eget_empty.
    + intros [-> _]. auto.
  - split; [discriminate|]. intros [_ Hd]. exfalso. apply E.
    apply exp_canon_ext; [apply udim_canon|apply exp_canon_empty|].
    intros d. rewrite eget_udim, Hd. symmetry. apply eget_empty.
Qed.

Lemma float_none u : float_of reg u = None <-> exists d, dim_of reg (Some u) d <> 0.
Proof.
  split.
  - unfold float_of. destruct (decide (udim reg u = ∅)) as [E|E]; [discriminate|]. intros _.
    apply map_choose in E as (d & a & Hd). exists d. rewrite <- eget_udim. unfold eget. rewrite Hd.
    eapply udim_canon; eauto.
  - intros [d Hd]. destruct (float_of reg u) eqn:E; auto. apply float_some in E as [_ E]. elim Hd; auto.
Qed.

Lemma qeqb_true a b : qeqb reg a b = true ->
  scale_of reg a = scale_of reg b /\ forall d, dim_of reg a d = dim_of reg b d.
Proof.
  unfold qeqb. destruct a as [a|], b as [b|]; try discriminate; [|auto].
  rewrite andb_true_iff, !bool_decide_eq_true. rewrite !uscale_scale, udim_eq. tauto.
Qed.

Lemma qeqb_refl a : qeqb reg a a = true.
Proof. destruct a; auto. cbn. rewrite !bool_decide_eq_true_2; auto. Qed.

(** ** Products *)
Lemma uop_phys env h t1 t2 :
  phys reg env (units_of_product reg h t1 t2) = eval env h * (scale_of reg t1 * scale_of reg t2) /\
  forall d, dim_of reg (uu (units_of_product reg h t1 t2)) d = dim_of reg t1 d + dim_of reg t2 d.
Proof.
  unfold units_of_product. destruct t1 as [a|], t2 as [b|].
  - destruct (float_of reg (exp_add a b)) as [f|] eqn:E.
    + apply float_some in E as [-> Hd]. pose proof (scale_pos (Some (exp_add a b))).
      destruct (decide (_ = _)) as [E0|E0]; [cbn [n0 R_num] in E0; rewrite E0 in H; lra|].
      split.
      * unfold phys; cbn [uh uu]. rewrite eval_hv_mul, scale_add. cbn [scale_of]. lra.
      * intros d. specialize (Hd d). rewrite dim_add in Hd. cbn [uu dim_of] in *. lra.
    + split; [|intros d; cbn [uu]; apply dim_add].
      unfold phys; cbn [uh uu]. rewrite scale_add. lra.
  - split; [|intros d; cbn [uu dim_of]; lra]. unfold phys; cbn [uh uu scale_of]. lra.
  - split; [|intros d; cbn [uu dim_of]; lra]. unfold phys; cbn [uh uu scale_of]. lra.
  - split; [|intros d; cbn [uu dim_of]; lra]. unfold phys; cbn [uh uu scale_of]. lra.
Qed.

Lemma uop_proper h t1 t2 : proper reg t1 -> proper reg t2 -> proper reg (uu (units_of_product reg h t1 t2)).
Proof.
  intros H1 H2. unfold units_of_product. destruct t1 as [a|], t2 as [b|]; auto.
  destruct (float_of reg (exp_add a b)) as [f|] eqn:E; cbn [uu]; [exact I|].
  apply float_none in E. exact E.
Qed.

(** ** Sums *)
Lemma nm_add_phys env a b s : nm_add reg a b = Ok s ->
  phys reg env s = phys reg env a + phys reg env b /\ uu s = uu a /\
  (forall d, dim_of reg (uu a) d = dim_of reg (uu b) d).
Proof.
  unfold nm_add. destruct (qeqb reg (uu a) (uu b)) eqn:E; cbn [rbind].
  - intros [= <-]. apply qeqb_true in E as [Es Ed]. split; [|auto].
    unfold phys; cbn [uh uu]. rewrite eval_hv_add, Es. lra.
  - destruct a as [ha [ua|]], b as [hb [ub|]]; cbn [uu uh rbind]; try discriminate.
    destruct (float_of reg (exp_sub ub ua)) as [f|] eqn:F; cbn [rbind]; [|discriminate].
    intros [= <-]. apply float_some in F as [-> Hd]. split; [|split; auto].
    + unfold phys; cbn [uh uu]. rewrite eval_hv_add, eval_hv_mul, scale_sub.
      pose proof (scale_pos (Some ua)). field. lra.
    + intros d. specialize (Hd d). rewrite dim_sub in Hd. lra.
Qed.

Lemma nm_add_err a b x : nm_add reg a b = Err x -> x = DimensionalityE.
Proof.
  unfold nm_add. destruct (qeqb _ _ _); cbn [rbind]; [discriminate|].
  destruct (uu a), (uu b); cbn [rbind]; try congruence.
  destruct (float_of _ _); cbn [rbind]; congruence.
Qed.

Lemma nm_add_dim a b : proper reg (uu a) -> proper reg (uu b) ->
  (forall d, dim_of reg (uu a) d = dim_of reg (uu b) d) -> exists s, nm_add reg a b = Ok s.
Proof.
  intros Ha Hb Hd. unfold nm_add. destruct (qeqb _ _ _) eqn:E; cbn [rbind]; [eauto|].
  destruct (uu a) as [ua|], (uu b) as [ub|].
  - destruct (float_of reg (exp_sub ub ua)) eqn:F; cbn [rbind]; [eauto|].
    apply float_none in F as [d F]. rewrite dim_sub, Hd in F. exfalso; lra.
  - destruct Ha as [d Hne]. exfalso. apply Hne. rewrite Hd. reflexivity.
  - destruct Hb as [d Hne]. exfalso. apply Hne. rewrite <- Hd. reflexivity.
  - discriminate.
Qed.

Lemma usig_ok se (a v : umap R) : usig se a = Ok v -> v = a.
Proof.
  unfold usig. intros E. apply rbind_ok in E as (h & E & [= <-]). apply init_ok in E as [-> _].
  destruct a; auto.
Qed.

Lemma usig_err se (a : umap R) x : usig se a = Err x -> x = InvalidPosynomialE.
Proof.
  unfold usig, signomial_init. destruct (any_nonpositive (uh a) && true && negb se); cbn [rbind]; congruence.
Qed.

Lemma sig_add_phys se env a b s : sig_add reg se a b = Ok s ->
  phys reg env s = phys reg env a + phys reg env b /\ (uu s = uu a \/ uu s = uu b) /\
  (forall d, dim_of reg (uu a) d = dim_of reg (uu b) d).
Proof.
  unfold sig_add. destruct (uh b) as [|tb hb] eqn:Eb.
  - destruct (uh a) as [|ta ha] eqn:Ea; [discriminate|].
    destruct (decide _); [discriminate|]. intros E. apply rbind_ok in E as (v & E & Ev).
    apply usig_ok in Ev as ->. apply (nm_add_phys env) in E as (E1 & E2 & E3).
    split; [lra|]. split; [auto|intros; symmetry; auto].
  - intros E. apply rbind_ok in E as (v & E & Ev).
    apply usig_ok in Ev as ->. apply (nm_add_phys env) in E as (E1 & E2 & E3). auto.
Qed.

Lemma sig_add_dims se a b : uh b <> [] -> proper reg (uu a) -> proper reg (uu b) ->
  sig_add reg se a b = Err DimensionalityE <-> exists d, dim_of reg (uu a) d <> dim_of reg (uu b) d.
Proof.
  intros Hne Ha Hb. unfold sig_add. destruct (uh b) as [|tb hb] eqn:Eb; [congruence|].
  split.
  - destruct (nm_add reg a b) as [s|x] eqn:E; cbn [rbind].
    + intros Hu. apply usig_err in Hu. discriminate.
    + intros _. destruct (Classical_Prop.classic (exists d, dim_of reg (uu a) d <> dim_of reg (uu b) d)) as [|Hn]; auto.
      destruct (nm_add_dim a b Ha Hb) as [s Hs]; [|congruence].
      intros d. destruct (Req_dec (dim_of reg (uu a) d) (dim_of reg (uu b) d)); auto. elim Hn; eauto.
  - intros [d Hd]. destruct (nm_add reg a b) as [s|x] eqn:E; cbn [rbind].
    + apply (nm_add_phys (fun _ => 1)) in E as (_ & _ & E). elim Hd; auto.
    + apply nm_add_err in E as ->. auto.
Qed.

Lemma sig_mul_phys se env a b s : sig_mul reg se a b = Ok s ->
  phys reg env s = phys reg env a * phys reg env b /\
  (forall d, dim_of reg (uu s) d = dim_of reg (uu a) d + dim_of reg (uu b) d).
Proof.
  unfold sig_mul. intros E. apply usig_ok in E as ->.
  destruct (uop_phys env (smul (uh a) (uh b)) (uu a) (uu b)) as [E1 E2]. split; auto.
  rewrite E1, eval_smul. unfold phys. lra.
Qed.

Lemma sig_mul_num_phys se env a c u s : sig_mul_num reg se a c u = Ok s ->
  phys reg env s = phys reg env a * (c * scale_of reg u) /\
  (forall d, dim_of reg (uu s) d = dim_of reg (uu a) d + dim_of reg u d).
Proof.
  unfold sig_mul_num. destruct (decide _); [discriminate|]. intros E. apply usig_ok in E as ->.
  destruct (uop_phys env (hv_mul (uh a) c) (uu a) u) as [E1 E2]. split; auto.
  rewrite E1, eval_hv_mul. unfold phys. lra.
Qed.

Lemma eval_num env c : eval env (num_hmap c) = c.
Proof. cbn. change (∅ : gmap nat R) with (@e_empty R). rewrite mono_val_empty. lra. Qed.

Lemma sig_add_num_phys se env a c u s : sig_add_num reg se a c u = Ok s ->
  phys reg env s = phys reg env a + c * scale_of reg u /\ uu s = uu a /\
  (c = 0 \/ forall d, dim_of reg (uu a) d = dim_of reg u d).
Proof.
  unfold sig_add_num. destruct (decide _) as [->|Hc].
  - intros E. apply usig_ok in E as ->. cbn [n0 R_num]. split; [lra|auto].
  - intros E. apply rbind_ok in E as (v & E & Ev). apply usig_ok in Ev as ->.
    apply (nm_add_phys env) in E as (E1 & E2 & E3). split; [|split; auto].
    rewrite E1. unfold phys at 2. cbn [uh uu]. rewrite eval_num. auto.
Qed.

Lemma Rpower_mult_distr' x y r : 0 < x -> 0 < y -> Rpower (x * y) r = Rpower x r * Rpower y r.
Proof. intros. symmetry. apply Rpower_mult_distr; auto. Qed.

Lemma sig_pow_phys se env a r s : sig_pow se a r = Ok s ->
  0 < phys reg env a /\ phys reg env s = Rpower (phys reg env a) r /\
  (forall d, dim_of reg (uu s) d = dim_of reg (uu a) d * r).
Proof.
  unfold sig_pow. destruct (decide _) as [Hm|]; [|discriminate]. intros E.
  apply rbind_ok in E as (h & E & Ev). apply usig_ok in Ev as ->.
  apply classify_mono in Hm as (Hnp & e & c & Ha & Hc).
  pose proof (eval_mono_pow env _ _ _ Hnp E) as [Ep _].
  assert (Hpos : 0 < eval env (uh a)).
  { rewrite Ha. cbn. pose proof (mono_val_pos env e). nra. }
  split; [unfold phys; apply Rmult_lt_0_compat; [auto|apply scale_pos]|].
  destruct (uu a) as [u|] eqn:Eu.
  - destruct (decide (r = n0)) as [Hr|Hr]; cbn [n0 R_num] in Hr.
    + subst r. split; [|intros d; cbn; lra].
      unfold phys. cbn [uh uu]. rewrite Ep, !Rpower_O; cbn [scale_of]; auto; [lra|].
      rewrite Eu. pose proof (scale_pos (Some u)). nra.
    + split; [|intros d; cbn [uu]; apply dim_mul].
      unfold phys. cbn [uh uu]. rewrite Ep, Eu, scale_mul, Rpower_mult_distr'; auto. apply scale_pos.
  - split; [|intros d; cbn; lra].
    unfold phys. cbn [uh uu]. rewrite Ep, Eu. cbn [scale_of]. rewrite !Rmult_1_r. auto.
Qed.

Lemma sig_div_phys se env a b s : sig_div reg se a b = Ok s ->
  phys reg env s = phys reg env a / phys reg env b /\
  (forall d, dim_of reg (uu s) d = dim_of reg (uu a) d - dim_of reg (uu b) d).
Proof.
  unfold sig_div. intros E. apply rbind_ok in E as (v & E & Ev).
  apply (sig_pow_phys _ env) in E as (Hp & E1 & E2). apply (sig_mul_phys _ env) in Ev as (E3 & E4).
  split.
  - rewrite E3, E1. cbn [nopp n1 R_num]. rewrite Rpower_Ropp, Rpower_1; auto.
  - intros d. rewrite E4, E2. cbn [nopp n1 R_num]. lra.
Qed.

Lemma sig_sub_phys se env a b s : sig_sub reg se a b = Ok s ->
  phys reg env s = phys reg env a - phys reg env b /\
  (forall d, dim_of reg (uu s) d = dim_of reg (uu a) d) /\
  (forall d, dim_of reg (uu a) d = dim_of reg (uu b) d).
Proof.
  unfold sig_sub, sig_neg. destruct se; [|discriminate]. intros E. apply rbind_ok in E as (v & E & Ev).
  apply (sig_mul_num_phys _ env) in E as (E1 & E2). apply (sig_add_phys _ env) in Ev as (E3 & E4 & E5).
  cbn [nopp n1 R_num scale_of dim_of] in *.
  assert (Hd : forall d, dim_of reg (uu a) d = dim_of reg (uu b) d).
  { intros d. rewrite E5, E2. lra. }
  split; [lra|]. split; [|auto]. intros d. destruct E4 as [-> | ->]; [auto|]. auto.
Qed.

Lemma nm_to_phys env a u s : nm_to reg a u = Ok s ->
  phys reg env s = phys reg env a /\ uu s = Some u /\ (forall d, dim_of reg (uu a) d = dim_of reg (Some u) d).
Proof.
  unfold nm_to. destruct (float_of _ _) as [f|] eqn:F; [|discriminate]. intros [= <-].
  apply float_some in F as [-> Hd]. pose proof (scale_pos (Some u)) as Hu.
  destruct (uu a) as [ua|] eqn:Ea.
  - split; [|split; auto].
    + unfold phys; cbn [uh uu]. rewrite eval_hv_mul, scale_sub, Ea. field. lra.
    + intros d. specialize (Hd d). rewrite dim_sub in Hd. lra.
  - split; [|split; auto].
    + unfold phys; cbn [uh uu]. rewrite eval_hv_mul, scale_sub, Ea, scale_empty. cbn [scale_of]. cbn [scale_of] in Hu. field. lra.
    + intros d. specialize (Hd d). rewrite dim_sub, dim_empty in Hd. cbn [dim_of] in *. lra.
Qed.

Lemma nm_to_total a u : (forall d, dim_of reg (uu a) d = dim_of reg (Some u) d) ->
  exists s, nm_to reg a u = Ok s.
Proof.
  intros Hd. unfold nm_to. destruct (float_of _ _) as [f|] eqn:F; [eauto|].
  apply float_none in F as [d F]. exfalso. apply F. rewrite dim_sub, <- Hd.
  destruct (uu a); [lra|]. rewrite dim_empty. cbn. lra.
Qed.

Variable vunits : nat -> option (gmap nat R).

Lemma urun_phys se env e s : positive_point env -> urun reg se vunits e = Ok s ->
  phys reg env s = pval reg vunits env e /\ (forall d, dim_of reg (uu s) d = pdim reg vunits e d) /\
  consistent reg vunits e.
Proof.
  intros Henv. revert s. induction e as [x|c u|a IHa b IHb|a IHa b IHb|a IHa b IHb|a IHa b IHb|a IHa r|a IHa c u|a IHa c u|a IHa u];
    intros s; cbn [urun pval pdim consistent].
  - intros [= <-]. split; [|auto]. unfold phys, uvar; cbn [uh uu]. f_equal.
    cbn. rewrite mono_val_singleton by auto. lra.
  - intros E. apply usig_ok in E as ->. split; [|auto]. unfold phys; cbn [uh uu]. rewrite eval_num. auto.
  - intros E. apply rbind_ok in E as (va & Ea & E). apply rbind_ok in E as (vb & Eb & E).
    apply IHa in Ea as (A1 & A2 & A3). apply IHb in Eb as (B1 & B2 & B3).
    apply (sig_add_phys _ env) in E as (E1 & E2 & E3). split; [lra|].
    assert (Hd : forall d, pdim reg vunits a d = pdim reg vunits b d).
    { intros d. rewrite <- A2, <- B2. auto. }
    split; [|auto]. intros d. destruct E2 as [-> | ->]; [auto|]. rewrite B2. auto.
  - intros E. apply rbind_ok in E as (va & Ea & E). apply rbind_ok in E as (vb & Eb & E).
    apply IHa in Ea as (A1 & A2 & A3). apply IHb in Eb as (B1 & B2 & B3).
    apply (sig_sub_phys _ env) in E as (E1 & E2 & E3). split; [lra|].
    split; [intros d; rewrite E2; auto|]. split; [auto|]. split; [auto|].
    intros d. rewrite <- A2, <- B2. auto.
  - intros E. apply rbind_ok in E as (va & Ea & E). apply rbind_ok in E as (vb & Eb & E).
    apply IHa in Ea as (A1 & A2 & A3). apply IHb in Eb as (B1 & B2 & B3).
    apply (sig_mul_phys _ env) in E as (E1 & E2). split; [rewrite E1, A1, B1; auto|].
    split; [|auto]. intros d. rewrite E2, A2, B2. auto.
  - intros E. apply rbind_ok in E as (va & Ea & E). apply rbind_ok in E as (vb & Eb & E).
    apply IHa in Ea as (A1 & A2 & A3). apply IHb in Eb as (B1 & B2 & B3).
    apply (sig_div_phys _ env) in E as (E1 & E2). split; [rewrite E1, A1, B1; auto|].
    split; [|auto]. intros d. rewrite E2, A2, B2. auto.
  - intros E. apply rbind_ok in E as (va & Ea & E).
    apply IHa in Ea as (A1 & A2 & A3).
    apply (sig_pow_phys _ env) in E as (_ & E1 & E2). split; [rewrite E1, A1; auto|].
    split; [|auto]. intros d. rewrite E2, A2. auto.
  - intros E. apply rbind_ok in E as (va & Ea & E).
    apply IHa in Ea as (A1 & A2 & A3).
    apply (sig_add_num_phys _ env) in E as (E1 & E2 & E3). split; [lra|].
    split; [intros d; rewrite E2; auto|]. split; [auto|].
    destruct E3 as [|E3]; [auto|]. right. intros d. rewrite <- A2. auto.
  - intros E. apply rbind_ok in E as (va & Ea & E).
    apply IHa in Ea as (A1 & A2 & A3).
    apply (sig_mul_num_phys _ env) in E as (E1 & E2). split; [rewrite E1, A1; auto|].
    split; [|auto]. intros d. rewrite E2, A2. auto.
  - intros E. apply rbind_ok in E as (va & Ea & E). apply rbind_ok in E as (t & Et & E).
    apply usig_ok in E as ->. apply IHa in Ea as (A1 & A2 & A3).
    apply (nm_to_phys env) in Et as (E1 & E2 & E3). split; [lra|].
    split; [|split; [auto|]]; intros d; rewrite ?E2, <- ?E3, A2 || rewrite <- A2; auto.
Qed.

(** ** Units stay proper *)
Fixpoint proper_expr (e : uexpr R) : Prop :=
  match e with
  | UVar x => proper reg (vunits x)
  | UConst _ u => proper reg u
  | UAdd a b | USub a b | UMul a b | UDiv a b => proper_expr a /\ proper_expr b
  | UPow a _ => proper_expr a
  | UAddN a _ u | UMulN a _ u => proper_expr a /\ proper reg u
  | UTo a u => proper_expr a /\ proper reg (Some u)
  end.

Lemma sig_pow_proper se a r s : proper reg (uu a) -> sig_pow se a r = Ok s -> proper reg (uu s).
Proof.
  intros Hp. unfold sig_pow. destruct (decide _); [|discriminate]. intros E.
  apply rbind_ok in E as (h & E & Ev). apply usig_ok in Ev as ->. cbn [uu].
  destruct (uu a) as [u|]; [|exact I]. destruct (decide _) as [|Hr]; [exact I|].
  destruct Hp as [d Hd]. exists d. rewrite dim_mul. cbn [n0 R_num] in Hr. intros Hz.
  apply Rmult_integral in Hz as [|]; auto.
Qed.

Lemma sig_add_proper se a b s : proper reg (uu a) -> proper reg (uu b) -> sig_add reg se a b = Ok s -> proper reg (uu s).
Proof. intros Ha Hb E. apply (sig_add_phys se (fun _ => 1)) in E as (_ & [-> | ->] & _); auto. Qed.

Lemma urun_proper se e s : proper_expr e -> urun reg se vunits e = Ok s -> proper reg (uu s).
Proof.
  revert s. induction e as [x|c u|a IHa b IHb|a IHa b IHb|a IHa b IHb|a IHa b IHb|a IHa r|a IHa c u|a IHa c u|a IHa u];
    intros s; cbn [urun proper_expr].
  - intros Hp [= <-]. auto.
  - intros Hp E. apply usig_ok in E as ->. auto.
  - intros [Ha Hb] E. apply rbind_ok in E as (va & Ea & E). apply rbind_ok in E as (vb & Eb & E).
    eapply sig_add_proper; [| |exact E]; auto.
  - intros [Ha Hb] E. apply rbind_ok in E as (va & Ea & E). apply rbind_ok in E as (vb & Eb & E).
    unfold sig_sub, sig_neg, sig_mul_num in E. destruct se; [|discriminate].
    apply rbind_ok in E as (vn & En & E). destruct (decide _); [discriminate|].
    apply usig_ok in En as ->. eapply sig_add_proper; [| |exact E]; auto.
    apply uop_proper; auto. exact I.
  - intros [Ha Hb] E. apply rbind_ok in E as (va & Ea & E). apply rbind_ok in E as (vb & Eb & E).
    apply usig_ok in E as ->. apply uop_proper; auto.
  - intros [Ha Hb] E. apply rbind_ok in E as (va & Ea & E). apply rbind_ok in E as (vb & Eb & E).
    apply rbind_ok in E as (vi & Ei & E). apply usig_ok in E as ->. apply uop_proper; auto.
    eapply sig_pow_proper; [|exact Ei]; auto.
  - intros Ha E. apply rbind_ok in E as (va & Ea & E). eapply sig_pow_proper; [|exact E]; auto.
  - intros [Ha Hu] E. apply rbind_ok in E as (va & Ea & E).
    apply (sig_add_num_phys _ (fun _ => 1)) in E as (_ & -> & _). auto.
  - intros [Ha Hu] E. apply rbind_ok in E as (va & Ea & E). unfold sig_mul_num in E.
    destruct (decide _); [discriminate|]. apply usig_ok in E as ->. apply uop_proper; auto.
  - intros [Ha Hu] E. apply rbind_ok in E as (va & Ea & E). apply rbind_ok in E as (t & Et & E).
    apply usig_ok in E as ->. apply (nm_to_phys (fun _ => 1)) in Et as (_ & -> & _). auto.
Qed.

(** ** Derivatives *)
Lemma uop_nil t1 t2 : uh (units_of_product reg [] t1 t2) = [].
Proof.
  unfold units_of_product. destruct t1, t2; auto. destruct (float_of _ _); auto. cbn [uh].
  destruct (decide _); auto.
Qed.

Lemma uh_diff a x : uh (nm_diff_u reg vunits a x) = nm_diff (uh a) x.
Proof. unfold nm_diff_u, nm_diff. cbn [uh]. rewrite uop_nil. auto. Qed.

Definition inv_units (u : option (gmap nat R)) := match u with Some u => Some (exp_neg u) | None => None end.

Lemma uu_diff a x : uu (nm_diff_u reg vunits a x) = uu (units_of_product reg [] (uu a) (inv_units (vunits x))).
Proof. reflexivity. Qed.

Lemma dim_inv u d : dim_of reg (inv_units u) d = - dim_of reg u d.
Proof. destruct u; [apply dim_neg|cbn; lra]. Qed.
Lemma scale_inv u : scale_of reg (inv_units u) = / scale_of reg u.
Proof. destruct u; [apply scale_neg|cbn; lra]. Qed.

(** The factor [diff] loses: the quotient of the units when it is a pure number. *)
Definition lost_factor (a : umap R) (x : nat) : R :=
  match uu a, vunits x with
  | Some ua, Some ux =>
      match float_of reg (exp_add ua (exp_neg ux)) with Some f => f | None => 1 end
  | _, _ => 1
  end.

Lemma diff_scale a x : scale_of reg (uu a) / scale_of reg (vunits x) = scale_of reg (uu (nm_diff_u reg vunits a x)) * lost_factor a x.
Proof.
  rewrite uu_diff. unfold lost_factor, units_of_product.
  destruct (uu a) as [ua|], (vunits x) as [ux|]; cbn [inv_units].
  - destruct (float_of reg (exp_add ua (exp_neg ux))) as [f|] eqn:E; cbn [uu].
    + apply float_some in E as [-> _]. rewrite scale_add, scale_neg. cbn [scale_of]. unfold Rdiv. lra.
    + rewrite scale_add, scale_neg. cbn [scale_of]. unfold Rdiv. lra.
  - cbn [uu scale_of]. lra.
  - cbn [uu]. rewrite scale_neg. cbn [scale_of]. lra.
  - cbn [uu scale_of]. lra.
Qed.

Lemma diff_dim a x d : dim_of reg (uu (nm_diff_u reg vunits a x)) d = dim_of reg (uu a) d - dim_of reg (vunits x) d.
Proof.
  rewrite uu_diff. destruct (uop_phys (fun _ => 1) [] (uu a) (inv_units (vunits x))) as [_ E].
  rewrite E, dim_inv. lra.
Qed.

Lemma diff_phys env a x : NoDup (dkeys (uh a)) -> 0 < env x ->
  derivable_pt_lim (fun t => phys reg (upd env x (t / scale_of reg (vunits x))) a)
    (env x * scale_of reg (vunits x))
    (phys reg env (sig_diff_u reg vunits a x) * lost_factor a x).
Proof.
  intros Hnd Hx. set (s := scale_of reg (vunits x)).
  assert (Hs : 0 < s) by apply scale_pos.
  set (k := scale_of reg (uu a)).
  replace (phys reg env (sig_diff_u reg vunits a x) * lost_factor a x)
    with (k * (eval env (sig_diff (uh a) x) * / s)).
  2:{ unfold sig_diff_u, sig_diff. destruct (in_vks (uh a) x).
      - unfold phys. rewrite uh_diff, (Rmult_assoc _ (scale_of reg (uu (nm_diff_u _ _ _ _)))), <- diff_scale.
        fold s k. unfold Rdiv. lra.
      - unfold phys. cbn [uh uu]. rewrite eval_num. cbn [n0 R_num]. lra. }
  set (F := fun t => eval (upd env x t) (uh a)).
  assert (HF : derivable_pt_lim F (env x) (eval env (sig_diff (uh a) x))) by (apply diff_correct; auto).
  assert (HG : derivable_pt_lim (fun t => t / s) (env x * s) (/ s)).
  { apply derivable_pt_lim_ext with (f := mult_real_fct (/ s) id).
    - intros z. unfold mult_real_fct, id, Rdiv. lra.
    - replace (/ s) with (/ s * 1) at 2 by lra. apply derivable_pt_lim_scal. apply derivable_pt_lim_id. }
  pose proof (derivable_pt_lim_comp (fun t => t / s) F (env x * s) _ (eval env (sig_diff (uh a) x)) HG) as HC.
  cbn beta in HC.
  replace (env x * s / s) with (env x) in HC by (field; lra).
  specialize (HC HF).
  apply derivable_pt_lim_ext with (f := mult_real_fct k (comp F (fun t => t / s))).
  - intros z. unfold mult_real_fct, comp, F, phys. fold k. lra.
  - apply derivable_pt_lim_scal. exact HC.
Qed.

(** ** Constraints *)
Lemma divide_some a b f : divide_units reg a b = Some f <->
  f = scale_of reg a / scale_of reg b /\ forall d, dim_of reg a d = dim_of reg b d.
Proof.
  unfold divide_units. destruct a as [a|], b as [b|].
  - rewrite float_some, scale_sub. split; intros [-> Hd]; (split; [reflexivity|]); intros d; specialize (Hd d);
      rewrite ?dim_sub in *; lra.
  - rewrite float_some. cbn [scale_of]. split; intros [-> Hd]; (split; [lra|]); intros d; specialize (Hd d);
      cbn [dim_of] in *; lra.
  - rewrite float_some, scale_neg. cbn [scale_of]. split; intros [-> Hd]; (split; [lra|]); intros d; specialize (Hd d);
      rewrite ?dim_neg in *; cbn [dim_of] in *; lra.
  - cbn. split; [intros [= <-]; split; [lra|auto]|]. intros [-> _]. f_equal. lra.
Qed.

Lemma divide_none a b : divide_units reg a b = None <-> exists d, dim_of reg a d <> dim_of reg b d.
Proof.
  split.
  - unfold divide_units. destruct a as [a|], b as [b|]; try discriminate; intros E;
      apply float_none in E as [d E]; exists d.
    + rewrite dim_sub in E. lra.
    + exact E.
    + rewrite dim_neg in E. cbn [dim_of] in *. lra.
  - intros [d Hd]. destruct (divide_units reg a b) eqn:E; auto. apply divide_some in E as [_ E]. elim Hd; auto.
Qed.

Lemma gen_unsubbed_u_cases se (p m : umap R) : is_posy (uh p) -> is_mono (uh m) ->
  (forall e c, uh m = [(e, c)] -> no_clash (uh p) e) ->
  (gen_unsubbed_u reg se p m = Err DimensionalityE <-> exists d, dim_of reg (uu p) d <> dim_of reg (uu m) d) /\
  match gen_unsubbed_u reg se p m with
  | Ok [] => exists c, c <= 1 + tolerance /\ forall env, phys reg env p = c * phys reg env m
  | Ok [u] => canonical u /\ dget u e_empty = None /\
      ((all_positive u /\ (forall env, eval env u <= 1 <-> phys reg env p <= phys reg env m)) \/
       (se = true /\ forall env, phys reg env m < phys reg env p))
  | Ok _ => False
  | Err x => x = DimensionalityE \/ forall env, phys reg env m < phys reg env p
  end.
Proof.
  intros Hp (e & c & Hm & He & Hc) Hcl. specialize (Hcl e c Hm).
  assert (Hsp := scale_pos (uu p)). assert (Hsm := scale_pos (uu m)).
  unfold gen_unsubbed_u. rewrite Hm.
  destruct (divide_units reg (uu m) (uu p)) as [f|] eqn:E.
  - apply divide_some in E as [-> Hd].
    assert (Hf : 0 < scale_of reg (uu m) / scale_of reg (uu p)) by (apply Rdiv_lt_0_compat; auto).
    set (f := scale_of reg (uu m) / scale_of reg (uu p)) in *. cbn [nmul R_num].
    assert (Hmono : is_mono [(e, c * f)]). { exists e, (c * f). split; [auto|]. split; [auto|]. nra. }
    assert (Hcl' : forall e0 c0, [(e, c * f)] = [(e0, c0)] -> no_clash (uh p) e0).
    { intros e0 c0 [= <- _]. auto. }
    pose proof (gen_unsubbed_cases se (uh p) [(e, c * f)] Hp Hmono Hcl') as HG.
    assert (Hev : forall env, eval env [(e, c * f)] = phys reg env m / scale_of reg (uu p)).
    { intros env. unfold phys. rewrite Hm. cbn [eval]. unfold f. field. lra. }
    assert (Hpe : forall env, eval env (uh p) = phys reg env p / scale_of reg (uu p)).
    { intros env. unfold phys. field. lra. }
    assert (Hlt : (forall env, eval env [(e, c * f)] < eval env (uh p)) -> forall env, phys reg env m < phys reg env p).
    { intros Hl env. specialize (Hl env). rewrite Hev, Hpe in Hl. unfold Rdiv in Hl.
      apply Rmult_lt_reg_r with (/ scale_of reg (uu p)); auto. apply Rinv_0_lt_compat; auto. }
    split.
    + split.
      * intros E. exfalso. revert E. unfold gen_unsubbed. destruct (rename_loop _ _ _ _) as [h|x] eqn:E1; cbn [rbind].
        -- unfold simplify. destruct (dget h e_empty); cbn [rbind].
           ++ destruct (_ && _); cbn [rbind]; [discriminate|]. destruct (nltb _ _); cbn [rbind]; [discriminate|].
              unfold hv_div. destruct (decide _); cbn [rbind]; [discriminate|].
              destruct (ddel _ _); [discriminate|]. unfold signomial_init. destruct (_ && _); discriminate.
           ++ destruct h; [discriminate|]. unfold signomial_init. destruct (_ && _); discriminate.
        -- intros [= ->]. revert E1. generalize (dkeys (uh p)). generalize (uh p).
           intros h l. revert h. induction l as [|a l IH]; intros h; cbn [rename_loop]; [discriminate|].
           unfold rename_step. destruct (dget h a); cbn [rbind]; [apply IH|discriminate].
      * intros [d Hne]. elim Hne. auto.
    + destruct (gen_unsubbed se (uh p) [(e, c * f)]) as [[|u [|u2 us]]|x].
      * destruct HG as (k & Hk & HG). exists k. split; auto. intros env. specialize (HG env). rewrite Hev, Hpe in HG.
        unfold Rdiv in HG. rewrite <- Rmult_assoc in HG. apply Rmult_eq_reg_r with (/ scale_of reg (uu p)); auto.
        apply Rgt_not_eq, Rinv_0_lt_compat; auto.
      * destruct HG as (_ & H2 & H3 & [(H4 & H5 & _)|(H4 & _ & H5)]); (split; [auto|]); (split; [auto|]).
        -- left. split; auto. intros env. rewrite H5, Hev, Hpe. unfold Rdiv.
           assert (Hi : 0 < / scale_of reg (uu p)) by (apply Rinv_0_lt_compat; auto).
           split; intros Hle; [apply Rmult_le_reg_r with (/ scale_of reg (uu p))|apply Rmult_le_compat_r]; auto; lra.
        -- right. auto.
      * auto.
      * right. auto.
  - apply divide_none in E as [d E]. split; [|auto]. split; auto. intros _. exists d. auto.
Qed.

(** ** Caches *)
Definition product_result (a b : gmap nat R) : option (gmap nat R) * option R :=
  match float_of reg (exp_add a b) with
  | Some f => (None, Some f)
  | None => (Some (exp_add a b), None)
  end.

Definition pcache_ok (c : @pcache R) : Prop :=
  forall a b r, dget c (a, b) = Some r -> r = product_result a b.

Lemma of_product_ok c a b : pcache_ok c ->
  pcache_ok (fst (of_product reg c a b)) /\ snd (of_product reg c a b) = product_result a b.
Proof.
  intros Hc. unfold of_product. destruct (dget c (a, b)) as [r|] eqn:E; cbn [fst snd].
  - split; auto.
  - split; [|reflexivity]. intros a' b' r. rewrite dget_dset. dcase E'.
    + injection E' as -> ->. intros [= <-]. reflexivity.
    + apply Hc.
Qed.

Lemma run_products_ok c qs : pcache_ok c ->
  run_products reg c qs = map (fun q => product_result (fst q) (snd q)) qs.
Proof.
  revert c. induction qs as [|[a b] qs IH]; intros c Hc; cbn [run_products map fst snd]; auto.
  pose proof (of_product_ok c a b Hc) as [H1 H2]. destruct (of_product reg c a b) as [c' r].
  cbn [fst snd] in *. rewrite H2, IH; auto.
Qed.

(** The factor a conversion should return. *)
Definition conversion_ok (q : option (gmap nat R) * option (gmap nat R) * option R) : Prop :=
  match q with
  | (a, b, Some f) => f = scale_of reg a / scale_of reg b /\ forall d, dim_of reg a d = dim_of reg b d
  | (a, b, None) => exists d, dim_of reg a d <> dim_of reg b d
  end.

Definition used_ok (s : ustate R) (past : list (uop R)) : Prop :=
  NoDup (dkeys (u_live s)) /\ dget (u_live s) 0%nat = None /\
  forall i j f, dget (u_cache s) (i, j) = Some f ->
    In (UDivide i j) past /\
    (i = 0%nat \/ In i (dkeys (u_live s))) /\ (j = 0%nat \/ In j (dkeys (u_live s))) /\
    divide_units reg (dget (u_live s) i) (dget (u_live s) j) = Some f.

Lemma divide_conv a b : conversion_ok (a, b, divide_units reg a b).
Proof.
  cbn. destruct (divide_units reg a b) eqn:E; [apply divide_some in E|apply divide_none in E]; auto.
Qed.

Lemma uhistory_gen ops : forall s past, used_ok s past ->
  uhistory_ok reg s ops = true ->
  (forall ops1 i ops2, ops = ops1 ++ UFree i :: ops2 ->
     forall j, ~ In (UDivide i j) (past ++ ops1) /\ ~ In (UDivide j i) (past ++ ops1)) ->
  Forall conversion_ok (uhistory reg s ops).
Proof.
  induction ops as [|o ops IH]; intros s past HI Hok Hfree; cbn [uhistory uhistory_ok] in *; [constructor|].
  apply andb_true_iff in Hok as [Ho Hok].
  assert (Hnext : forall s', used_ok s' (past ++ [o]) -> uhistory_ok reg s' ops = true ->
             Forall conversion_ok (uhistory reg s' ops)).
  { intros s' HI' Hok'. apply (IH s' (past ++ [o])); auto. intros ops1 i ops2 -> j.
    rewrite <- app_assoc. apply (Hfree (o :: ops1) i ops2). reflexivity. }
  destruct HI as (Hnd & H0 & HI). destruct o as [i u|i|i j]; cbn [ustep fst] in *.
  - cbn [uop_ok] in Ho. apply andb_true_iff in Ho as [Hi0 Hi]. apply negb_true_iff in Hi0, Hi.
    apply Nat.eqb_neq in Hi0.
    assert (Hnew : ~ In i (dkeys (u_live s))). { intros Hin. apply dmem_In in Hin. congruence. }
    apply Hnext; auto. split; [apply NoDup_dset; auto|]. split; [cbn [u_live]; rewrite dget_dset_ne; auto|].
    intros a b f Hf. cbn [u_cache u_live] in *. apply HI in Hf as (P1 & P2 & P3 & P4).
    split; [apply in_or_app; auto|].
    split; [destruct P2; [auto|right; apply dkeys_dset_In; auto]|].
    split; [destruct P3; [auto|right; apply dkeys_dset_In; auto]|].
    rewrite !dget_dset_ne; auto; intros ->; destruct P2, P3; subst; auto.
  - apply Hnext; auto. split; [apply NoDup_ddel; auto|].
    specialize (Hfree [] i ops eq_refl). rewrite app_nil_r in Hfree.
    assert (Hi0 : i <> 0%nat).
    { cbn [uop_ok] in Ho. intros ->. unfold dmem in Ho. rewrite H0 in Ho. discriminate. }
    split; [cbn [u_live]; rewrite dget_ddel_ne; auto|].
    intros a b f Hf. cbn [u_cache u_live] in *. apply HI in Hf as (P1 & P2 & P3 & P4).
    assert (a <> i) by (intros ->; destruct (Hfree b); auto).
    assert (b <> i) by (intros ->; destruct (Hfree a); auto).
    split; [apply in_or_app; auto|].
    assert (Hkeep : forall k, k <> i -> In k (dkeys (u_live s)) -> In k (dkeys (ddel (u_live s) i))).
    { intros k Hk Hin. apply dmem_In. apply dmem_In in Hin. unfold dmem in *. rewrite dget_ddel_ne; auto. }
    split; [destruct P2; [auto|right; auto]|].
    split; [destruct P3; [auto|right; auto]|].
    rewrite !dget_ddel_ne; auto.
  - unfold of_division in *. destruct (decide (i = j)) as [->|Hij].
    + constructor.
      * cbn. split; auto. pose proof (scale_pos (dget (u_live s) j)). field. lra.
      * apply Hnext; auto. split; [auto|]. split; [auto|]. intros a b f Hf.
        apply HI in Hf as (P1 & P). split; [apply in_or_app; auto|auto].
    + destruct (dget (u_cache s) (i, j)) as [f|] eqn:Ec.
      * constructor.
        -- destruct (HI i j f Ec) as (_ & _ & _ & <-). apply divide_conv.
        -- apply Hnext; auto. split; [auto|]. split; [auto|]. intros a b f' Hf.
           apply HI in Hf as (P1 & P). split; [apply in_or_app; auto|auto].
      * cbn [uop_ok] in Ho. apply andb_true_iff in Ho as [Hi Hj].
        assert (Hl : forall k, (Nat.eqb k 0 || dmem (u_live s) k) = true -> k = 0%nat \/ In k (dkeys (u_live s))).
        { intros k. rewrite orb_true_iff, Nat.eqb_eq, dmem_In. auto. }
        destruct (divide_units reg (dget (u_live s) i) (dget (u_live s) j)) as [f|] eqn:Ed.
        -- constructor; [rewrite <- Ed; apply divide_conv|].
           apply Hnext; auto. split; [auto|]. split; [auto|]. intros a b f' Hf. cbn [u_cache u_live] in *.
           rewrite dget_dset in Hf. revert Hf. dcase E.
           ++ injection E as -> ->. intros [= <-]. split; [apply in_or_app; right; left; auto|]. auto.
           ++ intros Hf. apply HI in Hf as (P1 & P). split; [apply in_or_app; auto|auto].
        -- constructor; [rewrite <- Ed; apply divide_conv|].
           apply Hnext; auto. split; [auto|]. split; [auto|]. intros a b f' Hf.
           apply HI in Hf as (P1 & P). split; [apply in_or_app; auto|auto].
Qed.

Lemma ustart_ok : used_ok ustart [].
Proof. split; [apply NoDup_nil_2|]. split; [reflexivity|]. intros i j f. discriminate. Qed.

End U.
