(** Properties C14-C16: units.
    Specification vocabulary: UnitsSem.v ([phys], [scale_of], [dim_of], [pval],
    [pdim], [consistent], [proper]). *)
From Verif Require Import Base HashVec Nomial NomialSem NomialProofs CanonProofs DiffProofs
  Constraint ConstraintSem ConstraintProofs Units UnitsSem UnitsProofs.
Open Scope R_scope.

(** ** C14 *)

(** Whatever expression of nomials with units runs without an exception denotes
    the right physical quantity: value in root units, and dimension. Running
    without an exception implies that only like quantities were added. *)
Theorem C14_units_arithmetic :
  forall (reg : nat -> unitdef R) (vunits : nat -> option (gmap nat R)) (se : bool) (e : uexpr R) (s : umap R),
  registry_ok reg -> urun reg se vunits e = Ok s ->
  (forall env, positive_point env -> phys reg env s = pval reg vunits env e) /\
  (forall d, dim_of reg (uu s) d = pdim reg vunits e d) /\
  consistent reg vunits e.
Proof.
  intros reg vunits se e s Hr Hs.
  destruct (urun_phys reg Hr vunits se (fun _ => 1) e s) as (_ & H2 & H3); [intros ?; lra|auto|].
  split; [|auto]. intros env Henv. apply (urun_phys reg Hr vunits se env e s); auto.
Qed.
Print Assumptions C14_units_arithmetic.

(** The sum is expressed in the left operand's units. *)
Theorem C14_sum_in_left_units :
  forall (reg : nat -> unitdef R) (se : bool) (a b s : umap R),
  registry_ok reg -> uh b <> [] -> sig_add reg se a b = Ok s ->
  uu s = uu a /\ forall env, phys reg env s = phys reg env a + phys reg env b.
Proof.
  intros reg se a b s Hr Hb E. split; [|intros env; apply (sig_add_phys reg Hr se env a b s E)].
  unfold sig_add in E. destruct (uh b); [congruence|]. apply rbind_ok in E as (v & E & Ev).
  apply usig_ok in Ev as ->. apply (nm_add_phys reg Hr (fun _ => 1)) in E. apply E.
Qed.
Print Assumptions C14_sum_in_left_units.

(** DimensionalityError exactly when the dimensions differ, for operands whose
    units are either absent or have a dimension. Missing: operands carrying a
    unit without dimension, where it is also raised (refuted below). *)
Theorem C14_sum_raises_iff_dimensions_differ_partial :
  forall (reg : nat -> unitdef R) (se : bool) (a b : umap R),
  registry_ok reg -> uh b <> [] -> proper reg (uu a) -> proper reg (uu b) ->
  sig_add reg se a b = Err DimensionalityE <-> exists d, dim_of reg (uu a) d <> dim_of reg (uu b) d.
Proof. intros reg se a b Hr Hb Ha Hb'. apply (sig_add_dims reg Hr); auto. Qed.
Print Assumptions C14_sum_raises_iff_dimensions_differ_partial.

(** Such operands are all a program gets if its variables and constants are
    such and it converts to such units only. *)
Theorem C14_units_stay_proper :
  forall (reg : nat -> unitdef R) (vunits : nat -> option (gmap nat R)) (se : bool) (e : uexpr R) (s : umap R),
  registry_ok reg -> proper_expr reg vunits e -> urun reg se vunits e = Ok s -> proper reg (uu s).
Proof. intros reg vunits se e s Hr. apply (urun_proper reg Hr). Qed.
Print Assumptions C14_units_stay_proper.

(** A product without dimension becomes a pure number. *)
Theorem C14_dimensionless_product_has_no_units :
  forall (reg : nat -> unitdef R) (se : bool) (a b s : umap R),
  registry_ok reg -> proper reg (uu a) -> proper reg (uu b) -> sig_mul reg se a b = Ok s ->
  (forall d, dim_of reg (uu a) d + dim_of reg (uu b) d = 0) ->
  uu s = None /\ forall env, eval env (uh s) = phys reg env a * phys reg env b.
Proof.
  intros reg se a b s Hr Ha Hb E Hd.
  assert (Hu : uu s = None).
  { destruct (uu s) as [u|] eqn:Eu; auto. exfalso.
    assert (Hp : proper reg (uu s)).
    { unfold sig_mul in E. apply usig_ok in E as ->. apply (uop_proper reg Hr); auto. }
    rewrite Eu in Hp. destruct Hp as [d Hn]. apply Hn.
    apply (sig_mul_phys reg Hr se (fun _ => 1)) in E as [_ E]. rewrite <- Eu, E. apply Hd. }
  split; auto. intros env. apply (sig_mul_phys reg Hr se env) in E as [E _]. rewrite <- E.
  unfold phys. rewrite Hu. cbn. lra.
Qed.
Print Assumptions C14_dimensionless_product_has_no_units.

(** [x.to("dimensionless") + 1] raises although both sides are pure numbers. *)
Theorem C14_dimensionless_sum_refuted :
  ~ (forall (reg : nat -> unitdef R) (vunits : nat -> option (gmap nat R)) (se : bool) (e : uexpr R),
     registry_ok reg -> consistent reg vunits e -> urun reg se vunits e <> Err DimensionalityE).
Proof.
  intros H.
  assert (Hr : registry_ok (fun _ => UD 1 ∅)).
  { intros n. cbn. split; [lra|apply exp_canon_empty]. }
  apply (H _ (fun _ => None) false (UAddN (UTo (UVar 0) ∅) 1 None) Hr).
  - cbn [consistent pdim]. split; [split; [auto|]|right]; intros d.
    + rewrite dim_empty. reflexivity.
    + reflexivity.
  - cbn [urun]. unfold uvar at 1. cbn [rbind].
    destruct (nm_to _ _ _) as [t|x] eqn:E.
    + cbn [rbind]. assert (Eu : uu t = Some ∅) by (apply (nm_to_phys _ Hr (fun _ => 1)) in E; apply E).
      unfold nm_to in E. destruct (float_of _ _) as [f|] eqn:F in E; [|discriminate].
      apply (float_some _ Hr) in F as [Ff _]. injection E as <-.
      unfold usig at 1, signomial_init. cbn [uh var_hmap hv_mul map existsb any_nonpositive snd fst].
      assert (0 < f) by (rewrite Ff; apply scale_pos).
      assert (Hb : nleb (1 * f) n0 = false) by (apply Rleb_false; cbn; lra).
      rewrite Hb. cbn [orb andb rbind]. unfold sig_add_num. destruct (decide _) as [E1|]; [cbn in E1; lra|].
      reflexivity.
    + destruct (nm_to_total _ Hr (UM (var_hmap 0) None) ∅) as [t Et]; [|cbn [uvar] in E; congruence].
      intros d. rewrite dim_empty. reflexivity.
Qed.
Print Assumptions C14_dimensionless_sum_refuted.

(** Conversion keeps the quantity, sets the unit asked for, and fails exactly on
    a different dimension. *)
Theorem C14_to :
  forall (reg : nat -> unitdef R) (a : umap R) (u : gmap nat R),
  registry_ok reg ->
  match nm_to reg a u with
  | Ok s => uu s = Some u /\ (forall env, phys reg env s = phys reg env a) /\
            forall d, dim_of reg (uu a) d = dim_of reg (Some u) d
  | Err x => x = DimensionalityE /\ exists d, dim_of reg (uu a) d <> dim_of reg (Some u) d
  end.
Proof.
  intros reg a u Hr. destruct (nm_to reg a u) as [s|x] eqn:E.
  - pose proof (nm_to_phys reg Hr (fun _ => 1) _ _ _ E) as (_ & E2 & E3). split; auto. split; auto.
    intros env. apply (nm_to_phys reg Hr env _ _ _ E).
  - assert (x = DimensionalityE) as ->.
    { unfold nm_to in E. destruct (float_of _ _); congruence. }
    split; auto. destruct (Classical_Prop.classic (exists d, dim_of reg (uu a) d <> dim_of reg (Some u) d)) as [|Hn]; auto.
    destruct (nm_to_total reg Hr a u) as [t Et]; [|congruence]. intros d.
    destruct (Req_dec (dim_of reg (uu a) d) (dim_of reg (Some u) d)); auto. elim Hn; eauto.
Qed.
Print Assumptions C14_to.

(** A constraint [p <= m] with units: the posynomial [<= 1] gpkit builds means
    the physical inequality, and DimensionalityError is raised exactly when the
    dimensions differ. Missing: the clash of C18. *)
Theorem C14_constraint_partial :
  forall (reg : nat -> unitdef R) (p m : umap R),
  registry_ok reg -> is_posy (uh p) -> is_mono (uh m) ->
  (forall e c, uh m = [(e, c)] -> no_clash (uh p) e) ->
  (gen_unsubbed_u reg false p m = Err DimensionalityE <-> exists d, dim_of reg (uu p) d <> dim_of reg (uu m) d) /\
  match gen_unsubbed_u reg false p m with
  | Ok [u] => forall env, eval env u <= 1 <-> phys reg env p <= phys reg env m
  | Ok [] => exists c, c <= 1 + tolerance /\ forall env, phys reg env p = c * phys reg env m
  | Ok _ => False
  | Err x => x = DimensionalityE \/ forall env, phys reg env m < phys reg env p
  end.
Proof.
  intros reg p m Hr Hp Hm Hcl. destruct (gen_unsubbed_u_cases reg Hr false p m Hp Hm Hcl) as [H1 H2].
  split; auto. destruct (gen_unsubbed_u reg false p m) as [[|u [|? ?]]|x]; auto.
  destruct H2 as (_ & _ & [[_ H2]|[H2 _]]); [auto|discriminate].
Qed.
Print Assumptions C14_constraint_partial.

(** *** Cases *)
Open Scope nat_scope.
(** Feet and metres: two named units of one dimension; seconds. *)
Definition ex_reg {T} `{Num T} (n : nat) : unitdef T :=
  match n with
  | 0 => UD n1 {[0 := n1]}                                  (* m *)
  | 1 => UD (ndiv (nofZ 3048) (nofZ 10000)) {[0 := n1]}     (* ft *)
  | 2 => UD n1 {[1 := n1]}                                  (* s *)
  | _ => UD n1 ∅
  end.
Definition metre {T} `{Num T} : gmap nat T := {[0 := n1]}.
Definition foot {T} `{Num T} : gmap nat T := {[1 := n1]}.
Definition second {T} `{Num T} : gmap nat T := {[2 := n1]}.
Definition ex_vunits {T} `{Num T} (x : nat) : option (gmap nat T) :=
  match x with 0 => Some metre | 1 => Some foot | 2 => Some second | _ => None end.
Definition uitems {T} (r : res (umap T)) : option (list (list (nat * T) * T) * option (list (nat * T))) :=
  match r with Ok a => Some (items (uh a), match uu a with Some u => Some (map_to_list u) | None => None end) | Err _ => None end.

Example C14_sum_computed : (* y [m] + x [ft] = (y + 0.3048 x) [m] *)
  uitems (urun (T := Q) ex_reg false ex_vunits (UAdd (UVar 0) (UVar 1)))
  = Some ([([(0, 1%Q)], 1%Q); ([(1, 1%Q)], (381 # 1250)%Q)], Some [(0, 1%Q)]).
Proof. vm_compute. reflexivity. Qed.
Example C14_quotient_computed : (* y [m] / x [ft] is a number *)
  uitems (urun (T := Q) ex_reg false ex_vunits (UDiv (UVar 0) (UVar 1)))
  = Some ([([(0, 1%Q); (1, (-1)%Q)], (1250 # 381)%Q)], None).
Proof. vm_compute. reflexivity. Qed.
Example C14_mismatch_computed :
  urun (T := Q) ex_reg false ex_vunits (UAdd (UVar 0) (UVar 2)) = Err DimensionalityE.
Proof. vm_compute. reflexivity. Qed.

Open Scope R_scope.
Lemma ex_reg_ok : registry_ok (ex_reg (T := R)).
Proof.
  assert (S : forall k : nat, exp_canon {[k := 1]}) by (intros k; apply exp_canon_singleton).
  intros [|[|[|n]]]; cbn [ex_reg ud_scale ud_dims]; cbn; (split; [try lra|]); auto. apply exp_canon_empty.
Qed.
Lemma dim_singleton (n d : nat) : dim_of ex_reg (Some {[n := 1]}) d = eget (ud_dims (ex_reg (T := R) n)) d.
Proof.
  rewrite dim_of_esum. rewrite <- insert_empty, esum_insert, esum_empty by apply lookup_empty. lra.
Qed.
Example C14_nonvacuous : registry_ok (ex_reg (T := R)) /\ proper ex_reg (Some (metre (T := R))) /\
  proper_expr ex_reg ex_vunits (UAdd (UVar 0) (UVar 1)).
Proof.
  split; [apply ex_reg_ok|].
  assert (P : forall n, (n < 2)%nat -> proper ex_reg (Some ({[n := 1]} : gmap nat R))).
  { intros n Hn. exists 0%nat. rewrite dim_singleton. destruct n as [|[|n]]; [| |lia]; cbn [ex_reg ud_dims];
      unfold eget; rewrite lookup_singleton; cbn; lra. }
  split; [apply (P 0%nat); lia|]. cbn. split; [apply (P 0%nat); lia|apply (P 1%nat); lia].
Qed.

(** ** C15 *)

(** The derivative of the physical quantity [p] with respect to the physical
    quantity [x]: as [x] (in root units) varies, its magnitude is the value
    divided by its scale. [p.diff(x)] is that derivative, except that when the
    units of [p] and of [x] have the same dimension the ratio of their scales
    is lost. Its dimension is right. *)
Theorem C15_diff_units_partial :
  forall (reg : nat -> unitdef R) (vunits : nat -> option (gmap nat R)) (p : umap R) (x : nat) (env : point),
  registry_ok reg -> NoDup (dkeys (uh p)) -> 0 < env x ->
  ((exists d, dim_of reg (uu p) d <> dim_of reg (vunits x) d) \/ uu p = None \/ vunits x = None \/
   scale_of reg (uu p) = scale_of reg (vunits x)) ->
  derivable_pt_lim (fun t => phys reg (upd env x (t / scale_of reg (vunits x))) p)
    (env x * scale_of reg (vunits x)) (phys reg env (sig_diff_u reg vunits p x)) /\
  (in_vks (uh p) x = true ->
   forall d, dim_of reg (uu (sig_diff_u reg vunits p x)) d = dim_of reg (uu p) d - dim_of reg (vunits x) d).
Proof.
  intros reg vunits p x env Hr Hnd Hx Hk. split.
  - pose proof (diff_phys reg Hr vunits env p x Hnd Hx) as HD.
    replace (lost_factor reg vunits p x) with 1 in HD; [rewrite Rmult_1_r in HD; exact HD|].
    unfold lost_factor. destruct (uu p) as [ua|] eqn:Ea; auto. destruct (vunits x) as [ux|] eqn:Ex; auto.
    destruct (float_of reg (exp_add ua (exp_neg ux))) as [f|] eqn:E; auto.
    apply (float_some reg Hr) in E as [-> Hd]. rewrite scale_add, scale_neg by auto.
    destruct Hk as [[d Hk]|[Hk|[Hk|Hk]]]; try discriminate.
    + specialize (Hd d). rewrite (dim_add reg), (dim_neg reg) in Hd by auto. lra.
    + rewrite Hk. pose proof (scale_pos reg (Some ux)). field. lra.
  - intros Hin d. unfold sig_diff_u. rewrite Hin. apply (diff_dim reg Hr).
Qed.
Print Assumptions C15_diff_units_partial.

(** In general the result is off by exactly that ratio. *)
Theorem C15_diff_units_off_by_ratio_partial :
  forall (reg : nat -> unitdef R) (vunits : nat -> option (gmap nat R)) (p : umap R) (x : nat) (env : point) (up ux : gmap nat R),
  registry_ok reg -> NoDup (dkeys (uh p)) -> 0 < env x -> uu p = Some up -> vunits x = Some ux ->
  (forall d, dim_of reg (Some up) d = dim_of reg (Some ux) d) ->
  derivable_pt_lim (fun t => phys reg (upd env x (t / scale_of reg (Some ux))) p) (env x * scale_of reg (Some ux))
    (phys reg env (sig_diff_u reg vunits p x) * (scale_of reg (Some up) / scale_of reg (Some ux))).
Proof.
  intros reg vunits p x env up ux Hr Hnd Hx Hp Hux Hd.
  pose proof (diff_phys reg Hr vunits env p x Hnd Hx) as HD.
  rewrite Hux in HD. unfold lost_factor in HD. rewrite Hp, Hux in HD.
  destruct (float_of reg (exp_add up (exp_neg ux))) as [f|] eqn:E.
  - apply (float_some reg Hr) in E as [-> _]. rewrite scale_add, scale_neg in HD by auto. exact HD.
  - apply (float_none reg Hr) in E as [d E]. exfalso. apply E.
    rewrite (dim_add reg), (dim_neg reg), Hd by auto. lra.
Qed.
Print Assumptions C15_diff_units_off_by_ratio_partial.

(** [(y [m] + x [ft]).diff(x)] is 0.3048, but should be 1. *)
Definition ex_p : umap R := UM [({[0%nat := 1]}, 1); ({[1%nat := 1]}, 3048 / 10000)] (Some metre).

Lemma ex_p_run : urun ex_reg false ex_vunits (UAdd (UVar 0) (UVar 1)) = Ok ex_p.
Proof.
  cbn [urun rbind]. unfold sig_add. cbn [uvar uh var_hmap]. unfold nm_add. cbn [uvar uu ex_vunits].
  assert (Hs0 : scale_of ex_reg (Some (metre (T := R))) = 1).
  { unfold scale_of, metre. rewrite <- (Rpower_1 1) by lra. unfold mono_val.
    rewrite <- insert_empty, map_fold_insert_L, map_fold_empty by (try apply lookup_empty; intros; lra).
    cbn. lra. }
  assert (Hs1 : scale_of ex_reg (Some (foot (T := R))) = 3048 / 10000).
  { unfold scale_of, foot. unfold mono_val.
    rewrite <- insert_empty, map_fold_insert_L, map_fold_empty by (try apply lookup_empty; intros; lra).
    cbn. rewrite Rpower_1 by lra. lra. }
  destruct (qeqb _ _ _) eqn:E.
  - apply (qeqb_true _ ex_reg_ok) in E as [E _]. lra.
  - destruct (float_of _ _) as [f|] eqn:F.
    + apply (float_some _ ex_reg_ok) in F as [-> _]. rewrite scale_sub, Hs0, Hs1. cbn [rbind uh uvar].
      unfold hv_mul, var_hmap. cbn [map fst snd]. unfold hv_add. cbn [fold_left hv_add_item dget].
      destruct (decide _) as [E1|_].
      * apply (f_equal (fun e : gmap nat R => e !! 0%nat)) in E1. rewrite lookup_singleton, lookup_singleton_ne in E1 by lia.
        discriminate.
      * cbn [dset]. destruct (decide _) as [E1|_].
        { apply (f_equal (fun e : gmap nat R => e !! 0%nat)) in E1. rewrite lookup_singleton, lookup_singleton_ne in E1 by lia.
          discriminate. }
        unfold usig, signomial_init. cbn [uh any_nonpositive existsb snd nmul n1 n0 R_num nleb].
        assert (B1 : Rleb 1 0 = false) by (apply Rleb_false; lra).
        assert (B2 : Rleb (1 * (3048 / 10000 / 1)) 0 = false) by (apply Rleb_false; lra).
        rewrite B1, B2. cbn [orb andb rbind]. unfold ex_p. repeat f_equal. lra.
    + apply (float_none _ ex_reg_ok) in F as [d F]. exfalso. apply F.
      rewrite (dim_sub _). unfold metre, foot. cbn [n1 R_num]. rewrite !dim_singleton. cbn [ex_reg ud_dims]. lra.
Qed.

Theorem C15_diff_units_refuted :
  ~ (forall (reg : nat -> unitdef R) (vunits : nat -> option (gmap nat R)) (e : uexpr R) (p : umap R) (x : nat) (env : point),
     registry_ok reg -> urun reg false vunits e = Ok p -> positive_point env ->
     derivable_pt_lim (fun t => phys reg (upd env x (t / scale_of reg (vunits x))) p)
       (env x * scale_of reg (vunits x)) (phys reg env (sig_diff_u reg vunits p x))).
Proof.
  intros H. specialize (H ex_reg ex_vunits _ _ 1%nat (fun _ => 1) ex_reg_ok ex_p_run ltac:(intros ?; lra)).
  assert (Hnd : NoDup (dkeys (uh ex_p))).
  { apply NoDup_ListNoDup. cbn. repeat constructor; cbn; intros Hin; repeat destruct Hin as [Hin|Hin]; auto.
    apply (f_equal (fun e : gmap nat R => e !! 0%nat)) in Hin. rewrite lookup_singleton, lookup_singleton_ne in Hin by lia.
    discriminate. }
  assert (Hd : forall d, dim_of ex_reg (Some (metre (T := R))) d = dim_of ex_reg (Some (foot (T := R))) d).
  { intros d. unfold metre, foot. cbn [n1 R_num]. rewrite !dim_singleton. reflexivity. }
  pose proof (C15_diff_units_off_by_ratio_partial ex_reg ex_vunits ex_p 1%nat (fun _ => 1) metre foot ex_reg_ok Hnd
    ltac:(lra) eq_refl eq_refl Hd) as H'.
  pose proof (uniqueness_limite _ _ _ _ H H') as E.
  assert (Hs0 : scale_of ex_reg (Some (metre (T := R))) = 1).
  { unfold scale_of, metre, mono_val.
    rewrite <- insert_empty, map_fold_insert_L, map_fold_empty by (try apply lookup_empty; intros; lra).
    cbn. rewrite Rpower_1 by lra. lra. }
  assert (Hs1 : scale_of ex_reg (Some (foot (T := R))) = 3048 / 10000).
  { unfold scale_of, foot, mono_val.
    rewrite <- insert_empty, map_fold_insert_L, map_fold_empty by (try apply lookup_empty; intros; lra).
    cbn. rewrite Rpower_1 by lra. lra. }
  rewrite Hs0, Hs1 in E.
  assert (Hne : phys ex_reg (fun _ => 1) (sig_diff_u ex_reg ex_vunits ex_p 1) <> 0); [|nra].
  unfold phys. assert (Hu := scale_pos ex_reg (uu (sig_diff_u ex_reg ex_vunits ex_p 1))).
  assert (He : eval (fun _ => 1) (uh (sig_diff_u ex_reg ex_vunits ex_p 1)) = 3048 / 10000); [|rewrite He; nra].
  unfold sig_diff_u. destruct (in_vks (uh ex_p) 1) eqn:Ev.
  - rewrite uh_diff. unfold nm_diff. rewrite eval_nm_diff_gen by auto. cbn [lsum eval ex_p uh fst snd].
    rewrite lookup_singleton, lookup_singleton_ne by lia. unfold dexp. rewrite decide_True by auto.
    rewrite delete_singleton. change (∅ : gmap nat R) with (@e_empty R). rewrite mono_val_empty. lra.
  - exfalso. revert Ev. unfold in_vks. cbn [existsb ex_p uh fst]. rewrite lookup_singleton. rewrite orb_true_l, orb_true_r. discriminate.
Qed.
Print Assumptions C15_diff_units_refuted.

Example C15_computed : (* (x^2 [ft^2]).diff(x) = 2 x [ft]: units of different dimension *)
  uitems (rmap (fun p => sig_diff_u ex_reg ex_vunits p 1) (urun (T := Q) ex_reg false ex_vunits (UPow (UVar 1) 2%Q)))
  = Some ([([(1%nat, 1%Q)], 2%Q)], Some [(1%nat, 1%Q)]).
Proof. vm_compute. reflexivity. Qed.

(** ** C16 *)

(** The product cache is transparent: after any earlier products, each product
    of units gives the unit product, or its scale if it has no dimension. *)
Theorem C16_product_cache :
  forall (reg : nat -> unitdef R) (before : list (gmap nat R * gmap nat R)) (a b : gmap nat R),
  registry_ok reg ->
  exists r, run_products reg [] (before ++ [(a, b)]) = run_products reg [] before ++ [r] /\
  match r with
  | (None, Some f) => f = scale_of reg (Some a) * scale_of reg (Some b) /\
                      forall d, dim_of reg (Some a) d + dim_of reg (Some b) d = 0
  | (Some u, None) => scale_of reg (Some u) = scale_of reg (Some a) * scale_of reg (Some b) /\
                      (forall d, dim_of reg (Some u) d = dim_of reg (Some a) d + dim_of reg (Some b) d) /\
                      exists d, dim_of reg (Some u) d <> 0
  | _ => False
  end.
Proof.
  intros reg before a b Hr.
  assert (H0 : pcache_ok reg []) by (intros x y r; discriminate).
  exists (product_result reg a b). split.
  - rewrite !run_products_ok by auto. rewrite map_app. reflexivity.
  - unfold product_result. destruct (float_of reg (exp_add a b)) as [f|] eqn:E.
    + apply (float_some reg Hr) in E as [-> Hd]. split; [apply scale_add; auto|].
      intros d. rewrite <- (dim_add reg) by auto. auto.
    + apply (float_none reg Hr) in E. split; [apply scale_add; auto|]. split; [|auto].
      intros d. apply (dim_add reg).
Qed.
Print Assumptions C16_product_cache.

(** Conversion factors (the division cache): right in every history in which no
    unit object is freed after having taken part in a conversion. Missing: other
    histories (refuted below). *)
Theorem C16_conversion_history_partial :
  forall (reg : nat -> unitdef R) (ops : list (uop R)),
  registry_ok reg -> uhistory_ok reg ustart ops = true ->
  (forall before i after, ops = before ++ UFree i :: after ->
     forall j, ~ In (UDivide i j) before /\ ~ In (UDivide j i) before) ->
  forall a b r, In (a, b, r) (uhistory reg ustart ops) ->
  match r with
  | Some f => f = scale_of reg a / scale_of reg b /\ forall d, dim_of reg a d = dim_of reg b d
  | None => exists d, dim_of reg a d <> dim_of reg b d
  end.
Proof.
  intros reg ops Hr Hok Hf a b r Hin.
  pose proof (uhistory_gen reg Hr ops ustart [] (ustart_ok reg) Hok Hf) as HF.
  rewrite List.Forall_forall in HF. apply HF in Hin. destruct r; exact Hin.
Qed.
Print Assumptions C16_conversion_history_partial.

Open Scope nat_scope.
Definition ex_ops (last : uop Q) : list (uop Q) :=
  [UNew 1 metre; UNew 2 foot; UDivide 1 2; UFree 1; UNew 1 second; last].

(** A metre at address 1 is converted to feet and freed; a second object takes
    its address, and converting seconds to feet "succeeds" with the old factor. *)
Theorem C16_conversion_history_refuted :
  uhistory_ok (T := Q) ex_reg ustart (ex_ops (UDivide 1 2)) = true /\
  In (Some second, Some foot, Some (1250 # 381)%Q) (uhistory (T := Q) ex_reg ustart (ex_ops (UDivide 1 2))) /\
  udim (T := Q) ex_reg second <> udim (T := Q) ex_reg foot.
Proof.
  split; [vm_compute; reflexivity|]. split.
  - assert (E : nth_error (uhistory (T := Q) ex_reg ustart (ex_ops (UDivide 1 2))) 1 =
                Some (Some second, Some foot, Some (1250 # 381)%Q)) by (vm_compute; reflexivity).
    apply nth_error_In in E. exact E.
  - intros E. apply (f_equal (fun m : gmap nat Q => m !! 0)) in E. vm_compute in E. discriminate.
Qed.
Print Assumptions C16_conversion_history_refuted.

Example C16_nonvacuous : (* free an unconverted object, reuse its address, convert *)
  uhistory_ok (T := Q) ex_reg ustart [UNew 1 metre; UFree 1; UNew 1 foot; UNew 2 metre; UDivide 2 1; UDivide 2 1] = true.
Proof. vm_compute. reflexivity. Qed.
