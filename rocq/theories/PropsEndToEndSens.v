(** C95: the sensitivities of a solved model bound the optimal cost of the same model with other constants. See EndToEndSensSpec.v. *)
From Verif Require Import Base HashVec Nomial NomialSem NomialProofs CanonProofs DiffProofs Sub SubSem SubProofs SubExtra Mono Constraint ConstraintSem
  ConstraintProofs PropsConstraint GPGen GPGenProofs PropsGP Dual Sens SensSem SensProofs PerturbProofs Multipliers Solvers SolversSpec SolversProofs
  EndToEnd EndToEndSpec EndToEndProofs EndToEndSens EndToEndSensSpec EndToEndSensProofs PropsEndToEnd.
From Verif Require PropsSolvers PropsDual PropsSens.
Open Scope R_scope.

Lemma truthful_honest optimize : truthful optimize -> honest optimize.
Proof.
  intros H ps all first m Hp Hm Hb H0. specialize (H ps all first m Hp Hm Hb H0). destruct (optimize _ _ _ _ _ _ _) as [[[c x] la]|]; [|exact I].
  destruct H as (A & B & C & _). auto.
Qed.

(** ** Lists *)
Lemma shares_of env (hs : list (bool * hmap R)) : forall (la : list R) (by_posy : list (list R)), length la = length hs -> length by_posy = length hs ->
  (forall p b h, hs !! p = Some (b, h) -> nth p by_posy [] = dual_shares (nth p la 0) h env) ->
  by_posy = map (fun lh => dual_shares (fst lh) (snd (snd lh)) env) (combine la hs).
Proof.
  induction hs as [|[b h] hs IH]; intros [|l la] [|y by_posy] L1 L2 H; try discriminate; [reflexivity|]. cbn [combine map fst snd]. f_equal.
  - apply (H 0%nat b h eq_refl).
  - apply IH; [cbn in L1; lia|cbn in L2; lia|]. intros p b' h' E. apply (H (S p) b' h' E).
Qed.
Lemma rows_eq env own : forall la (hs : list (bool * hmap R)), 
  map (fun lno => Row (snd lno) (fst (fst lno)) (snd (fst lno)))
    (combine (combine la (map (fun lh : R * (bool * hmap R) => dual_shares (fst lh) (snd (snd lh)) env) (combine la hs))) own) = mkrows env own la hs.
Proof.
  induction own as [|o own IH]; intros [|l la] [|h hs]; try reflexivity. unfold mkrows. cbn [combine map fst snd]. f_equal. apply IH.
Qed.
Lemma lagrangian_combine ord (Hord : any_order ord) hs x q la : agrees ord hs x q ->
  gp_lagrangian (posys_of ord hs) la x = lsum (fun hl => snd hl * ln (eval q (snd (fst hl)))) (combine hs la).
Proof.
  intros Ha.
  assert (F : Forall2 (fun p bh => pval x p = eval q (snd bh)) (posys_of ord hs) hs).
  { apply Forall2_same_length_lookup_2; [apply cut_length|]. intros i p [b h] Ep Eh. destruct (pval_eval ord Hord hs i b h x q Eh Ha) as (p' & Ep' & Ev).
    rewrite Ep in Ep'. injection Ep' as ->. exact Ev. }
  clear -F. unfold gp_lagrangian. generalize dependent (posys_of ord hs). intros ps F. revert la. induction F as [|p bh ps hs E F IH]; intros [|l la]; try reflexivity.
  cbn. rewrite IH, E. reflexivity.
Qed.
Lemma matches_sum fixed env ws hs la items q : matches fixed env ws hs la items -> positive_point q ->
  lsum (fun hl => snd hl * ln (eval q (snd (fst hl)))) (combine hs la) =
  lsum (fun it => fst (snd it) * ln (simplified fixed (fst it) (override q fixed))) items.
Proof.
  intros F Hq. unfold matches in F. induction F as [|vl it hls items (w & _ & H) F IH]; [reflexivity|]. cbn [lsum]. rewrite IH.
  rewrite (io_la _ _ _ _ _ _ H), <- (io_eval _ _ _ _ _ _ H q Hq). reflexivity.
Qed.

(** Terms that are not positive and sum to something not negative are zero. *)
Lemma all_zero {X} (f : X -> R) l : (forall x, In x l -> f x <= 0) -> 0 <= lsum f l -> forall x, In x l -> f x = 0.
Proof.
  induction l as [|y l IH]; intros Hl H x Hx; [destruct Hx|]. cbn [lsum] in H.
  assert (S : lsum f l <= 0).
  { assert (Hl' : forall z, In z l -> f z <= 0) by (intros z Hz; apply Hl; right; exact Hz). clear -Hl'. induction l as [|z l IH]; cbn; [lra|].
    pose proof (Hl' z (or_introl eq_refl)). pose proof (IH (fun u Hu => Hl' u (or_intror Hu))). lra. }
  pose proof (Hl y (or_introl eq_refl)) as Hy. destruct Hx as [<-|Hx]; [lra|]. apply IH; [intros z Hz; apply Hl; right; exact Hz|lra|exact Hx].
Qed.
Lemma derivable_lsum {X} (f : X -> R -> R) (d : X -> R) x l : (forall i, In i l -> derivable_pt_lim (f i) x (d i)) ->
  derivable_pt_lim (fun s => lsum (fun i => f i s) l) x (lsum d l).
Proof.
  induction l as [|i l IH]; intros H; cbn [lsum].
  - exact (derivable_pt_lim_const 0 x).
  - apply (derivable_pt_lim_plus (f i) (fun s => lsum (fun i => f i s) l)); [apply H; left; reflexivity|apply IH; intros j Hj; apply H; right; exact Hj].
Qed.
Lemma fermat f d : derivable_pt_lim f 0 d -> (forall s, f 0 <= f s) -> d = 0.
Proof.
  intros D H. pose (pr := exist _ d D : derivable_pt f 0).
  pose proof (deriv_minimum f (-1) 1 0 pr ltac:(lra) ltac:(lra) (fun x _ _ => H x)) as E. exact E.
Qed.

(** ** What was solved *)
Record solved (fixed : gmap nat R) (cost : hmap R) (ws : list written) (c : R) (senss : gmap nat R) : Prop := {
  so_all : exists (env : point) (ss0 : expv R) (items : list item), positive_point env /\ eval (override env fixed) cost = c /\
    cost_part (override env fixed) cost ss0 /\
    (forall k, eget senss k = eget ss0 k + lsum (fun it => eget (snd (snd it)) k) items) /\
    (forall it, In it items -> 0 <= fst (snd it) /\ simplified fixed (fst it) (override env fixed) <= 1 /\
       exists w v, In w ws /\ item_ok fixed env w v (fst (snd it)) it) /\
    (forall q, positive_point q -> ln c <= ln (eval (override q fixed) cost) +
       lsum (fun it => fst (snd it) * ln (simplified fixed (fst it) (override q fixed))) items) }.
Lemma matches_in fixed env ws hs la items it : matches fixed env ws hs la items -> In it items ->
  exists b v l w, In (b, v) hs /\ In l la /\ In w ws /\ item_ok fixed env w v l it /\ fst (snd it) = l.
Proof.
  intros F Hin. unfold matches in F.
  assert (exists vl, In vl (combine hs la) /\ exists w, In w ws /\ item_ok fixed env w (snd (fst vl)) (snd vl) it) as ([[b v] l] & Hvl & w & Hw & H).
  { induction F as [|vl it' hls items' H F IH]; [destruct Hin|]. destruct Hin as [-> |Hin]; [exists vl; split; [left; reflexivity|exact H]|].
    destruct (IH Hin) as (vl' & A & B). exists vl'. split; [right; exact A|exact B]. }
  exists b, v, l, w. cbn [fst snd] in H. split; [eapply in_combine_l; exact Hvl|]. split; [eapply in_combine_r; exact Hvl|]. split; [exact Hw|].
  split; [exact H|apply (io_la _ _ _ _ _ _ H)].
Qed.
Section Main.
Variables (inf : R) (pick : hmap R -> schedule) (ord : var_order R) (optimize : optimizer) (fixed : gmap nat R) (cost : hmap R) (ws : list written).
Hypotheses (Hs : subs_ok fixed pick) (Hord : any_order ord) (Hopt : truthful optimize) (Hcost : is_posy cost) (Hws : Forall geometric ws)
  (Ht : Forall (tracked fixed) ws) (Hsc : simple_cost fixed cost).

Lemma shares_list hs x la env : hs <> [] -> (forall b h, In (b, h) hs -> is_posy h) -> agrees ord hs (pt x) env -> length la = length hs \/ S (length la) = length hs ->
  exists nu by_posy, let la' := if (length la =? length hs)%nat then la else 1 :: la in
  generate_nula (gen ord hs) x None (Some la) = Some (nu, la', by_posy) /\
  by_posy = map (fun lh => dual_shares (fst lh) (snd (snd lh)) env) (combine la' hs).
Proof.
  intros Hn Hp Ha L.
  destruct (PropsDual.C30_nu_from_la ord hs x la env Hord) as (nu & la' & by_posy & E & Ela & Ln & H).
  { split; [exact Hn|]. intros b h Hin. destruct (Hp b h Hin) as (_ & A & B). auto. }
  { exact Ha. } { exact L. }
  exists nu, by_posy. cbv zeta. rewrite <- Ela. split; [exact E|].
  assert (L1 : length la' = length hs) by (rewrite Ela; destruct (Nat.eqb_spec (length la) (length hs)); cbn [length]; lia).
  apply shares_of; [exact L1| |].
  - unfold generate_nula in E. injection E as _ E2 E3. rewrite <- E3, map_length, seq_length. rewrite E2. exact L1.
  - intros p b h Eh. destruct (H p b h Eh) as (E1 & _ & E2). rewrite E1. unfold dual_shares, PropsDual.rows_of.
    apply list_eq. intros k. unfold hmap in *. rewrite !list_lookup_fmap.
    destruct (h !! k) as [[e co]|] eqn:Ek.
    + pose proof (lookup_lt_Some _ _ _ Ek) as Lk. rewrite lookup_seq_lt by exact Lk. cbn [fmap option_fmap option_map]. f_equal.
      rewrite (E2 k e co Ek). unfold term_val. cbn [fst snd]. unfold Rdiv. ring.
    + apply lookup_ge_None in Ek. rewrite lookup_seq_ge by exact Ek. reflexivity.
Qed.

Lemma solve_senss_solve c vs senss : solve_senss inf pick ord optimize fixed cost ws = Ok (c, vs, senss) -> solve inf pick ord optimize fixed cost ws = Ok (c, vs).
Proof.
  unfold solve_senss, solve. destruct (make_all ws) as [cs|]; [|discriminate]. cbn [rbind]. destruct (gp_hmaps _ _ _ _ _ _) as [hs|]; [|discriminate]. cbn [rbind].
  destruct (parents _ _ _ _ _) as [ps|]; [|discriminate]. cbn [rbind]. destruct (optimize _ _ _ _ _ _ _) as [[[c' x] la]|]; [|discriminate].
  destruct (decide _); [|discriminate]. destruct (generate_nula _ _ _ _) as [[[nu la'] by_posy]|]; [|discriminate].
  destruct (compile_senss _ _ _ _ _ _) as [a|]; [|discriminate]. cbn [rbind]. congruence.
Qed.
Lemma solve_senss_ok c vs : solve inf pick ord optimize fixed cost ws = Ok (c, vs) ->
  exists senss, solve_senss inf pick ord optimize fixed cost ws = Ok (c, vs, senss) /\ solved fixed cost ws c senss.
Proof.
  intros ES. destruct (program_of inf pick ord fixed cost ws Hs Hord Hcost Hws) as [(hs & HP)|(_ & [(e & Em)|(cs & e & Em & Eg)])].
  2:{ unfold solve in ES. rewrite Em in ES. discriminate. }
  2:{ unfold solve in ES. rewrite Em in ES. cbn [rbind] in ES. rewrite Eg in ES. discriminate. }
  rewrite (solve_program inf pick ord optimize fixed cost ws Hord hs HP) in ES.
  destruct (pr_make _ _ _ _ _ _ _ HP) as (cs & ch & Em & Eg & Eh & Hch & _).
  unfold solve_senss. rewrite Em. cbn [rbind]. rewrite Eg. cbn [rbind].
  destruct (arrays ord Hord hs) as (A1 & A2 & A3 & A4). rewrite A1, A2, A3, A4.
  pose proof (Hopt (posys_of ord hs) (g_all (gen ord hs)) (g_first (gen ord hs)) (columns (gen ord hs))
    (pr_proper _ _ _ _ _ _ _ HP) (pr_pairs _ _ _ _ _ _ _ HP) (bounded ord hs) (pr_columns _ _ _ _ _ _ _ HP)) as HO.
  unfold gp_hmaps in Eg. destruct (nm_sub inf fixed cost (pick cost)) as [st|] eqn:Est; [|discriminate]. cbn [rbind] in Eg.
  destruct (any_nonpositive (s_cp st)); [discriminate|]. destruct (chain_hmaps inf pick false fixed cs) as [hs'|] eqn:Ec; [|discriminate].
  cbn [rbind] in Eg. injection Eg as Ehs. rewrite <- Ehs in Eh. cbn [tl] in Eh. injection Eh as Ech.
  pose (mkenv := fun x : list R => (fun v => match varidx (gen ord hs) v with Some j => exp (pt x j) | None => 1 end) : point).
  destruct (all_turns inf pick fixed Hs (fun _ => 1) ltac:(intros v; lra) ws Hws Ht cs hs' 0 Em Ec) as (objs & own & Ep & Lo & _).
  rewrite Ep. cbn [rbind fst snd].
  destruct (optimize _ _ _ _ _ _ _) as [[[c' x] la]|]; [|discriminate].
  destruct (decide _) as [L|]; [|discriminate]. injection ES as <- <-.
  destruct HO as (Lx & HB & Ecost & HPr).
  set (env := mkenv x).
  assert (Hpos : positive_point env) by (intros v; unfold env, mkenv; destruct (varidx _ v); [apply exp_pos|lra]).
  assert (Ha : agrees ord hs (pt x) env) by (intros v j Ej; unfold env, mkenv; rewrite Ej; reflexivity).
  assert (Lps : length (posys_of ord hs) = length hs) by apply cut_length.
  assert (Lh : length hs = S (length hs')) by (rewrite <- Ehs; reflexivity).
  assert (Hl : exists la1, proves (posys_of ord hs) (pt x) (1 :: la1) /\ length la1 = length hs' /\
            (length la = length hs \/ S (length la) = length hs) /\ (if (length la =? length hs)%nat then la else 1 :: la) = 1 :: la1).
  { destruct HPr as [HPr|HPr]; pose proof HPr as (La & L0 & _).
    - destruct la as [|l0 la]; [cbn in La; lia|]. cbn in L0. subst l0. exists la. split; [exact HPr|]. cbn [length] in *. split; [lia|]. split; [left; lia|].
      destruct (Nat.eqb_spec (S (length la)) (length hs)); [reflexivity|lia].
    - exists la. split; [exact HPr|]. cbn [length] in *. split; [lia|]. split; [right; lia|]. destruct (Nat.eqb_spec (length la) (length hs)); [lia|reflexivity]. }
  destruct Hl as (la1 & HPr' & L1 & Ll & Ela).
  destruct (shares_list hs x la env) as (nu & by_posy & En & Eby).
  { rewrite <- Ehs. discriminate. } { intros b h Hin. apply (pr_free _ _ _ _ _ _ _ HP b h Hin). } { exact Ha. } { exact Ll. }
  cbv zeta in En, Eby. rewrite Ela in En, Eby. rewrite En.
  rewrite <- Ehs in Eby. cbn [combine map fst snd] in Eby. rewrite Ech in *.
  destruct (all_turns inf pick fixed Hs env Hpos ws Hws Ht cs hs' 0 Em Ec) as (objs' & own' & Ep' & _ & HT).
  rewrite Ep in Ep'. injection Ep' as <- <-.
  destruct (HT la1 L1) as (items & HM & HA). clear HT.
  subst by_posy. unfold rows_from. cbn [nth tl]. rewrite rows_eq. set (ss0 := cost_sens _ cost).
  unfold compile_senss.
  destruct (HA (SA (fun i => nth i objs (OMeq [] [])) ss0 [] [])) as (a' & Ea & Had).
  { intros j o Hj. cbn [sa_heap Nat.add]. apply nth_lookup_Some. exact Hj. }
  rewrite Ea. cbn [rbind sa_vars]. eexists. split; [reflexivity|].
  assert (E0 : hs !! 0%nat = Some (false, ch)) by (rewrite <- Ehs; reflexivity).
  assert (Ecost' : gp_cost (posys_of ord hs) (pt x) = eval (override env fixed) cost) by (rewrite (cost_eval ord Hord hs _ env _ _ E0 Ha); apply Hch; exact Hpos).
  destruct HPr' as (_ & _ & Fla & HL). destruct HB as [Hfe _]. apply (feasible_sat ord Hord hs _ env Ha) in Hfe. rewrite <- Ehs in Hfe. cbn [tl] in Hfe.
  apply List.Forall_cons_iff in Fla as [_ Fla]. rewrite List.Forall_forall in Fla.
  constructor. exists env, ss0, items. split; [exact Hpos|]. split; [rewrite Ecost, Ecost'; reflexivity|]. split; [|split; [|split]].
  - intros k. rewrite Ech in Est || idtac.
    destruct (PropsSens.C56_simple_cost_partial inf pick fixed cost st env k Hs Hcost Hpos Est Hsc) as (d & D & Ed).
    unfold ss0. rewrite <- Ech. rewrite Ed. exact D.
  - intros k. rewrite (Had k). reflexivity.
  - intros it Hit. destruct (matches_in _ _ _ _ _ _ _ HM Hit) as (b & v & l & w & Hv & Hl & Hw & Hio & El). rewrite El.
    split; [apply Fla; exact Hl|]. split; [|eauto]. rewrite <- (io_eval _ _ _ _ _ _ Hio env Hpos). apply Hfe. apply in_map_iff. exists (b, v). auto.
  - intros q Hq. rewrite Ecost. eapply Rle_trans; [apply (HL (logs ord hs q))|]. right.
    rewrite (lagrangian_combine ord Hord hs _ q _ (logs_agree ord hs q Hq)). rewrite <- Ehs. cbn [combine lsum fst snd].
    rewrite (matches_sum fixed env ws hs' la1 items q HM Hq). rewrite <- Ech, Rmult_1_l. rewrite Ech, (Hch q Hq). reflexivity.
Qed.
End Main.

(** ** The bound *)
Section Bound.
Variables (pick : hmap R -> schedule) (fixed : gmap nat R) (cost : hmap R) (ws : list written) (c : R) (senss new : gmap nat R) (q : point).
Hypotheses (Hs : subs_ok fixed pick) (Hcost : is_posy cost) (HS : solved fixed cost ws c senss) (Hn : other_constants fixed new) (Hq : meets new ws q).

Lemma simplified_pos u p : is_posy u -> positive_point p -> free_terms fixed u <> [] -> lsum (term_val p) (constant_terms fixed u) < 1 -> 0 < simplified fixed u p.
Proof.
  intros (_ & Hu & _) Hp Hf Hc. unfold simplified. apply Rdiv_lt_0_compat; [|lra]. rewrite <- eval_terms. apply eval_all_positive; [|exact Hf].
  intros e co Hin. apply filter_In in Hin as [Hin _]. apply (Hu e co Hin).
Qed.
Lemma met_here u : is_posy u -> free_terms fixed u <> [] -> eval q u <= 1 -> met fixed q u.
Proof.
  intros Hu Hf Hle. destruct Hq as (Pq & _). 
  assert (Sp : eval q u = lsum (term_val q) (free_terms fixed u) + lsum (term_val q) (constant_terms fixed u)).
  { rewrite eval_terms. unfold free_terms, constant_terms. clear. induction u as [|t u IH]; cbn [List.filter lsum]; [lra|].
    destruct (bool_decide (surviving fixed (fst t) = ∅)); cbn [negb lsum]; rewrite IH; lra. }
  assert (Pf : 0 < lsum (term_val q) (free_terms fixed u)).
  { rewrite <- eval_terms. apply eval_all_positive; [|exact Hf]. intros e co Hin. apply filter_In in Hin as [Hin _]. apply (proj1 (proj2 Hu) e co Hin). }
  split; [lra|]. unfold simplified. apply (Rmult_le_reg_r (1 - lsum (term_val q) (constant_terms fixed u))); [lra|]. unfold Rdiv. rewrite Rmult_assoc, Rinv_l by lra. lra.
Qed.
Definition vars_of (h : hmap R) : list nat := flat_map (fun t => map fst (map_to_list (fst t))) h.
Lemma vars_of_in h k : in_vks h k = true -> In k (vars_of h).
Proof.
  intros Hk. apply existsb_exists in Hk as ([e co] & Hin & Hk). apply in_flat_map. exists (e, co). split; [exact Hin|]. cbn [fst] in *.
  destruct (e !! k) as [y|] eqn:Ey; [|discriminate]. apply in_map_iff. exists (k, y). split; [reflexivity|]. apply elem_of_list_In, elem_of_map_to_list. exact Ey.
Qed.
Lemma upd_override env k y : fixed !! k = None -> upd (override env fixed) k y = override (upd env k y) fixed.
Proof.
  intros Hk. apply FunctionalExtensionality.functional_extensionality. intros v. unfold upd, override.
  destruct (decide (v = k)) as [-> |]; [rewrite Hk; reflexivity|reflexivity].
Qed.
Lemma upd_same p k : upd p k (p k * exp 0) = p.
Proof.
  apply FunctionalExtensionality.functional_extensionality. intros v. unfold upd. rewrite exp_0, Rmult_1_r. destruct (decide (v = k)) as [-> |]; reflexivity.
Qed.
Lemma upd_positive p k s : positive_point p -> positive_point (upd p k (p k * exp s)).
Proof. intros Hp v. unfold upd. destruct (decide (v = k)); [apply Rmult_lt_0_compat; [apply Hp|apply exp_pos]|apply Hp]. Qed.

Lemma bound : predicted c senss fixed new <= eval q cost.
Proof.
  destruct HS as [(env & ss0 & items & He & Ec & Hss0 & Hse & Hit & HL)]. set (p := override env fixed) in *.
  assert (Hp : positive_point p) by (apply (override_pos pick fixed Hs); exact He).
  destruct Hq as (Pq & Sq & Fq). rewrite List.Forall_forall in Fq. destruct Hn as [Hd Hnp].
  pose proof Hcost as (Hcc & Hcp & Hcn).
  assert (Pc : 0 < c) by (rewrite <- Ec; apply eval_all_positive; [exact Hcp|exact Hcn]).
  (* complementary slackness *)
  assert (Hsl : forall it, In it items -> fst (snd it) = 0 \/ simplified fixed (fst it) p = 1).
  { assert (Z : forall it, In it items -> fst (snd it) * ln (simplified fixed (fst it) p) = 0).
    { apply (all_zero (fun it : item => fst (snd it) * ln (simplified fixed (fst it) p))).
      - intros it Hin. destruct (Hit it Hin) as (Hla & Hle & w & v & _ & Hio).
        pose proof (simplified_pos (fst it) p (io_posy _ _ _ _ _ _ Hio) Hp (io_free _ _ _ _ _ _ Hio) (io_const _ _ _ _ _ _ Hio)) as Pp.
        assert (ln (simplified fixed (fst it) p) <= 0) by (rewrite <- ln_1; apply ln_le; assumption). cbv beta. nra.
      - pose proof (HL env He) as H. fold p in H. rewrite Ec in H. apply (Rplus_le_reg_l (ln c)). rewrite Rplus_0_r. exact H. }
    intros it Hin. destruct (Hit it Hin) as (Hla & Hle & w & v & _ & Hio).
    pose proof (simplified_pos (fst it) p (io_posy _ _ _ _ _ _ Hio) Hp (io_free _ _ _ _ _ _ Hio) (io_const _ _ _ _ _ _ Hio)) as Pp.
    destruct (Rmult_integral _ _ (Z it Hin)) as [H0|H0]; [left; exact H0|right]. apply ln_inv; [exact Pp|lra|]. rewrite H0, ln_1. reflexivity. }
  (* free variables *)
  assert (Hfree : forall k, fixed !! k = None -> eget senss k = 0).
  { intros k Hk. rewrite Hse.
    assert (Hd' : forall it, In it items -> derivable_pt_lim (fun s => fst (snd it) * ln (simplified fixed (fst it) (upd p k (p k * exp s)))) 0 (eget (snd (snd it)) k)).
    { intros it Hin. destruct (Hit it Hin) as (_ & _ & w & v & _ & Hio). destruct (io_part _ _ _ _ _ _ Hio k) as (d & D & ->).
      exact (derivable_pt_lim_scal (fun s => ln (simplified fixed (fst it) (upd p k (p k * exp s)))) (fst (snd it)) 0 d D). }
    pose proof (derivable_pt_lim_plus _ _ _ _ _ (Hss0 k) (derivable_lsum _ (fun it => eget (snd (snd it)) k) 0 items Hd')) as D.
    apply (fermat _ _ D). unfold plus_fct. intros s.
    assert (Es : upd p k (p k * exp s) = override (upd env k (env k * exp s)) fixed).
    { unfold p. replace (override env fixed k) with (env k) by (unfold override; rewrite Hk; reflexivity). apply upd_override. exact Hk. }
    rewrite upd_same, Es. rewrite Ec.
    rewrite (lsum_ext _ (fun _ => 0)).
    2:{ intros it Hin. destruct (Hsl it Hin) as [-> | ->]; [|rewrite ln_1]; ring. }
    rewrite lsum_zero by reflexivity. rewrite Rplus_0_r. apply (HL (upd env k (env k * exp s))). apply upd_positive. exact He. }
  set (ks := map fst (map_to_list fixed)).
  set (fs := List.nodup Nat.eq_dec (List.filter (fun k => match fixed !! k with Some _ => false | None => true end) (vars_of cost ++ flat_map (fun it => vars_of (fst it)) items))).
  assert (Hfs : forall k, In k fs <-> fixed !! k = None /\ In k (vars_of cost ++ flat_map (fun it : item => vars_of (fst it)) items)).
  { intros k. unfold fs. rewrite nodup_In, filter_In. destruct (fixed !! k); split; intros [A B]; try discriminate; auto. }
  assert (Hks : forall k, In k ks <-> fixed !! k <> None).
  { intros k. unfold ks. rewrite in_map_iff. split.
    - intros ([k' v] & <- & Hin). apply elem_of_list_In, elem_of_map_to_list in Hin. cbn. rewrite Hin. discriminate.
    - destruct (fixed !! k) as [v|] eqn:Ek; [|congruence]. intros _. exists (k, v). split; [reflexivity|]. apply elem_of_list_In, elem_of_map_to_list. exact Ek. }
  assert (HN : List.NoDup (ks ++ fs)).
  { apply NoDup_ListNoDup, NoDup_app. split; [apply NoDup_fst_map_to_list|]. split; [|apply NoDup_ListNoDup, NoDup_nodup].
    intros k H1 H2. apply elem_of_list_In in H1, H2. apply Hks in H1. apply Hfs in H2 as [H2 _]. congruence. }
  assert (Hcov : forall h, (forall k, In k (vars_of h) -> In k (vars_of cost ++ flat_map (fun it : item => vars_of (fst it)) items)) -> covers (ks ++ fs) h).
  { intros h Hh. split; [exact HN|]. intros k Hk. apply vars_of_in in Hk. apply in_or_app. destruct (fixed !! k) eqn:Ek; [left; apply Hks; congruence|right].
    apply Hfs. auto. }
  pose proof (perturbed_cost (ks ++ fs) fixed p q cost ss0 items Hp Pq) as PC.
  assert (B : ln c + lsum (fun k => eget senss k * (ln (q k) - ln (p k))) (ks ++ fs) <= ln (eval q cost)).
  { rewrite <- Ec. erewrite lsum_ext; [apply PC|].
    - apply Hcov. intros k Hk. apply in_or_app. left. exact Hk.
    - exact Hcp.
    - exact Hcn.
    - exact Hss0.
    - intros u la ss Hin. destruct (Hit _ Hin) as (Hla & Hle & w & v & Hw & Hio). cbn [fst snd] in *.
      split; [apply Hcov; intros k Hk; apply in_or_app; right; apply in_flat_map; exists (u, (la, ss)); auto|].
      split; [exact (proj1 (proj2 (io_posy _ _ _ _ _ _ Hio)))|]. split; [exact (io_free _ _ _ _ _ _ Hio)|]. split; [exact Hla|]. split; [exact (io_part _ _ _ _ _ _ Hio)|].
      split; [split; [exact (io_const _ _ _ _ _ _ Hio)|exact Hle]|]. split; [|exact (Hsl _ Hin)].
      apply met_here; [exact (io_posy _ _ _ _ _ _ Hio)|exact (io_free _ _ _ _ _ _ Hio)|apply (io_met _ _ _ _ _ _ Hio q Pq (Fq w Hw))].
    - intros k _. rewrite Hse, total_sens_eget, lsum_map. reflexivity. }
  rewrite lsum_app in B. rewrite (lsum_ext _ (fun _ => 0) fs) in B.
  2:{ intros k Hk. apply Hfs in Hk as [Hk _]. rewrite (Hfree k Hk). ring. }
  rewrite (lsum_zero fs) in B. rewrite Rplus_0_r in B.
  assert (Hall : forall k v, In (k, v) (map_to_list fixed) -> p k = v /\ 0 < v /\ exists v', new !! k = Some v' /\ q k = v').
  { intros k v Hin. apply elem_of_list_In, elem_of_map_to_list in Hin. split; [unfold p, override; rewrite Hin; reflexivity|].
    split; [apply (proj1 Hs k v Hin)|]. destruct (new !! k) as [v'|] eqn:En; [|apply Hd in En; congruence]. exists v'. split; [reflexivity|apply Sq; exact En]. }
  unfold predicted. assert (Pr : exists s, fold_right Rmult 1 (map (fun kv => Rpower (match new !! fst kv with Some v' => v' | None => snd kv end / snd kv) (eget senss (fst kv))) (map_to_list fixed)) = exp s
    /\ lsum (fun k => eget senss k * (ln (q k) - ln (p k))) ks = s).
  { unfold ks. clear B. revert Hall. generalize (map_to_list fixed). intros l. induction l as [|[k v] l IH]; intros Hall.
    - exists 0. cbn. rewrite exp_0. auto.
    - destruct IH as (s & E1 & E2); [intros k' v' Hin; apply Hall; right; exact Hin|]. cbn [map fold_right lsum fst snd]. rewrite E1, E2.
      destruct (Hall k v (or_introl eq_refl)) as (Ep & Pv & v' & En & Eq). rewrite En, Ep, Eq. eexists. split; [|reflexivity]. rewrite exp_plus. f_equal.
      unfold Rpower. assert (0 < v') by (rewrite <- Eq; apply Pq). unfold Rdiv. rewrite ln_mult, ln_Rinv by (try apply Rinv_0_lt_compat; assumption). reflexivity. }
  destruct Pr as (s & E1 & E2). rewrite E1. rewrite E2 in B.
  rewrite <- (exp_ln c Pc), <- exp_plus. rewrite <- (exp_ln (eval q cost)) by (apply eval_all_positive; assumption).
  destruct B as [B| ->]; [left; apply exp_increasing; exact B|right; reflexivity].
Qed.
End Bound.

(** ** C95 *)

(** A model's optimum is at least what sensitivities predict, at any point that meets its constraints with other constants *)
Definition C95_bound_for (allowed : gmap nat R -> hmap R -> list written -> Prop) : Prop :=
  forall inf pick ord optimize fixed cost ws c vs senss, subs_ok fixed pick -> any_order ord -> truthful optimize ->
  is_posy cost -> Forall geometric ws -> allowed fixed cost ws ->
  solve_senss inf pick ord optimize fixed cost ws = Ok (c, vs, senss) ->
  forall new q, other_constants fixed new -> meets new ws q -> predicted c senss fixed new <= eval q cost.
(** proved where C32 and C56 say that sensitivities are right: *)
Definition well_tracked (fixed : gmap nat R) (cost : hmap R) (ws : list written) : Prop := Forall (tracked fixed) ws /\ simple_cost fixed cost.
Theorem C95_bound_partial : C95_bound_for well_tracked.
Proof.
  intros inf pick ord optimize fixed cost ws c vs senss Hs Ho Hh Hc Hw [Ht Hsc] E new q Hn Hq.
  pose proof (solve_senss_solve inf pick ord optimize fixed cost ws c vs senss E) as E0.
  destruct (solve_senss_ok inf pick ord optimize fixed cost ws Hs Ho Hh Hc Hw Ht Hsc c vs E0) as (senss' & E' & HS).
  rewrite E in E'. injection E' as <-. apply (bound pick fixed cost ws c senss new q Hs Hc HS Hn Hq).
Qed.
Print Assumptions C95_bound_partial.

(** so the model solved again with them, by any solver that returns optima, costs no less. *)
Theorem C95_solved_again_partial :
  forall inf pick ord optimize fixed cost ws c vs senss inf' pick' ord' optimize' new c' vs',
  subs_ok fixed pick -> any_order ord -> truthful optimize -> is_posy cost -> Forall geometric ws -> well_tracked fixed cost ws ->
  solve_senss inf pick ord optimize fixed cost ws = Ok (c, vs, senss) ->
  other_constants fixed new -> subs_ok new pick' -> any_order ord' -> honest optimize' -> (exists q, meets new ws q) ->
  solve inf' pick' ord' optimize' new cost ws = Ok (c', vs') ->
  predicted c senss fixed new <= c'.
Proof.
  intros inf pick ord optimize fixed cost ws c vs senss inf' pick' ord' optimize' new c' vs' Hs Ho Hh Hc Hw Ht E Hn Hs' Ho' Hh' Hq E'.
  destruct (C84_optimum_partial inf' pick' ord' optimize' new cost ws c' vs' Hs' Ho' Hh' Hc Hw Hq E') as (_ & Hp & HB).
  set (q := (fun k => match vs' !! k with Some v => v | None => 1 end) : point).
  destruct (HB q) as [[Hm _] ->].
  - intros k. unfold q. destruct (vs' !! k) eqn:Ek; [apply (Hp k r Ek)|lra].
  - intros k v Ek. unfold q. rewrite Ek. reflexivity.
  - apply (C95_bound_partial inf pick ord optimize fixed cost ws c vs senss Hs Ho Hh Hc Hw Ht E new q Hn Hm).
Qed.
Print Assumptions C95_solved_again_partial.

(** A sensitivity is the slope of the optimal cost against its constant, on logarithmic scales, if there is a slope. *)
Theorem C95_slope_partial :
  forall inf pick ord optimize fixed cost ws c vs senss k v (optimum : R -> R) (e d : R), subs_ok fixed pick -> any_order ord -> truthful optimize ->
  is_posy cost -> Forall geometric ws -> well_tracked fixed cost ws ->
  solve_senss inf pick ord optimize fixed cost ws = Ok (c, vs, senss) -> fixed !! k = Some v ->
  0 < e -> (forall s, -e < s < e -> exists q, best (meets (<[k := v * exp s]> fixed) ws) (fun q => eval q cost) q /\ optimum s = eval q cost) ->
  derivable_pt_lim (fun s => ln (optimum s)) 0 d -> eget senss k = d.
Proof.
  intros inf pick ord optimize fixed cost ws c vs senss k v optimum e d Hs Ho Hh Hc Hw Ht E Hk He HV D.
  pose proof (proj1 Hs k v Hk) as Pv.
  assert (E0 : optimum 0 = c).
  { pose proof (solve_senss_solve inf pick ord optimize fixed cost ws c vs senss E) as ES.
    destruct (HV 0 ltac:(lra)) as (q & [Hm Hb] & ->). rewrite exp_0, Rmult_1_r, (insert_id fixed k v Hk) in *.
    destruct (C84_optimum_partial inf pick ord optimize fixed cost ws c vs Hs Ho (truthful_honest _ Hh) Hc Hw (ex_intro _ q Hm) ES) as (_ & Hp & HB).
    set (q' := (fun k => match vs !! k with Some v => v | None => 1 end) : point).
    destruct (HB q') as [[Hm' Hb'] ->].
    - intros j. unfold q'. destruct (vs !! j) eqn:Ej; [apply (Hp j r Ej)|lra].
    - intros j y Ej. unfold q'. rewrite Ej. reflexivity.
    - apply Rle_antisym; [apply Hb; exact Hm'|apply Hb'; exact Hm]. }
  assert (Pos : forall q, 0 < eval q cost) by (intros q; apply eval_all_positive; apply Hc).
  assert (Pc : 0 < c) by (rewrite <- E0; destruct (HV 0 ltac:(lra)) as (q & _ & ->); apply Pos).
  assert (B : forall s, -e < s < e -> ln c + eget senss k * s <= ln (optimum s)).
  { intros s Hse. destruct (HV s Hse) as (q & [Hm _] & ->).
    assert (Hn : other_constants fixed (<[k := v * exp s]> fixed)).
    { split.
      - intros j. destruct (decide (k = j)) as [<-|Hj]; [rewrite lookup_insert, Hk; split; discriminate|rewrite lookup_insert_ne by exact Hj; reflexivity].
      - intros j y Hj. destruct (decide (k = j)) as [<-|Hne]; [rewrite lookup_insert in Hj; injection Hj as <-; apply Rmult_lt_0_compat; [exact Pv|apply exp_pos]|].
        rewrite lookup_insert_ne in Hj by exact Hne. apply (proj1 Hs j y Hj). }
    pose proof (C95_bound_partial inf pick ord optimize fixed cost ws c vs senss Hs Ho Hh Hc Hw Ht E _ q Hn Hm) as H.
    assert (EP : predicted c senss fixed (<[k := v * exp s]> fixed) = c * exp (eget senss k * s)).
    { unfold predicted. f_equal.
      assert (G : forall l : list (nat * R), NoDup (map fst l) -> (forall j y, In (j, y) l -> fixed !! j = Some y) ->
        fold_right Rmult 1 (map (fun kv => Rpower (match <[k := v * exp s]> fixed !! fst kv with Some v' => v' | None => snd kv end / snd kv) (eget senss (fst kv))) l)
        = if bool_decide (k ∈ map fst l) then exp (eget senss k * s) else 1).
      { induction l as [|[j y] l IH]; intros Nd Hl; [rewrite bool_decide_eq_false_2 by (intros H'; inversion H'); reflexivity|].
        cbn [map fst] in Nd. apply NoDup_cons in Nd as [Nj Nd]. cbn [map fold_right fst snd]. rewrite IH; [|exact Nd|intros j' y' Hin; apply Hl; right; exact Hin].
        pose proof (Hl j y (or_introl eq_refl)) as Ej. pose proof (proj1 Hs j y Ej) as Py.
        destruct (decide (k = j)) as [<-|Hne].
        - rewrite lookup_insert, (bool_decide_eq_false_2 _ Nj), bool_decide_eq_true_2 by left. rewrite Hk in Ej. injection Ej as ->.
          replace (y * exp s / y) with (exp s) by (field; lra). unfold Rpower. rewrite ln_exp, Rmult_1_r. reflexivity.
        - rewrite lookup_insert_ne, Ej by exact Hne. replace (y / y) with 1 by (field; lra). unfold Rpower at 1. rewrite ln_1, Rmult_0_r, exp_0, Rmult_1_l.
          destruct (bool_decide_reflect (k ∈ map fst l)) as [Hin|Hin].
          + rewrite bool_decide_eq_true_2 by (right; exact Hin). reflexivity.
          + rewrite bool_decide_eq_false_2; [reflexivity|]. intros H'. apply elem_of_cons in H' as [->|H']; [congruence|contradiction]. }
      rewrite G; [|apply NoDup_fst_map_to_list|intros j y Hin; apply elem_of_map_to_list, elem_of_list_In; exact Hin].
      rewrite bool_decide_eq_true_2; [reflexivity|]. apply elem_of_list_fmap. exists (k, v). split; [reflexivity|]. apply elem_of_map_to_list. exact Hk. }
    rewrite EP in H. apply ln_le in H; [|apply Rmult_lt_0_compat; [exact Pc|apply exp_pos]]. rewrite ln_mult, ln_exp in H by (try exact Pc; apply exp_pos). exact H. }
  assert (D' : derivable_pt_lim (fun s => ln (optimum s) - eget senss k * s) 0 (d - eget senss k * 1)).
  { apply (derivable_pt_lim_minus (fun s => ln (optimum s)) (fun s => eget senss k * s)); [exact D|].
    apply (derivable_pt_lim_scal (fun s => s)). apply derivable_pt_lim_id. }
  pose (pr := exist _ _ D' : derivable_pt (fun s => ln (optimum s) - eget senss k * s) 0).
  pose proof (deriv_minimum _ (-e) e 0 pr ltac:(lra) ltac:(lra)) as M.
  assert (M' : d - eget senss k * 1 = 0).
  { apply M. intros s S1 S2. rewrite E0. specialize (B s (conj S1 S2)). lra. }
  lra.
Qed.
Print Assumptions C95_slope_partial.

(** Asking for sensitivities changes neither the cost nor the variables, and never fails. *)
Theorem C95_no_effect_partial :
  forall inf pick ord optimize fixed cost ws, subs_ok fixed pick -> any_order ord -> truthful optimize ->
  is_posy cost -> Forall geometric ws -> well_tracked fixed cost ws -> forall c vs,
  solve inf pick ord optimize fixed cost ws = Ok (c, vs) <-> exists senss, solve_senss inf pick ord optimize fixed cost ws = Ok (c, vs, senss).
Proof.
  intros inf pick ord optimize fixed cost ws Hs Ho Hh Hc Hw [Ht Hsc] c vs. split.
  - intros E. destruct (solve_senss_ok inf pick ord optimize fixed cost ws Hs Ho Hh Hc Hw Ht Hsc c vs E) as (senss & E' & _). eauto.
  - intros (senss & E). eapply solve_senss_solve. exact E.
Qed.
Print Assumptions C95_no_effect_partial.

(** CVXOPT, if it returns an optimum with multipliers of its Lagrangian (SolversSpec.v) that prove it is one, is such a solver. *)
Theorem C95_cvxopt : forall gp use_leqs, PropsSolvers.cvx_honest gp ->
  (forall q out, gp q = Ok out -> o_optimal out = true -> length (o_x out) = width (q_F q) /\
     Forall (fun v => 0 <= v) (o_zl out) /\ Forall (fun v => 0 <= v) (o_znl out) /\ forall x, o_obj out <= cvx_lagrangian q out x) ->
  truthful (cvxopt gp use_leqs).
Proof.
  intros gp use_leqs Hg Hx ps all first m Hp Hm Hb Hpos.
  assert (Hw : forall q out, gp q = Ok out -> o_optimal out = true -> length (o_x out) = width (q_F q)) by (intros q out E1 E2; apply (Hx q out E1 E2)).
  pose proof (C84_cvxopt gp use_leqs Hg Hw ps all first m Hp Hm Hb Hpos) as C. unfold cvxopt in *.
  destruct (cvx_optimize gp (c_of ps) (A_of ps) (k_of ps) all first use_leqs (m - 1)) as [[[c x] la]|e] eqn:E; [|exact I].
  destruct C as (L & B & Ec). split; [exact L|]. split; [exact B|]. split; [exact Ec|]. left.
  unfold cvx_optimize in E. set (q := cvx_problem _ _ _ _ _ _ _) in *. destruct (gp q) as [out|e] eqn:Eg; [|destruct e; discriminate].
  destruct (o_optimal out) eqn:Eo; [|discriminate]. destruct (Hg q out Eg Eo) as (_ & Hob & Hfit).
  destruct (PropsSolvers.C34_multipliers ps all first use_leqs (m - 1) out Hp Hm Hfit) as (la' & Ela & Lla & L0 & Hnn & HL).
  rewrite Ela in E. cbn in E. injection E as Eobj <- <-. destruct (Hx q out Eg Eo) as (_ & Z1 & Z2 & HD).
  split; [exact Lla|]. split; [exact L0|]. split; [apply Hnn; assumption|]. intros x'. rewrite HL. fold q.
  rewrite <- Ec, <- Eobj. rewrite ln_exp. apply HD.
Qed.
Print Assumptions C95_cvxopt.

(** ** Minimizing x with a <= x and a = 2 *)
Lemma toy_truthful : truthful toy.
Proof.
  intros ps all first m Hp Hm Hb H0. pose proof (toy_honest ps all first m Hp Hm Hb H0) as H. unfold toy in *.
  destruct (decide _) as [(Ec & EA & Ek & Em)|]; [|exact I]. destruct H as (L & B & C). split; [exact L|]. split; [exact B|]. split; [exact C|]. left.
  assert (Eps : ps = [[(1, [(0%nat, 1)])]; [(2, [(0%nat, -1)])]]).
  { unfold c_of, A_of, k_of in *. destruct ps as [|[|[c1 r1] [|]] [|[|[c2 r2] [|]] [|]]]; try discriminate. injection Ec as -> ->. injection EA as -> ->. reflexivity. }
  subst ps. split; [reflexivity|]. split; [reflexivity|]. split; [repeat constructor; lra|]. intros x. rewrite <- C. unfold gp_lagrangian. cbn. unfold pval, mval. cbn.
  replace (1 * exp (1 * x 0%nat + 0) + 0) with (exp (x 0%nat)) by (rewrite Rplus_0_r, Rplus_0_r, !Rmult_1_l; reflexivity).
  replace (2 * exp (-1 * x 0%nat + 0) + 0) with (2 * exp (- x 0%nat)) by (rewrite Rplus_0_r; f_equal; f_equal; lra).
  rewrite ln_mult, !ln_exp by (try apply exp_pos; lra). lra.
Qed.
Definition two : gmap nat R := {[1%nat := 2]}.
Definition a1 : expv R := {[1%nat := 1]}.
Definition over_a : list written := [Ineq [(a1, 1)] OpLe [(x1 1, 1)]].
Lemma over_a_parts : subs_ok two (std_schedule two) /\ is_posy toy_cost /\ Forall geometric over_a /\ well_tracked two toy_cost over_a.
Proof.
  assert (Hs : subs_ok two (std_schedule two)).
  { split; [|intros h; apply std_schedule_valid]. intros k v Hk. unfold two in Hk. apply lookup_singleton_Some in Hk as [_ <-]. lra. }
  assert (Ha : exp_canon a1) by apply exp_canon_singleton.
  assert (Hm : is_mono [(x1 1, 1)]) by (eexists _, _; split; [reflexivity|]; split; [apply x1_canon; lra|lra]).
  assert (Hm2 : is_mono [(a1, 1)]) by (eexists _, _; split; [reflexivity|]; split; [exact Ha|lra]).
  split; [exact Hs|]. split; [apply (mono_is_posy _ Hm)|]. split.
  - constructor; [|constructor]. split; [discriminate|]. split; [apply (mono_is_posy _ Hm2)|]. split; [exact Hm|]. intros e c _. apply (mono_is_posy _ Hm2).
  - split; [|left; reflexivity]. constructor; [|constructor]. right. exists 1%nat, 2. reflexivity.
Qed.
Lemma eval_a1 q : positive_point q -> eval q [(a1, 1)] = q 1%nat.
Proof. intros Hq. exact (eval_var q 1 (Hq 1%nat)). Qed.
Lemma eval_x1 q : positive_point q -> eval q [(x1 1, 1)] = q 0%nat.
Proof. intros Hq. exact (eval_var q 0 (Hq 0%nat)). Qed.
Lemma over_a_solved : exists vs, solve 0 (std_schedule two) std_order toy two toy_cost over_a = Ok (2, vs).
Proof.
  assert (Hn : forall a, x1 a <> e_empty) by (intros a E; apply (f_equal (fun m => m !! 0%nat)) in E; discriminate).
  destruct over_a_parts as (Hs & _).
  set (ax := exp_sub a1 (x1 1)).
  assert (Hax : exp_canon ax) by (apply exp_canon_sub; [apply exp_canon_singleton|apply x1_canon; lra]).
  assert (A1 : ax !! 1%nat = Some 1).
  { pose proof (eget_sub a1 (x1 1) 1) as E. fold ax in E. unfold eget in E at 1. change (eget a1 1) with 1 in E. change (eget (x1 1) 1) with 0 in E.
    destruct (ax !! 1%nat) as [y|]; [f_equal; lra|lra]. }
  assert (Hdel : delete 1%nat ax = x1 (-1)).
  { apply exp_canon_ext; [intros k v Hk; apply lookup_delete_Some in Hk as [_ Hk]; apply (Hax k v Hk)|apply x1_canon; lra|]. intros k.
    destruct (decide (1%nat = k)) as [<-|Hk]; [unfold eget; rewrite lookup_delete; reflexivity|].
    unfold eget at 1. rewrite lookup_delete_ne by exact Hk. fold (eget ax k). unfold ax. rewrite eget_sub. unfold eget, a1, x1. rewrite (lookup_singleton_ne 1%nat k) by exact Hk.
    destruct (decide (0%nat = k)) as [<-|Hk']; [rewrite !lookup_singleton; lra|rewrite !lookup_singleton_ne by exact Hk'; lra]. }
  assert (Sub : forall u, (forall k, in_vks u k = true -> two !! k = None) -> nm_sub 0 two u (std_schedule two u) = Ok (sub_init u)) by (intros u; apply (sub_nothing 0 (std_schedule two) two (proj2 Hs))).
  assert (Es : exists s, nm_sub 0 two [(ax, 1)] (std_schedule two [(ax, 1)]) = Ok s /\ s_cp s = [(x1 (-1), 2)]).
  { assert (Esch : std_schedule two [(ax, 1)] = [(1%nat, [0%nat])]).
    { pose proof (std_schedule_keys two [(ax, 1)]) as K.
      assert (Hin : forall k, In k (map fst (std_schedule two [(ax, 1)])) <-> k = 1%nat).
      { intros k. destruct (std_schedule_valid two [(ax, 1)]) as (_ & H & _). rewrite H. split.
        - intros [(v & Hv) _]. unfold two in Hv. apply lookup_singleton_Some in Hv as [-> _]. reflexivity.
        - intros ->. split; [exists 2; apply lookup_singleton|]. exists ax, 1. split; [left; reflexivity|rewrite A1; discriminate]. }
      destruct (std_schedule_valid two [(ax, 1)]) as (Hnd & _ & Hix).
      destruct (std_schedule two [(ax, 1)]) as [|[k ix] rest] eqn:Er; [destruct (proj2 (Hin 1%nat) eq_refl)|].
      assert (k = 1%nat) as -> by (apply Hin; left; reflexivity).
      destruct rest as [|[k' ix'] rest].
      - destruct (Hix 1%nat ix (or_introl eq_refl)) as [Hnx Hi].
        destruct ix as [|i ix]; [destruct (proj2 (Hi 0%nat)); exists ax, 1; split; [reflexivity|rewrite A1; discriminate]|].
        assert (Z : forall j, In j (i :: ix) -> j = 0%nat) by (intros j Hj; apply Hi in Hj as (e & c & Hl & _); destruct j; [reflexivity|discriminate]).
        rewrite (Z i (or_introl eq_refl)). destruct ix as [|i' ix]; [reflexivity|]. exfalso. apply NoDup_cons in Hnx as [Hnx _]. apply Hnx.
        rewrite (Z i (or_introl eq_refl)), (Z i' (or_intror (or_introl eq_refl))). left.
      - exfalso. assert (k' = 1%nat) as -> by (apply Hin; right; left; reflexivity). cbn in Hnd. apply NoDup_cons in Hnd as [Hnd _]. apply Hnd. left. }
    rewrite Esch. unfold nm_sub. change (sub_init [(ax, 1)]) with (SST [(ax, 1)] [1] [ax] []).
    cbn [sub_passes]. unfold two at 1. rewrite lookup_singleton. cbn [sub_pass].
    unfold subinplace. cbn [s_cur lookup list_lookup]. rewrite A1. cbn [s_cp dget].
    rewrite decide_True by auto. cbn [ddel]. rewrite decide_True by auto. cbn [dget]. rewrite Hdel.
    rewrite powval_defined by (intros; lra). rewrite Rpow_pos by lra. rewrite Rpower_1 by lra.
    rewrite decide_False by (cbn; lra). cbn [rbind dset never_empty s_cp].
    eexists. split; [reflexivity|]. cbn [s_cp nmul R_num]. f_equal. f_equal. lra. }
  destruct Es as (s & Es & Ecp).
  assert (Eg : gp_hmaps 0 (std_schedule two) false two toy_cost [CPosy (CS None None) [[(ax, 1)]]] = Ok [(false, [(x1 1, 1)]); (false, [(x1 (-1), 2)])]).
  { unfold gp_hmaps. rewrite Sub.
    2:{ intros k Hk. unfold two. destruct k as [|k]; [reflexivity|]. exfalso. apply existsb_exists in Hk as (t & [<-|[]] & Hk). cbn [fst] in Hk.
        unfold x1 in Hk. rewrite lookup_singleton_ne in Hk by discriminate. discriminate. }
    cbn [rbind sub_init s_cp]. unfold toy_cost at 1, any_nonpositive. cbn [existsb snd].
    assert (B1 : nleb (1 : R) n0 = false) by (cbn; unfold Rleb; destruct (Rle_dec 1 0); [lra|reflexivity]).
    assert (B2 : nleb (2 : R) n0 = false) by (cbn; unfold Rleb; destruct (Rle_dec 2 0); [lra|reflexivity]).
    rewrite B1. cbn [orb chain_hmaps constr_hmaps as_hmapslt1]. rewrite Es. cbn [rbind]. rewrite Ecp.
    unfold simplify. cbn [dget]. destruct (decide (e_empty = x1 (-1))) as [E|_]; [destruct (Hn (-1)); symmetry; exact E|]. cbn [rbind].
    unfold any_nonpositive. cbn [existsb snd]. rewrite B2. cbn. reflexivity. }
  unfold solve, over_a. cbn [make_all make posy_ineq]. rewrite gen_mono by (try apply exp_canon_singleton; try (apply x1_canon; lra); lra).
  destruct (decide (a1 = x1 1)) as [E|_]; [apply (f_equal (fun m => m !! 0%nat)) in E; discriminate|]. cbn [rmap rbind]. fold ax. replace (1 / 1) with 1 by lra.
  rewrite Eg. cbn [rbind]. destruct gen_example as (G1 & G2 & G3 & G4). unfold matrix_of, row_of, columns. set (g := gen std_order _) in *.
  rewrite G1, G2, G3, G4. unfold toy. destruct (decide _) as [_|N]; [|destruct N; repeat split; reflexivity].
  cbn [length]. destruct (decide _) as [_|N]; [|destruct N; reflexivity]. eexists. reflexivity.
Qed.
(** Its cost is 2; the cost with any other value of a is that value, which is what the sensitivity, 1, predicts. *)
Lemma over_a_best b : 0 < b -> best (meets {[1%nat := b]} over_a) (fun q => eval q toy_cost) (fun _ => b).
Proof.
  intros Hb. split.
  - split; [intros v; exact Hb|]. split; [intros k v Hk; apply lookup_singleton_Some in Hk as [_ <-]; reflexivity|]. constructor; [|constructor].
    cbn [holds_at holds]. rewrite eval_a1, eval_x1 by (intros v; exact Hb). lra.
  - intros q (Hq & Sq & F). inversion F as [|? ? F1 _]; subst. cbn [holds_at holds] in F1. rewrite eval_a1, eval_x1 in F1 by exact Hq.
    unfold toy_cost. rewrite !eval_x1 by (try exact Hq; intros v; exact Hb). rewrite (Sq 1%nat b (lookup_singleton 1%nat b)) in F1. exact F1.
Qed.
Example C95_nonvacuous :
  subs_ok two (std_schedule two) /\ any_order std_order /\ truthful toy /\ is_posy toy_cost /\ Forall geometric over_a /\ well_tracked two toy_cost over_a /\
  exists vs senss, solve_senss 0 (std_schedule two) std_order toy two toy_cost over_a = Ok (2, vs, senss) /\ eget senss 1 = 1 /\
  forall b, 0 < b -> other_constants two {[1%nat := b]} /\ predicted 2 senss two {[1%nat := b]} = b /\
    best (meets {[1%nat := b]} over_a) (fun q => eval q toy_cost) (fun _ => b).
Proof.
  destruct over_a_parts as (Hs & Hc & Hg & Ht). pose proof C26_nonvacuous as Ho.
  split; [exact Hs|]. split; [exact Ho|]. split; [apply toy_truthful|]. split; [exact Hc|]. split; [exact Hg|]. split; [exact Ht|].
  destruct over_a_solved as (vs & E).
  pose proof (proj1 (C95_no_effect_partial 0 (std_schedule two) std_order toy two toy_cost over_a Hs Ho toy_truthful Hc Hg Ht 2 vs) E) as (senss & E').
  exists vs, senss. split; [exact E'|].
  assert (S1 : eget senss 1 = 1).
  { apply (C95_slope_partial 0 (std_schedule two) std_order toy two toy_cost over_a 2 vs senss 1%nat 2 (fun s => 2 * exp s) 1 1 Hs Ho toy_truthful Hc Hg Ht E').
    - apply lookup_singleton.
    - lra.
    - intros s _. exists (fun _ => 2 * exp s). assert (P : 0 < 2 * exp s) by (pose proof (exp_pos s); lra). unfold two. rewrite insert_singleton. split; [apply over_a_best; exact P|].
      unfold toy_cost. rewrite eval_x1 by (intros v; exact P). reflexivity.
    - pose proof (derivable_pt_lim_plus _ _ _ _ _ (derivable_pt_lim_const (ln 2) 0) (derivable_pt_lim_id 0)) as D. rewrite Rplus_0_l in D.
      eapply derivable_pt_lim_ext; [|exact D]. intros s. unfold plus_fct, fct_cte, id. rewrite ln_mult, ln_exp by (try apply exp_pos; lra). reflexivity. }
  split; [exact S1|]. intros b Hb. split; [split|split; [|apply over_a_best; exact Hb]].
  - intros k. unfold two. destruct (decide (1%nat = k)) as [<-|Hk]; [rewrite !lookup_singleton; split; discriminate|rewrite !lookup_singleton_ne by exact Hk; reflexivity].
  - intros k v Hk. apply lookup_singleton_Some in Hk as [_ <-]. exact Hb.
  - unfold predicted, two. rewrite map_to_list_singleton. cbn [map fold_right fst snd]. rewrite lookup_singleton, S1, Rpower_1 by lra. field.
Qed.

(** Without this the bound is false, as C56 would have it. Minimizing a*x + x**-2/2 with a = 1, the optimum is x = 1 and costs 3/2;
    a's sensitivity should be 2/3, and is reported as 1/3, which is the share of the other term. With a = 1/8 the sensitivity predicts a cost
    of at least 3/4; but at x = 4 it is 17/32. *)
Definition one_a : gmap nat R := {[1%nat := 1]}.
Definition ax1 : expv R := list_to_map [(0%nat, 1); (1%nat, 1)].
Definition bowl : hmap R := [(ax1, 1); (x1 (-2), 1 / 2)].
Definition bowl_solver : optimizer := fun c A k _ _ _ m =>
  if decide (c = [1 / 2; 1] /\ A = [[(0%nat, -2)]; [(0%nat, 1)]] /\ k = [2]%nat /\ m = 1%nat) then Ok (3 / 2, [0], [1]) else Err UnknownInfeasibleE.
Lemma bowl_bottom t : 3 / 2 <= 1 / 2 * exp (-2 * t) + exp t.
Proof.
  assert (G : forall s, 1 + s <= exp s).
  { intros s. destruct (Req_dec s 0) as [-> |Hs]; [rewrite exp_0; lra|]. left. apply exp_ineq1. exact Hs. }
  pose proof (G (-2 * t)). pose proof (G t). lra.
Qed.
Lemma bowl_truthful : truthful bowl_solver.
Proof.
  intros ps all first m Hp _ _ _. unfold bowl_solver. destruct (decide _) as [(Ec & EA & Ek & Em)|]; [|exact I].
  assert (Eps : ps = [[(1 / 2, [(0%nat, -2)]); (1, [(0%nat, 1)])]]).
  { unfold c_of, A_of, k_of in *. destruct ps as [|[|[c1 r1] [|[c2 r2] [|]]] [|]]; try discriminate. injection Ec as -> ->. injection EA as -> ->. reflexivity. }
  subst ps m.
  assert (V : forall x, gp_cost [[(1 / 2, [(0%nat, -2)]); (1, [(0%nat, 1)])]] x = 1 / 2 * exp (-2 * x 0%nat) + exp (x 0%nat)).
  { intros x. unfold gp_cost, pval, mval. cbn. rewrite !Rplus_0_r, !Rmult_1_l. reflexivity. }
  assert (V0 : gp_cost [[(1 / 2, [(0%nat, -2)]); (1, [(0%nat, 1)])]] (pt [0]) = 3 / 2).
  { rewrite V. unfold pt. cbn [nth]. rewrite Rmult_0_r, exp_0. lra. }
  split; [reflexivity|]. split; [split; [constructor|]|].
  - intros x _. rewrite V0, V. apply bowl_bottom.
  - split; [symmetry; exact V0|]. left. split; [reflexivity|]. split; [reflexivity|]. split; [repeat constructor; lra|]. intros x. rewrite V0.
    unfold gp_lagrangian. cbn [zip_with sum fold_right]. change (pval x [(1 / 2, [(0%nat, -2)]); (1, [(0%nat, 1)])]) with (gp_cost [[(1 / 2, [(0%nat, -2)]); (1, [(0%nat, 1)])]] x).
    rewrite Rmult_1_l, Rplus_0_r. apply ln_le; [lra|]. rewrite V. apply bowl_bottom.
Qed.
Lemma gen_bowl : let g := gen std_order [(false, [(x1 (-2), 1 / 2); (x1 1, 1)])] in
  g_cs g = [1 / 2; 1] /\ g_coo g = [(0%nat, 0%nat, -2); (1%nat, 0%nat, 1)] /\ g_k g = [2]%nat /\ g_varlocs g = [(0, [0; 1])]%nat.
Proof.
  assert (E : forall a, std_order (x1 a) = [0%nat]) by (intros a; unfold std_order, x1; rewrite map_to_list_singleton; reflexivity).
  assert (N : forall a, x1 a <> e_empty) by (intros a H; apply (f_equal (fun m => m !! 0%nat)) in H; discriminate).
  unfold gen. cbn [map length snd enumerate combine seq fold_left gen_hmap dkeys fst gen_exp g_m g_all g_first g_varlocs g_coo g_k g_cs g_exps g_midxs g_pidxs app].
  rewrite !E, !decide_False by apply N. cbn.
  repeat split.
Qed.
Theorem C95_misplaced_refuted : ~ C95_bound_for (fun _ _ _ => True).
Proof.
  intros H.
  assert (Hok : subs_ok one_a (std_schedule one_a)).
  { split; [|intros h; apply std_schedule_valid]. intros k v Hk. unfold one_a in Hk. apply lookup_singleton_Some in Hk as [_ <-]. lra. }
  assert (Hd : ax1 <> x1 (-2)).
  { intros E. apply (f_equal (fun e : gmap nat R => e !! 1%nat)) in E. discriminate. }
  assert (Hpo : is_posy bowl).
  { split; [split|split].
    - apply NoDup_ListNoDup. cbn. repeat constructor; cbn; intuition.
    - intros e c [[= <- <-]|[[= <- <-]|[]]]; (split; [|lra]); [|apply x1_canon; lra].
      intros k x Hx. apply (elem_of_list_to_map_2 [(0%nat, 1); (1%nat, 1)]), elem_of_list_In in Hx. destruct Hx as [[= <- <-]|[[= <- <-]|[]]]; lra.
    - intros e c [[= <- <-]|[[= <- <-]|[]]]; lra.
    - discriminate. }
  assert (Hdel : delete 1%nat ax1 = x1 1) by (apply map_eq; intros [|[|k]]; [reflexivity|reflexivity|
    unfold ax1, x1; cbn [list_to_map foldr fst snd]; rewrite lookup_delete_ne, !lookup_insert_ne, lookup_empty, lookup_singleton_ne by lia; reflexivity]).
  assert (Hd2 : x1 1 <> x1 (-2)).
  { intros E. apply (f_equal (fun e : gmap nat R => e !! 0%nat)) in E. unfold x1 in E. rewrite !lookup_singleton in E. injection E as E. lra. }
  assert (Es : exists s, nm_sub 0 one_a bowl (std_schedule one_a bowl) = Ok s /\ s_cp s = [(x1 (-2), 1 / 2); (x1 1, 1)]).
  { replace (std_schedule one_a bowl) with [(1%nat, [0%nat])] by (vm_compute; reflexivity).
    unfold nm_sub. change (sub_init bowl) with (SST [(ax1, 1); (x1 (-2), 1 / 2)] [1; 1 / 2] [ax1; x1 (-2)] []).
    cbn [sub_passes]. unfold one_a at 1. rewrite lookup_singleton. cbn [sub_pass].
    unfold subinplace. cbn [s_cur lookup list_lookup]. change (ax1 !! 1%nat) with (Some 1). cbn [s_cp dget].
    rewrite decide_True by auto. cbn [ddel]. rewrite decide_True by auto. cbn [dget]. rewrite Hdel.
    rewrite decide_False by auto. rewrite powval_defined by (intros; lra). rewrite Rpow_pos by lra. rewrite Rpower_1 by lra.
    rewrite decide_False by (cbn; lra). cbn [rbind dset]. rewrite decide_False by auto. cbn [never_empty s_cp].
    eexists. split; [reflexivity|]. cbn [s_cp nmul R_num]. rewrite Rmult_1_l. reflexivity. }
  destruct Es as (s & Es & Ecp).
  set (hs := [(false, [(x1 (-2), 1 / 2); (x1 1, 1)])]).
  assert (Eg : gp_hmaps 0 (std_schedule one_a) false one_a bowl [] = Ok hs).
  { unfold gp_hmaps. rewrite Es. cbn [rbind]. rewrite Ecp. unfold any_nonpositive. cbn [existsb snd].
    assert (B1 : nleb (1 : R) n0 = false) by (cbn; unfold Rleb; destruct (Rle_dec 1 0); [lra|reflexivity]).
    assert (B2 : nleb (1 / 2 : R) n0 = false) by (cbn; unfold Rleb; destruct (Rle_dec (1 / 2) 0); [lra|reflexivity]).
    rewrite B1, B2. reflexivity. }
  destruct gen_bowl as (G1 & G2 & G3 & G4). fold hs in G1, G2, G3, G4.
  destruct (shares_list std_order C26_nonvacuous hs [0] [1] (fun _ => 1)) as (nu & by_posy & En & Eby).
  { discriminate. }
  { intros b h [[= <- <-]|[]]. split; [split|split].
    - apply NoDup_ListNoDup. cbn. repeat constructor; cbn; intuition.
    - intros e c [[= <- <-]|[[= <- <-]|[]]]; (split; [apply x1_canon|]; lra).
    - intros e c [[= <- <-]|[[= <- <-]|[]]]; lra.
    - discriminate. }
  { intros v j Ej. unfold varidx in Ej. rewrite G4 in Ej. cbn in Ej. destruct (decide (v = 0%nat)); [|discriminate]. injection Ej as <-. unfold pt. cbn. rewrite exp_0. reflexivity. }
  { left. reflexivity. }
  cbv zeta in En, Eby. cbn [length Nat.eqb hs] in En, Eby.
  assert (E : exists vs senss, solve_senss 0 (std_schedule one_a) std_order bowl_solver one_a bowl [] = Ok (3 / 2, vs, senss) /\ eget senss 1 = 1 / 3).
  { unfold solve_senss. cbn [make_all rbind]. rewrite Eg. cbn [rbind parents].
    unfold matrix_of, row_of, columns. fold hs in En. rewrite G1, G2, G3, G4. unfold bowl_solver. destruct (decide _) as [_|N]; [|destruct N; repeat split; reflexivity].
    cbn [length]. destruct (decide _) as [_|N]; [|destruct N; reflexivity]. rewrite En. subst by_posy. unfold compile_senss, rows_from. cbn [snd combine map nth tl turns rbind sa_vars fst].
    eexists _, _. split; [reflexivity|]. rewrite cost_sens_eget. unfold hs, dual_shares, bowl, term_val. cbn [map eval List.combine lsum fst snd].
    rewrite !mono_val_ones. cbn [nth combine lsum fst snd]. change (eget ax1 1) with 1. change (eget (x1 (-2)) 1) with 0. field. }
  destruct E as (vs & senss & E & S1).
  set (new := {[1%nat := 1 / 8]} : gmap nat R).
  set (q := (fun k => match k with 0%nat => 4 | _ => 1 / 8 end) : point).
  assert (Hn : other_constants one_a new).
  { split.
    - intros k. unfold one_a, new. destruct (decide (1%nat = k)) as [<-|Hk]; [rewrite !lookup_singleton; split; discriminate|rewrite !lookup_singleton_ne by exact Hk; reflexivity].
    - intros k v Hk. unfold new in Hk. apply lookup_singleton_Some in Hk as [_ <-]. lra. }
  assert (Pq : positive_point q) by (intros [|k]; cbn; lra).
  assert (Hq : meets new [] q).
  { split; [exact Pq|]. split; [|constructor]. intros k v Hk. unfold new in Hk. apply lookup_singleton_Some in Hk as [<- <-]. reflexivity. }
  pose proof (H 0 (std_schedule one_a) std_order bowl_solver one_a bowl [] (3 / 2) vs senss Hok C26_nonvacuous bowl_truthful Hpo (Forall_nil_2 _) I E new q Hn Hq) as B.
  unfold predicted, one_a in B. rewrite map_to_list_singleton in B. cbn [map fold_right fst snd] in B. unfold new in B. rewrite lookup_singleton, S1 in B.
  replace (1 / 8 / 1) with (/ 2 * / 2 * / 2) in B by lra.
  assert (Pw : Rpower (/ 2 * / 2 * / 2) (1 / 3) = / 2).
  { unfold Rpower. rewrite !ln_mult by lra. replace (1 / 3 * (ln (/ 2) + ln (/ 2) + ln (/ 2))) with (ln (/ 2)) by lra. apply exp_ln. lra. }
  rewrite Pw in B.
  assert (Ev : eval q bowl = 17 / 32).
  { unfold bowl. cbn [eval].
    assert (M1 : mono_val q ax1 = 1 / 2).
    { unfold ax1. cbn [list_to_map foldr fst snd]. rewrite mono_val_insert by reflexivity. rewrite mono_val_insert by reflexivity.
      unfold mono_val. rewrite map_fold_empty. rewrite !Rpower_1 by (cbn; lra). cbn. lra. }
    assert (M2 : mono_val q (x1 (-2)) = 1 / 16).
    { change (x1 (-2)) with (<[0%nat := -2]> (∅ : expv R)). rewrite mono_val_insert by reflexivity. unfold mono_val. rewrite map_fold_empty. cbn [q].
      replace (-2) with (- (1 + 1)) by lra. rewrite Rpower_Ropp, Rpower_plus, !Rpower_1 by lra. lra. }
    rewrite M1, M2. lra. }
  rewrite Ev in B. lra.
Qed.
Print Assumptions C95_misplaced_refuted.
