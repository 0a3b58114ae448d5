(** C100: local solutions of signomial models, in terms of the constraints as written. *)
From Verif Require Import Base HashVec HashVecProofs Nomial NomialSem NomialProofs CanonProofs DiffProofs Sub SubSem SubProofs SubExtra
  Mono MonoProofs Constraint ConstraintSem ConstraintProofs PropsConstraint GPGen GPGenProofs PropsGP EndToEnd EndToEndSpec EndToEndProofs
  SGP SGPSem LocalProofs SGPProofs ApproxProofs RebuildProofs PropsSGP SGPIterSpec SGPIterProofs SGPIterSub SGPIterLin SGPIterRun SGPIterCols
  PropsSGPIter PenaltyProofs LocalEnd LocalEndSpec LocalEndProofs.
Open Scope R_scope.

(** The solves [localsolve] made of the model with this cost and these constraints, from the point [x0]: by any solver that returns true
    optima, with Python's sets and dicts iterated in any order. As in C36, approximations keep their numbers of terms and divisions are clean. *)
Definition local_run {T} `{Num T} (inf : T) pick vks_of ord se slack (penalty : T) cost (ws : list (stated T)) fixed x0 cs s hist : Prop :=
  any_iteration ord vks_of pick /\ positive_values fixed /\ positive_values x0 /\
  collected cost /\ Forall admissible ws /\ fresh_slack slack cost ws fixed /\
  construct_all ws = Ok cs /\ sgp_init inf pick vks_of ord se slack penalty cost cs fixed = Ok s /\
  (exists solver verbosity limit reltol, optimal_solver solver /\
     made (localsolve inf pick vks_of ord se solver verbosity limit reltol s x0) hist) /\
  always (sgp_build inf pick vks_of ord se slack penalty cost cs fixed) steady hist /\ clean inf pick vks_of se fixed cs hist.

(** At every solution visited the slack is at least 1, the constraints fit, and the cost is that of the solution. *)
Definition C100_meets_for (T : Type) `{Num T} (tol : T) : Prop :=
  forall (inf : T) pick vks_of ord se slack penalty cost ws fixed x0 cs s hist,
  local_run inf pick vks_of ord se slack penalty cost ws fixed x0 cs s hist ->
  forall a q, In a hist -> solution_point fixed a q ->
  nleb n1 (slack_value slack q) = true /\ Forall (fits fixed tol (slack_value slack q) q) ws /\
  so_cost a = charged slack penalty cost q.

(** The first solve costs no more than any point at which all constraints hold and whose variables in signomial constraints are those
    [localsolve] was given (else the substituted ones, else 1). *)
Definition C100_start_for (T : Type) `{Num T} : Prop :=
  forall (inf : T) pick vks_of ord se slack penalty cost ws fixed x0 cs s a later,
  local_run inf pick vks_of ord se slack penalty cost ws fixed x0 cs s (a :: later) -> listed cs s x0 ->
  forall q, point_with fixed q -> Forall (holds_exactly q) ws ->
  (forall k, signomial_variable ws k -> q k = match x0 !! k with Some v => v | None => match fixed !! k with Some v => v | None => n1 end end) ->
  nleb (so_cost a) (worth q cost) = true.

Section Runs.
Context (inf : R) (pick : gmap nat R -> hmap R -> schedule) (vks_of : hmap R -> list nat) (ord : var_order R) (se : bool) (slack : option nat)
  (penalty : R) (cost : hmap R) (ws : list (stated R)) (fixed x0 : gmap nat R) (cs : list (sp_constr R)) (s : sgp R) (hist : list (solved R)).
Hypothesis HR : local_run inf pick vks_of ord se slack penalty cost ws fixed x0 cs s hist.
Lemma run_facts : good inf pick vks_of ord se slack penalty cost cs fixed s /\
  (forall a, In a hist -> good inf pick vks_of ord se slack penalty cost cs fixed (so_sgp a) /\ gp_optimum (sg_gp (so_sgp a)) (so_vals a) (so_cost a)) /\
  (forall a l, hist = a :: l -> sgp_gp inf pick vks_of ord se s x0 = Ok (so_sgp a)).
Proof.
  destruct HR as ((H1 & H2 & H3) & Hf & Hx0 & Hc & Hws & Hsl & Ecs & Ei & (solver & vb & limit & reltol & Hsol & Hm) & Hal & _).
  rewrite pos_values in Hf, Hx0.
  assert (Hcons := cons_ok slack cost ws cs fixed Hws Hsl Ecs).
  assert (Hg0 := good_start inf pick vks_of ord se H1 H2 H3 slack penalty cost cs fixed Hcons Hf s Ei).
  destruct (loop_run inf pick vks_of ord se solver s x0 vb limit reltol _ s x0 None None [] hist (run_start _ _ _ _ _ _ _ _) Hm)
    as (s' & x0' & Hr).
  destruct (run_good' inf pick vks_of ord se H1 H2 H3 slack penalty cost ws cs fixed Hws Hsl Ecs solver Hsol s x0 s' x0' hist Hg0 Hx0 Hr Hal)
    as (_ & _ & Hh & Hfirst). auto.
Qed.
Lemma run_clean a h : In a hist -> In (SPc (CSig h)) cs ->
  undivided inf pick vks_of se h (sg_x0 (so_sgp a)) /\ unsubstituted inf pick fixed h.
Proof.
  destruct HR as (_ & _ & _ & _ & _ & _ & _ & _ & _ & _ & Hcl). intros Ha Hh. destruct (Hcl h Hh) as [C1 C2]. split; [|exact C2].
  intros me mc. exact (C1 a me mc Ha).
Qed.
End Runs.

Theorem C100_meets_partial : C100_meets_for R (1 / 1000).
Proof.
  intros inf pick vks_of ord se slack penalty cost ws fixed x0 cs s hist HR a q Ha Hpt.
  destruct (run_facts _ _ _ _ _ _ _ _ _ _ _ _ _ _ HR) as (_ & Hh & _). destruct (Hh a Ha) as [Hg [HF [Hco _]]].
  pose proof (run_clean _ _ _ _ _ _ _ _ _ _ _ _ _ _ HR a) as Hcl.
  destruct HR as ((H1 & H2 & H3) & Hf & Hx0 & Hc & Hws & Hsl & Ecs & _). rewrite pos_values in Hf.
  destruct a as [sa va ca]. cbn [so_sgp so_vals so_cost] in *.
  destruct (solved_point inf pick vks_of ord se H1 slack penalty cost cs fixed sa va ca q Hg HF Hpt) as (He & Hov & Hle).
  assert (Hcl' : forall h, In (SPc (CSig h)) cs -> undivided inf pick vks_of se h (sg_x0 sa) /\ unsubstituted inf pick fixed h) by (intros h; apply Hcl; auto).
  destruct (program_meets inf pick vks_of ord se H2 H3 slack penalty cost ws cs fixed Hf Hws Hsl Ecs sa _ Hg He Hcl' Hle) as [S1 S2].
  unfold sl in S1, S2. rewrite Hov in S1, S2. split; [apply Rleb_true; exact S1|]. split; [exact S2|].
  destruct (gd_parts _ _ _ _ _ _ _ _ _ _ _ Hg) as (first & cost' & c0 & g & G & hs & A & P1 & Ea & EA & Eh).
  assert (E0 : sg_hmaps sa !! 0%nat = Some (false, c0)) by (rewrite Eh; reflexivity).
  destruct (feasible_values (sg_gp sa) va HF) as (Hl & Hv & _).
  rewrite Hco, (program_values inf pick vks_of ord se H1 slack penalty cost cs fixed sa va q 0 false c0 Hg Hl Hv E0).
  rewrite (program_cost inf pick vks_of ord se H3 slack penalty cost ws cs fixed Hf Hc Hsl sa _ Hg He false c0 E0), Hov. reflexivity.
Qed.
Print Assumptions C100_meets_partial.

Definition slack_one (slack : option nat) (q : nat -> R) : nat -> R := match slack with None => q | Some k => fun j => if Nat.eqb j k then 1 else q j end.
Lemma point1_self (g : gpdata R) q : point1 g (map q (dkeys (g_varlocs g))) q = q.
Proof.
  apply FunctionalExtensionality.functional_extensionality. intros k. unfold point1. destruct (position _ k) as [j|] eqn:E; [|auto].
  apply position_in in E. apply nth_lookup_Some. change (map q (dkeys (g_varlocs g))) with (q <$> dkeys (g_varlocs g)).
  rewrite list_lookup_fmap, E. reflexivity.
Qed.

Theorem C100_start_partial : C100_start_for R.
Proof.
  intros inf pick vks_of ord se slack penalty cost ws fixed x0 cs s a later HR Hli q Hq Hh Hag.
  destruct (run_facts _ _ _ _ _ _ _ _ _ _ _ _ _ _ HR) as (Hg0 & Hh0 & Hfirst). specialize (Hfirst a later eq_refl).
  destruct (Hh0 a (or_introl eq_refl)) as [Hg (_ & _ & Hopt)].
  pose proof (fun h => run_clean _ _ _ _ _ _ _ _ _ _ _ _ _ _ HR a h (or_introl eq_refl)) as Hcl.
  destruct HR as ((H1 & H2 & H3) & Hf & Hx0 & Hc & Hws & Hsl & Ecs & Ei & _). rewrite pos_values in Hf, Hx0.
  apply point_with_R in Hq as [Hq Hfx]. assert (Hcons := cons_ok slack cost ws cs fixed Hws Hsl Ecs).
  set (q' := slack_one slack q).
  assert (Hne : forall k, slack <> Some k -> q' k = q k).
  { intros k Hk. unfold q', slack_one. destruct slack as [j|]; [|auto]. destruct (Nat.eqb_spec k j); congruence. }
  assert (Hq' : positive_point q').
  { intros k. unfold q', slack_one. destruct slack as [j|]; [|apply Hq]. destruct (Nat.eqb k j); [lra|apply Hq]. }
  assert (Hfx' : forall k v, fixed !! k = Some v -> q' k = v).
  { intros k v Hk. rewrite Hne; [auto|]. intros ->. destruct Hsl as [Hsl _]. congruence. }
  assert (Hev : forall h, (forall k, slack = Some k -> in_vks h k = false) -> eval q' h = eval q h).
  { intros h Hv. apply eval_agree. intros k Hk. apply Hne. intros ->. rewrite (Hv k eq_refl) in Hk. discriminate. }
  assert (Hs1 : sl slack q' = 1).
  { unfold sl, slack_value, q', slack_one. destruct slack as [k|]; [rewrite Nat.eqb_refl; auto|auto]. }
  assert (Hh' : Forall (holds_exactly q') ws).
  { rewrite List.Forall_forall in *. intros w Hw. specialize (Hh w Hw).
    assert (Hsd : forall h, In h (sides_of w) -> eval q' h = eval q h).
    { intros h Hin. apply Hev. intros k ->. destruct Hsl as (_ & _ & Hsl). eapply Hsl; eauto. }
    destruct w as [l op r|l r|l op r]; cbn [holds_exactly sides_of In] in *; rewrite ?worth_eval in * by auto;
      [destruct op; cbn [smaller larger] in *| |destruct op; cbn [smaller larger] in *]; rewrite !Hsd by auto; exact Hh. }
  assert (Hag' : forall k, sp_var cs k -> q' k = default 1 (sg_x0 (so_sgp a) !! k)).
  { intros k Hk. rewrite Hne.
    2:{ intros ->. destruct Hk as (h & Hin & Hk). destruct (Hcons h Hin) as [_ Hfr]. unfold fresh in Hfr. congruence. }
    rewrite (Hag k) by (eapply sp_variable; eauto).
    assert (E0 : sg_x0 s = fixed) by (eapply (build_keeps_x0 inf pick vks_of ord se H2 H3 slack penalty cost cs fixed Hcons fixed s Hf Ei)).
    destruct (decide (x0 = ∅)) as [->|Hn0].
    - unfold sgp_gp in Hfirst. rewrite decide_True in Hfirst by auto. injection Hfirst as <-. rewrite E0, lookup_empty. destruct (fixed !! k); auto.
    - destruct (good_step0 inf pick vks_of ord se H1 H2 H3 slack penalty cost cs fixed Hcons s x0 _ Hg0 Hx0 Hfirst Hn0) as (-> & _).
      rewrite x0_update_lookup, E0. destruct (x0 !! k) as [v|] eqn:Ex.
      + destruct (in_dec _ _ _) as [|Hn]; [auto|]. exfalso. apply Hn, (Hli k); [congruence|auto].
      + rewrite ?Ex. destruct (in_dec _ _ _); destruct (fixed !! k); auto. }
  pose proof (program_admits inf pick vks_of ord se H2 H3 slack penalty cost ws cs fixed Hf Hws Hsl Ecs (so_sgp a) q' Hg Hq' Hfx' Hs1 Hcl Hh' Hag') as Hle.
  set (vals := map q' (dkeys (g_varlocs (sg_gp (so_sgp a))))).
  assert (Hl : length vals = length (g_varlocs (sg_gp (so_sgp a)))) by (unfold vals, dkeys; rewrite !map_length; auto).
  assert (Hv : forall x, In x vals -> 0 < x) by (intros x Hx; apply in_map_iff in Hx as (j & <- & _); apply Hq').
  assert (Hval : forall p b h, sg_hmaps (so_sgp a) !! p = Some (b, h) -> posy_at (sg_gp (so_sgp a)) vals p = eval q' h).
  { intros p b h Hp. rewrite (program_values inf pick vks_of ord se H1 slack penalty cost cs fixed (so_sgp a) vals q' p b h Hg Hl Hv Hp).
    unfold vals. rewrite point1_self. auto. }
  assert (HF : gp_feasible (sg_gp (so_sgp a)) vals).
  { split; [auto|]. split; [intros x Hx; apply Rltb_true; auto|]. intros p Hp. apply Rleb_true.
    rewrite (mi_k _ _ _ _ _ (gd_inv _ _ _ _ _ _ _ _ _ _ _ Hg)), map_length in Hp.
    destruct (lookup_lt_is_Some_2 (sg_hmaps (so_sgp a)) p (proj2 Hp)) as [[b u] Eu]. rewrite (Hval p b u Eu). apply (Hle p b u); [lia|auto]. }
  specialize (Hopt vals HF).
  destruct (gd_parts _ _ _ _ _ _ _ _ _ _ _ Hg) as (first & cost' & c0 & g & G & hs & A & P1 & Ea & EA & Eh).
  assert (E0 : sg_hmaps (so_sgp a) !! 0%nat = Some (false, c0)) by (rewrite Eh; reflexivity).
  rewrite (Hval 0%nat false c0 E0) in Hopt.
  rewrite (program_cost inf pick vks_of ord se H3 slack penalty cost ws cs fixed Hf Hc Hsl (so_sgp a) q' Hg Hq' false c0 E0) in Hopt.
  assert (Hov : override q' fixed = q').
  { apply FunctionalExtensionality.functional_extensionality. intros k. unfold override. destruct (fixed !! k) eqn:E; auto. symmetry. auto. }
  rewrite Hov in Hopt. apply Rleb_true. apply Rleb_true in Hopt.
  assert (Hw : worth q' cost = worth q cost).
  { rewrite !worth_eval by auto. apply Hev. intros k ->. apply Hsl. }
  unfold charged in Hopt. rewrite Hw in Hopt. unfold sl, slack_value in Hs1. destruct slack as [k|]; [|exact Hopt].
  rewrite Hs1 in Hopt. cbn [npow nmul R_num] in Hopt. rewrite Rpow_pos in Hopt by lra.
  replace (Rpower 1 penalty) with 1 in Hopt by (unfold Rpower; rewrite ln_1, Rmult_0_r, exp_0; auto). rewrite Rmult_1_r in Hopt. exact Hopt.
Qed.
Print Assumptions C100_start_partial.

(** ** A case: minimize z with 1/z <= x^2 + 4, x <= 1 and 1 <= x, from x = 2 and from a point that meets the constraints *)
Definition pinned_stated : list (stated Q) :=
  [Sig [(qmap [(0%nat, (-1)%Q)], 1%Q)] OpLe [(qmap [(1%nat, 2%Q)], 1%Q); (qmap [], 4%Q)];
   Posy [(qmap [(1%nat, 1%Q)], 1%Q)] OpLe [(qmap [], 1%Q)]; Posy [(qmap [(1%nat, 1%Q)], 1%Q)] OpGe [(qmap [], 1%Q)]].
Definition feasible_start : gmap nat Q := qmap [(0%nat, 1 # 2); (1%nat, 1%Q)].
Definition look (c : sp_constr Q) : nat * list (list (gmap nat Q * Q)) :=
  match c with SPc (CSig h) => (0%nat, [h]) | SPc (CPosy (CS None None) us) => (1%nat, us) | _ => (2%nat, []) end.
Lemma pinned_made : construct_all pinned_stated = Ok pinned.
Proof.
  assert (E : bool_decide (match construct_all pinned_stated with Ok l => Some (map look l) | Err _ => None end = Some (map look pinned)) = true)
    by (vm_compute; reflexivity).
  apply bool_decide_eq_true in E. destruct (construct_all pinned_stated) as [cs|]; [|discriminate]. injection E as E.
  destruct cs as [|c1 [|c2 [|c3 [|]]]]; cbn [map pinned] in E; try discriminate. injection E as E1 E2 E3. unfold pinned, sig_le0, posy_only in *.
  cbn [look] in *. repeat f_equal.
  - destruct c1 as [[[[|] [|]] us| |]|]; cbn in E1; try discriminate. injection E1 as ->. reflexivity.
  - destruct c2 as [[[[|] [|]] us| |]|]; cbn in E2; try discriminate. injection E2 as ->. reflexivity.
  - destruct c3 as [[[[|] [|]] us| |]|]; cbn in E3; try discriminate. injection E3 as ->. reflexivity.
Qed.
Lemma monomial_ok (h : hmap Q) e c : h = [(e, c)] -> collectedb h = true -> nltb n0 c = true -> monomial h.
Proof.
  intros -> Hc Hp. split; [|reflexivity]. split; [apply collectedb_ok, Hc|]. split; [|discriminate]. intros e' c' [[= <- <-]|[]]. exact Hp.
Qed.
Lemma pinned_admissible : Forall admissible pinned_stated.
Proof.
  constructor; [|constructor; [|constructor; [|constructor]]].
  - split; [discriminate|]. split; apply collectedb_ok; vm_compute; reflexivity.
  - split; [discriminate|]. split; [eapply monomial_ok; [reflexivity| |]; vm_compute; reflexivity|].
    split; [eapply monomial_ok; [reflexivity| |]; vm_compute; reflexivity|]. intros e c [= <- _]. apply divb_ok. vm_compute. reflexivity.
  - split; [discriminate|]. split; [eapply monomial_ok; [reflexivity| |]; vm_compute; reflexivity|].
    split; [eapply monomial_ok; [reflexivity| |]; vm_compute; reflexivity|]. intros e c [= <- _]. apply divb_ok. vm_compute. reflexivity.
Qed.
Definition pinned_run (x0 : gmap nat Q) s hist : Prop :=
  local_run 1000%Q std_schedule std_vks std_order true None 200%Q [(qmap [(0%nat, 1%Q)], 1%Q)] pinned_stated ∅ x0 pinned s hist.
Lemma pinned_runs x0 vks keys pts : forallb (fun kx : nat * Q => negb (Qle_bool (snd kx) 0)) (map_to_list x0) = true ->
  option_map (fun p => (sg_vks (fst p), dkeys (g_varlocs (sg_gp (fst p))), map point_of (snd p), map so_cost (snd p),
    (cleanb pinned (snd p), steadyb pinned (snd p)))) (q_run pinned_answers 50%Z pinned x0) = Some (vks, keys, fst pts, snd pts, (true, true)) ->
  exists s hist, pinned_run x0 s hist /\ sg_vks s = vks /\ map point_of hist = fst pts /\ map so_cost hist = snd pts.
Proof.
  intros Hx E'. destruct (q_run pinned_answers 50%Z pinned x0) as [[s hist]|] eqn:E; [|discriminate].
  cbn [option_map fst snd] in E'. injection E' as E1 E2 E3 E4 E5 E6. exists s, hist. apply q_run_ok in E as [Hb Hm].
  split; [|auto]. split; [exact std_iteration|]. split; [intros k v; rewrite lookup_empty; discriminate|].
  split; [apply positive_ok, Hx|]. split; [apply collectedb_ok; vm_compute; reflexivity|]. split; [exact pinned_admissible|]. split; [exact I|].
  split; [exact pinned_made|]. split; [exact Hb|].
  split; [exists (table_solver pinned_answers), 0%Z, 50%Z, (1 # 10000)%Q; split; [apply table_optimal, pinned_optimal|exact Hm]|].
  split; [apply steadyb_ok; auto|apply cleanb_ok; auto].
Qed.

Example C100_nonvacuous : exists s a b c, pinned_run pinned_start s [a; b; c] /\ map so_cost [a; b; c] = [1 # 4; 1 # 5; 1 # 5]%Q /\
  exists q, solution_point ∅ b q /\ Forall (fits ∅ (1 # 1000)%Q 1%Q q) pinned_stated /\ so_cost b = charged None 200%Q [(qmap [(0%nat, 1%Q)], 1%Q)] q.
Proof.
  destruct (pinned_runs pinned_start [0; 1]%nat [0; 1]%nat
    ([([0; 1]%nat, [1 # 4; 1]%Q); ([0; 1]%nat, [1 # 5; 1]%Q); ([0; 1]%nat, [1 # 5; 1]%Q)], [1 # 4; 1 # 5; 1 # 5]%Q))
    as (s & hist & Hr & _ & Hp & Hc); [vm_compute; reflexivity|vm_compute; reflexivity|].
  destruct hist as [|a [|b [|c [|]]]]; try discriminate Hc. exists s, a, b, c. split; [exact Hr|]. split; [exact Hc|].
  cbn [map fst snd] in Hp, Hc. injection Hp as _ _ Hp1 Hp2 _ _. injection Hc as _ Hc _.
  exists (fun k => match k with O => 1 # 5 | _ => 1 end)%Q. split; [|split].
  - eapply point_ok; [unfold point_of; rewrite Hp1, Hp2; reflexivity|intros [|k]; reflexivity|reflexivity].
  - constructor; [vm_compute; reflexivity|]. constructor; [left; vm_compute; reflexivity|]. constructor; [left; vm_compute; reflexivity|constructor].
  - rewrite Hc. vm_compute. reflexivity.
Qed.
Lemma feasible_rest k : feasible_start !! S (S k) = None.
Proof. unfold feasible_start, qmap. cbn. rewrite !lookup_insert_ne by lia. apply lookup_empty. Qed.
Example C100_start_nonvacuous : exists s a later, pinned_run feasible_start s (a :: later) /\ listed pinned s feasible_start /\
  exists q, point_with ∅ q /\ Forall (holds_exactly q) pinned_stated /\
    (forall k, signomial_variable pinned_stated k -> q k = match feasible_start !! k with Some v => v | None => 1%Q end) /\
    (so_cost a, worth q [(qmap [(0%nat, 1%Q)], 1%Q)]) = (1 # 5, 1 # 2)%Q.
Proof.
  destruct (pinned_runs feasible_start [0; 1]%nat [0; 1]%nat ([([0; 1]%nat, [1 # 5; 1]%Q); ([0; 1]%nat, [1 # 5; 1]%Q)], [1 # 5; 1 # 5]%Q))
    as (s & hist & Hr & Hk & Hp & Hc); [vm_compute; reflexivity|vm_compute; reflexivity|].
  destruct hist as [|a later]; [discriminate Hc|]. exists s, a, later. split; [exact Hr|]. cbn [map snd] in Hc. injection Hc as Hc _.
  split.
  { intros k Hx _. rewrite Hk. destruct k as [|[|k]]; [left; auto|right; left; auto|]. exfalso. exact (Hx (feasible_rest k)). }
  exists (fun k => match k with O => 1 # 2 | _ => 1 end)%Q. split; [split; [intros [|k]; reflexivity|intros k v; rewrite lookup_empty; discriminate]|].
  split; [constructor; [vm_compute; reflexivity|]; constructor; [vm_compute; reflexivity|]; constructor; [vm_compute; reflexivity|constructor]|].
  split; [|rewrite Hc; vm_compute; reflexivity].
  intros k _. destruct k as [|[|k]]; [reflexivity|reflexivity|]. rewrite feasible_rest. reflexivity.
Qed.
