(** The runs of [localsolve] (C36). *)
From Verif Require Import Base HashVec HashVecProofs Nomial NomialSem NomialProofs CanonProofs DiffProofs Sub SubSem SubProofs SubExtra
  Mono MonoProofs Constraint ConstraintSem ConstraintProofs GPGen GPGenProofs SGP SGPSem SGPProofs ApproxProofs RebuildProofs
  SGPIterSpec SGPIterProofs SGPIterSub SGPIterLin.
Open Scope R_scope.

(** ** Points with the values of a solution *)
Definition point1 (g : gpdata R) (vals : list R) (env : nat -> R) (k : nat) : R :=
  match position (dkeys (g_varlocs g)) k with Some j => nth j vals 1 | None => env k end.

Lemma position_at l j k : NoDup l -> l !! j = Some k -> position l k = Some j.
Proof.
  intros Hn Hj. destruct (position_spec l k) as (j' & E1 & E2); [apply elem_of_list_In, elem_of_list_lookup_2 with j; auto|].
  rewrite E1. f_equal. eapply (NoDup_lookup l); eauto.
Qed.
Lemma position_in l : forall j k, position l k = Some j -> l !! j = Some k.
Proof.
  induction l as [|a l IH]; intros j k E; cbn [position] in E; [discriminate|].
  destruct (decide (k = a)) as [->|]; [injection E as <-; auto|].
  destruct (position l k) as [j'|] eqn:E'; [|discriminate]. injection E as <-. cbn. auto.
Qed.

Lemma point1_column g vals env j k : NoDup (dkeys (g_varlocs g)) -> length vals = length (g_varlocs g) ->
  dkeys (g_varlocs g) !! j = Some k -> vals !! j = Some (point1 g vals env k).
Proof.
  intros Hn Hl Hj. unfold point1. rewrite (position_at _ j k Hn Hj).
  assert (Hlt : (j < length vals)%nat) by (rewrite Hl; apply lookup_lt_Some in Hj; unfold dkeys in Hj; rewrite map_length in Hj; auto).
  destruct (lookup_lt_is_Some_2 vals j Hlt) as [x Hx]. rewrite Hx. rewrite (nth_lookup_Some _ _ _ _ Hx). auto.
Qed.
Lemma point1_pos g vals env : (forall x, In x vals -> 0 < x) -> positive_point env -> positive_point (point1 g vals env).
Proof.
  intros Hv He k. unfold point1. destruct (position _ k) as [j|]; [|apply He].
  destruct (nth_in_or_default j vals 1) as [Hin| ->]; [auto|lra].
Qed.

(** ** Dictionaries of solutions *)
Lemma x0_dict_lookup g (vals : list R) k : NoDup (dkeys (g_varlocs g)) -> length vals = length (g_varlocs g) ->
  x0_dict g vals !! k = match position (dkeys (g_varlocs g)) k with Some j => Some (nth j vals 1) | None => None end.
Proof.
  intros Hn Hl. unfold x0_dict. assert (Hl' : length vals = length (dkeys (g_varlocs g))) by (unfold dkeys; rewrite map_length; auto).
  revert Hn Hl'. clear Hl. generalize (dkeys (g_varlocs g)). intros l. revert vals.
  induction l as [|a l IH]; intros [|v vals] Hn Hl'; cbn [List.combine list_to_map position]; try discriminate; [apply lookup_empty|].
  cbn [list_to_map foldr]. inversion Hn as [|? ? Ha Hn']; subst. destruct (decide (k = a)) as [->|Hne].
  - change ((<[a := v]> (list_to_map (List.combine l vals)) : gmap nat R) !! a = Some v). rewrite lookup_insert. auto.
  - change ((<[a := v]> (list_to_map (List.combine l vals)) : gmap nat R) !! k = 
      match option_map S (position l k) with Some j => Some (nth j (v :: vals) 1) | None => None end).
    rewrite lookup_insert_ne by auto. rewrite IH by (auto; cbn in Hl'; lia). destruct (position l k); auto.
Qed.

Section Run.
Variables (inf : R) (pick : gmap nat R -> hmap R -> schedule) (vks_of : hmap R -> list nat) (ord : var_order R) (se : bool).
Hypothesis Hord : forall e, List.NoDup (ord e) /\ forall k, In k (ord e) <-> e !! k <> None.
Hypothesis Hvks : forall h, NoDup (vks_of h) /\ forall k, In k (vks_of h) <-> in_vks h k = true.
Hypothesis Hpick : forall x0 h, valid_schedule x0 h (pick x0 h).
Variables (penalty : R) (cost : hmap R) (cs : list (sp_constr R)) (fixed : gmap nat R).
Hypothesis Hcons : forall s, In (SPc (CSig s)) cs \/ In (SPeq s) cs -> canonical s /\ fresh None s.
Hypothesis Hf : forall k v, fixed !! k = Some v -> 0 < v.

Let good := good inf pick vks_of ord se None penalty cost cs fixed.
Let build := sgp_build inf pick vks_of ord se None penalty cost cs fixed.
Let update := sgp_gp inf pick vks_of ord se.

Lemma feasible_values (g : gpdata R) vals : gp_feasible g vals ->
  length vals = length (g_varlocs g) /\ (forall x, In x vals -> 0 < x) /\
  forall p, (1 <= p < length (g_k g))%nat -> posy_at g vals p <= 1.
Proof.
  intros (F1 & F2 & F3). split; [auto|]. split; [intros x Hx; apply Rltb_true; apply F2; auto|].
  intros p Hp. apply Rleb_true. apply F3. auto.
Qed.

(** The posynomials of the program at a solution. *)
Lemma hmaps_at s vals env : good s -> length vals = length (g_varlocs (sg_gp s)) -> (forall x, In x vals -> 0 < x) ->
  forall p b h, sg_hmaps s !! p = Some (b, h) -> posy_at (sg_gp s) vals p = eval (point1 (sg_gp s) vals env) h.
Proof.
  intros Hg Hl Hv p b h Hp. eapply posy_at_eval; eauto; [apply Hg|]. intros j k Hj. apply point1_column; auto. apply (gd_inv _ _ _ _ _ _ _ _ _ _ _ Hg).
Qed.

(** ** Feasibility *)
Lemma feasible_meets s vals c env x : good s -> gp_feasible (sg_gp s) vals -> solution_point fixed (SOL s vals c) env ->
  (forall h, In (SPc (CSig h)) cs ->
    (forall me mc, let negy := snd (posy_negy h) in let x0 := x0_of (sg_x0 s) (vks_of negy) in
      mono_approx inf x0 (pick x0) se negy (vks_of negy) = Ok [(me, mc)] -> no_clash (fst (posy_negy h)) me) /\
    (forall st me mc, nm_sub inf fixed h (pick fixed h) = Ok st ->
      snd (posy_negy (s_cp st)) = [(me, mc)] -> no_clash (fst (posy_negy (s_cp st))) me)) ->
  In x cs -> inequality x -> meets tolerance env x.
Proof.
  intros Hg HF (S1 & S2 & S3) Hcl Hx Hi. destruct (feasible_values _ _ HF) as (Hl & Hv & Hle).
  cbn [so_sgp so_vals] in S3.
  destruct x as [[| |h]|h]; try exact I; [|contradiction].
  destruct (Hcons h (or_introl Hx)) as [Hc _]. destruct (Hcl h Hx) as [Hcl1 Hcl2].
  destruct (posy_negy h) as [P N] eqn:EPN. cbn [fst snd] in Hcl1.
  assert (He : positive_point env) by (intros k; apply Rltb_true, S1).
  destruct (sides h P N env (proj1 Hc) EPN He) as [-> ->] || idtac.
  unfold meets. destruct (sides h P N env (proj1 Hc) EPN He) as [-> ->]. apply at_most_le.
  set (env1 := point1 (sg_gp s) vals env).
  assert (Hnd : NoDup (dkeys (g_varlocs (sg_gp s)))) by apply (gd_inv _ _ _ _ _ _ _ _ _ _ _ Hg).
  assert (He1 : positive_point env1) by (apply point1_pos; auto).
  assert (Hov : override env1 fixed = env).
  { apply FunctionalExtensionality.functional_extensionality. intros k. unfold override.
    destruct (fixed !! k) as [v|] eqn:Ek; [symmetry; auto|]. unfold env1, point1.
    destruct (position _ k) as [j|] eqn:Ep; auto. apply position_in in Ep. apply nth_lookup_Some. auto. }
  destruct (gd_parts _ _ _ _ _ _ _ _ _ _ _ Hg) as (first & cost' & c0 & g & G & hs & A & P1 & Ea & EA & Eh).
  assert (Hall : forall b h, In (b, h) (map (pair false) A ++ G) -> eval env1 h <= 1).
  { intros b u Hin. apply elem_of_list_In, elem_of_list_lookup in Hin as [p Hp].
    assert (Hp' : sg_hmaps s !! S p = Some (b, u)) by (rewrite Eh; exact Hp).
    unfold env1. rewrite <- (hmaps_at s vals env Hg Hl Hv _ _ _ Hp'). apply Hle. split; [lia|].
    rewrite (mi_k _ _ _ _ _ (gd_inv _ _ _ _ _ _ _ _ _ _ _ Hg)), map_length. eapply lookup_lt_Some; eauto. }
  pose proof (pa_first _ _ _ _ _ _ _ _ _ _ _ _ _ _ P1) as Ef. cbn in Ef. injection Ef as <-.
  pose proof (pa_G _ _ _ _ _ _ _ _ _ _ _ _ _ _ P1) as EG. cbn [app] in EG.
  pose proof (pa_sorts _ _ _ _ _ _ _ _ _ _ _ _ _ _ P1) as Hso.
  assert (Hu : forall u, In u hs -> usable None u).
  { intros u Hu. eapply (approx_usable inf pick vks_of se Hvks Hpick None cs fixed Hcons); [exact Hso|apply Hg|exact Ea|exact Hu]. }
  destruct (chain_posys inf pick se Hpick fixed Hf hs Hu A env1 He1 EA) as [C1 _].
  assert (C : forall u, In u hs -> eval env u <= 1 + tolerance).
  { rewrite Hov in C1. apply C1. intros v Hin. apply (Hall false). apply in_app_iff. left. apply in_map. auto. }
  destruct (sorts_sig inf pick se fixed cs g (sg_cons s) h Hso Hx) as [Hin|Hin].
  - destruct (chain_sig inf pick se fixed g G h EG Hin) as (out & Eo & Ho).
    rewrite <- Hov. apply (sig_within inf (pick fixed) fixed Hf (Hpick fixed) se h P N out env1 Hc Hcl2 Eo EPN He1).
    intros v Hin2. apply (Hall false). apply in_app_iff. right. auto.
  - destruct (approx_all_In inf pick vks_of se (sg_x0 s) (sg_cons s) hs (SIneq h) Ea Hin) as (l & El & Hl2).
    apply (approx_ineq inf pick vks_of se Hvks Hpick (sg_x0 s) h P N l Hc (gd_x0 _ _ _ _ _ _ _ _ _ _ _ Hg) EPN Hcl1 El env He).
    intros u Hin2. apply C, Hl2. auto.
Qed.

(** ** What an update keeps *)
Lemma sorts_det l g c : sorts inf pick se fixed l g c -> forall g' c', sorts inf pick se fixed l g' c' -> g' = g /\ c' = c.
Proof.
  induction 1; intros g' c' H'; inversion H'; subst; auto; try congruence;
    (destruct (IHsorts _ _ ltac:(eassumption)) as [-> ->]; auto).
Qed.
Lemma parts_det f1 k1 c1 g1 x1 G1 f2 k2 c2 g2 x2 G2 :
  parts inf pick se None penalty cost cs fixed f1 k1 c1 g1 x1 G1 -> parts inf pick se None penalty cost cs fixed f2 k2 c2 g2 x2 G2 ->
  c1 = c2 /\ g1 = g2 /\ x1 = x2 /\ G1 = G2.
Proof.
  intros [A1 A2 A3 A4 A5 (s1 & A6 & A7 & A8) A9] [B1 B2 B3 B4 B5 (s2 & B6 & B7 & B8) B9].
  destruct (sorts_det _ _ _ A4 _ _ B4) as [-> ->]. cbn in A2, B2. injection A2 as <-. injection B2 as <-.
  assert (k1 = k2) as -> by congruence. assert (s1 = s2) as -> by congruence. repeat split; congruence.
Qed.

Lemma put_posys_varlocs hs : forall s p s', put_posys inf pick ord se s p hs = Ok s' -> g_varlocs (sg_gp s') = g_varlocs (sg_gp s).
Proof.
  induction hs as [|h hs IH]; intros s p s' E; cbn [put_posys] in E; [injection E as <-; auto|].
  apply rbind_ok in E as (s1 & E1 & E). apply IH in E. rewrite E.
  unfold put_posy in E1. destruct (sg_approx s !! p) as [a|] eqn:Ea; [|discriminate].
  apply rbind_ok in E1 as (u & E2 & E1). apply rbind_ok in E1 as (r & E3 & E1).
  destruct (snd r) as [|hh [|? ?]]; try discriminate. destruct (length (sg_hmaps s) <=? S p)%nat; [discriminate|].
  destruct (g_midxs (sg_gp s) !! S p) as [[m t]|]; [|discriminate]. apply rbind_ok in E1 as ([g st] & E4 & E1). injection E1 as <-.
  cbn [sg_gp g_varlocs]. apply put_terms_keeps in E4. tauto.
Qed.
Lemma update_varlocs s x0 s' : update s x0 = Ok s' -> g_varlocs (sg_gp s') = g_varlocs (sg_gp s).
Proof.
  unfold update, sgp_gp. destruct (decide (x0 = ∅)); [intros [= <-]; auto|]. intros E.
  apply put_all_flat in E as (hs & _ & E). apply put_posys_varlocs in E. auto.
Qed.

(** ** Descent *)
Lemma descent s vals c s' vals' c' :
  good s -> gp_optimum (sg_gp s) vals c -> update s (x0_dict (sg_gp s) vals) = Ok s' ->
  good s' -> gp_optimum (sg_gp s') vals' c' ->
  (forall k, In k (dkeys (g_varlocs (sg_gp s))) -> fixed !! k = None) -> columns_listed cs s ->
  (forall k v, fixed !! k = Some v -> sg_x0 s !! k = Some v) ->
  (forall h, In (SPc (CSig h)) cs -> forall me mc, let negy := snd (posy_negy h) in let x0 := x0_of (sg_x0 s') (vks_of negy) in
      mono_approx inf x0 (pick x0) se negy (vks_of negy) = Ok [(me, mc)] -> no_clash (fst (posy_negy h)) me) ->
  (forall env x, solution_point fixed (SOL s vals c) env -> In x cs -> meets 0 env x) ->
  c' <= c.
Proof.
  intros Hg (HF & Hc & _) Eu Hg' (HF' & Hc' & Hopt) Hfree Hlist Hfx Hcl Hmeets.
  apply Rleb_true. rewrite Hc.
  destruct (decide (x0_dict (sg_gp s) vals = ∅)) as [He|Hne].
  { unfold update, sgp_gp in Eu. rewrite decide_True in Eu by auto. injection Eu as <-. apply Hopt. auto. }
  destruct (feasible_values _ _ HF) as (Hl & Hv & Hle).
  pose proof (update_varlocs _ _ _ Eu) as Evl.
  assert (Hnd : NoDup (dkeys (g_varlocs (sg_gp s)))) by apply (gd_inv _ _ _ _ _ _ _ _ _ _ _ Hg).
  assert (Hx : forall k v, x0_dict (sg_gp s) vals !! k = Some v -> 0 < v).
  { intros k v. rewrite x0_dict_lookup by auto. destruct (position _ k) as [j|]; [|discriminate]. intros [= <-].
    destruct (nth_in_or_default j vals 1) as [Hin| ->]; [auto|lra]. }
  destruct (good_step0 inf pick vks_of ord se Hord Hvks Hpick None penalty cost cs fixed Hcons s _ s' Hg Hx Eu Hne) as (Ex & _ & _ & _).
  set (env := fun k => default 1 (sg_x0 s' !! k)).
  set (env1 := point1 (sg_gp s) vals env).
  assert (Hp0 : positive_point env).
  { intros k. unfold env. destruct (sg_x0 s' !! k) as [v|] eqn:E; cbn; [|lra]. exact (gd_x0 _ _ _ _ _ _ _ _ _ _ _ Hg' k v E). }
  assert (Hp1 : positive_point env1) by (apply point1_pos; auto).
  assert (HpO : positive_point (override env1 fixed)) by (apply override_positive; auto).
  assert (Hsol : solution_point fixed (SOL s vals c) (override env1 fixed)).
  { split; [|split].
    - intros k. apply Rltb_true. apply HpO.
    - intros k v Hk. unfold override. rewrite Hk. auto.
    - cbn [so_sgp so_vals]. intros j k Hj Hk. unfold override. rewrite Hk. apply point1_column; auto. }
  assert (Hag : forall k, sp_var cs k -> override env1 fixed k = override (fun _ => 1) (sg_x0 s') k).
  { intros k Hk. unfold override at 1. destruct (fixed !! k) as [v|] eqn:Ek.
    - unfold override. rewrite Ex, x0_update_lookup, x0_dict_lookup by auto.
      assert (position (dkeys (g_varlocs (sg_gp s))) k = None) as ->.
      { destruct (position _ k) as [j|] eqn:E; auto. apply position_in in E.
        rewrite Hfree in Ek; [discriminate|]. apply elem_of_list_In, elem_of_list_lookup_2 with j. auto. }
      rewrite (Hfx k v Ek). destruct (in_dec _ _ _); auto.
    - unfold env1, point1. destruct (position _ k) as [j|] eqn:E.
      + unfold override. rewrite Ex, x0_update_lookup, x0_dict_lookup, E by auto.
        destruct (in_dec _ _ _) as [|Hn]; auto. exfalso. apply Hn, Hlist; auto. apply position_in in E.
        apply elem_of_list_In, elem_of_list_lookup_2 with j. auto.
      + unfold env, override. destruct (sg_x0 s' !! k); auto. }
  assert (Hpt : forall e, point1 (sg_gp s') vals e = point1 (sg_gp s) vals e).
  { intros e. apply FunctionalExtensionality.functional_extensionality. intros k. unfold point1. rewrite Evl. auto. }
  destruct (gd_parts _ _ _ _ _ _ _ _ _ _ _ Hg) as (f1 & k1 & c1 & g1 & G1 & hs1 & A1 & P1 & _ & _ & Eh1).
  destruct (gd_parts _ _ _ _ _ _ _ _ _ _ _ Hg') as (f2 & k2 & c2 & g2 & G2 & hs2 & A2 & P2 & Ea2 & EA2 & Eh2).
  destruct (parts_det _ _ _ _ _ _ _ _ _ _ _ _ P1 P2) as (<- & <- & _ & <-).
  assert (H0 : posy_at (sg_gp s') vals 0 = posy_at (sg_gp s) vals 0).
  { rewrite (hmaps_at s vals env Hg Hl Hv 0 false c1), (hmaps_at s' vals env Hg' ltac:(rewrite Evl; auto) Hv 0 false c1), Hpt; auto;
      rewrite ?Eh1, ?Eh2; auto. }
  rewrite <- H0. apply Hopt. split; [rewrite Evl; auto|]. split; [intros x Hi; apply Rltb_true; auto|].
  intros p Hp. apply Rleb_true.
  rewrite (mi_k _ _ _ _ _ (gd_inv _ _ _ _ _ _ _ _ _ _ _ Hg')), map_length in Hp.
  destruct (lookup_lt_is_Some_2 (sg_hmaps s') p (proj2 Hp)) as [[b u] Eu2].
  rewrite (hmaps_at s' vals env Hg' ltac:(rewrite Evl; auto) Hv p b u Eu2), Hpt. fold env1.
  assert (Hin : In (b, u) (map (pair false) A2 ++ G1)).
  { destruct p as [|p]; [lia|]. rewrite Eh2 in Eu2. apply elem_of_list_In, elem_of_list_lookup_2 with p. exact Eu2. }
  apply in_app_iff in Hin as [Hin|Hin].
  - apply in_map_iff in Hin as (v & [= <- <-] & Hin).
    pose proof (pa_sorts _ _ _ _ _ _ _ _ _ _ _ _ _ _ P2) as Hso.
    assert (Hu : forall u, In u hs2 -> usable None u).
    { intros w Hw. eapply (approx_usable inf pick vks_of se Hvks Hpick None cs fixed Hcons); [exact Hso|apply Hg'|exact Ea2|exact Hw]. }
    destruct (chain_posys inf pick se Hpick fixed Hf hs2 Hu A2 env1 Hp1 EA2) as [_ C2]. apply C2; auto.
    intros h Hh. destruct (approx_all_from inf pick vks_of se (sg_x0 s') (sg_cons s') hs2 h Ea2 Hh) as (x & l & Hx2 & El & Hl2).
    pose proof (sorts_from inf pick se fixed cs g1 (sg_cons s') x Hso Hx2) as Hin2.
    destruct x as [z|z].
    + destruct (Hcons z (or_introl Hin2)) as [Hcan _]. specialize (Hcl z Hin2). specialize (Hmeets _ _ Hsol Hin2). unfold meets in Hmeets.
      destruct (posy_negy z) as [P N] eqn:EPN. cbn [fst snd] in Hcl.
      destruct (sides z P N _ (proj1 Hcan) EPN HpO) as [Es1 Es2]. rewrite Es1, Es2, at_most_le in Hmeets.
      apply (approx_ineq inf pick vks_of se Hvks Hpick (sg_x0 s') z P N l Hcan (gd_x0 _ _ _ _ _ _ _ _ _ _ _ Hg') EPN Hcl El _ HpO); auto; [|lra].
      intros k Hk. apply Hag. exists z. split; [auto|]. eapply posy_negy_vars; eauto.
    + destruct (Hcons z (or_intror Hin2)) as [Hcan _]. specialize (Hmeets _ _ Hsol Hin2). unfold meets in Hmeets.
      destruct (posy_negy z) as [P N] eqn:EPN.
      destruct (sides z P N _ (proj1 Hcan) EPN HpO) as [Es1 Es2]. rewrite Es1, Es2, !at_most_le in Hmeets.
      apply (approx_equal inf pick vks_of se Hvks Hpick (sg_x0 s') z P N l Hcan (gd_x0 _ _ _ _ _ _ _ _ _ _ _ Hg') EPN El _ HpO); auto; [|lra].
      intros k Hk. apply Hag. exists z. split; [auto|]. eapply posy_negy_vars; eauto.
  - assert (Hin2 : In (b, u) (map (pair false) A1 ++ G1)) by (apply in_app_iff; auto).
    apply elem_of_list_In, elem_of_list_lookup in Hin2 as [q Hq].
    assert (Hq' : sg_hmaps s !! S q = Some (b, u)) by (rewrite Eh1; exact Hq).
    unfold env1. rewrite <- (hmaps_at s vals env Hg Hl Hv _ _ _ Hq'). apply Hle. split; [lia|].
    rewrite (mi_k _ _ _ _ _ (gd_inv _ _ _ _ _ _ _ _ _ _ _ Hg)), map_length. eapply lookup_lt_Some; eauto.
Qed.

(** ** Runs *)
Variable solver : solver_fn R.
Inductive run (s0 : sgp R) (x00 : gmap nat R) : sgp R -> gmap nat R -> list (solved R) -> Prop :=
| run_start : run s0 x00 s0 x00 []
| run_step s x0 hist s' vals c : run s0 x00 s x0 hist -> update s x0 = Ok s' -> solver (length hist) (sg_gp s') = Ok (vals, c) ->
    run s0 x00 s' (x0_dict (sg_gp s') vals) (hist ++ [SOL s' vals c]).

Lemma loop_run s0 x00 verbosity limit reltol fuel : forall s x0 pc rel hist out,
  run s0 x00 s x0 hist -> made (local_loop inf pick vks_of ord se solver verbosity limit reltol fuel s x0 pc rel hist) out ->
  exists s' x0', run s0 x00 s' x0' out.
Proof.
  induction fuel as [|fuel IH]; intros s x0 pc rel hist out Hr Hm; cbn [local_loop] in Hm.
  - destruct rel as [r|]; [destruct (nltb reltol r)|]; destruct Hm as [Hm|[e Hm]]; try discriminate. injection Hm as <-. eauto.
  - assert (Hdone : forall e h, made (Raised e h) out -> h = out) by (intros e h [Hm'|[e' Hm']]; [discriminate|congruence]).
    match type of Hm with made (match rel with None => ?go | Some _ => _ end) _ => assert (Hgo : made go out \/ hist = out) end.
    { destruct rel as [r|]; [|auto]. destruct (nltb reltol r); auto. right. destruct Hm as [Hm|[e Hm]]; congruence. }
    clear Hm. destruct Hgo as [Hm| <-]; [|eauto].
    destruct (limit <? Z.of_nat (length hist))%Z; [apply Hdone in Hm as <-; eauto|].
    destruct (sgp_gp inf pick vks_of ord se s x0) as [s'|x] eqn:Es; [|apply Hdone in Hm as <-; eauto].
    destruct (solver (length hist) (sg_gp s')) as [[vals c]|x] eqn:Ev; [|apply Hdone in Hm as <-; eauto].
    assert (Hr' : run s0 x00 s' (x0_dict (sg_gp s') vals) (hist ++ [SOL s' vals c])) by (econstructor; eauto).
    destruct pc as [pc|]; [|eapply IH; eauto].
    destruct (decide _); [apply Hdone in Hm as <-; eauto|].
    destruct (_ && _); [|eapply IH; eauto]. destruct (decide _); [apply Hdone in Hm as <-; eauto|eapply IH; eauto].
Qed.

Hypothesis Hsolver : optimal_solver solver.

Lemma dict_pos (g : gpdata R) vals k v : (forall x, In x vals -> 0 < x) -> x0_dict g vals !! k = Some v -> 0 < v.
Proof.
  unfold x0_dict. intros Hv Hk. apply elem_of_list_to_map_2, elem_of_list_In in Hk. apply in_combine_r in Hk. auto.
Qed.

Lemma run_good s0 x00 s x0 hist : good s0 -> (forall k v, x00 !! k = Some v -> 0 < v) -> run s0 x00 s x0 hist ->
  always build steady hist ->
  good s /\ (forall k v, x0 !! k = Some v -> 0 < v) /\
  (forall a, In a hist -> good (so_sgp a) /\ gp_optimum (sg_gp (so_sgp a)) (so_vals a) (so_cost a)).
Proof.
  intros Hg0 Hx0. induction 1 as [|s x0 hist s' vals c Hr IH Eu Ev]; intros Hal; [split; [auto|split; [auto|intros a []]]|].
  destruct IH as (Hg & Hx & Hh); [intros a f Hin; apply Hal, in_app_iff; auto|].
  pose proof (Hsolver _ _ _ _ Ev) as Hopt.
  assert (Hg' : good s').
  { destruct (decide (x0 = ∅)) as [->|Hne].
    - unfold update, sgp_gp in Eu. rewrite decide_True in Eu by auto. injection Eu as <-. auto.
    - destruct (good_rebuild inf pick vks_of ord se Hord Hvks Hpick None penalty cost cs fixed Hcons s x0 s' Hg Hx Eu Hne) as (f & Ef & Hst).
      apply Hst. apply (Hal (SOL s' vals c) f); [apply in_app_iff; right; left; auto|exact Ef]. }
  split; [auto|]. split.
  - intros k v. apply dict_pos. intros y Hy. apply Rltb_true. apply Hopt. auto.
  - intros a Hin. apply in_app_iff in Hin as [Hin|[<-|[]]]; auto.
Qed.

Lemma update_keeps s x0 s' : good s -> (forall k v, x0 !! k = Some v -> 0 < v) -> update s x0 = Ok s' ->
  sg_vks s' = sg_vks s /\ (forall k, x0 !! k = None -> sg_x0 s' !! k = sg_x0 s !! k).
Proof.
  intros Hg Hx Eu. destruct (decide (x0 = ∅)) as [->|Hne].
  - unfold update, sgp_gp in Eu. rewrite decide_True in Eu by auto. injection Eu as <-. auto.
  - destruct (good_step0 inf pick vks_of ord se Hord Hvks Hpick None penalty cost cs fixed Hcons s _ s' Hg Hx Eu Hne) as (Ex & _ & Ek & _).
    split; [auto|]. intros k Hk. rewrite Ex, x0_update_lookup, Hk. destruct (in_dec _ _ _); auto.
Qed.

Lemma run_descends s0 x00 s x0 hist : good s0 -> (forall k v, x00 !! k = Some v -> 0 < v) -> run s0 x00 s x0 hist ->
  always build steady hist ->
  (forall k, In k (dkeys (g_varlocs (sg_gp s0))) -> fixed !! k = None) -> columns_listed cs s0 ->
  (forall k v, fixed !! k = Some v -> sg_x0 s0 !! k = Some v) -> apart x00 fixed ->
  (forall a h, In a hist -> In (SPc (CSig h)) cs -> forall me mc, let negy := snd (posy_negy h) in
      let x0 := x0_of (sg_x0 (so_sgp a)) (vks_of negy) in
      mono_approx inf x0 (pick x0) se negy (vks_of negy) = Ok [(me, mc)] -> no_clash (fst (posy_negy h)) me) ->
  (g_varlocs (sg_gp s) = g_varlocs (sg_gp s0) /\ sg_vks s = sg_vks s0 /\ (forall k v, fixed !! k = Some v -> sg_x0 s !! k = Some v) /\
   apart x0 fixed /\ (forall l a, hist = l ++ [a] -> s = so_sgp a /\ x0 = x0_dict (sg_gp s) (so_vals a))) /\
  (forall l1 a b l2, hist = l1 ++ a :: b :: l2 ->
    (forall env x, solution_point fixed a env -> In x cs -> meets 0 env x) -> so_cost b <= so_cost a).
Proof.
  intros Hg0 Hx0 Hr Hal Hfree Hlist Hfx Hap Hcl. revert Hal Hcl.
  induction Hr as [|s x0 hist s' vals c Hr IH Eu Ev]; intros Hal Hcl.
  - split; [split; [auto|split; [auto|split; [auto|split; [auto|]]]]|].
    + intros l a Hl. destruct l; discriminate.
    + intros [|] a b l2 Hl; discriminate.
  - assert (Hal' : always build steady hist) by (intros a f Hin; apply Hal, in_app_iff; auto).
    destruct IH as ((I1 & I2 & I3 & I4 & I5) & ID); auto; [intros a h Hin; apply Hcl, in_app_iff; auto|].
    destruct (run_good s0 x00 s x0 hist Hg0 Hx0 Hr Hal') as (Hg & Hx & Hh).
    destruct (run_good s0 x00 s' _ _ Hg0 Hx0 (run_step _ _ _ _ _ _ _ _ Hr Eu Ev) Hal) as (Hg' & Hx' & Hh').
    destruct (update_keeps s x0 s' Hg Hx Eu) as [K1 K2]. pose proof (update_varlocs _ _ _ Eu) as K3.
    pose proof (Hsolver _ _ _ _ Ev) as Hopt.
    split; [split; [congruence|split; [congruence|split; [|split]]]|].
    + intros k v Hk. rewrite K2; auto. destruct (x0 !! k) eqn:E; auto. rewrite (I4 k) in Hk; congruence.
    + intros k Hk. rewrite x0_dict_lookup in Hk; [|apply (gd_inv _ _ _ _ _ _ _ _ _ _ _ Hg')|apply Hopt].
      destruct (position _ k) as [j|] eqn:E; [|congruence]. apply position_in in E. apply Hfree. rewrite <- I1, <- K3.
      apply elem_of_list_In, elem_of_list_lookup_2 with j. auto.
    + intros l a E. apply app_inj_tail in E as [_ <-]. auto.
    + intros l1 a b l2 E Hm. destruct l2 as [|z l2 _] using rev_ind.
      * assert (E' : hist ++ [SOL s' vals c] = (l1 ++ [a]) ++ [b]) by (rewrite E, <- app_assoc; auto).
        apply app_inj_tail in E' as [-> <-]. cbn [so_cost].
        destruct (I5 l1 a eq_refl) as [-> ->]. destruct a as [sa va ca]. cbn [so_sgp so_vals so_cost] in *.
        destruct (Hh (SOL sa va ca)) as [_ Ho]; [apply in_app_iff; right; left; auto|]. cbn [so_sgp so_vals so_cost] in Ho.
        refine (descent sa va ca s' vals c Hg Ho Eu Hg' Hopt _ _ I3 _ Hm).
        -- rewrite I1. auto.
        -- unfold columns_listed. rewrite I1, I2. exact Hlist.
        -- intros h Hin. apply (Hcl (SOL s' vals c) h); auto. apply in_app_iff. right. left. auto.
      * assert (E' : hist ++ [SOL s' vals c] = (l1 ++ a :: b :: l2) ++ [z]) by (rewrite E, <- app_assoc; auto).
        apply app_inj_tail in E' as [E' _]. apply (ID l1 a b l2); auto.
Qed.
End Run.
