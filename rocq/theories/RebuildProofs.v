(** An updated program is the one built anew (C38). *)
From Verif Require Import Base HashVec HashVecProofs Nomial NomialSem NomialProofs CanonProofs DiffProofs Sub SubSem SubProofs SubExtra
  Mono MonoProofs Constraint ConstraintSem ConstraintProofs GPGen GPGenProofs SGP SGPSem SGPProofs ApproxProofs.
Open Scope R_scope.

Section Rebuild.
Variables (inf : R) (pick : gmap nat R -> hmap R -> schedule) (vks_of : hmap R -> list nat) (ord : var_order R) (se : bool).
Hypothesis Hord : forall e, List.NoDup (ord e) /\ forall k, In k (ord e) <-> e !! k <> None.
Hypothesis Hvks : forall h, NoDup (vks_of h) /\ forall k, In k (vks_of h) <-> in_vks h k = true.
Hypothesis Hpick : forall x0 h, valid_schedule x0 h (pick x0 h).
Variables (slack : option nat) (penalty : R) (cost : hmap R) (cs : list (sp_constr R)) (fixed : gmap nat R).

(** ** Sorting the constraints does not depend on the point *)
Inductive sorts : list (sp_constr R) -> list (constr R) -> list (scons R) -> Prop :=
| so_nil : sorts [] [] []
| so_eq s l g c : sorts l g c -> sorts (SPeq s :: l) g (SEqual s :: c)
| so_gp s l g c r : sig_as_hmapslt1 inf (pick fixed) se fixed s = Ok r -> sorts l g c ->
    sorts (SPc (CSig s) :: l) (CSig s :: g) c
| so_sp s l g c : sig_as_hmapslt1 inf (pick fixed) se fixed s = Err InvalidGPConstraintE -> sorts l g c ->
    sorts (SPc (CSig s) :: l) g (SIneq s :: c)
| so_posy st us l g c : sorts l g c -> sorts (SPc (CPosy st us) :: l) (CPosy st us :: g) c
| so_meq st us l g c : sorts l g c -> sorts (SPc (CMeq st us) :: l) (CMeq st us :: g) c.

Lemma add_approx_app a b : forall st st', add_approx vks_of se slack (a ++ b) st = Ok st' ->
  exists st1, add_approx vks_of se slack a st = Ok st1 /\ add_approx vks_of se slack b st1 = Ok st'.
Proof.
  induction a as [|h a IH]; intros st st' E; cbn [app add_approx] in *; [eauto|].
  apply rbind_ok in E as (us & E1 & E). rewrite E1. cbn [rbind]. apply IH in E as (st1 & E2 & E3). eauto.
Qed.
Lemma add_approx_app2 a b : forall st st1 st', add_approx vks_of se slack a st = Ok st1 ->
  add_approx vks_of se slack b st1 = Ok st' -> add_approx vks_of se slack (a ++ b) st = Ok st'.
Proof.
  induction a as [|h a IH]; intros st st1 st' E1 E2; cbn [app add_approx] in *; [congruence|].
  apply rbind_ok in E1 as (us & E0 & E1). rewrite E0. cbn [rbind]. eapply IH; eauto.
Qed.

Lemma sort_sorts x0 l : forall gpc sc st gpc' sc' st',
  sort_constrs inf pick vks_of se slack fixed x0 l gpc sc st = Ok (gpc', sc', st') ->
  exists g c hs, sorts l g c /\ gpc' = gpc ++ g /\ sc' = sc ++ c /\
    approx_all inf pick vks_of se x0 c = Ok hs /\ add_approx vks_of se slack hs st = Ok st'.
Proof.
  induction l as [|a l IH]; intros gpc sc st gpc' sc' st' E; cbn [sort_constrs] in E.
  - injection E as <- <- <-. exists [], [], []. rewrite !app_nil_r. repeat split; auto. constructor.
  - assert (Happ : forall s, (let! hs := approx_hmaps inf pick vks_of se x0 s in
                   let! st1 := add_approx vks_of se slack hs st in
                   sort_constrs inf pick vks_of se slack fixed x0 l gpc (sc ++ [s]) st1) = Ok (gpc', sc', st') ->
       exists g c hs, sorts l g c /\ gpc' = gpc ++ g /\ sc' = sc ++ s :: c /\
         approx_all inf pick vks_of se x0 (s :: c) = Ok hs /\ add_approx vks_of se slack hs st = Ok st').
    { intros s E'. apply rbind_ok in E' as (hs & E1 & E'). apply rbind_ok in E' as (st1 & E2 & E').
      apply IH in E' as (g & c & hs2 & H1 & H2 & H3 & H4 & H5). exists g, c, (hs ++ hs2). split; [auto|]. split; [auto|].
      split; [rewrite H3, <- app_assoc; auto|]. split; [cbn [approx_all]; rewrite E1; cbn [rbind]; rewrite H4; auto|].
      eapply add_approx_app2; eauto. }
    destruct a as [c|s].
    + destruct c as [st0 us|st0 us|s].
      * apply IH in E as (g & c & hs & H1 & H2 & H3 & H4 & H5). exists (CPosy st0 us :: g), c, hs.
        split; [constructor; auto|]. rewrite H2, <- app_assoc. auto.
      * apply IH in E as (g & c & hs & H1 & H2 & H3 & H4 & H5). exists (CMeq st0 us :: g), c, hs.
        split; [constructor; auto|]. rewrite H2, <- app_assoc. auto.
      * destruct (sig_as_hmapslt1 inf (pick fixed) se fixed s) as [r|x] eqn:Es.
        -- apply IH in E as (g & c & hs & H1 & H2 & H3 & H4 & H5). exists (CSig s :: g), c, hs.
           split; [econstructor; eauto|]. rewrite H2, <- app_assoc. auto.
        -- destruct x; try discriminate. apply Happ in E as (g & c & hs & H1 & H2 & H3 & H4 & H5).
           exists g, (SIneq s :: c), hs. split; [constructor; auto|auto].
    + apply Happ in E as (g & c & hs & H1 & H2 & H3 & H4 & H5). exists g, (SEqual s :: c), hs. split; [constructor; auto|auto].
Qed.

Lemma sorts_sort x0 l g c : sorts l g c -> forall hs gpc sc st st',
  approx_all inf pick vks_of se x0 c = Ok hs -> add_approx vks_of se slack hs st = Ok st' ->
  sort_constrs inf pick vks_of se slack fixed x0 l gpc sc st = Ok (gpc ++ g, sc ++ c, st').
Proof.
  assert (Happ : forall s l g c, (forall hs gpc sc st st',
      approx_all inf pick vks_of se x0 c = Ok hs -> add_approx vks_of se slack hs st = Ok st' ->
      sort_constrs inf pick vks_of se slack fixed x0 l gpc sc st = Ok (gpc ++ g, sc ++ c, st')) ->
    forall hs gpc sc st st', approx_all inf pick vks_of se x0 (s :: c) = Ok hs -> add_approx vks_of se slack hs st = Ok st' ->
    (let! hs := approx_hmaps inf pick vks_of se x0 s in
     let! st1 := add_approx vks_of se slack hs st in
     sort_constrs inf pick vks_of se slack fixed x0 l gpc (sc ++ [s]) st1) = Ok (gpc ++ g, sc ++ s :: c, st')).
  { intros s l0 g0 c0 IH hs gpc sc st st' E1 E2. cbn [approx_all] in E1. apply rbind_ok in E1 as (a & Ea & E1).
    apply rbind_ok in E1 as (b & Eb & E1). injection E1 as <-. rewrite Ea. cbn [rbind].
    apply add_approx_app in E2 as (st1 & E2 & E3). rewrite E2. cbn [rbind].
    rewrite (IH b gpc (sc ++ [s]) st1 st' Eb E3), <- app_assoc. auto. }
  induction 1 as [|s l g c Hs IH|s l g c r Hr Hs IH|s l g c Hr Hs IH|st0 us l g c Hs IH|st0 us l g c Hs IH];
    intros hs gpc sc st st' E1 E2; cbn [sort_constrs].
  - cbn in E1. injection E1 as <-. cbn in E2. injection E2 as <-. rewrite !app_nil_r. auto.
  - eapply Happ; eauto.
  - rewrite Hr. rewrite (IH hs (gpc ++ [CSig s]) sc st st' E1 E2), <- app_assoc. auto.
  - rewrite Hr. eapply Happ; eauto.
  - rewrite (IH hs (gpc ++ [CPosy st0 us]) sc st st' E1 E2), <- app_assoc. auto.
  - rewrite (IH hs (gpc ++ [CMeq st0 us]) sc st st' E1 E2), <- app_assoc. auto.
Qed.

(** ** The parts of a build *)
Lemma sorts_In l g c x : sorts l g c -> In x c -> In (SPc (CSig (sig_of x))) l \/ In (SPeq (sig_of x)) l.
Proof.
  induction 1; cbn; try tauto; intros [<-|Hx] || intros Hx; cbn; auto; try (apply IHsorts in Hx; tauto).
Qed.

Hypothesis Hcons : forall s, In (SPc (CSig s)) cs \/ In (SPeq s) cs -> canonical s /\ fresh slack s.
Hypothesis Hfixed : forall k v, fixed !! k = Some v -> 0 < v.

Definition usable (h : hmap R) : Prop :=
  canonical h /\ all_positive h /\ dget h e_empty = None /\ h <> [] /\ fresh slack h.

Lemma approx_usable x0 g c hs h : sorts cs g c -> (forall k v, x0 !! k = Some v -> 0 < v) ->
  approx_all inf pick vks_of se x0 c = Ok hs -> In h hs -> usable h.
Proof.
  intros Hs Hx. assert (Hc : forall x, In x c -> canonical (sig_of x) /\ fresh slack (sig_of x)).
  { intros x Hin. apply Hcons. eapply sorts_In; eauto. }
  clear Hs g. revert hs. induction c as [|x c IH]; intros hs E Hin; cbn [approx_all] in E.
  - injection E as <-. contradiction.
  - apply rbind_ok in E as (a & Ea & E). apply rbind_ok in E as (b & Eb & E). injection E as <-.
    apply in_app_iff in Hin as [Hin|Hin]; [|eapply IH; eauto; intros y Hy; apply Hc; right; auto].
    destruct (Hc x (or_introl eq_refl)) as [H1 H2].
    destruct (approx_nice inf pick vks_of se Hvks Hpick x0 x a h H1 Hx Ea Hin) as (A1 & A2 & A3 & A4 & A5).
    repeat (split; auto). unfold fresh in *. destruct slack as [k|]; auto. destruct (in_vks h k) eqn:E; auto. apply A5 in E. congruence.
Qed.

Definition overs (hs : list (hmap R)) : list (list (hmap R)) := map (fun h => [over_hmap slack h]) hs.
Lemma add_approx_ok hs : (forall h, In h hs -> usable h) -> forall st, exists v,
  add_approx vks_of se slack hs st = Ok (fst st ++ overs hs, v).
Proof.
  induction hs as [|h hs IH]; intros Hu st; cbn [add_approx overs map].
  - exists (snd st). rewrite app_nil_r. destruct st; auto.
  - destruct (Hu h (or_introl eq_refl)) as (H1 & H2 & H3 & H4 & H5). rewrite le_slack_ok by auto. cbn [rbind].
    destruct (IH (fun h Hh => Hu h (or_intror Hh)) (fst st ++ [[over_hmap slack h]],
      supdate (supdate (snd st) (vks_of h)) (vks_of (slack_hmap slack)))) as [v E]. exists v. rewrite E. cbn [fst].
    rewrite <- app_assoc. auto.
Qed.

Definition chain := chain_hmaps inf (pick fixed) se fixed.
Lemma chain_app a : forall b r, chain (a ++ b) = Ok r -> exists ra rb, chain a = Ok ra /\ chain b = Ok rb /\ r = ra ++ rb.
Proof.
  unfold chain. induction a as [|c a IH]; intros b r E; cbn [app chain_hmaps] in *.
  - exists [], r. auto.
  - apply rbind_ok in E as (x & E1 & E). apply rbind_ok in E as (y & E2 & E). injection E as <-.
    apply IH in E2 as (ra & rb & E2 & E3 & ->). exists (x ++ ra), rb. rewrite E1. cbn [rbind]. rewrite E2. cbn [rbind].
    rewrite <- app_assoc. auto.
Qed.
Lemma chain_app2 a : forall b ra rb, chain a = Ok ra -> chain b = Ok rb -> chain (a ++ b) = Ok (ra ++ rb).
Proof.
  unfold chain. induction a as [|c a IH]; intros b ra rb E1 E2; cbn [app chain_hmaps] in *.
  - injection E1 as <-. auto.
  - apply rbind_ok in E1 as (x & E3 & E1). apply rbind_ok in E1 as (y & E4 & E1). injection E1 as <-. rewrite E3. cbn [rbind].
    rewrite (IH _ _ _ E4 E2). cbn [rbind]. rewrite <- app_assoc. auto.
Qed.

(** What does not depend on the point. *)
Record parts (first : list (constr R)) (cost' c0 : hmap R) (g : list (constr R)) (c : list (scons R))
    (G : list (bool * hmap R)) : Prop := {
  pa_cost : any_nonpositive cost = false;
  pa_first : match slack with
             | None => Ok []
             | Some k => let! us := posy_ineq se (var_hmap k) OpGe (num_hmap n1) in Ok [CPosy (CS None None) us]
             end = Ok first;
  pa_cost' : slack_cost se slack penalty cost = Ok cost';
  pa_sorts : sorts cs g c;
  pa_some : c <> [];
  pa_c0 : exists st, nm_sub inf fixed cost' (pick fixed cost') = Ok st /\ c0 = s_cp st /\ any_nonpositive c0 = false;
  pa_G : chain (first ++ g) = Ok G }.

Definition posys (hs : list (hmap R)) : list (constr R) := map (CPosy (CS None None)) (overs hs).
Let build := sgp_build inf pick vks_of ord se slack penalty cost cs fixed.

Lemma build_parts x0 s : (forall k v, x0 !! k = Some v -> 0 < v) -> build x0 = Ok s ->
  exists first cost' c0 g c G hs A, parts first cost' c0 g c G /\
    approx_all inf pick vks_of se x0 c = Ok hs /\ chain (posys hs) = Ok A /\
    sg_slack s = slack /\ sg_cons s = c /\ sg_approx s = overs hs /\ sg_fixed s = fixed /\ sg_x0 s = x0 /\
    sg_hmaps s = (false, c0) :: A ++ G /\ sg_gp s = gen ord (sg_hmaps s) /\
    sg_aidxs s = own_init (sg_gp s) (length hs).
Proof.
  intros Hx E. unfold build, sgp_build in E. destruct (any_nonpositive cost) eqn:E0; [discriminate|].
  apply rbind_ok in E as (first & E1 & E). apply rbind_ok in E as (cost' & E2 & E).
  apply rbind_ok in E as ([[gpc sc] [ap vks]] & E3 & E). destruct sc as [|x sc'] eqn:Esc; [discriminate|]. rewrite <- Esc in *.
  apply rbind_ok in E as (hmaps & E4 & E). injection E as <-.
  apply sort_sorts in E3 as (g & c & hs & H1 & -> & Hc & H4 & H5).
  change ([] ++ c) with c in Hc. assert (Hne : c <> []) by (rewrite <- Hc, Esc; discriminate). clear x sc' Esc. subst sc.
  destruct (add_approx_ok hs (fun h Hh => approx_usable x0 g c hs h H1 Hx H4 Hh) ([], [])) as [v Ev].
  rewrite Ev in H5. cbn [fst app] in H5. injection H5 as <- <-.
  unfold gp_hmaps in E4. apply rbind_ok in E4 as (st & Es & E4). destruct (any_nonpositive (s_cp st)) eqn:Ep; [discriminate|].
  apply rbind_ok in E4 as (l & El & E4). injection E4 as <-.
  apply chain_app in El as (A & G & EA & EG & ->).
  exists first, cost', (s_cp st), g, c, G, hs, A. cbn [sg_slack sg_cons sg_approx sg_fixed sg_x0 sg_hmaps sg_gp sg_aidxs].
  split; [split; eauto|]. split; [auto|]. split; [auto|]. unfold overs. rewrite map_length. repeat split; auto.
Qed.

Lemma parts_build first cost' c0 g c G hs A x0 : (forall k v, x0 !! k = Some v -> 0 < v) ->
  parts first cost' c0 g c G -> approx_all inf pick vks_of se x0 c = Ok hs -> chain (posys hs) = Ok A ->
  exists vks, let hmaps := (false, c0) :: A ++ G in
    build x0 = Ok (SG slack c (overs hs) vks fixed x0 hmaps (gen ord hmaps) (own_init (gen ord hmaps) (length hs))).
Proof.
  intros Hx [P1 P2 P3 P4 P5 (st & P6 & P7 & P8) P9] Ha HA.
  destruct (add_approx_ok hs (fun h Hh => approx_usable x0 g c hs h P4 Hx Ha Hh) ([], [])) as [v Ev]. cbn [fst app] in Ev.
  exists v. cbv zeta. unfold build, sgp_build. rewrite P1, P2. cbn [rbind]. rewrite P3. cbn [rbind].
  rewrite (sorts_sort x0 cs g c P4 hs first [] ([], []) _ Ha Ev). cbn [rbind app].
  destruct c as [|x c']; [congruence|]. unfold gp_hmaps. rewrite P6. cbn [rbind]. rewrite <- P7, P8.
  pose proof (chain_app2 (posys hs) (first ++ g) A G HA P9) as EC. unfold chain, posys in EC. rewrite EC. cbn [rbind].
  unfold overs. rewrite map_length. reflexivity.
Qed.

(** ** The loops of an update *)
Let put_posy' := put_posy inf pick ord se.
Let put_posys' := put_posys inf pick ord se.

Lemma put_posy_keeps s p h s' : put_posy' s p h = Ok s' ->
  sg_slack s' = sg_slack s /\ sg_cons s' = sg_cons s /\ sg_vks s' = sg_vks s /\ sg_fixed s' = sg_fixed s /\ sg_x0 s' = sg_x0 s /\
  length (sg_approx s') = length (sg_approx s) /\ length (sg_hmaps s') = length (sg_hmaps s) /\ (p < length (sg_approx s))%nat.
Proof.
  unfold put_posy', put_posy. destruct (sg_approx s !! p) as [a|] eqn:Ea; [|discriminate]. intros E.
  apply rbind_ok in E as (u & E1 & E). apply rbind_ok in E as (r & E2 & E).
  destruct (snd r) as [|hh [|? ?]]; try discriminate. destruct (length (sg_hmaps s) <=? S p)%nat; [discriminate|].
  destruct (g_midxs (sg_gp s) !! S p) as [[m t]|]; [|discriminate]. apply rbind_ok in E as ([g st] & E3 & E). injection E as <-.
  cbn [sg_slack sg_cons sg_vks sg_fixed sg_x0 sg_approx sg_hmaps]. rewrite !insert_length. apply lookup_lt_Some in Ea. auto 9.
Qed.
Lemma put_posys_keeps hs : forall s p s', put_posys' s p hs = Ok s' ->
  sg_slack s' = sg_slack s /\ sg_cons s' = sg_cons s /\ sg_vks s' = sg_vks s /\ sg_fixed s' = sg_fixed s /\ sg_x0 s' = sg_x0 s /\
  length (sg_approx s') = length (sg_approx s) /\ length (sg_hmaps s') = length (sg_hmaps s) /\
  (p <= length (sg_approx s) -> p + length hs <= length (sg_approx s))%nat.
Proof.
  unfold put_posys'. induction hs as [|h hs IH]; intros s p s' E; cbn [put_posys length] in *.
  - injection E as <-. rewrite Nat.add_0_r. auto 9.
  - apply rbind_ok in E as (s1 & E1 & E). apply put_posy_keeps in E1 as (K1 & K2 & K3 & K4 & K5 & K6 & K7 & K8).
    apply IH in E as (L1 & L2 & L3 & L4 & L5 & L6 & L7 & L8). repeat split; try congruence. intros _. lia.
Qed.
Lemma put_posys_app a b : forall s p s', put_posys' s p (a ++ b) = Ok s' <->
  exists s1, put_posys' s p a = Ok s1 /\ put_posys' s1 (p + length a)%nat b = Ok s'.
Proof.
  unfold put_posys'. induction a as [|h a IH]; intros s p s'; cbn [app put_posys length].
  - rewrite Nat.add_0_r. split; [eauto|intros (s1 & [= <-] & E); auto].
  - split.
    + intros E. apply rbind_ok in E as (s1 & E1 & E). rewrite E1. cbn [rbind]. apply IH in E as (s2 & E2 & E3).
      exists s2. split; auto. rewrite <- E3. f_equal. lia.
    + intros (s1 & E1 & E2). apply rbind_ok in E1 as (s2 & E3 & E1). rewrite E3. cbn [rbind]. apply IH. exists s1. split; auto.
      rewrite <- E2. f_equal. lia.
Qed.
Lemma put_all_flat c : forall s p s', put_all inf pick vks_of ord se s p c = Ok s' ->
  exists hs, approx_all inf pick vks_of se (sg_x0 s) c = Ok hs /\ put_posys' s p hs = Ok s'.
Proof.
  induction c as [|x c IH]; intros s p s' E; cbn [put_all approx_all] in *.
  - exists []. split; auto.
  - apply rbind_ok in E as (a & Ea & E). apply rbind_ok in E as (s1 & E1 & E). rewrite Ea. cbn [rbind].
    pose proof (put_posys_keeps _ _ _ _ E1) as (_ & _ & _ & _ & K5 & _). apply IH in E as (b & Eb & E). rewrite K5 in Eb. rewrite Eb.
    cbn [rbind]. exists (a ++ b). split; auto. apply put_posys_app. eauto.
Qed.

(** The posynomial put in a slot. *)
Definition slot (h k : hmap R) : Prop :=
  exists st, as_hmapslt1 inf (pick fixed) fixed (CS None None) [over_hmap slack h] = Ok (st, [k]).

Lemma put_posy_slot s p h s' : sg_slack s = slack -> sg_fixed s = fixed -> usable h -> put_posy' s p h = Ok s' ->
  exists k m t g st, slot h k /\ g_midxs (sg_gp s) !! S p = Some (m, t) /\ (S p < length (sg_hmaps s))%nat /\
    sg_hmaps s' = <[S p := (false, k)]> (sg_hmaps s) /\
    put_terms ord m k (sg_gp s, US (g_coo (sg_gp s)) (own (sg_aidxs s) (S p)) (own (sg_aidxs s) (S p))) = Ok (g, st) /\
    sg_gp s' = GP (g_k g) (g_midxs g) (g_pidxs g) (g_cs g) (g_exps g) (g_varlocs g) (g_all g) (g_first g) (g_m g)
                 (zero_entries (u_coo st) (u_free st)) /\
    sg_aidxs s' = dset (sg_aidxs s) (S p) (u_own st).
Proof.
  intros Hs Hf (U1 & U2 & U3 & U4 & U5) E. unfold put_posy', put_posy in E. destruct (sg_approx s !! p) as [a|] eqn:Ea; [|discriminate].
  rewrite Hs, Hf, over_slack_ok in E by auto. cbn [rbind] in E. apply rbind_ok in E as ([cst l] & E2 & E). cbn [snd] in E.
  destruct l as [|k [|? ?]]; try discriminate. destruct (Nat.leb_spec (length (sg_hmaps s)) (S p)) as [|Hl]; [discriminate|].
  destruct (g_midxs (sg_gp s) !! S p) as [[m t]|] eqn:Em; [|discriminate]. apply rbind_ok in E as ([g st] & E3 & E). injection E as <-.
  exists k, m, t, g, st. cbn [sg_hmaps sg_gp sg_aidxs]. repeat split; auto. exists cst. auto.
Qed.

Lemma put_terms_keeps h : forall row g st g' st', put_terms ord row h (g, st) = Ok (g', st') ->
  g_k g' = g_k g /\ g_all g' = g_all g /\ g_first g' = g_first g /\ g_midxs g' = g_midxs g /\ g_pidxs g' = g_pidxs g /\
  g_varlocs g' = g_varlocs g /\ length (g_exps g') = length (g_exps g).
Proof.
  induction h as [|[e c] h IH]; intros row g st g' st' E; cbn [put_terms] in E; [injection E as <- <-; auto 9|].
  destruct (length (g_exps g) <=? row)%nat; [discriminate|]. apply rbind_ok in E as (st1 & _ & E). apply IH in E.
  cbn [g_k g_all g_first g_midxs g_pidxs g_varlocs g_exps] in E. rewrite insert_length in E. auto.
Qed.
Lemma put_posys_slots hs : (forall h, In h hs -> usable h) -> forall s p s',
  sg_slack s = slack -> sg_fixed s = fixed -> put_posys' s p hs = Ok s' ->
  exists ks, Forall2 slot hs ks /\ (ks <> [] -> (S p + length ks <= length (sg_hmaps s))%nat) /\
    sg_hmaps s' = overwrite (S p) (map (pair false) ks) (sg_hmaps s).
Proof.
  unfold put_posys'. induction hs as [|h hs IH]; intros Hu s p s' Hs Hf E; cbn [put_posys] in E.
  - injection E as <-. exists []. split; [constructor|]. split; [congruence|reflexivity].
  - apply rbind_ok in E as (s1 & E1 & E). pose proof (put_posy_keeps _ _ _ _ E1) as (K1 & K2 & K3 & K4 & K5 & K6 & K7 & K8).
    destruct (put_posy_slot _ _ _ _ Hs Hf (Hu h (or_introl eq_refl)) E1) as (k & m & t & g & st & Q1 & Q2 & Q3 & Q4 & _).
    destruct (IH (fun h' Hh => Hu h' (or_intror Hh)) s1 (S p) s') as (ks & F & Hl & Eo); try congruence.
    exists (k :: ks). split; [constructor; auto|]. split.
    + intros _. cbn [length]. destruct ks as [|k2 ks]; [cbn; lia|]. specialize (Hl ltac:(discriminate)). rewrite Q4, insert_length in Hl. lia.
    + rewrite Eo, Q4. reflexivity.
Qed.

(** Updating slots whose new posynomials have as many terms as the old. *)
Lemma put_posys_inv n hs : (forall h, In h hs -> usable h) -> forall s p s' ks,
  sg_slack s = slack -> sg_fixed s = fixed -> minv ord n (sg_hmaps s) (sg_gp s) (sg_aidxs s) -> n = length (sg_approx s) ->
  put_posys' s p hs = Ok s' -> Forall2 slot hs ks ->
  (forall i b h0 k, ks !! i = Some k -> sg_hmaps s !! (S p + i)%nat = Some (b, h0) -> length k = length h0) ->
  minv ord n (sg_hmaps s') (sg_gp s') (sg_aidxs s') /\
  g_k (sg_gp s') = g_k (sg_gp s) /\ g_all (sg_gp s') = g_all (sg_gp s) /\ g_first (sg_gp s') = g_first (sg_gp s).
Proof.
  unfold put_posys'. induction hs as [|h hs IH]; intros Hu s p s' ks Hs Hf Hi Hn E F Hk; cbn [put_posys] in E.
  - injection E as <-. auto.
  - apply rbind_ok in E as (s1 & E1 & E). pose proof (put_posy_keeps _ _ _ _ E1) as (K1 & K2 & K3 & K4 & K5 & K6 & K7 & K8).
    destruct (put_posy_slot _ _ _ _ Hs Hf (Hu h (or_introl eq_refl)) E1) as (k & m & t & g & st & Q1 & Q2 & Q3 & Q4 & Q5 & Q6 & Q7).
    destruct (lookup_lt_is_Some_2 (sg_hmaps s) (S p) Q3) as [[b0 h0] Eh].
    inversion F as [|? k0 ? ks' F1 F2]; subst.
    assert (k0 = k) as -> by (destruct F1 as [? F1], Q1 as [? Q1]; congruence).
    assert (Hlen : length k = length h0) by (apply (Hk O b0 h0 k); [reflexivity|rewrite Nat.add_0_r; auto]).
    assert (Hi1 : minv ord (length (sg_approx s)) (sg_hmaps s1) (sg_gp s1) (sg_aidxs s1)).
    { rewrite Q4, Q6, Q7. eapply minv_step; eauto. lia. }
    assert (Hput : g_k g = g_k (sg_gp s) /\ g_all g = g_all (sg_gp s) /\ g_first g = g_first (sg_gp s)).
    { pose proof (put_terms_keeps _ _ _ _ _ _ Q5). tauto. }
    destruct Hput as (G1 & G2 & G3).
    destruct (IH (fun h' Hh => Hu h' (or_intror Hh)) s1 (S p) s' ks') as (I1 & I2 & I3 & I4); auto; try congruence.
    { intros i b h1 k1 Hk1 Hh1. apply (Hk (S i) b h1 k1); auto. rewrite Q4 in Hh1. rewrite list_lookup_insert_ne in Hh1 by lia.
      rewrite <- Hh1. f_equal. lia. }
    split; [auto|]. rewrite I2, I3, I4, Q6. cbn [g_k g_all g_first]. auto.
Qed.

(** ** The two programs compared *)
Lemma gen_flags_alike l l' : map fst l = map fst l' -> map (fun bh => length (snd bh)) l = map (fun bh => length (snd bh)) l' ->
  g_all (gen ord l) = g_all (gen ord l') /\ g_first (gen ord l) = g_first (gen ord l').
Proof.
  intros H1 H2. rewrite !gen_eq. cbn [g_all g_first].
  generalize (map (fun mh : bool * hmap R => length (snd mh)) l) as ks.
  generalize (map (fun mh : bool * hmap R => length (snd mh)) l') as ks'.
  assert (H : forall l l' : list (bool * hmap R), map fst l = map fst l' ->
    map (fun bh => length (snd bh)) l = map (fun bh => length (snd bh)) l' -> forall ks' ks,
    (g_all (gen_loop ord l ks) = g_all (gen_loop ord l' ks') /\ g_first (gen_loop ord l ks) = g_first (gen_loop ord l' ks')) /\
    length (terms l) = length (terms l')); [|intros; apply H; auto].
  clear -Hord. intros l. induction l as [|[b h] l IH] using rev_ind; intros l' H1 H2 ks' ks.
  - destruct l'; [|discriminate]. auto.
  - destruct l' as [|[b' h'] l' _] using rev_ind; [destruct l; discriminate|]. rewrite !map_app in H1, H2.
    apply app_inj_tail in H1 as [H1 Hb], H2 as [H2 Hh]. cbn in Hb, Hh. subst b'.
    destruct (IH l' H1 H2 ks' ks) as [[I1 I2] I3].
    destruct (gen_loop_snoc ord Hord l ks b h) as [-> ->], (gen_loop_snoc ord Hord l' ks' b h') as [-> ->].
    rewrite I1, I2, I3, !terms_snoc, !app_length, I3. cbn [snd]. auto.
Qed.

Lemma minv_dot n hs g ai vals i e c : minv ord n hs g ai -> terms hs !! i = Some (e, c) ->
  coo_dot (g_coo g) (column g vals) i = lsum (fun v => eget e v * vals v) (ord e).
Proof.
  intros M Ht. rewrite coo_dot_lsum. change (lsum (ent (column g vals) i) (g_coo g) = lsum (fun v => eget e v * vals v) (ord e)).
  rewrite (mi_row _ _ _ _ _ M _ _ e).
  2:{ rewrite (mi_exps _ _ _ _ _ M). rewrite list_lookup_fmap. unfold hmap in *. rewrite Ht. auto. }
  unfold rowsum. apply lsum_ext. intros v Hv. f_equal. apply Hord in Hv.
  assert (Hin : In (e, c) (terms hs)) by (apply elem_of_list_In, elem_of_list_lookup; eauto).
  pose proof (mi_var _ _ _ _ _ M e c v Hin Hv) as Hx. unfold idx. destruct (varidx g v) as [j|] eqn:Ej; [|congruence].
  unfold column. unfold varidx in Ej.
  destruct (position_spec (dkeys (g_varlocs g)) v) as (j' & E1 & E2).
  { destruct (in_dec Nat.eq_dec v (dkeys (g_varlocs g))) as [|Hn]; auto. exfalso.
    clear -Ej Hn. revert j Ej Hn. generalize (dkeys (g_varlocs g)). induction l as [|k l IH]; cbn [position]; [discriminate|].
    intros j Ej Hn. destruct (decide (v = k)) as [->|]; [apply Hn; left; auto|].
    destruct (position l v) as [z|] eqn:E; [|discriminate]. apply (IH z eq_refl). intros H; apply Hn; right; auto. }
  rewrite Ej in E1. injection E1 as <-. rewrite E2. auto.
Qed.

Lemma minv_same n n' hs a ai b bi : minv ord n hs a ai -> minv ord n' hs b bi -> g_all a = g_all b -> g_first a = g_first b ->
  same_gp a b.
Proof.
  intros A B H1 H2. unfold same_gp.
  rewrite (mi_k _ _ _ _ _ A), (mi_k _ _ _ _ _ B), (mi_midxs _ _ _ _ _ A), (mi_midxs _ _ _ _ _ B),
    (mi_pidxs _ _ _ _ _ A), (mi_pidxs _ _ _ _ _ B), (mi_cs _ _ _ _ _ A), (mi_cs _ _ _ _ _ B),
    (mi_exps _ _ _ _ _ A), (mi_exps _ _ _ _ _ B). repeat (split; [auto|]).
  intros vals i Hi. rewrite map_length in Hi. destruct (lookup_lt_is_Some_2 (terms hs) i Hi) as [[e c] He].
  rewrite (minv_dot _ _ _ _ vals i e c A He), (minv_dot _ _ _ _ vals i e c B He). auto.
Qed.

(** ** Any sequence of updates *)
Record good (s : sgp R) : Prop := {
  gd_slack : sg_slack s = slack;
  gd_fixed : sg_fixed s = fixed;
  gd_x0 : forall k v, sg_x0 s !! k = Some v -> 0 < v;
  gd_parts : exists first cost' c0 g G hs A, parts first cost' c0 g (sg_cons s) G /\
    approx_all inf pick vks_of se (sg_x0 s) (sg_cons s) = Ok hs /\ chain (posys hs) = Ok (map (pair false) A) /\
    sg_hmaps s = (false, c0) :: map (pair false) A ++ G;
  gd_inv : minv ord (length (sg_approx s)) (sg_hmaps s) (sg_gp s) (sg_aidxs s);
  gd_all : g_all (sg_gp s) = g_all (gen ord (sg_hmaps s));
  gd_first : g_first (sg_gp s) = g_first (gen ord (sg_hmaps s)) }.

Lemma slot_chain hs ks : Forall2 slot hs ks -> chain (posys hs) = Ok (map (pair false) ks).
Proof.
  induction 1 as [|h k hs ks [st E] F IH]; [reflexivity|]. unfold chain, posys, overs in *. cbn [map chain_hmaps]. cbn [constr_hmaps].
  rewrite E. cbn [rbind snd map]. rewrite IH. reflexivity.
Qed.

Lemma posys_flags hs : forall A, chain (posys hs) = Ok A -> exists ks, A = map (pair false) ks.
Proof.
  unfold chain, posys, overs. induction hs as [|h hs IH]; intros A E; cbn [map chain_hmaps constr_hmaps] in E.
  - injection E as <-. exists []. auto.
  - apply rbind_ok in E as (x & E1 & E). apply rbind_ok in E as (y & E2 & E). injection E as <-.
    apply IH in E2 as [ks ->]. apply rbind_ok in E1 as (r & E1 & E). injection E as <-.
    exists (snd r ++ ks). rewrite map_app. auto.
Qed.

Lemma good_start s : build fixed = Ok s -> good s.
Proof.
  intros E. destruct (build_parts fixed s Hfixed E) as (first & cost' & c0 & g & c & G & hs & A & P & E1 & E2 & E3 & E4 & E5 & E6 & E7 & E8 & E9 & E10).
  destruct (posys_flags _ _ E2) as [ks ->].
  split; auto; try congruence.
  - rewrite E7. auto.
  - exists first, cost', c0, g, G, hs, ks. rewrite E4, E7. auto.
  - rewrite E10, E9, E5. unfold overs. rewrite map_length. apply minv_init; auto.
Qed.

Lemma x0_update_pos s x0 : (forall k v, sg_x0 s !! k = Some v -> 0 < v) -> (forall k v, x0 !! k = Some v -> 0 < v) ->
  forall k v, x0_update s x0 !! k = Some v -> 0 < v.
Proof.
  intros H1 H2. unfold x0_update. revert H1. generalize (sg_x0 s). induction (sg_vks s) as [|a l IH]; intros m H1; cbn [fold_left]; auto.
  apply IH. destruct (x0 !! a) as [w|] eqn:E; auto. intros k v. rewrite lookup_insert_Some. intros [[<- <-]|[_ Hk]]; eauto.
Qed.

Let update := sgp_gp inf pick vks_of ord se.

Lemma put_posys_k hs : forall s p s', put_posys' s p hs = Ok s' -> g_k (sg_gp s') = g_k (sg_gp s).
Proof.
  unfold put_posys'. induction hs as [|h hs IH]; intros s p s' E; cbn [put_posys] in E; [injection E as <-; auto|].
  apply rbind_ok in E as (s1 & E1 & E). apply IH in E. rewrite E.
  unfold put_posy in E1. destruct (sg_approx s !! p) as [a|] eqn:Ea; [|discriminate].
  apply rbind_ok in E1 as (u & E2 & E1). apply rbind_ok in E1 as (r & E3 & E1).
  destruct (snd r) as [|hh [|? ?]]; try discriminate. destruct (length (sg_hmaps s) <=? S p)%nat; [discriminate|].
  destruct (g_midxs (sg_gp s) !! S p) as [[m t]|]; [|discriminate]. apply rbind_ok in E1 as ([g st] & E4 & E1). injection E1 as <-.
  cbn [sg_gp g_k]. apply put_terms_keeps in E4. tauto.
Qed.


(** The point of the program agrees with another where it matters. *)
Definition agrees (s : sgp R) (pt : gmap nat R) : Prop :=
  forall c k, In c (sg_cons s) -> in_vks (sig_of c) k = true -> sg_x0 s !! k = pt !! k.

Lemma x0_of_agree (a b : gmap nat R) l : (forall k, In k l -> a !! k = b !! k) -> x0_of a l = x0_of b l.
Proof.
  unfold x0_of. intros Hl. f_equal. apply map_ext_in. intros k Hk. rewrite (Hl k Hk). auto.
Qed.
Lemma posy_negy_vars (s P N : hmap R) k : canonical s -> posy_negy s = (P, N) -> in_vks P k = true \/ in_vks N k = true ->
  in_vks s k = true.
Proof.
  intros Hc E Hk. rewrite !in_vks_true in *. destruct (posy_negy_parts s P N Hc E) as (_ & _ & IP & IN).
  destruct Hk as [(e & c & Hi & Hv)|(e & c & Hi & Hv)]; [apply IP in Hi|apply IN in Hi]; eexists e, _; split; eauto.
Qed.
Lemma approx_all_agree (a b : gmap nat R) c : (forall x, In x c -> canonical (sig_of x)) -> (forall x k, In x c -> in_vks (sig_of x) k = true -> a !! k = b !! k) ->
  approx_all inf pick vks_of se a c = approx_all inf pick vks_of se b c.
Proof.
  induction c as [|x c IH]; intros Hcan Hk; cbn [approx_all]; auto.
  rewrite IH; [|intros y Hy; apply Hcan; right; auto|intros y k Hy; apply (Hk y); right; auto].
  pose proof (Hcan x (or_introl eq_refl)) as Hcx. cbn [sig_of] in Hcx.
  assert (E : approx_hmaps inf pick vks_of se a x = approx_hmaps inf pick vks_of se b x); [|rewrite E; auto].
  specialize (Hk x). unfold approx_hmaps.
  assert (E : approximate inf pick vks_of se a x = approximate inf pick vks_of se b x); [|rewrite E; auto].
  destruct x as [s|s]; cbn [sig_of] in Hk; cbn [approximate].
  - unfold as_gpconstr. destruct (posy_negy s) as [P N] eqn:EPN. cbn [snd].
    rewrite (x0_of_agree a b (vks_of N)); auto. intros k Hin. apply Hk; [left; auto|]. apply Hvks in Hin.
    apply (posy_negy_vars s P N k Hcx EPN); auto.
  - unfold seq_as_gpconstr. destruct (posy_negy s) as [P N] eqn:EPN.
    rewrite (x0_of_agree a b (vks_of N)), (x0_of_agree a b (vks_of P)); auto; intros k Hin; apply Hk; try (left; auto; fail); apply Hvks in Hin;
      apply (posy_negy_vars s P N k Hcx EPN); auto.
Qed.
Lemma x0_update_lookup (s : sgp R) (x0 : gmap nat R) k : x0_update s x0 !! k =
  if in_dec Nat.eq_dec k (sg_vks s) then match x0 !! k with Some v => Some v | None => sg_x0 s !! k end else sg_x0 s !! k.
Proof.
  unfold x0_update.
  assert (H : forall l m, fold_left (fun (acc : gmap nat R) k => match x0 !! k with Some v => <[k := v]> acc | None => acc end) l m !! k =
    if in_dec Nat.eq_dec k l then match x0 !! k with Some v => Some v | None => m !! k end else m !! k); [|apply H].
  clear. induction l as [|a l IH]; intros m; cbn [fold_left]; auto. rewrite IH.
  destruct (in_dec Nat.eq_dec k (a :: l)) as [Hin|Hout], (in_dec Nat.eq_dec k l) as [Hl|Hl].
  - destruct (x0 !! k) eqn:Ek; auto. destruct (decide (a = k)) as [->|Hne]; [rewrite Ek; auto|].
    destruct (x0 !! a); auto. rewrite lookup_insert_ne; auto.
  - destruct Hin as [->|]; [|contradiction]. destruct (x0 !! k); auto. rewrite lookup_insert; auto.
  - exfalso. apply Hout. right. auto.
  - destruct (x0 !! a) as [w|]; auto. rewrite lookup_insert_ne; auto. intros ->. apply Hout. left. auto.
Qed.

Lemma good_step0 s x0 s' : good s -> (forall k v, x0 !! k = Some v -> 0 < v) -> update s x0 = Ok s' -> x0 <> ∅ ->
  sg_x0 s' = x0_update s x0 /\ sg_cons s' = sg_cons s /\ sg_vks s' = sg_vks s /\
  exists first cost' c0 g G hs ks, let hf := (false, c0) :: map (pair false) ks ++ G in
    parts first cost' c0 g (sg_cons s) G /\ approx_all inf pick vks_of se (x0_update s x0) (sg_cons s) = Ok hs /\
    chain (posys hs) = Ok (map (pair false) ks) /\ length ks = length hs /\
    (g_k (sg_gp s') = g_k (gen ord hf) -> good s' /\ same_gp (sg_gp s') (gen ord hf) /\ sg_hmaps s' = hf).
Proof.
  intros [Gs Gf Gx (first & cost' & c0 & g & G & hs0 & A & P & Ea0 & EA0 & Eh) Gi Ga Gfi] Hx E Hne. unfold update, sgp_gp in E.
  destruct (decide (x0 = ∅)); [contradiction|].
  set (s1 := SG (sg_slack s) (sg_cons s) (sg_approx s) (sg_vks s) (sg_fixed s) (x0_update s x0) (sg_hmaps s) (sg_gp s) (sg_aidxs s)) in *.
  assert (Hx1 : forall k v, sg_x0 s1 !! k = Some v -> 0 < v) by (apply x0_update_pos; auto).
  destruct (put_all_flat _ _ _ _ E) as (hs & Ea & Ep).
  assert (Hu : forall h, In h hs -> usable h).
  { intros h Hh. eapply approx_usable; [apply P|exact Hx1|exact Ea|exact Hh]. }
  destruct (put_posys_slots hs Hu s1 0 s' Gs Gf Ep) as (ks & F & Hl & Eo).
  destruct (put_posys_keeps _ _ _ _ Ep) as (K1 & K2 & K3 & K4 & K5 & K6 & K7 & K8).
  pose proof (put_posys_k _ _ _ _ Ep) as Kk.
  split; [exact K5|]. split; [exact K2|]. split; [exact K3|].
  exists first, cost', c0, g, G, hs, ks. cbv zeta. split; [exact P|]. split; [exact Ea|]. split; [apply slot_chain; auto|].
  split; [symmetry; eapply Forall2_length; eauto|].

  set (hf := (false, c0) :: map (pair false) ks ++ G) in *. intros Hst.
  pose proof (minv_init ord Hord (length hs) hf) as Mf.
  rewrite Kk in Hst. change (sg_gp s1) with (sg_gp s) in Hst. rewrite (mi_k _ _ _ _ _ Gi), (mi_k _ _ _ _ _ Mf), Eh in Hst.
  unfold hf in Hst. cbn [map] in Hst. injection Hst as Hst. rewrite !map_app, !map_map in Hst. cbn [snd] in Hst.
  assert (Hlen : length A = length ks).
  { apply (f_equal length) in Hst. rewrite !app_length, !map_length in Hst. lia. }
  apply app_inj_1 in Hst as [Hst _]; [|rewrite !map_length; auto].
  assert (Ehm : sg_hmaps s' = hf).
  { rewrite Eo. change (sg_hmaps s1) with (sg_hmaps s). rewrite Eh. unfold hf.
    change 1%nat with (length [(false, c0)]). 
    change ((false, c0) :: map (pair false) A ++ G) with ([(false, c0)] ++ map (pair false) A ++ G).
    rewrite overwrite_mid by (rewrite !map_length; auto). reflexivity. }
  destruct (put_posys_inv (length (sg_approx s)) hs Hu s1 0 s' ks Gs Gf Gi eq_refl Ep F) as (I1 & I2 & I3 & I4).
  { intros i b h0 k Hk Hh. change (sg_hmaps s1) with (sg_hmaps s) in Hh. rewrite Eh in Hh.
    change ((map (pair false) A ++ G) !! i = Some (b, h0)) in Hh.
    assert (Hi : (i < length A)%nat) by (rewrite Hlen; eapply lookup_lt_Some; eauto).
    rewrite lookup_app_l in Hh by (rewrite map_length; auto). rewrite list_lookup_fmap in Hh.
    destruct (A !! i) as [a|] eqn:EA; [|discriminate]. injection Hh as <- <-.
    assert (E1 : map length A !! i = Some (length a)) by (rewrite list_lookup_fmap; unfold hmap in *; rewrite EA; auto).
    assert (E2 : map length ks !! i = Some (length k)) by (rewrite list_lookup_fmap; unfold hmap in *; rewrite Hk; auto).
    pose proof (f_equal (fun l => l !! i) Hst) as E3. cbn beta in E3.
    assert (E4 : Some (length a) = Some (length k)) by (rewrite <- E1, <- E2; exact E3). congruence. }
  assert (Hflags : map fst (sg_hmaps s) = map fst hf /\ map (fun bh => length (snd bh)) (sg_hmaps s) = map (fun bh => length (snd bh)) hf).
  { rewrite Eh. unfold hf. cbn [map]. rewrite !map_app, !map_map. cbn [fst snd]. split.
    - do 2 f_equal. clear -Hlen. revert ks Hlen. induction A; intros [|k ks] Hl; cbn in *; try discriminate; auto. f_equal. apply IHA. lia.
    - do 2 f_equal. exact Hst. }
  destruct Hflags as [Fl1 Fl2]. destruct (gen_flags_alike _ _ Fl1 Fl2) as [Fa Ff].
  change (sg_gp s1) with (sg_gp s) in *. change (sg_approx s1) with (sg_approx s) in *.
  split; [|split; [|auto]].
  - split.
    + rewrite K1. exact Gs.
    + rewrite K4. exact Gf.
    + rewrite K5. auto.
    + exists first, cost', c0, g, G, hs, ks. rewrite K2, K5. split; [exact P|]. split; [exact Ea|].
      split; [apply slot_chain; auto|rewrite Ehm; auto].
    + rewrite K6. auto.
    + rewrite Ehm. congruence.
    + rewrite Ehm. congruence.
  - rewrite Ehm in I1. eapply minv_same; eauto; congruence.
Qed.



Lemma good_rebuild s x0 s' : good s -> (forall k v, x0 !! k = Some v -> 0 < v) -> update s x0 = Ok s' -> x0 <> ∅ ->
  exists f, build (sg_x0 s') = Ok f /\ (steady s' f -> good s' /\ same_gp (sg_gp s') (sg_gp f) /\ sg_hmaps s' = sg_hmaps f).
Proof.
  intros Hg Hx E Hne. destruct (good_step0 s x0 s' Hg Hx E Hne) as (K5 & K2 & _ & first & cost' & c0 & g & G & hs & ks & P & Ea & Ec & _ & Hst).
  cbv zeta in Hst.
  destruct (parts_build _ _ _ _ _ _ hs _ (x0_update s x0) ltac:(apply x0_update_pos; [apply Hg|auto]) P Ea Ec) as [vks Eb].
  cbv zeta in Eb. rewrite K5. eexists. split; [exact Eb|exact Hst].
Qed.

Lemma good_step pt s x0 s' : good s -> agrees s pt -> (forall k v, pt !! k = Some v -> 0 < v) -> listed cs s x0 ->
  (forall k v, x0 !! k = Some v -> 0 < v) -> update s x0 = Ok s' -> x0 <> ∅ ->
  exists f, build (x0 ∪ pt) = Ok f /\ agrees s' (x0 ∪ pt) /\
    (steady s' f -> good s' /\ same_gp (sg_gp s') (sg_gp f) /\ sg_hmaps s' = sg_hmaps f).
Proof.
  intros Hg Hag Hpt Hli Hx E Hne.
  destruct (good_step0 s x0 s' Hg Hx E Hne) as (K5 & K2 & _ & first & cost' & c0 & g & G & hs & ks & P & Ea & Ec & _ & Hst).
  cbv zeta in Hst.
  assert (Hag1 : forall c k, In c (sg_cons s) -> in_vks (sig_of c) k = true -> x0_update s x0 !! k = (x0 ∪ pt) !! k).
  { intros c k Hc Hk.
    rewrite x0_update_lookup. rewrite lookup_union. rewrite <- (Hag c k Hc Hk).
    destruct (in_dec Nat.eq_dec k (sg_vks s)) as [Hin|Hout].
    - destruct (x0 !! k), (sg_x0 s !! k); auto.
    - destruct (x0 !! k) as [w|] eqn:Ew; [|destruct (sg_x0 s !! k); auto]. exfalso. apply Hout, Hli; [congruence|].
      exists (sig_of c). split; [|auto]. eapply sorts_In; [apply P|auto]. }
  assert (Ea' : approx_all inf pick vks_of se (x0 ∪ pt) (sg_cons s) = Ok hs).
  { rewrite <- Ea. symmetry. apply approx_all_agree; [|intros c k Hc Hk; apply (Hag1 c); auto].
    intros c Hc. apply Hcons. eapply sorts_In; [apply P|auto]. }
  assert (Hx2 : forall k v, (x0 ∪ pt) !! k = Some v -> 0 < v).
  { intros k v Hk. apply lookup_union_Some_raw in Hk as [Hk|[_ Hk]]; eauto. }
  destruct (parts_build _ _ _ _ _ _ hs _ (x0 ∪ pt) Hx2 P Ea' Ec) as [vks Eb]. cbv zeta in Eb.
  eexists. split; [exact Eb|]. split; [intros c k; rewrite K2, K5; apply Hag1|exact Hst].
Qed.

Lemma pos_values (x0 : gmap nat R) : positive_values x0 <-> forall k v, x0 !! k = Some v -> 0 < v.
Proof.
  unfold positive_values. cbn [nltb n0 R_num]. split; intros Hx k v Hk; specialize (Hx k v Hk);
    apply Rltb_true in Hx || apply Rltb_true; auto.
Qed.
Lemma same_gp_refl (a : gpdata R) : same_gp a a.
Proof. unfold same_gp. auto 9. Qed.
Lemma build_keeps_x0 x0 s : (forall k v, x0 !! k = Some v -> 0 < v) -> build x0 = Ok s -> sg_x0 s = x0.
Proof.
  intros Hx E. destruct (build_parts x0 s Hx E) as (first & cost' & c0 & g & c & G & hs & A & P & E1 & E2 & E3 & E4 & E5 & E6 & E7 & _). auto.
Qed.

Lemma updates_good pt s : updates build update (listed cs) steady fixed pt s ->
  good s /\ agrees s pt /\ (forall k v, pt !! k = Some v -> 0 < v) /\
  exists f, build pt = Ok f /\ same_gp (sg_gp s) (sg_gp f) /\ sg_hmaps s = sg_hmaps f.
Proof.
  induction 1 as [s E|pt s x0 s' _ (IG & IA & IP & f0 & IF & IS & IHm) Hx E Hli Hok].
  - split; [apply good_start; auto|]. split; [|split; [auto|exists s; split; [auto|split; [apply same_gp_refl|auto]]]].
    intros c k _ _. rewrite (build_keeps_x0 fixed s Hfixed E). auto.
  - destruct (decide (x0 = ∅)) as [->|Hne].
    + unfold update, sgp_gp in E. rewrite decide_True in E by auto. injection E as <-. rewrite (left_id_L ∅ (∪)).
      eauto 9.
    + assert (Hx2 : forall k v, (x0 ∪ pt) !! k = Some v -> 0 < v).
      { intros k v Hk. apply lookup_union_Some_raw in Hk as [Hk|[_ Hk]]; [apply (proj1 (pos_values x0) Hx k v Hk)|eauto]. }
      rewrite pos_values in Hx.
      destruct (good_step pt s x0 s' IG IA IP) as (f & Ef & Hf & Hs'); auto.
      destruct (Hs' (Hok f Ef)) as (H1 & H2 & H3). eauto 9.
Qed.
End Rebuild.
