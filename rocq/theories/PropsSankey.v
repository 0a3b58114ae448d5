(** C96: What sensitivity diagrams show *)
From Coq Require Import Reals Lra Lia.
From Verif Require Import Base NomialSem Sankey SankeySpec SankeyProofs.
Open Scope R_scope.

Lemma passes_from (s : st) : inv s -> (forall n a, n <> [] -> In (a, n) (dkeys (links s)) -> exists p k, n = p ++ [k] /\ dget (links s) (n, p) = Some (inflow (links s) n)) ->
  forall n, n <> [] -> passes_on (links s) n.
Proof.
  intros (ND & K & _) H n Nn a v Ha. destruct (H n a Nn) as (p & k & En & E); [apply in_map_iff; exists ((a, n), v); auto|].
  exists p. split; [apply dget_In; exact E|]. intros q w Hq. assert (Hk : In (n, q) (dkeys (links s))) by (apply in_map_iff; exists ((n, q), w); auto).
  destruct (K _ _ Hk) as [[z Ez] _]. rewrite En in Ez. apply app_inj_tail in Ez as [<- _]. split; [reflexivity|].
  apply (dget_Some _ _ _ ND) in Hq. assert (Es : Some w = Some (inflow (links s) n)) by (rewrite <- Hq; exact E). injection Es as ->. reflexivity.
Qed.
Lemma lsum_close {A} (f g : A -> R) e l : (forall a, Rabs (f a - g a) <= e) -> Rabs (lsum f l - lsum g l) <= e * INR (length l).
Proof.
  intros H. induction l as [|a l IH]; [simpl; rewrite Rmult_0_r, Rminus_0_r, Rabs_R0; lra|]. cbn [lsum length]. rewrite S_INR.
  replace (f a + lsum f l - (g a + lsum g l)) with ((f a - g a) + (lsum f l - lsum g l)) by lra. eapply Rle_trans; [apply Rabs_triang|]. specialize (H a). lra.
Qed.
Lemma EPS_pos : 0 < (EPS : R).
Proof. unfold EPS. cbn. apply Rinv_0_lt_compat. lra. Qed.
Lemma nabs_R (x : R) : nabs x = Rabs x.
Proof. unfold nabs. cbn [nltb nopp n0 R_num]. unfold Rltb, Rabs. destruct (Rlt_dec x 0), (Rcase_abs x); lra. Qed.
Lemma leaf_close var c : Rabs (leaf_sens var c - con_sens var c) <= EPS.
Proof.
  pose proof EPS_pos as P. assert (Z : Rabs 0 <= EPS) by (rewrite Rabs_R0; lra). unfold leaf_sens, con_sens. destruct var as [v|].
  - destruct (c_vss c) as [d|].
    + destruct (dget d v) as [x|]; [|change (@n0 R R_num) with 0; rewrite Rminus_0_r; exact Z]. destruct (decide _) as [->|]; [change (@n0 R R_num) with 0; rewrite Rminus_0_r, Rabs_right; lra|].
      rewrite Rminus_diag_eq by reflexivity. exact Z.
    + case_bool_decide; [rewrite Rminus_0_r, Rabs_right; lra|change (@n0 R R_num) with 0; rewrite Rminus_0_r; exact Z].
  - destruct (c_senss c) as [x|]; [|change (@n0 R R_num) with 0; rewrite Rminus_0_r; exact Z]. rewrite nabs_R. cbn zeta. cbn [nopp n0 R_num]. destruct (decide _) as [E|].
    + rewrite E, Rminus_0_r, Rabs_left; lra.
    + rewrite Rminus_diag_eq by reflexivity. exact Z.
Qed.
Lemma fixed_close f : Rabs (abs_var_sens f - fixed_sens f) <= EPS.
Proof.
  pose proof EPS_pos as P. unfold abs_var_sens, fixed_sens. destruct (f_sens f).
  - rewrite nabs_R, (Rabs_right EPS), Rminus_0_r by lra. cbn [nopp R_num]. rewrite Rabs_left; lra.
  - rewrite Rminus_0_r, Rabs_right; lra.
  - rewrite nabs_R. cbn [nopp R_num]. rewrite Rminus_diag_eq, Rabs_R0 by reflexivity. lra.
Qed.
Lemma tsum_close var t : Rabs (tsum var false t - all_sens var t) <= EPS * INR (how_many var t).
Proof.
  unfold tsum, all_sens, how_many. rewrite plus_INR.
  assert (F : Rabs (fsum var (fixed_of false t) - lsum fixed_sens (shown_fixed var t)) <= EPS * INR (length (shown_fixed var t))).
  { destruct var; cbn [fsum shown_fixed]; [simpl; rewrite Rminus_0_r, Rabs_R0; lra|]. apply lsum_close, fixed_close. }
  pose proof (lsum_close _ _ EPS (cons_of t) (leaf_close var)) as C. pose proof EPS_pos.
  replace (lsum (leaf_sens var) (cons_of t) + fsum var (fixed_of false t) - (lsum (con_sens var) (cons_of t) + lsum fixed_sens (shown_fixed var t)))
    with ((lsum (leaf_sens var) (cons_of t) - lsum (con_sens var) (cons_of t)) + (fsum var (fixed_of false t) - lsum fixed_sens (shown_fixed var t))) by lra.
  eapply Rle_trans; [apply Rabs_triang|]. lra.
Qed.

Lemma inv_fresh ns : inv (St [] [] ns).
Proof. split; [constructor|]. split; [intros a b []|]. intros n H. unfold count in H. cbn in H. lia. Qed.
Lemma known_top (s : st) : known s [].
Proof. intros p k r E. destruct p; discriminate. Qed.
Lemma inv_nodes (s : st) ns : inv s -> inv (St (links s) (counts s) ns).
Proof. intros I. exact I. Qed.

Definition var_of (var : option (nat * option R)) : option nat := match var with Some (v, _) => Some v | None => None end.
Definition cost_of (var : option (nat * option R)) : R := match var with Some (_, Some x) => x | _ => 0 end.

(** In a diagram, nodes pass on what flows into them, and what arrives at the top is the sum of the sensitivities of all constraints (and fixed variables),
    with that of the cost, up to the smallest value shown for each. *)
Theorem C96_flow_partial : forall t var, labels_ok t -> let L := links (diagram t var fresh) in
  (forall n, n <> [] -> passes_on L n) /\
  Rabs (inflow L [] - (all_sens (var_of var) t + cost_of var)) <= EPS * INR (how_many (var_of var) t).
Proof.
  intros t var W. destruct var as [[v cost]|]; cbn [var_of].
  - unfold diagram, fresh. cbn [links counts nodes]. set (s0 := St [] [] _).
    assert (I0 : inv s0) by apply inv_fresh.
    destruct (added s0 [] 0%nat TNone I0 (known_top _)) as (En & I1 & K1 & EL1 & Cn & _). set (a := add_node s0 [] 0%nat TNone) in *.
    destruct a as [n s1] eqn:Ea. cbn [fst snd] in *. unfold a in Ea. clear a. change (count s0 []) with 0%nat in En. cbn [app] in En. subst n. cbn zeta.
    set (s2 := match cost with Some x => _ | None => s1 end).
    assert (H2 : inv s2 /\ known s2 [1%nat] /\ count s2 [1%nat] = 0%nat /\ inflow (links s2) [] = cost_of (Some (v, cost)) /\
      (forall a b, In (a, b) (dkeys (links s2)) -> b = []) /\ ~ In ([1%nat], []) (dkeys (links s2))).
    { destruct cost as [x|]; cbn [cost_of].
      - pose proof (adds_leaf s1 [] 0%nat TNone x I1 (known_top _)) as A. fold s2 in A.
        injection Ea as Ea. subst s1. split; [apply A|]. split; [eapply adds_known; [exact A|exact K1]|]. unfold s2. cbn. split; [reflexivity|]. split; [change (inflow [(([2%nat], []), x)] [] = x); unfold inflow; cbn [lsum fst snd]; rewrite decide_True by reflexivity; lra|].
        split; [intros a' b' [[= <- <-]|[]]; reflexivity|intros [[=]|[]]].
      - cbn. unfold s2. rewrite EL1. split; [exact I1|]. split; [exact K1|]. split; [exact Cn|]. split; [reflexivity|]. split; [intros a' b' []|intros []]. }
    destruct H2 as (I2 & K2 & C2 & F2 & T2 & N2).
    destruct (link_adds (Some v) t W true false false [1%nat] s2 I2 K2) as [Ex A]. destruct (link t true false false (Some v) [1%nat] s2) as [x s3]. cbn [fst snd] in Ex, A.
    destruct A as [A|[A _]]; [|discriminate]. pose proof A as A'. destruct A' as (I3 & M3 & C3 & D3 & F3 & O3). rewrite C2 in *.
    set (B := blk [1%nat] 0 (count s3 [1%nat])) in *.
    assert (NB : ~ B []) by (intros (k & r & E & _); discriminate).
    assert (Nk : ~ In ([1%nat], []) (dkeys (links s3))).
    { apply dget_None. rewrite D3 by apply blk_self. apply dget_None. exact N2. }
    destruct I3 as (ND3 & K3 & CK3).
    assert (FL : forall n, inflow (links (set_link s3 [1%nat] [] x)) n = inflow (links s3) n + if decide (n = []) then x else 0).
    { intros n. cbn [set_link links]. rewrite inflow_dset by exact ND3. destruct (dget (links s3) _) as [w|] eqn:Ew; [exfalso; apply Nk; eapply dget_In_keys; exact Ew|]. destruct (decide (n = [])) as [->|Nn]; [rewrite decide_True by reflexivity; lra|rewrite decide_False by congruence; lra]. }
    split.
    + apply (passes_from (set_link s3 [1%nat] [] x)).
      * split; [apply NoDup_dset; exact ND3|]. split; [|exact CK3]. intros a b Hab. apply dkeys_dset_In in Hab as [[= -> ->]|Hab]; [|apply K3; exact Hab].
        split; [exists 1%nat; reflexivity|]. eapply known_mono; [|exact K2]. exact M3.
      * intros n a Nn Hn. apply dkeys_dset_In in Hn as [[= -> ->]|Hn]; [congruence|]. rewrite FL, (decide_False (P := n = [])), Rplus_0_r by exact Nn.
        destruct (decide (n = [1%nat])) as [->|N1].
        { exists [], 1%nat. split; [reflexivity|]. cbn [set_link links]. rewrite dget_dset_eq. f_equal. rewrite F3 by apply blk_self. rewrite decide_True by reflexivity.
          rewrite inflow_none; [lra|]. intros b Hb. apply T2 in Hb. discriminate. }
        destruct (K3 _ _ Hn) as [[k ->] Ka].
        assert (Dec : B n \/ ~ B n).
        { unfold B, blk. destruct n as [|i [|j r]]; [congruence|right; intros (k' & r & [= -> E] & _); destruct r; discriminate|]. destruct (decide (i = 1%nat /\ (0 < j <= count s3 [1%nat])%nat)) as [[-> Hj]|Hj]; [left; exists j, r; auto|].
          right. intros (k' & r' & [= -> -> ->] & H). apply Hj. auto. }
        destruct Dec as [Bn|Bn].
        -- destruct (O3 n _ Bn Hn) as (p & z & En & Ep). exists p, z. split; [exact En|]. cbn [set_link links]. rewrite dget_dset_ne by congruence. exact Ep.
        -- exfalso. assert (E : dget (links s3) ((n ++ [k]) : node, n) = dget (links s2) ((n ++ [k]) : node, n)).
           { apply D3. intros B'. apply blk_snoc in B' as [->|B']; contradiction. }
           destruct (dget (links s2) _) as [w|] eqn:Ew; [apply dget_In_keys, T2 in Ew; contradiction|]. apply dget_None in E. contradiction.
    + rewrite FL, F3 by exact NB. rewrite decide_False by discriminate. rewrite decide_True by reflexivity. rewrite F2, Ex.
      replace (cost_of (Some (v, cost)) + 0 + tsum (Some v) false t - (all_sens (Some v) t + cost_of (Some (v, cost)))) with (tsum (Some v) false t - all_sens (Some v) t) by lra. apply tsum_close.
  - unfold diagram, fresh. cbn [links counts nodes cost_of]. set (s0 := St [] [] _).
    assert (I0 : inv s0) by apply inv_fresh. destruct (link_adds None t W true false false [] s0 I0 (known_top _)) as [Ex A].
    destruct (link t true false false None [] s0) as [x s3]. cbn [fst snd] in *. destruct A as [A|[A _]]; [|discriminate]. destruct A as (I3 & M3 & C3 & D3 & F3 & O3).
    split.
    + apply passes_from; [exact I3|]. intros n a Nn Hn. destruct I3 as (_ & K3 & _). destruct (K3 _ _ Hn) as [[k ->] Ka]. apply (O3 n (n ++ [k])); [|exact Hn].
      destruct n as [|j r]; [congruence|]. exists j, r. split; [reflexivity|]. change (count s0 []) with 0%nat. specialize (Ka [] j (r ++ [k]) eq_refl). lia.
    + rewrite F3 by apply blk_self. rewrite decide_True by reflexivity. change (inflow (links s0) []) with 0. rewrite Ex, Rplus_0_l, Rplus_0_r. apply tsum_close.
Qed.
Print Assumptions C96_flow_partial.

(** The links shown are links of the diagram above the minimum, and all of them if they are not too many. *)
Theorem C96_shown : forall (minsenss : R) maxlinks labeldots s,
  (forall showconstraints l, In l (shown_links minsenss maxlinks showconstraints labeldots s) -> In l (links s) /\ minsenss < Rabs (snd l)) /\
  ((length (List.filter (fun l => if Rlt_dec minsenss (Rabs (snd l)) then true else false) (links s)) <= maxlinks)%nat ->
   forall l, In l (shown_links minsenss maxlinks true labeldots s) <-> In l (links s) /\ minsenss < Rabs (snd l)).
Proof.
  intros minsenss maxlinks labeldots s.
  assert (Hf : forall b f (l : list slink) x, In x (filt maxlinks b f l) -> In x l).
  { intros b f l x. unfold filt. destruct (_ || _); [|auto]. intros H. apply filter_In in H. apply H. }
  assert (Hc : forall d l x, In x (cull (T := R) maxlinks labeldots 1 d l) -> In x l).
  { induction d as [|d IH]; intros l x; cbn [cull]; [auto|]. destruct (_ && _); [|auto]. intros H. apply IH in H. eapply Hf. exact H. }
  assert (Hl : forall l : slink, nltb minsenss (nabs (snd l)) = if Rlt_dec minsenss (Rabs (snd l)) then true else false) by (intros l; rewrite nabs_R; reflexivity).
  assert (Hm : forall l, In l (filt maxlinks true (fun l : slink => nltb minsenss (nabs (snd l))) (links s)) <-> In l (links s) /\ minsenss < Rabs (snd l)).
  { intros l. unfold filt. rewrite orb_true_r, filter_In, Hl. destruct (Rlt_dec _ _); intuition discriminate. }
  split.
  - intros sc l H. unfold shown_links in H. apply Hf, Hc, Hf, Hf in H. destruct sc; [|apply Hf in H]; apply Hm; exact H.
  - intros Hlen l. rewrite <- Hm. set (l1 := filt maxlinks true _ (links s)).
    assert (L1 : (length l1 <= maxlinks)%nat).
    { unfold l1, filt. rewrite orb_true_r. erewrite filter_ext; [exact Hlen|]. exact Hl. }
    assert (Hid : forall f, filt maxlinks false f l1 = l1) by (intros f; unfold filt; rewrite orb_false_r, (proj2 (Nat.ltb_ge _ _) L1); reflexivity).
    assert (Hcid : forall d, cull maxlinks labeldots 1 d l1 = l1) by (intros [|d]; cbn [cull]; [reflexivity|]; rewrite (proj2 (Nat.ltb_ge _ _) L1); reflexivity).
    unfold shown_links. fold l1. rewrite !Hid, Hcid, Hid. reflexivity.
Qed.
Print Assumptions C96_shown.

(** Asked again, a diagram shows everything twice. *)
Theorem C96_again_refuted : forall t, labels_ok t -> let s := diagram t None fresh in inflow (links (diagram t None s)) [] = 2 * inflow (links s) [].
Proof.
  intros t W s. assert (Es : s = snd (link t true false false None [] (St [] [] [([], (0%nat, TNone))]))) by reflexivity. rewrite Es. clear s Es. set (s0 := St [] [] _).
  assert (I0 : inv s0) by apply inv_fresh. destruct (link_adds None t W true false false [] s0 I0 (known_top _)) as [Ex A].
  destruct (link t true false false None [] s0) as [x s1]. cbn [fst snd] in *. destruct A as [A|[A _]]; [|discriminate]. destruct A as (I1 & _ & _ & _ & F1 & _).
  unfold diagram. set (s1' := St (links s1) (counts s1) _).
  destruct (link_adds None t W true false false [] s1' I1 (known_top _)) as [Ey B].
  destruct (link t true false false None [] s1') as [y s2]. cbn [fst snd] in *. destruct B as [B|[B _]]; [|discriminate]. destruct B as (_ & _ & _ & _ & F2 & _).
  rewrite F2 by apply blk_self. change (links s1') with (links s1). rewrite F1 by apply blk_self. change (inflow (links s0) []) with 0. destruct (decide _); [|congruence]. rewrite Ex, Ey. lra.
Qed.
Print Assumptions C96_again_refuted.

(** ** Concrete diagrams *)
Definition qcon (s : Z) : con Q := Con 0 (Some (inject_Z s)) None [].
(** A set made of the dict {1: a, 2: b} shows the first constraint under both labels. *)
Theorem C96_keys_refuted : exists t : tree Q, t = Set_ Plain 0 [(KInt 1, 0%nat); (KInt 2, 1%nat)] [Leaf (qcon 3); Leaf (qcon 5)] /\
  links (diagram t None fresh) = [(([1%nat], []), inject_Z (-3)); (([2%nat], []), inject_Z (-3))].
Proof. eexists. split; [reflexivity|]. vm_compute. reflexivity. Qed.
Print Assumptions C96_keys_refuted.

(** A model with 21 submodels is shown with 21 links, more than asked for; if its label has a dot, as those of submodels have, with none. *)
Definition sub21 : tree Q := Set_ (Named []) 0 [] (repeat (Set_ (Named []) 0 [] [Leaf (qcon 1)]) 21).
Theorem C96_dots_refuted :
  length (shown_links (inject_Z 0) 20 true 0 (diagram sub21 None fresh)) = 21%nat /\ shown_links (inject_Z 0) 20 true 1 (diagram sub21 None fresh) = [].
Proof. split; vm_compute; reflexivity. Qed.
Print Assumptions C96_dots_refuted.

(** A model with a fixed vector, labelled constraints, an array constraint and a submodel *)
Definition ex_tree {T} (z : Z -> T) : tree T :=
  let c i := Leaf (Con 0 (Some (z i)) None []) in
  Set_ (Named [FVar 0 true (Some (7%nat, true)) (FVal (z 2%Z)); FVar 1 true (Some (7%nat, true)) (FVal (z (-3)%Z)); FVar 2 false None FNan]) 0 []
    [c 4%Z; Set_ Plain 0 [(KStr 0, 0%nat); (KStr 1, 1%nat)] [c 1%Z; Set_ Plain 0 [] [c 2%Z; c 3%Z]]; Set_ (Array true) 0 [] [c 1%Z; c 1%Z];
     Set_ (Named [FVar 3 true None (FVal (z 1%Z))]) 0 [] [c 5%Z]].
Example C96_nonvacuous : labels_ok (ex_tree IZR).
Proof. cbn. repeat split; auto. right. intros n [[=]|[[=]|[]]]. Qed.
Example C96_example : links (diagram (ex_tree inject_Z) None fresh) = map (fun '(a, b, x) => ((a, b), inject_Z x))
  [([1; 1], [1], (-2)%Z); ([1], [], (-5)%Z); ([1; 2], [1], (-3)%Z); ([2], [], (-4)%Z); ([3], [], (-1)%Z); ([4; 1], [4], (-2)%Z); ([4; 2], [4], (-3)%Z); ([4], [], (-5)%Z);
   ([5; 1], [5], (-1)%Z); ([5; 2], [5], (-1)%Z); ([5], [], (-2)%Z); ([6; 1], [6], (-1)%Z); ([6; 2], [6], (-5)%Z); ([6], [], (-6)%Z)]%nat.
Proof. vm_compute. reflexivity. Qed.
