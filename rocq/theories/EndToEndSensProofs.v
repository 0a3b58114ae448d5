(** Proofs for EndToEndSens.v *)
From Verif Require Import Base HashVec Nomial NomialSem NomialProofs CanonProofs DiffProofs Sub SubSem SubProofs SubExtra Mono Constraint ConstraintSem
  ConstraintProofs PropsConstraint GPGen GPGenProofs PropsGP Dual DualProofs PropsDual Sens SensSem SensProofs PerturbProofs PropsSens Multipliers
  Solvers SolversSpec SolversProofs EndToEnd EndToEndSpec EndToEndProofs PropsEndToEnd EndToEndSens EndToEndSensSpec.
Open Scope R_scope.

(** ** Like terms *)
Lemma eget_surviving fixed (e : expv R) k : eget (surviving fixed e) k = match fixed !! k with Some _ => 0 | None => eget e k end.
Proof.
  unfold eget, surviving. destruct (fixed !! k) as [v|] eqn:E.
  - assert ((e ∖ fixed) !! k = None) as -> by (apply lookup_difference_None; right; rewrite E; eauto). reflexivity.
  - destruct (e !! k) as [a|] eqn:Ea.
    + assert ((e ∖ fixed) !! k = Some a) as -> by (apply lookup_difference_Some; auto). reflexivity.
    + assert ((e ∖ fixed) !! k = None) as -> by (apply lookup_difference_None; auto). reflexivity.
Qed.
Lemma like_after_division fixed (a b m : expv R) : exp_canon a -> exp_canon b ->
  surviving fixed (exp_sub a m) = surviving fixed (exp_sub b m) -> surviving fixed a = surviving fixed b.
Proof.
  intros Ha Hb E. apply exp_canon_ext; try (apply surviving_canon; assumption). intros k.
  assert (Ek : eget (surviving fixed (exp_sub a m)) k = eget (surviving fixed (exp_sub b m)) k) by (rewrite E; reflexivity).
  rewrite !eget_surviving in *. destruct (fixed !! k); [reflexivity|]. rewrite !eget_sub in Ek. lra.
Qed.
Definition marks (fixed : gmap nat R) (h : hmap R) : list (expv R) := map (fun t => surviving fixed (fst t)) h.
Lemma no_like_marks fixed h : no_like_terms fixed h <-> NoDup (marks fixed h).
Proof.
  rewrite NoDup_alt. unfold no_like_terms, marks. split.
  - intros H i j x Hi Hj. unfold hmap in *. rewrite list_lookup_fmap in Hi, Hj.
    destruct (h !! i) as [[o1 c1]|] eqn:E1; [|discriminate]. destruct (h !! j) as [[o2 c2]|] eqn:E2; [|discriminate].
    apply (H i j o1 c1 o2 c2 E1 E2). cbn in Hi, Hj. injection Hi as <-. injection Hj as Hj. symmetry. exact Hj.
  - intros H i j o1 c1 o2 c2 E1 E2 Es. apply (H i j (surviving fixed o1)); unfold hmap in *; rewrite list_lookup_fmap; [rewrite E1|rewrite E2, Es]; reflexivity.
Qed.
Lemma marks_ddel fixed (h : hmap R) e : NoDup (marks fixed h) -> NoDup (marks fixed (ddel h e)).
Proof.
  unfold marks. induction h as [|[e' c'] h IH]; cbn [ddel map fst]; intros H; [constructor|]. inversion H as [|? ? Hx Hn]; subst.
  destruct (decide (e = e')); [exact Hn|]. cbn [map fst]. constructor; [|apply IH; exact Hn].
  intros Hin. apply Hx. apply elem_of_list_In, in_map_iff in Hin as (t & Et & Hin). apply elem_of_list_In, in_map_iff. exists t. split; [exact Et|].
  destruct t. eapply In_ddel. exact Hin.
Qed.
Lemma like_unsubbed fixed (p m u : hmap R) : canonical p -> is_mono m -> (forall e c, m = [(e, c)] -> no_clash p e) ->
  gen_unsubbed false p m = Ok [u] -> no_like_terms fixed p -> no_like_terms fixed u.
Proof.
  intros Hp (e & c & -> & He & Hc) Hcl Hg. unfold gen_unsubbed in Hg.
  rewrite rename_loop_ok in Hg by eauto. cbn [rbind] in Hg.
  apply rbind_ok in Hg as (o & Eo & Hg). destruct o as [[|t l]|]; try discriminate.
  apply rbind_ok in Hg as (w & Hw & [= ->]). apply init_ok in Hw as [-> _].
  set (h := map (divterm e c) p) in *.
  assert (Hn : NoDup (dkeys h)) by (apply divterm_NoDup; auto).
  rewrite !no_like_marks. intros Hl.
  assert (Hm : NoDup (marks fixed h)).
  { apply no_like_marks. apply no_like_marks in Hl. intros i j o1 c1 o2 c2 E1 E2 Es. unfold h, hmap in *. rewrite list_lookup_fmap in E1, E2.
    destruct (p !! i) as [[a1 b1]|] eqn:P1; [|discriminate]. destruct (p !! j) as [[a2 b2]|] eqn:P2; [|discriminate].
    injection E1 as <- <-. injection E2 as <- <-. apply (Hl i j a1 b1 a2 b2 P1 P2).
    assert (C1 : exp_canon a1) by (apply (proj2 Hp a1 b1), elem_of_list_In, elem_of_list_lookup; eauto).
    assert (C2 : exp_canon a2) by (apply (proj2 Hp a2 b2), elem_of_list_In, elem_of_list_lookup; eauto).
    eapply like_after_division; [exact C1|exact C2|exact Es]. }
  destruct (simplify_some (fun _ => 1) h _ Hn Eo) as [[_ ->]|(c0 & _ & _ & _ & _ & -> & _)]; [exact Hm|].
  apply marks_ddel. unfold marks, hv_mul. rewrite map_map. cbn [fst]. exact Hm.
Qed.

(** ** One constraint *)
Section One.
Variables (inf : R) (pick : hmap R -> schedule) (fixed : gmap nat R).
Hypothesis Hs : subs_ok fixed pick.
Variable env : point.
Hypothesis He : positive_point env.
Let p := override env fixed.

(** A posynomial [v] of the program with its multiplier [la], the original [u] and its part of the sensitivities *)
Definition item := (hmap R * (R * expv R))%type.
Record item_ok (w : written) (v : hmap R) (la : R) (it : item) : Prop := {
  io_la : fst (snd it) = la;
  io_posy : is_posy (fst it);
  io_free : free_terms fixed (fst it) <> [];
  io_part : constraint_part fixed p (fst it) la (snd (snd it));
  io_eval : forall q, positive_point q -> eval q v = simplified fixed (fst it) (override q fixed);
  io_const : lsum (term_val p) (constant_terms fixed (fst it)) < 1;
  io_met : forall q, positive_point q -> holds_at q w -> eval q (fst it) <= 1 }.

Lemma constant_part u s q : is_posy u -> nm_sub inf fixed u (pick u) = Ok s -> positive_point q ->
  coef (s_cp s) e_empty = lsum (term_val (override q fixed)) (constant_terms fixed u).
Proof.
  intros (Hc & Hp & Hn) Es Hq. rewrite (final_coef inf u fixed (proj1 Hc) (positive_defined fixed u (proj1 Hs)) (pick u) s e_empty (proj2 Hs u) Es).
  unfold constant_terms. rewrite lsum_filter. apply lsum_ext. intros [o co] _. cbn [fst snd]. unfold e_empty.
  destruct (decide (surviving fixed o = ∅)) as [E|E].
  - rewrite bool_decide_true by exact E. unfold term_val. cbn [fst snd]. rewrite (mono_val_split fixed q o Hq (proj1 Hs)), E, mono_val_empty. ring.
  - rewrite bool_decide_false by exact E. reflexivity.
Qed.
Lemma simplified_eval u v st st' : is_posy u -> as_hmapslt1 inf pick fixed st [u] = Ok (st', [v]) ->
  free_terms fixed u <> [] /\ (forall q, positive_point q -> eval q v = simplified fixed u (override q fixed)) /\
  lsum (term_val p) (constant_terms fixed u) < 1.
Proof.
  intros Hu E. pose proof Hu as (Hc & Hp & Hn).
  destruct (sub_posy inf u fixed (pick u) Hc Hp Hn (proj1 Hs) (proj2 Hs u)) as (s & Es & Sc & Sp & Sn & _ & Sev).
  cbn [as_hmapslt1] in E. rewrite Es in E. cbn [rbind] in E.
  apply rbind_ok in E as (o & Eo & E). destruct o as [h'|]; [|discriminate].
  destruct (any_nonpositive h') eqn:EA; [discriminate|]. cbn [rbind fst snd] in E. injection E as <- <-.
  apply any_nonpositive_false in EA.
  assert (Hh' : h' <> []).
  { pose proof (simplify_posy (s_cp s) (proj1 Sc) Sp Sn) as H. rewrite Eo in H. tauto. }
  assert (Pos : 0 < eval env h') by (apply eval_all_positive; auto).
  assert (Nn : 0 <= lsum (term_val p) (free_terms fixed u)).
  { apply lsum_nonneg. intros [e c] Hin. apply filter_In in Hin as [Hin _]. specialize (Hp e c Hin). unfold term_val. cbn.
    pose proof (mono_val_pos p e). nra. }
  assert (Split : forall q, positive_point q -> eval q (s_cp s) = lsum (term_val (override q fixed)) (free_terms fixed u) + coef (s_cp s) e_empty).
  { intros q Hq. rewrite (Sev q Hq), eval_terms, (lsum_const_free fixed), (constant_part u s q Hu Es Hq). reflexivity. }
  assert (Main : (forall q, positive_point q -> eval q h' = simplified fixed u (override q fixed)) /\ lsum (term_val p) (constant_terms fixed u) < 1).
  { unfold p. rewrite <- (constant_part u s env Hu Es He). unfold coef at 1.
    destruct (simplify_some env (s_cp s) h' (proj1 Sc) Eo) as [[Hno ->]|(c & Hcc & Hc1 & _ & _ & Hh & Hev)].
    - rewrite Hno. split; [|lra]. intros q Hq. rewrite (Split q Hq). unfold simplified. rewrite <- (constant_part u s q Hu Es Hq). unfold coef. rewrite Hno. field.
    - rewrite Hcc. split.
      + intros q Hq. destruct (simplify_some q (s_cp s) h' (proj1 Sc) Eo) as [[Hno _]|(c' & Hcc' & _ & _ & _ & _ & Hev')]; [congruence|].
        assert (c' = c) as -> by congruence. rewrite Hev', (Split q Hq). unfold simplified. rewrite <- (constant_part u s q Hu Es Hq). unfold coef. rewrite Hcc.
        f_equal. ring.
      + rewrite (Split env He) in Hev. unfold coef in Hev. rewrite Hcc in Hev.
        replace (lsum (term_val (override env fixed)) (free_terms fixed u) + c - c) with (lsum (term_val p) (free_terms fixed u)) in Hev by (unfold p; ring).
        destruct (Rlt_dec c 1) as [|Hge]; [assumption|]. exfalso. rewrite Hev in Pos.
        assert (/ (1 - c) < 0) by (apply Rinv_lt_0_compat; lra). unfold Rdiv in Pos. nra. }
  destruct Main as [M1 M2]. split; [|split; assumption].
  intros E. rewrite (M1 env He) in Pos. unfold simplified in Pos. rewrite E in Pos. cbn [lsum] in Pos. unfold Rdiv in Pos. lra.
Qed.
Lemma posy_one l op r us st' v la : geometric (Ineq l op r) -> tracked fixed (Ineq l op r) -> posy_ineq false l op r = Ok us ->
  as_hmapslt1 inf pick fixed (CS None None) us = Ok (st', [v]) ->
  exists u ss, us = [u] /\ posy_sens st' la (dual_shares la v env) u = Ok (CS None None, ss) /\ item_ok (Ineq l op r) v la (u, (la, ss)).
Proof.
  intros (Ho & Hl & Hg & Hc) Ht Eu Ea.
  assert (Eg : gen_unsubbed false (lesser l op r) (greater l op r) = Ok us) by (destruct op; [exact Eu|exact Eu|congruence]).
  pose proof (gen_unsubbed_cases false _ _ Hl Hg Hc) as C. rewrite Eg in C. destruct us as [|u [|]]; [discriminate| |destruct C].
  destruct C as (Hn & Hcan & _ & [(Hpos & Hiff & _)|[Hf _]]); [|discriminate].
  assert (Hu : is_posy u) by (split; [exact Hcan|split; assumption]).
  destruct (sub_posy inf u fixed (pick u) Hcan Hpos Hn (proj1 Hs) (proj2 Hs u)) as (s & Es & _).
  assert (Hfr : fractions_right fixed u (s_cp s) (mmap s)).
  { destruct Ht as [Ht|(k' & v' & Ef)].
    - apply (fractions_no_like inf u fixed (pick u) s Hcan Hpos (proj1 Hs)); [|apply (proj2 Hs)|exact Es].
      apply (like_unsubbed fixed _ _ _ (proj1 Hl) Hg Hc Eg Ht).
    - rewrite Ef in Es |- *. apply (fractions_single inf u k' v' (pick u)); auto; [|rewrite <- Ef; apply (proj2 Hs)].
      apply (proj1 Hs k'). rewrite Ef. apply lookup_singleton. }
  destruct (posy_sens_correct inf pick fixed (proj1 Hs) (proj2 Hs) u Hu s Es Hfr env He 0%nat (CS None None) la v eq_refl st' Ea) as (ss & _ & E1 & _).
  destruct (simplified_eval u v _ _ Hu Ea) as (F1 & F2 & F3).
  exists u, ss. split; [reflexivity|]. split; [exact E1|]. split; cbn [fst snd]; auto.
  - intros k. destruct (posy_sens_correct inf pick fixed (proj1 Hs) (proj2 Hs) u Hu s Es Hfr env He k (CS None None) la v eq_refl st' Ea) as (ss' & d & E2 & Hd & Hv).
    assert (ss' = ss) as -> by congruence. exists d. auto.
  - intros q Hq Hw. apply Hiff. destruct op; [exact Hw|exact Hw|congruence].
Qed.

Lemma mono_item w (e : expv R) c v la st st' : exp_canon e -> 0 < c -> as_hmapslt1 inf pick fixed st [[(e, c)]] = Ok (st', [v]) ->
  (forall q, positive_point q -> holds_at q w -> eval q [(e, c)] <= 1) -> item_ok w v la ([(e, c)], (la, exp_mul e la)).
Proof.
  intros Hce Hc E Hw.
  assert (Hu : is_posy [(e, c)]).
  { split; [split; [apply NoDup_singleton|]|split; [|discriminate]]; intros e' c' [[= <- <-]|[]]; [split; [exact Hce|lra]|exact Hc]. }
  destruct (simplified_eval _ _ _ _ Hu E) as (F1 & F2 & F3).
  split; cbn [fst snd]; auto. intros k. exists (eget e k). split.
  - assert (Es : forall q, simplified fixed [(e, c)] q = term_val q (e, c)).
    { intros q. unfold simplified, free_terms, constant_terms in *. cbn [List.filter fst] in *. destruct (bool_decide (surviving fixed e = ∅)); cbn [negb] in *; [destruct F1; reflexivity|].
      cbn [lsum]. field. }
    pose proof (mono_log_deriv e c p k Hc (override_pos pick fixed Hs env He k)) as D. unfold log_deriv in *. eapply derivable_pt_lim_ext; [|exact D].
    intros s. cbv beta. rewrite Es. reflexivity.
  - unfold eget, exp_mul. rewrite lookup_fmap. destruct (e !! k); cbn; lra.
Qed.
Lemma meq_one l r us st' out : geometric (Equal l r) -> meq_unsubbed false l r = Ok us ->
  as_hmapslt1 inf pick fixed (CS None None) us = Ok (st', out) ->
  out = [] \/ exists v1 v2, out = [v1; v2] /\ forall la1 la2, exists ss it1 it2,
    meq_sens [] la1 us = Ok ([la1], (∅, 0)) /\ meq_sens [la1] la2 us = Ok ([], (ss, la1 - la2)) /\
    item_ok (Equal l r) v1 la1 it1 /\ item_ok (Equal l r) v2 la2 it2 /\
    forall k, eget ss k = eget (snd (snd it1)) k + eget (snd (snd it2)) k.
Proof.
  intros (Hl & Hr) Em Eo. pose proof (C20_monomial_equality inf pick fixed (CS None None) false l r Hs Hl Hr) as C. cbv zeta in C. rewrite Em, Eo in C.
  destruct C as (_ & _ & [[L2 _]|[E0 _]]); [right|left; exact E0].
  destruct Hl as (el & cl & -> & Hel & Hcl). destruct Hr as (er & cr & -> & Her & Hcr).
  unfold meq_unsubbed in Em. rewrite !gen_mono in Em by assumption.
  destruct (decide (el = er)) as [Ee|Ne].
  { subst er. destruct (decide (el = el)); [|congruence]. destruct (Rle_dec (cl / cr) (1 + tolerance)); cbn in Em; [|discriminate].
    destruct (Rle_dec (cr / cl) (1 + tolerance)); cbn in Em; [|discriminate]. injection Em as <-. cbn in Eo. injection Eo as _ <-. cbn in L2. lia. }
  destruct (decide (er = el)); [congruence|]. cbn in Em. injection Em as <-.
  assert (M1 : is_mono [(exp_sub el er, cl / cr)]) by (eexists _, _; split; [reflexivity|]; split; [apply exp_canon_sub; assumption|apply Rdiv_lt_0_compat; assumption]).
  assert (M2 : is_mono [(exp_sub er el, cr / cl)]) by (eexists _, _; split; [reflexivity|]; split; [apply exp_canon_sub; assumption|apply Rdiv_lt_0_compat; assumption]).
  rewrite as_hmapslt1_cons in Eo.
  destruct (as_hmapslt1 inf pick fixed (CS None None) _) as [[st1 l1]|] eqn:E1; [|discriminate].
  destruct (as_hmapslt1 inf pick fixed st1 _) as [[st2 l2]|] eqn:E2; [|discriminate].
  injection Eo as _ <-.
  destruct (one_out inf pick fixed Hs _ _ _ _ M1 E1) as [-> |(h1 & -> & _)], (one_out inf pick fixed Hs _ _ _ _ M2 E2) as [-> |(h2 & -> & _)]; try (cbn in L2; lia).
  cbn [app]. exists h1, h2. split; [reflexivity|]. intros la1 la2.
  exists (exp_mul (exp_sub el er) (la1 - la2)), ([(exp_sub el er, cl / cr)], (la1, exp_mul (exp_sub el er) la1)),
    ([(exp_sub er el, cr / cl)], (la2, exp_mul (exp_sub er el) la2)).
  split; [reflexivity|]. split; [reflexivity|]. split; [|split].
  - apply (mono_item _ _ _ _ _ _ _ (exp_canon_sub _ _ Hel Her) (Rdiv_lt_0_compat _ _ Hcl Hcr) E1). intros q Hq Hw. right.
    pose proof (eval_divterm q er cr [(el, cl)] ltac:(lra)) as D. cbn [map divterm fst snd] in D. cbn [holds_at] in Hw. rewrite Hw in D.
    etransitivity; [exact D|]. cbn [eval]. pose proof (mono_val_pos q er). field. split; lra.
  - apply (mono_item _ _ _ _ _ _ _ (exp_canon_sub _ _ Her Hel) (Rdiv_lt_0_compat _ _ Hcr Hcl) E2). intros q Hq Hw. right.
    pose proof (eval_divterm q el cl [(er, cr)] ltac:(lra)) as D. cbn [map divterm fst snd] in D. cbn [holds_at] in Hw. rewrite <- Hw in D.
    etransitivity; [exact D|]. cbn [eval]. pose proof (mono_val_pos q el). field. split; lra.
  - intros k. cbn [fst snd].
    assert (Em : forall (e : expv R) w, eget (exp_mul e w) k = eget e k * w) by (intros e w; unfold eget, exp_mul; rewrite lookup_fmap; destruct (e !! k); cbn; lra).
    rewrite !Em, !eget_sub. ring.
Qed.

(** ** All of them *)
Definition mkrows (own : list nat) (la : list R) (hs : list (bool * hmap R)) : list (Multipliers.row R) :=
  map (fun x => Row (snd x) (fst (fst x)) (dual_shares (fst (fst x)) (snd (snd (fst x))) env)) (combine (combine la hs) own).
Lemma combine_app {A B} (a a' : list A) (b b' : list B) : length a = length b -> combine (a ++ a') (b ++ b') = combine a b ++ combine a' b'.
Proof. revert b. induction a as [|x a IH]; intros [|y b] L; try discriminate; [reflexivity|]. cbn. f_equal. apply IH. cbn in L. lia. Qed.
Lemma mkrows_app o1 o2 l1 l2 h1 h2 : length o1 = length h1 -> length l1 = length h1 -> mkrows (o1 ++ o2) (l1 ++ l2) (h1 ++ h2) = mkrows o1 l1 h1 ++ mkrows o2 l2 h2.
Proof.
  intros L1 L2. unfold mkrows. rewrite combine_app by exact L2. rewrite combine_app by (rewrite combine_length; lia). apply map_app.
Qed.
Lemma turns_app' (origin lin : nat -> nat) rs rs' : forall (a : sacc R), turns origin lin a (rs ++ rs') = let! a' := turns origin lin a rs in turns origin lin a' rs'.
Proof. induction rs as [|r rs IH]; intros a; [reflexivity|]. cbn [app turns]. destruct (turn origin lin a r) as [a1|]; cbn [rbind]; [apply IH|reflexivity]. Qed.

Definition adds (items : list item) (a a' : sacc R) : Prop :=
  forall k, eget (sa_vars a') k = eget (sa_vars a) k + lsum (fun it => eget (snd (snd it)) k) items.
Definition matches (ws : list written) (hs : list (bool * hmap R)) (la : list R) (items : list item) : Prop :=
  Forall2 (fun vl it => exists w, In w ws /\ item_ok w (snd (fst vl)) (snd vl) it) (combine hs la) items.
Lemma one_turns w c hs i : geometric w -> tracked fixed w -> make w = Ok c -> constr_hmaps inf pick false fixed c = Ok hs ->
  exists o, asked inf pick fixed c = Ok (o, hs) /\
  forall la, length la = length hs -> exists items, matches [w] hs la items /\
  forall (a : sacc R), sa_heap a i = o -> exists a', turns (fun i => i) (fun i => i) a (mkrows (repeat i (length hs)) la hs) = Ok a' /\
    (forall j, j <> i -> sa_heap a' j = sa_heap a j) /\ adds items a a'.
Proof.
  intros Hg Ht Em Ec. destruct w as [l op r|l r]; unfold make in Em.
  - destruct (posy_ineq false l op r) as [us|] eqn:Eu; [|discriminate]. injection Em as <-. cbn [constr_hmaps] in Ec.
    destruct (as_hmapslt1 inf pick fixed (CS None None) us) as [[st' out]|] eqn:Ea; [|discriminate]. cbn in Ec. injection Ec as <-.
    unfold asked. rewrite Ea. cbn [rbind fst snd]. eexists. split; [reflexivity|].
    destruct out as [|v [|v2 out]].
    + intros [|] L; [|discriminate]. exists []. split; [constructor|]. intros a _. exists a. split; [reflexivity|]. split; [reflexivity|].
      intros k. cbn. lra.
    + intros [|la0 [|]] L; try discriminate. destruct (posy_one l op r us st' v la0 Hg Ht Eu Ea) as (u & ss & -> & Ess & Hit).
      exists [(u, (la0, ss))]. split; [constructor; [eexists; split; [left; reflexivity|exact Hit]|constructor]|].
      intros a Ha. eexists. split.
      { unfold mkrows. cbn [map length repeat combine fst snd turns]. unfold turn. cbn [r_con r_la r_nu]. rewrite Ha. cbn [sens_from_dual hd]. rewrite Ess. cbn [rbind fst snd]. reflexivity. }
      split.
      * intros j Hj. cbn [sa_heap]. unfold hupd. destruct (Nat.eqb_spec j i); [congruence|reflexivity].
      * intros k. cbn [sa_vars lsum fst snd]. rewrite add_sens_eget. lra.
    + exfalso. pose proof Hg as (Ho & Hl & Hgr & Hc).
      assert (Eg : gen_unsubbed false (lesser l op r) (greater l op r) = Ok us) by (destruct op; [exact Eu|exact Eu|congruence]).
      pose proof (gen_unsubbed_cases false _ _ Hl Hgr Hc) as C. rewrite Eg in C. destruct us as [|u [|]]; [discriminate| |destruct C].
      destruct C as (Hn & Hcan & _ & [(Hpos & _)|[Hf _]]); [|discriminate].
      pose proof (as_hmapslt1_one inf pick fixed (proj1 Hs) (proj2 Hs) (CS None None) u Hcan Hpos Hn) as C. rewrite Ea in C. exact C.
  - destruct (meq_unsubbed false l r) as [us|] eqn:Eu; [|discriminate]. injection Em as <-. cbn [constr_hmaps] in Ec.
    destruct (as_hmapslt1 inf pick fixed (CS None None) us) as [[st' out]|] eqn:Ea; [|discriminate]. cbn in Ec. injection Ec as <-.
    unfold asked. rewrite Ea. cbn [rbind fst snd]. eexists. split; [reflexivity|].
    destruct (meq_one l r us st' out Hg Eu Ea) as [-> |(v1 & v2 & -> & H)].
    + intros [|] L; [|discriminate]. exists []. split; [constructor|]. intros a _. exists a. split; [reflexivity|]. split; [reflexivity|].
      intros k. cbn. lra.
    + intros [|la1 [|la2 [|]]] L; try discriminate. destruct (H la1 la2) as (ss & it1 & it2 & S1 & S2 & I1 & I2 & Hk).
      exists [it1; it2]. split; [repeat (constructor; [eexists; split; [left; reflexivity|eassumption]|]); constructor|].
      intros a Ha. eexists. split.
      { unfold mkrows. cbn [map length repeat combine fst snd turns]. unfold turn. cbn [r_con r_la r_nu sa_heap]. rewrite Ha. cbn [sens_from_dual]. rewrite S1. cbn [rbind fst snd sa_heap].
        unfold hupd at 1. rewrite Nat.eqb_refl. cbn [sens_from_dual]. rewrite S2. cbn [rbind fst snd]. reflexivity. }
      split.
      * intros j Hj. cbn [sa_heap]. unfold hupd. destruct (Nat.eqb_spec j i); [congruence|reflexivity].
      * intros k. cbn [sa_vars lsum fst snd]. rewrite !add_sens_eget, Hk. unfold eget at 2. rewrite lookup_empty. cbn. lra.
Qed.
Lemma all_turns ws : Forall geometric ws -> Forall (tracked fixed) ws -> forall cs hs i, make_all ws = Ok cs -> chain_hmaps inf pick false fixed cs = Ok hs ->
  exists objs own, parents inf pick fixed i cs = Ok (objs, own) /\ length own = length hs /\
  forall la, length la = length hs -> exists items, matches ws hs la items /\
  forall (a : sacc R), (forall j o, objs !! j = Some o -> sa_heap a (i + j)%nat = o) ->
    exists a', turns (fun i => i) (fun i => i) a (mkrows own la hs) = Ok a' /\ adds items a a'.
Proof.
  induction ws as [|w ws IH]; intros Fg Ft cs hs i Em Ec.
  { cbn in Em. injection Em as <-. cbn in Ec. injection Ec as <-. exists [], []. split; [reflexivity|]. split; [reflexivity|].
    intros [|] L; [|discriminate]. exists []. split; [constructor|]. intros a _. exists a. split; [reflexivity|]. intros k. cbn. lra. }
  inversion Fg as [|? ? Gw Gs]; subst. inversion Ft as [|? ? Tw Ts]; subst. cbn [make_all] in Em.
  destruct (make w) as [c|] eqn:Ew; [|discriminate]. cbn [rbind] in Em. destruct (make_all ws) as [cs'|] eqn:Es; [|discriminate]. cbn [rbind] in Em. injection Em as <-.
  cbn [chain_hmaps] in Ec. destruct (constr_hmaps inf pick false fixed c) as [h1|] eqn:E1; [|discriminate]. cbn [rbind] in Ec.
  destruct (chain_hmaps inf pick false fixed cs') as [h2|] eqn:E2; [|discriminate]. cbn [rbind] in Ec. injection Ec as <-.
  destruct (one_turns w c h1 i Gw Tw Ew E1) as (o & Eo & H1). destruct (IH Gs Ts cs' h2 (S i) eq_refl E2) as (objs & own & Ep & Lo & H2).
  exists (o :: objs), (repeat i (length h1) ++ own). split; [cbn [parents]; rewrite Eo; cbn [rbind]; rewrite Ep; reflexivity|].
  split; [rewrite !app_length, repeat_length, Lo; reflexivity|]. intros la L. rewrite app_length in L.
  assert (Ela : la = take (length h1) la ++ drop (length h1) la) by (symmetry; apply take_drop).
  set (l1 := take (length h1) la) in *. set (l2 := drop (length h1) la) in *.
  assert (L1 : length l1 = length h1) by (unfold l1; rewrite take_length; lia). assert (L2 : length l2 = length h2) by (unfold l2; rewrite drop_length; lia).
  rewrite Ela. destruct (H1 l1 L1) as (it1 & M1 & T1). destruct (H2 l2 L2) as (it2 & M2 & T2).
  exists (it1 ++ it2). split.
  - unfold matches in *. rewrite combine_app by lia. apply Forall2_app.
    + eapply Forall2_impl; [exact M1|]. intros vl it (w' & [-> |[]] & Hi). exists w'. split; [left; reflexivity|exact Hi].
    + eapply Forall2_impl; [exact M2|]. intros vl it (w' & Hin & Hi). exists w'. split; [right; exact Hin|exact Hi].
  - intros a Ha. rewrite mkrows_app by (rewrite ?repeat_length; lia).
    destruct (T1 a) as (a1 & Ea1 & Hh & Ad1); [specialize (Ha 0%nat o eq_refl); rewrite Nat.add_0_r in Ha; exact Ha|].
    destruct (T2 a1) as (a2 & Ea2 & Ad2).
    { intros j o' Hj. rewrite Hh by lia. specialize (Ha (S j) o' Hj). replace (S i + j)%nat with (i + S j)%nat by lia. exact Ha. }
    exists a2. split; [rewrite turns_app', Ea1; exact Ea2|]. intros k. rewrite (Ad2 k), (Ad1 k), lsum_app. lra.
Qed.
End One.
