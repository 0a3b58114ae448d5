(** C32-C33, C56-C57: sensitivities.
    Specification vocabulary: NomialSem.v, SubSem.v, SensSem.v. *)
From Verif Require Import Base HashVec Nomial NomialSem NomialProofs CanonProofs DiffProofs
  Sub SubSem SubProofs SubExtra Mono Constraint ConstraintSem ConstraintProofs PropsConstraint
  MonoProofs GPGenProofs Sens SensSem SensProofs PerturbProofs.
Open Scope R_scope.

(** ** C32 *)

(** The claim for a posynomial inequality [u <= 1]. [v] is what substituting
    the constants made of it and [env] a point at which the duals of the terms of
    [v] are their shares of [la]. *)
Definition C32_posynomial_for (before : cstate R -> Prop)
    (complete : gmap nat R -> hmap R -> sst R -> Prop) : Prop :=
  forall (inf : R) (pick : hmap R -> schedule) (fixed : gmap nat R) (u v : hmap R) (s : sst R)
         (st st' : cstate R) (env : point) (la : R) (k : nat),
  subs_ok fixed pick -> is_posy u -> positive_point env ->
  nm_sub inf fixed u (pick u) = Ok s -> complete fixed u s ->
  before st -> as_hmapslt1 inf pick fixed st [u] = Ok (st', [v]) ->
  exists st'' v_ss d,
    posy_sens st' la (dual_shares la v env) u = Ok (st'', v_ss) /\
    log_deriv (simplified fixed u) (override env fixed) k d /\ eget v_ss k = la * d.

(** Proved for complete fractions, on an object with nothing left over from an
    earlier solve. *)
Theorem C32_posynomial_inequality_partial :
  C32_posynomial_for (fun st => cs_const st = None)
    (fun fixed u s => fractions_right fixed u (s_cp s) (mmap s)).
Proof.
  intros inf pick fixed u v s st st' env la k [Hf Hp] Hu He Es Hfr Hst E.
  destruct (posy_sens_correct inf pick fixed Hf Hp u Hu s Es Hfr env He k st la v Hst st' E) as (ss & d & E1 & Hd & Hs).
  exists (CS None None), ss, d. auto.
Qed.
Print Assumptions C32_posynomial_inequality_partial.

(** The fractions are complete whenever no two terms become like terms, and
    whenever one variable is substituted. *)
Theorem C32_no_like_terms_partial :
  C32_posynomial_for (fun st => cs_const st = None)
    (fun fixed u s => no_like_terms fixed u \/ exists k v, fixed = {[k := v]}).
Proof.
  intros inf pick fixed u v s st st' env la k Hok Hu He Es Hc Hst E.
  apply (C32_posynomial_inequality_partial inf pick fixed u v s st st' env la k Hok Hu He Es); auto.
  destruct Hok as [Hf Hp]. destruct Hu as (Hcan & Hpos & _). destruct Hc as [Hc|(k' & v' & ->)].
  - eapply fractions_no_like; eauto.
  - eapply fractions_single; eauto. apply (Hf k'). apply lookup_singleton.
Qed.
Print Assumptions C32_no_like_terms_partial.

(** After using them the method leaves nothing behind, so a later solve of the
    same object starts clean. *)
Theorem C32_leaves_nothing :
  forall (la : R) (nu : list R) (u : hmap R) (st st' : cstate R) (v_ss : expv R),
  cs_pmap st <> None -> posy_sens st la nu u = Ok (st', v_ss) -> st' = CS None None.
Proof.
  intros la nu u st st' v_ss Hp E. unfold posy_sens in E. destruct (cs_pmap st); [|congruence].
  apply rbind_ok in E as (nu1 & _ & E). destruct (cs_const st) as [[fr c]|].
  - destruct (decide _) in E; [discriminate|]. apply rbind_ok in E as (nu2 & _ & E). congruence.
  - congruence.
Qed.
Print Assumptions C32_leaves_nothing.

(** But a solve in which the constraint is dropped as a tautology leaves its
    constant part behind, and the next solve adds it in: [x >= 1] solved with x
    fixed at 2, then with x free. The sensitivity to x is doubled. *)
Theorem C32_leftover_constant_refuted :
  (let u : hmap Q := [({[0%nat := (-1)%Q]}, 1%Q)] in
   exists st1 st2 st3,
     as_hmapslt1 0%Q (std_schedule {[0%nat := 2%Q]}) {[0%nat := 2%Q]} (CS None None) [u] = Ok (st1, []) /\
     rmap (fun r => map items (snd r)) (as_hmapslt1 0%Q (std_schedule ∅) ∅ st1 [u]) = Ok [items u] /\
     as_hmapslt1 0%Q (std_schedule ∅) ∅ st1 [u] = Ok (st2, [u]) /\
     rmap (fun r => map_to_list (snd r)) (posy_sens st2 1%Q [1%Q] u) = Ok [(0%nat, (-2)%Q)] /\
     posy_sens st2 1%Q [1%Q] u = Ok st3) /\
  ~ C32_posynomial_for (fun _ => True) (fun fixed u s => fractions_right fixed u (s_cp s) (mmap s)).
Proof.
  split.
  { cbn zeta. do 3 eexists. split; [vm_compute; reflexivity|]. split; [vm_compute; reflexivity|].
    split; [vm_compute; reflexivity|]. split; vm_compute; reflexivity. }
  intros H. set (u := [({[0%nat := -1]}, 1)] : hmap R).
  assert (Hu : is_posy u).
  { split; [split|split].
    - apply NoDup_singleton.
    - intros e c [[= <- <-]|[]]. split; [|lra]. intros k x Hx. apply lookup_singleton_Some in Hx as [_ <-]. lra.
    - intros e c [[= <- <-]|[]]. lra.
    - discriminate. }
  assert (Hok : subs_ok ∅ (std_schedule (T := R) ∅)).
  { split; [|intros h; apply std_schedule_valid]. intros k v Hk. rewrite lookup_empty in Hk. discriminate. }
  assert (Es : nm_sub 0 ∅ u (std_schedule ∅ u) = Ok (sub_init u)).
  { apply sub_nothing; [apply Hok|]. intros k _. apply lookup_empty. }
  assert (Hfr : fractions_right ∅ u (s_cp (sub_init u)) (mmap (sub_init u))).
  { destruct Hu as (Hc & Hpos & _). eapply fractions_no_like; eauto; [apply Hok| |apply Hok].
    intros i j o1 c1 o2 c2 Hi Hj _. unfold u in Hi, Hj. destruct i, j; auto; cbn in Hi, Hj; discriminate. }
  set (st := CS None (Some ([(0%nat, 1)], / 2)) : cstate R).
  assert (Hne : e_empty <> ({[0%nat := -1]} : expv R)).
  { intros E. apply (f_equal (fun e : gmap nat R => e !! 0%nat)) in E. discriminate. }
  assert (Em : mmap (sub_init u) = [[(0%nat, 1 / 1)]]).
  { unfold mmap, sub_init, u. cbn [s_cp s_cur s_cs map combine length seq flat_map fst snd]. rewrite decide_True by auto. reflexivity. }
  assert (E : as_hmapslt1 0 (std_schedule ∅) ∅ st [u] = Ok (CS (Some [[(0%nat, 1 / 1)]]) (Some ([(0%nat, 1)], / 2)), [u])).
  { cbn [as_hmapslt1]. rewrite Es. cbn [rbind]. rewrite Em. unfold simplify, note_const, u. cbn [sub_init s_cp dget]. rewrite decide_False by auto.
    cbn [rbind]. replace (any_nonpositive [({[0%nat := -1]}, 1)]) with false; [reflexivity|].
    symmetry. apply any_nonpositive_false. intros e c [[= <- <-]|[]]. lra. }
  destruct (H 0 (std_schedule ∅) ∅ u u (sub_init u) st _ (fun _ => 1) 1 0%nat Hok Hu ltac:(intros ?; lra) Es Hfr I E)
    as (st'' & ss & d & E1 & Hd & Hs).
  destruct (C32_posynomial_inequality_partial 0 (std_schedule ∅) ∅ u u (sub_init u) (CS None None) (CS (Some [[(0%nat, 1 / 1)]]) None) (fun _ => 1) 1 0%nat
    Hok Hu ltac:(intros ?; lra) Es Hfr eq_refl) as (st2 & ss2 & d2 & E2 & Hd2 & Hs2).
  { cbn [as_hmapslt1]. rewrite Es. cbn [rbind]. rewrite Em. unfold simplify, note_const, u. cbn [sub_init s_cp dget]. rewrite decide_False by auto.
    cbn [rbind]. replace (any_nonpositive [({[0%nat := -1]}, 1)]) with false; [reflexivity|].
    symmetry. apply any_nonpositive_false. intros e c [[= <- <-]|[]]. lra. }
  assert (d = d2) as -> by (eapply uniqueness_limite; eauto).
  assert (Hsh : dual_shares 1 u (fun _ => 1) = [1]).
  { unfold dual_shares, term_val, u. cbn [map fst snd eval]. rewrite !mono_val_ones. f_equal. field. }
  rewrite Hsh in E1, E2.
  unfold posy_sens in E1, E2. cbn [cs_pmap cs_const length u replicate add_pmap add_fractions] in E1, E2.
  unfold add_at in E1, E2. cbn [lookup list_lookup rbind insert list_insert] in E1, E2.
  rewrite decide_False in E1 by (cbn; lra). cbn [rbind] in E1.
  injection E1 as <- <-. injection E2 as <- <-.
  rewrite <- !hget_eget in *. rewrite sum_terms_hget in Hs, Hs2. unfold u in Hs, Hs2. cbn [List.combine lsum fst snd] in Hs, Hs2.
  change (eget {[0%nat := -1]} 0%nat) with (-1) in Hs, Hs2. cbn [nadd nmul ndiv nsub n1 n0 R_num] in Hs, Hs2. lra.
Qed.
Print Assumptions C32_leftover_constant_refuted.

(** *** A case: [x*y + 3*y <= 100] with x = 5 fixed (x is 0, y is 1). *)
Definition ex_x5 : gmap nat R := {[0%nat := 5]}.
Definition ex_u : hmap R := [(list_to_map [(0%nat, 1); (1%nat, 1)], 1 / 100); ({[1%nat := 1]}, 3 / 100)].
Lemma ex_x5_ok : subs_ok ex_x5 (std_schedule ex_x5).
Proof.
  split; [|intros h; apply std_schedule_valid]. intros k v Hk. unfold ex_x5 in Hk. apply lookup_singleton_Some in Hk as [_ <-]. lra.
Qed.
Lemma ex_u_posy : is_posy ex_u.
Proof.
  split; [split|split].
  - apply NoDup_ListNoDup. cbn. repeat constructor; cbn; intuition.
    apply (f_equal (fun e : gmap nat R => e !! 0%nat)) in H0. discriminate.
  - intros e c [[= <- <-]|[[= <- <-]|[]]]; (split; [|lra]); [|apply exp_canon_singleton].
    intros k x Hx. apply (elem_of_list_to_map_2 [(0%nat, 1); (1%nat, 1)]), elem_of_list_In in Hx. destruct Hx as [[= <- <-]|[[= <- <-]|[]]]; lra.
  - intros e c [[= <- <-]|[[= <- <-]|[]]]; lra.
  - discriminate.
Qed.
Example C32_nonvacuous : subs_ok ex_x5 (std_schedule ex_x5) /\ is_posy ex_u /\ ex_u <> [] /\
  exists s st' v, nm_sub 0 ex_x5 ex_u (std_schedule ex_x5 ex_u) = Ok s /\
    fractions_right ex_x5 ex_u (s_cp s) (mmap s) /\
    as_hmapslt1 0 (std_schedule ex_x5) ex_x5 (CS None None) [ex_u] = Ok (st', [v]).
Proof.
  split; [apply ex_x5_ok|]. split; [apply ex_u_posy|]. split; [discriminate|].
  destruct ex_x5_ok as [Hf Hp]. destruct ex_u_posy as (Hc & Hpos & Hne).
  destruct (sub_any 0 (std_schedule ex_x5) ex_x5 Hf Hp ex_u Hc) as (s & Es & _).
  assert (Hk : in_vks ex_u 1 = true).
  { apply in_vks_true. exists {[1%nat := 1]}, (3/100). split; [right; left; auto|discriminate]. }
  pose proof (C19_constant_part_partial 0 (std_schedule ex_x5) ex_x5 (CS None None) ex_u 1 ex_x5_ok ex_u_posy Hk eq_refl) as H1.
  destruct (as_hmapslt1 0 (std_schedule ex_x5) ex_x5 (CS None None) [ex_u]) as [[st' out]|x].
  - destruct out as [|v [|]]; cbn in H1; try discriminate. exists s, st', v. split; auto. split; auto.
    apply (fractions_single 0 ex_u 0 5 _ s Hc Hpos ltac:(lra) (Hp ex_u) Es).
  - exfalso. apply (H1 (fun _ => 1)); [intros ?; lra|]. unfold ex_u. cbn [eval].
    assert (P0 : override (fun _ => 1) ex_x5 0%nat = 5) by reflexivity.
    assert (P1 : override (fun _ => 1) ex_x5 1%nat = 1) by reflexivity.
    cbn [list_to_map foldr fst snd]. rewrite mono_val_insert by reflexivity. change (<[1%nat := 1]> ∅) with ({[1%nat := 1]} : expv R).
    rewrite !mono_val_singleton by lra. rewrite P0, P1, Rpower_1 by lra. lra.
Qed.
Example C32_computed : (* the sensitivities of 5/100*y + 3/100*y at y = 25/2, la = 1: 5/8 and 1 *)
  let u : hmap Q := [(list_to_map [(0%nat, 1%Q); (1%nat, 1%Q)], (1 # 100)%Q); ({[1%nat := 1%Q]}, (3 # 100)%Q)] in
  let fixed : gmap nat Q := {[0%nat := 5%Q]} in
  (let! r := as_hmapslt1 0%Q (std_schedule fixed) fixed (CS None None) [u] in
   let! q := posy_sens (fst r) 1%Q [1%Q] u in Ok (map_to_list (snd q))) = Ok [(0%nat, (5 # 8)%Q); (1%nat, 1%Q)].
Proof. vm_compute. reflexivity. Qed.

(** *** Monomial equalities. The first direction's dual is kept, and the second
    reports the sensitivity of [left == right] for their difference. *)
Theorem C32_monomial_equality :
  forall (se : bool) (left right : hmap R) (us : list (hmap R)) (la1 la2 : R),
  is_mono left -> is_mono right -> meq_unsubbed se left right = Ok us -> length us = 2%nat ->
  exists v_ss, meq_sens [] la1 us = Ok ([la1], (∅, 0)) /\ meq_sens [la1] la2 us = Ok ([], (v_ss, la1 - la2)) /\
    forall p k, positive_point p -> exists d,
      log_deriv (fun q => eval q left / eval q right) p k d /\ eget v_ss k = (la1 - la2) * d.
Proof. exact meq_sens_correct. Qed.
Print Assumptions C32_monomial_equality.

Example C32_equality_nonvacuous : (* x == 2*y *)
  let left : hmap R := [({[0%nat := 1]}, 1)] in let right : hmap R := [({[1%nat := 1]}, 2)] in
  is_mono left /\ is_mono right /\
  exists us, meq_unsubbed false left right = Ok us /\ length us = 2%nat.
Proof.
  cbn zeta.
  assert (Hl : is_mono [({[0%nat := 1]}, 1)]) by (exists {[0%nat := 1]}, 1; split; [auto|split; [apply exp_canon_singleton|lra]]).
  assert (Hr : is_mono [({[1%nat := 1]}, 2)]) by (exists {[1%nat := 1]}, 2; split; [auto|split; [apply exp_canon_singleton|lra]]).
  split; auto. split; auto.
  assert (Hne : ({[0%nat := 1]} : expv R) <> {[1%nat := 1]}).
  { intros E. apply (f_equal (fun e : gmap nat R => e !! 0%nat)) in E. discriminate. }
  unfold meq_unsubbed. rewrite !gen_mono by (auto; try apply exp_canon_singleton; lra).
  rewrite !decide_False by auto. eexists. split; [reflexivity|]. reflexivity.
Qed.

(** *** Signomial inequalities [s <= 0] that substitution makes into
    [P <= ne] with [P] a posynomial and [ne] a monomial. *)

(** [fixed] are the constants and [vals] all the values of the solution; every
    original term is accounted for by the record of where it went. *)
Definition signomial_case (inf : R) (pick pickv : hmap R -> schedule) (vks : hmap R -> list nat)
    (fixed vals : gmap nat R) (s : hmap R) (st : sst R) (P : hmap R) (ne : expv R) (nc : R) : Prop :=
  subs_ok fixed pick /\ subs_ok vals pickv /\ canonical s /\
  (forall h, List.NoDup (vks h) /\ forall k, In k (vks h) <-> in_vks h k = true) /\
  (forall k v, fixed !! k = Some v -> vals !! k = Some v) /\
  (forall k, in_vks s k = true -> vals !! k <> None) /\
  nm_sub inf fixed s (pick s) = Ok st /\ posy_negy (s_cp st) = (P, [(ne, nc)]) /\ P <> [] /\
  s_cur st = map (fun t => surviving fixed (fst t)) s /\
  (forall t, In t s -> In (surviving fixed (fst t)) (dkeys (s_cp st))).

(** Which original terms mention [k]: those in the divisor, those above it. *)
Definition below (fixed : gmap nat R) (s : hmap R) (ne : expv R) (k : nat) : Prop :=
  exists t, In t s /\ surviving fixed (fst t) = ne /\ fst t !! k <> None.
Definition above (fixed : gmap nat R) (s : hmap R) (ne : expv R) (k : nat) : Prop :=
  exists t, In t s /\ surviving fixed (fst t) <> ne /\ fst t !! k <> None.

Definition C32_signomial_for (sides : gmap nat R -> hmap R -> expv R -> nat -> Prop) : Prop :=
  forall (inf : R) (pick pickv : hmap R -> schedule) (vks : hmap R -> list nat) (fixed vals : gmap nat R)
         (s : hmap R) (st : sst R) (P : hmap R) (ne : expv R) (nc : R) (se : bool) (la : R) (k : nat),
  signomial_case inf pick pickv vks fixed vals s st P ne nc -> sides fixed s ne k ->
  let p := override (fun _ => 1) vals in
  exists parts v_ss d,
    sig_parts se s (s_cur st) P ne nc = Ok parts /\
    sig_sens inf pickv vks parts vals (dual_shares la (sp_mons parts) p) = Ok v_ss /\
    log_deriv (sig_simplified fixed s ne) p k d /\ eget v_ss k = la * d.

(** Proved for variables on one side only. *)
Theorem C32_signomial_one_side_partial :
  C32_signomial_for (fun fixed s ne k => ~ (above fixed s ne k /\ below fixed s ne k)).
Proof.
  intros inf pick pickv vks fixed vals s st P ne nc se la k
    ([Hf Hp] & [Hfv Hpv] & Hs & Hvks & Hsub & Hall & Es & HPN & HPne & Hcur & Hnoc) Hside p.
  destruct (sig_sens_value inf pick fixed Hf Hp s Hs st Es Hcur P ne nc HPN vals Hfv Hsub Hall pickv Hpv vks Hvks se la)
    as (parts & ss & E1 & _ & E2 & Hss).
  exists parts, ss. eexists. split; [exact E1|]. split; [exact E2|]. split.
  - apply (sig_log_deriv inf pick fixed Hf Hp s Hs st Es P ne nc HPN HPne Hnoc vals Hfv Hsub).
  - rewrite Hss.
    apply (sig_once inf pick fixed Hf Hp s Hs st Es P ne nc HPN HPne vals Hfv Hsub).
    destruct (in_vks (negated (group fixed s ne)) k) eqn:Ek; [right|auto].
    intros [e c] Ht. cbn [fst]. destruct (in_vks (group fixed s e) k) eqn:Eg; auto. exfalso. apply Hside.
    apply in_vks_true in Ek as (e1 & c1 & H1 & Hk1). apply in_vks_true in Eg as (e2 & c2 & H2 & Hk2).
    unfold negated in H1. apply in_map_iff in H1 as ([e1' c1'] & [= <- <-] & H1).
    unfold group in H1, H2. apply filter_In in H1 as [H1 D1]. apply filter_In in H2 as [H2 D2].
    apply bool_decide_eq_true in D1, D2. cbn [fst] in D1, D2.
    destruct (sig_facts inf pick fixed Hf Hp s Hs st Es P ne nc HPN) as (_ & _ & _ & _ & _ & Hne & _).
    destruct (Hne e c Ht) as [_ Hd].
    split; [exists (e2, c2)|exists (e1', c1')]; (split; [auto|split; [cbn [fst]; congruence|auto]]).
Qed.
Print Assumptions C32_signomial_one_side_partial.

(** With no like terms after substitution the record is complete. *)
Theorem C32_signomial_records :
  forall (inf : R) (pick : hmap R -> schedule) (fixed : gmap nat R) (s : hmap R) (st : sst R),
  subs_ok fixed pick -> canonical s -> no_like_terms fixed s -> nm_sub inf fixed s (pick s) = Ok st ->
  s_cur st = map (fun t => surviving fixed (fst t)) s /\
  (forall t, In t s -> In (surviving fixed (fst t)) (dkeys (s_cp st))).
Proof. intros inf pick fixed s st [Hf Hp] Hs Hm Es. eapply no_like_tracked; eauto. Qed.
Print Assumptions C32_signomial_records.

(** A variable in the divisor and in every group of terms above it is counted
    twice: the set of variables is built as a list of two sets. *)
Theorem C32_signomial_double_count_refuted :
  (forall (inf : R) (pick pickv : hmap R -> schedule) (vks : hmap R -> list nat) (fixed vals : gmap nat R)
         (s : hmap R) (st : sst R) (P : hmap R) (ne : expv R) (nc : R) (se : bool) (la : R) (k : nat),
   signomial_case inf pick pickv vks fixed vals s st P ne nc ->
   below fixed s ne k -> (forall t, In t s -> surviving fixed (fst t) <> ne -> fst t !! k <> None) ->
   let p := override (fun _ => 1) vals in
   exists parts v_ss d,
     sig_parts se s (s_cur st) P ne nc = Ok parts /\
     sig_sens inf pickv vks parts vals (dual_shares la (sp_mons parts) p) = Ok v_ss /\
     log_deriv (sig_simplified fixed s ne) p k d /\ eget v_ss k = 2 * (la * d)) /\
  (* x*a - a^2*y <= 0 with a = 1: its value is x/(a*y), log derivative -1 *)
  (let s : hmap Q := [(list_to_map [(0%nat, 1%Q); (1%nat, 1%Q)], 1%Q); (list_to_map [(1%nat, 2%Q); (2%nat, 1%Q)], (-1)%Q)] in
   let fixed : gmap nat Q := {[1%nat := 1%Q]} in
   let vals : gmap nat Q := list_to_map [(0%nat, 3%Q); (1%nat, 1%Q); (2%nat, 3%Q)] in
   let keys (h : hmap Q) := map fst (map_to_list (foldr (fun t a => union (fst t) a) ∅ h)) in
   (let! st := nm_sub 0%Q fixed s (std_schedule fixed s) in
    match posy_negy (s_cp st) with
    | (P, [(ne, nc)]) =>
        let! parts := sig_parts true s (s_cur st) P ne nc in
        let! ss := sig_sens 0%Q (std_schedule vals) keys parts vals [1%Q] in
        Ok (map_to_list ss)
    | _ => Err ValueErrorE
    end) = Ok [(0%nat, 1%Q); (1%nat, (-2)%Q); (2%nat, (-1)%Q)]).
Proof.
  split; [|vm_compute; reflexivity].
  intros inf pick pickv vks fixed vals s st P ne nc se la k
    ([Hf Hp] & [Hfv Hpv] & Hs & Hvks & Hsub & Hall & Es & HPN & HPne & Hcur & Hnoc) Hb Ha p.
  destruct (sig_sens_value inf pick fixed Hf Hp s Hs st Es Hcur P ne nc HPN vals Hfv Hsub Hall pickv Hpv vks Hvks se la)
    as (parts & ss & E1 & _ & E2 & Hss).
  exists parts, ss. eexists. split; [exact E1|]. split; [exact E2|]. split.
  - apply (sig_log_deriv inf pick fixed Hf Hp s Hs st Es P ne nc HPN HPne Hnoc vals Hfv Hsub).
  - rewrite Hss.
    apply (sig_twice inf pick fixed Hf Hp s Hs st Es P ne nc HPN HPne vals Hfv Hsub).
    + destruct Hb as ([o c] & Ho & Hsv & Hk). cbn [fst] in *. apply in_vks_true. exists o, (- c). split; auto.
      unfold negated. apply in_map_iff. exists (o, c). split; auto. apply filter_In. split; auto. apply bool_decide_eq_true. auto.
    + intros [e c] Ht. cbn [fst].
      destruct (sig_facts inf pick fixed Hf Hp s Hs st Es P ne nc HPN) as (_ & PP & _ & _ & _ & Hne & _).
      destruct (Hne e c Ht) as [Hd Hnn]. pose proof (PP e c Ht) as Hc0.
      destruct (group fixed s e) as [|[o x] g] eqn:Eg.
      * exfalso. pose proof (final_coef inf s fixed (proj1 Hs) (positive_defined fixed s Hf) (pick s) st e (Hp s) Es) as Hco.
        unfold coef in Hco. rewrite Hd in Hco. rewrite (lsum_ext _ (fun _ => 0)), lsum_zero in Hco; [lra|].
        intros t Hin. destruct (decide (surviving fixed (fst t) = e)) as [Et|]; auto. exfalso.
        assert (In t (group fixed s e)) as Hg by (apply filter_In; split; auto; apply bool_decide_eq_true; auto).
        rewrite Eg in Hg. destruct Hg.
      * apply in_vks_true. exists o, x. split; [left; auto|].
        assert (Hin : In (o, x) (group fixed s e)) by (rewrite Eg; left; auto).
        apply filter_In in Hin as [Hin Hsv]. apply bool_decide_eq_true in Hsv. cbn [fst] in Hsv.
        apply (Ha (o, x) Hin). cbn [fst]. congruence.
Qed.
Print Assumptions C32_signomial_double_count_refuted.

(** *** A case for both: [x*a - a^2*y <= 0] at x = y = 3, a = 1. *)
Definition ex_s : hmap R := [(list_to_map [(0%nat, 1); (1%nat, 1)], 1); (list_to_map [(1%nat, 2); (2%nat, 1)], -1)].
Definition ex_vals : gmap nat R := list_to_map [(0%nat, 3); (1%nat, 1); (2%nat, 3)].
Definition all_vks (h : hmap R) : list nat := map fst (map_to_list (foldr (fun t a => fst t ∪ a) ∅ h)).
Lemma all_vks_ok h : List.NoDup (all_vks h) /\ forall k, In k (all_vks h) <-> in_vks h k = true.
Proof.
  unfold all_vks. split; [apply NoDup_ListNoDup, NoDup_fst_map_to_list|]. intros k. rewrite in_vks_true.
  assert (H : In k (map fst (map_to_list (foldr (fun t a => fst t ∪ a) ∅ h))) <-> (foldr (fun t a => fst t ∪ a) ∅ h : gmap nat R) !! k <> None).
  { rewrite in_map_iff. split.
    - intros ([k' x] & <- & Hin). apply elem_of_list_In, elem_of_map_to_list in Hin. cbn. congruence.
    - intros Hk. destruct (_ !! k) as [x|] eqn:E; [|congruence]. exists (k, x). split; auto.
      apply elem_of_list_In, elem_of_map_to_list. auto. }
  rewrite H. clear H. unfold var_of. induction h as [|[e c] h IH]; cbn [foldr fst].
  - rewrite lookup_empty. split; [congruence|]. intros (e & c & [] & _).
  - assert (Hu : (e ∪ foldr (fun t a => fst t ∪ a) ∅ h : gmap nat R) !! k <> None <-> e !! k <> None \/ (foldr (fun t a => fst t ∪ a) ∅ h : gmap nat R) !! k <> None).
    { rewrite lookup_union_None. destruct (e !! k); destruct ((foldr (fun t a => fst t ∪ a) ∅ h : gmap nat R) !! k); intuition congruence. }
    rewrite Hu. split.
    + intros Hk. destruct (e !! k) eqn:E.
      * exists e, c. split; [left; auto|congruence].
      * destruct IH as [IH _]. destruct IH as (e' & c' & Hin & Hk'); [|exists e', c'; split; [right; auto|auto]]. tauto.
    + intros (e' & c' & [[= <- <-]|Hin] & Hk'); [left; auto|right]. apply IH. exists e', c'. auto.
Qed.


Example C32_signomial_nonvacuous :
  exists st P ne nc, signomial_case 0 (std_schedule ∅) (std_schedule ex_vals) all_vks ∅ ex_vals ex_s st P ne nc /\
    ~ (above ∅ ex_s ne 0 /\ below ∅ ex_s ne 0) /\
    below ∅ ex_s ne 1 /\ (forall t, In t ex_s -> surviving ∅ (fst t) <> ne -> fst t !! 1%nat <> None).
Proof.
  set (e1 := list_to_map [(0%nat, 1); (1%nat, 1)] : expv R). set (e2 := list_to_map [(1%nat, 2); (2%nat, 1)] : expv R).
  assert (Hd : e1 <> e2).
  { intros E. apply (f_equal (fun e : gmap nat R => e !! 0%nat)) in E. discriminate. }
  assert (N1 : NoDup (dkeys [(e1, 1); (e2, -1)])) by (apply NoDup_ListNoDup; cbn; repeat constructor; cbn; intuition).
  assert (Hcan : canonical ex_s).
  { split; [exact N1|].
    intros e c [[= <- <-]|[[= <- <-]|[]]]; (split; [|lra]).
    + intros k x Hx. apply (elem_of_list_to_map_2 [(0%nat, 1); (1%nat, 1)]), elem_of_list_In in Hx. destruct Hx as [[= <- <-]|[[= <- <-]|[]]]; lra.
    + intros k x Hx. apply (elem_of_list_to_map_2 [(1%nat, 2); (2%nat, 1)]), elem_of_list_In in Hx. destruct Hx as [[= <- <-]|[[= <- <-]|[]]]; lra. }
  assert (Ha : subs_ok ∅ (std_schedule (T := R) ∅)).
  { split; [|intros h; apply std_schedule_valid]. intros k v Hk. rewrite lookup_empty in Hk. discriminate. }
  assert (Hv : subs_ok ex_vals (std_schedule ex_vals)).
  { split; [|intros h; apply std_schedule_valid]. intros k v Hk.
    apply (elem_of_list_to_map_2 [(0%nat, 3); (1%nat, 1); (2%nat, 3)]), elem_of_list_In in Hk.
    destruct Hk as [[= <- <-]|[[= <- <-]|[[= <- <-]|[]]]]; lra. }
  assert (Sv : forall e : expv R, surviving ∅ e = e) by (intros e; unfold surviving; apply map_difference_empty).
  assert (Es : nm_sub 0 ∅ ex_s (std_schedule ∅ ex_s) = Ok (sub_init ex_s)).
  { apply sub_nothing; [apply Ha|]. intros k _. apply lookup_empty. }
  exists (sub_init ex_s), [(e1, 1)], e2, 1. split; [|split; [|split]].
  - split; [exact Ha|]. split; [exact Hv|]. split; [exact Hcan|]. split; [exact all_vks_ok|].
    split; [intros k v Hk; rewrite lookup_empty in Hk; discriminate|]. split.
    { intros k Hk. apply in_vks_true in Hk as (e & c & [[= <- <-]|[[= <- <-]|[]]] & Hk);
      destruct k as [|[|[|k]]]; try (cbn; discriminate); exfalso; apply Hk; rewrite !lookup_insert_ne by lia; apply lookup_empty. }
    split; [exact Es|]. split.
    { cbn [sub_init s_cp]. change ex_s with [(e1, 1); (e2, -1)]. rewrite posy_negy_spec by exact N1. cbn [List.filter fst snd map]. unfold Rltb.
      destruct (Rlt_dec 0 1); [|lra]. destruct (Rlt_dec 0 (-1)); [lra|]. destruct (Rlt_dec 1 0); [lra|].
      destruct (Rlt_dec (-1) 0); [|lra]. cbn [map fst snd]. replace (- -1) with 1 by lra. reflexivity. }
    split; [discriminate|]. cbn [sub_init s_cp s_cur]. split.
    + apply map_ext. intros t. symmetry. apply Sv.
    + intros t Ht. rewrite Sv. apply in_map. exact Ht.
  - intros [_ (t & [<-|[<-|[]]] & Hsv & Hk)]; rewrite Sv in Hsv; cbn [fst] in *; [apply Hd; exact Hsv|]. apply Hk. reflexivity.
  - exists (e2, -1). split; [right; left; reflexivity|]. split; [apply Sv|discriminate].
  - intros t [<-|[<-|[]]]; rewrite Sv; cbn [fst]; [intros _; discriminate|intros H; exfalso; apply H; reflexivity].
Qed.

(** ** C33 *)

(** [gpv] are the totals before linked variables are carried over and [cost] the
    sensitivities of the cost alone; [grads v] lists the inputs of [v] with the
    derivatives of [v] (nothing for a variable that is not linked); [consts] are
    the values of constants; [order] is the order in which [gpv] yields its
    variables. *)
Definition C33_for (allowed : (nat -> bool) -> (nat -> list (nat * R)) -> expv R -> Prop) : Prop :=
  forall (consts : nat -> R) (in_cost : nat -> bool) (grads : nat -> list (nat * R)) (gpv cost : expv R) (order : list nat),
  (forall v, NoDup (map fst (grads v))) ->
  (forall v c d, In (c, d) (grads v) -> grads c = []) ->
  List.NoDup order -> (forall v, In v order <-> gpv !! v <> None) ->
  allowed in_cost grads cost ->
  exists gpv' cost', carry_linked consts in_cost grads gpv cost order = (gpv', cost') /\
    (forall v, grads v <> [] -> gpv' !! v = None) /\
    (forall c, grads c = [] -> eget gpv' c = eget gpv c +
       lsum (fun v => eget gpv v * lsum (fun cd => if decide (fst cd = c) then snd cd * consts c / consts v else 0) (grads v)) order).

(** Proved when a linked variable of the cost has no input in the cost, or only
    its last. *)
Theorem C33_chain_rule_partial :
  C33_for (fun in_cost grads cost => forall v, cost !! v <> None ->
    forall pre c post, grads v = pre ++ c :: post -> in_cost (fst c) = true -> post = []).
Proof.
  intros consts in_cost grads gpv cost order Hn Hin Ho Hord Hok.
  destruct (carry_linked_correct consts in_cost grads Hn Hin gpv cost order Ho Hord) as (g' & c' & E & H1 & H2).
  { intros v. unfold last_in_cost. destruct (cost !! v) eqn:Ec; [right|left; auto]. apply Hok. congruence. }
  exists g', c'. split; auto. split; auto. intros c Hc. rewrite H1 by auto. f_equal. apply lsum_ext. intros v _. f_equal.
  unfold dlog. generalize (Hn v). generalize (grads v). induction l as [|[c0 d0] l IH]; intros Hl; cbn [dget lsum fst snd]; auto.
  cbn [map fst] in Hl. inversion Hl as [|? ? Hx Hl']; subst. destruct (decide (c = c0)) as [->|Hne].
  - rewrite decide_True by auto. rewrite (lsum_ext _ (fun _ => 0)); [rewrite lsum_zero; lra|]. intros [c1 d1] Hi. cbn [fst snd].
    rewrite decide_False; auto. intros ->. apply Hx. apply elem_of_list_In. apply in_map_iff. exists (c0, d1). auto.
  - rewrite decide_False by auto. rewrite IH by auto. lra.
Qed.
Print Assumptions C33_chain_rule_partial.

(** In general it is false: carrying the cost's own sensitivity over overwrites
    the total, so that inputs that come later get the cost's part alone. Variable
    2 is linked to 0 and 1, all in the cost, with 5 in the constraints: of [5 + 1]
    only 1 reaches variable 1. *)
Theorem C33_overwritten_total_refuted :
  (let consts := fun _ : nat => 1%Q in
   let grads := fun v => if Nat.eqb v 2 then [(0%nat, 1%Q); (1%nat, 1%Q)] else [] in
   let gpv : gmap nat Q := list_to_map [(0%nat, 1%Q); (1%nat, 1%Q); (2%nat, 6%Q)] in
   let cost : gmap nat Q := list_to_map [(0%nat, 1%Q); (1%nat, 1%Q); (2%nat, 1%Q)] in
   map_to_list (fst (carry_linked consts (fun _ => true) grads gpv cost [0; 1; 2]%nat)) = [(0%nat, 7%Q); (1%nat, 2%Q)]) /\
  ~ C33_for (fun _ _ _ => True).
Proof.
  split; [vm_compute; reflexivity|]. intros H.
  set (grads := fun v => if Nat.eqb v 2 then [(0%nat, 1); (1%nat, 1)] else []).
  destruct (H (fun _ => 1) (fun _ => true) grads {[2%nat := 6]} {[2%nat := 1]} [2%nat]) as (g' & c' & E & _ & Hc); auto.
  - intros v. unfold grads. destruct (v =? 2)%nat; apply NoDup_ListNoDup; repeat constructor; cbn; intuition lia.
  - intros v c d Hi. unfold grads in *. destruct (v =? 2)%nat; [|destruct Hi]. destruct Hi as [[= <- <-]|[[= <- <-]|[]]]; reflexivity.
  - repeat constructor; cbn; tauto.
  - intros v. split.
    + intros [<-|[]]. discriminate.
    + intros Hv. left. destruct (decide (2%nat = v)); auto. rewrite lookup_singleton_ne in Hv by auto. congruence.
  - specialize (Hc 1%nat eq_refl). unfold grads in Hc. cbn [lsum Nat.eqb fst snd] in Hc.
    rewrite decide_False in Hc by lia. rewrite decide_True in Hc by auto.
    assert (Hg : eget g' 1 = 1).
    { unfold carry_linked in E. cbn [List.filter grads Nat.eqb fold_left] in E. unfold carry_var in E.
      change (grads 2%nat) with [(0%nat, 1); (1%nat, 1)] in E. cbn [fold_left] in E. unfold carry_input in E.
      rewrite lookup_singleton in E. cbv beta iota in E.
      rewrite lookup_insert_ne, lookup_delete in E by lia. cbv beta iota in E.
      injection E as <- <-. unfold eget. rewrite lookup_insert. unfold hget at 1.
      rewrite lookup_insert_ne, lookup_delete_ne, lookup_singleton_ne by lia. cbn [nadd nmul ndiv R_num n0]. lra. }
    rewrite Hg in Hc. change (eget {[2%nat := 6]} 1) with 0 in Hc. change (eget {[2%nat := 6]} 2) with 6 in Hc. lra.
Qed.
Print Assumptions C33_overwritten_total_refuted.

Example C33_nonvacuous : (* 2 is linked to 0; 2 and 0 are in the cost *)
  let grads := fun v => if Nat.eqb v 2 then [(0%nat, 1)] else [] in
  let gpv : expv R := {[2%nat := 6]} in
  (forall v, NoDup (map fst (grads v))) /\ (forall v c d, In (c, d) (grads v) -> grads c = []) /\
  (forall v, In v [2%nat] <-> gpv !! v <> None) /\
  (forall v, ({[2%nat := 1]} : expv R) !! v <> None -> forall pre c post, grads v = pre ++ c :: post -> true = true -> post = []).
Proof.
  cbn zeta. split; [intros v; destruct (v =? 2)%nat; apply NoDup_ListNoDup; repeat constructor; cbn; tauto|].
  split; [intros v c d Hi; destruct (v =? 2)%nat; [destruct Hi as [[= <- <-]|[]]; reflexivity|destruct Hi]|]. split.
  - intros v. split; [intros [<-|[]]; discriminate|].
    intros Hv. left. destruct (decide (2%nat = v)); auto. rewrite lookup_singleton_ne in Hv by auto. congruence.
  - intros v _ pre c post E _. destruct (v =? 2)%nat.
    + destruct pre as [|? [|]]; cbn in E; [congruence|discriminate|discriminate].
    + destruct pre; discriminate.
Qed.

(** ** C56 *)

(** The sensitivities before linked variables are carried over are the sums of
    the cost's and every constraint's. *)
Theorem C56_total_is_the_sum :
  forall (cost : expv R) (parts : list (expv R)) (k : nat),
  eget (total_sens cost parts) k = eget cost k + lsum (fun ss => eget ss k) parts.
Proof. intros. apply total_sens_eget. Qed.
Print Assumptions C56_total_is_the_sum.

(** The part of the cost. [cp] is the cost after substituting constants, whose
    duals at the solution are its terms' shares of the cost. *)
Definition C56_cost_for (allowed : gmap nat R -> hmap R -> hmap R -> Prop) : Prop :=
  forall (inf : R) (pick : hmap R -> schedule) (fixed : gmap nat R) (cost : hmap R) (s : sst R) (env : point) (k : nat),
  subs_ok fixed pick -> is_posy cost -> positive_point env ->
  nm_sub inf fixed cost (pick cost) = Ok s -> allowed fixed cost (s_cp s) ->
  exists d, log_deriv (fun q => eval q cost) (override env fixed) k d /\
    eget (cost_sens (dual_shares 1 (s_cp s) env) cost) k = d.

(** Proved when the substituted cost lists its terms in the order of the
    original's; *)
Theorem C56_cost_in_order_partial :
  C56_cost_for (fun fixed cost cp => map fst cp = map (fun t => surviving fixed (fst t)) cost).
Proof.
  intros inf pick fixed cost s env k [Hf Hp] (Hc & Hpos & Hne) He Es Hal.
  apply cost_sens_correct; auto. eapply aligned_terms; eauto.
Qed.
Print Assumptions C56_cost_in_order_partial.

(** so in particular when the cost has one term, or mentions no constant. *)
Theorem C56_simple_cost_partial :
  C56_cost_for (fun fixed cost cp => length cost = 1%nat \/ forall k, in_vks cost k = true -> fixed !! k = None).
Proof.
  intros inf pick fixed cost s env k Hok Hpo He Es Hal.
  apply (C56_cost_in_order_partial inf pick fixed cost s env k Hok Hpo He Es).
  destruct Hok as [Hf Hp]. destruct Hpo as (Hc & Hpos & Hne). destruct Hal as [Hal|Hal].
  - eapply aligned_single; eauto.
  - rewrite (sub_nothing inf pick fixed Hp cost Hal) in Es. injection Es as <-. cbn [sub_init s_cp].
    apply map_ext_in. intros [e c] Hin. cbn [fst]. symmetry. apply surviving_clear. intros k' v Hk'.
    destruct (e !! k') eqn:E; auto. exfalso. rewrite (Hal k') in Hk'; [discriminate|]. apply in_vks_true. exists e, c. split; [auto|congruence].
Qed.
Print Assumptions C56_simple_cost_partial.

(** In general it is false. Substituting moves a term to the end, and the duals
    of the substituted terms are paired with the original ones: for the cost
    [a*x + 3*y] with a = 1 fixed and x = y = 1, a and x get 3/4 and y gets 1/4. *)
Theorem C56_misplaced_duals_refuted : ~ C56_cost_for (fun _ _ _ => True).
Proof.
  intros H.
  set (e1 := list_to_map [(0%nat, 1); (1%nat, 1)] : expv R). set (e2 := {[2%nat := 1]} : expv R).
  set (cost := [(e1, 1); (e2, 3)] : hmap R). set (fixed := {[0%nat := 1]} : gmap nat R).
  assert (Hd : e1 <> e2).
  { intros E. apply (f_equal (fun e : gmap nat R => e !! 0%nat)) in E. discriminate. }
  assert (Hok : subs_ok fixed (std_schedule fixed)).
  { split; [|intros h; apply std_schedule_valid]. intros k v Hk. unfold fixed in Hk. apply lookup_singleton_Some in Hk as [_ <-]. lra. }
  assert (Hpo : is_posy cost).
  { split; [split|split].
    - apply NoDup_ListNoDup. cbn. repeat constructor; cbn; intuition.
    - intros e c [[= <- <-]|[[= <- <-]|[]]]; (split; [|lra]); [|apply exp_canon_singleton].
      intros k x Hx. apply (elem_of_list_to_map_2 [(0%nat, 1); (1%nat, 1)]), elem_of_list_In in Hx. destruct Hx as [[= <- <-]|[[= <- <-]|[]]]; lra.
    - intros e c [[= <- <-]|[[= <- <-]|[]]]; lra.
    - discriminate. }
  assert (Hdel : delete 0%nat e1 = {[1%nat := 1]}) by (apply map_eq; intros [|[|k]]; [reflexivity|reflexivity|
    unfold e1; cbn [list_to_map foldr fst snd]; rewrite lookup_delete_ne, !lookup_insert_ne, lookup_empty, lookup_singleton_ne by lia; reflexivity]).
  assert (Hd2 : ({[1%nat := 1]} : expv R) <> e2).
  { intros E. apply (f_equal (fun e : gmap nat R => e !! 1%nat)) in E. discriminate. }
  assert (Es : exists s, nm_sub 0 fixed cost (std_schedule fixed cost) = Ok s /\ s_cp s = [(e2, 3); ({[1%nat := 1]}, 1)]).
  { replace (std_schedule fixed cost) with [(0%nat, [0%nat])] by (vm_compute; reflexivity).
    unfold nm_sub. change (sub_init cost) with (SST [(e1, 1); (e2, 3)] [1; 3] [e1; e2] []).
    cbn [sub_passes]. unfold fixed at 1. rewrite lookup_singleton. cbn [sub_pass].
    unfold subinplace. cbn [s_cur lookup list_lookup]. change (e1 !! 0%nat) with (Some 1). cbn [s_cp dget].
    rewrite decide_True by auto. cbn [ddel]. rewrite decide_True by auto. cbn [dget]. rewrite Hdel.
    rewrite decide_False by auto. rewrite powval_defined by (intros; lra). rewrite Rpow_pos by lra. rewrite Rpower_1 by lra.
    rewrite decide_False by (cbn; lra). cbn [rbind dset]. rewrite decide_False by auto. cbn [never_empty s_cp].
    eexists. split; [reflexivity|]. cbn [s_cp nmul R_num]. rewrite Rmult_1_l. reflexivity. }
  destruct Es as (s & Es & Ecp).
  destruct (H 0 (std_schedule fixed) fixed cost s (fun _ => 1) 2%nat Hok Hpo ltac:(intros ?; lra) Es I) as (d & Hd' & Hv).
  assert (Ho : override (fun _ => 1) fixed = (fun _ => 1)).
  { apply FunctionalExtensionality.functional_extensionality. intros k. unfold override, fixed.
    destruct (decide (0%nat = k)) as [<-|Hk]; [rewrite lookup_singleton|rewrite lookup_singleton_ne by auto]; reflexivity. }
  (* the share of y in the cost is 3/4 *)
  pose proof (log_deriv_quot cost [] 1 (fun _ => 1) 2%nat ltac:(lra)) as HQ. unfold logsum, term_val, cost in HQ. cbn [lsum fst snd] in HQ. rewrite !mono_val_ones in HQ.
  change (eget e1 2) with 0 in HQ. change (eget e2 2) with 1 in HQ.
  specialize (HQ ltac:(lra) ltac:(lra)).
  assert (Hd3 : log_deriv (fun q => eval q cost) (fun _ => 1) 2 (3 / 4)).
  { replace (3 / 4) with ((0 * (1 * 1) + (1 * (3 * 1) + 0)) / (1 * 1 + (3 * 1 + 0)) - 0 / (1 + 0)) by lra.
    unfold log_deriv in *. eapply derivable_pt_lim_ext; [|exact HQ]. intros x. cbv beta. rewrite eval_terms. unfold cost, term_val. cbn [lsum fst snd]. f_equal. field. }
  rewrite Ho in Hd'. assert (d = 3 / 4) as -> by (eapply uniqueness_limite; [exact Hd'|exact Hd3]).
  rewrite cost_sens_eget, Ecp in Hv. unfold dual_shares, term_val, cost in Hv. cbn [map eval List.combine lsum fst snd] in Hv.
  rewrite !mono_val_ones in Hv. change (eget e1 2) with 0 in Hv. change (eget e2 2) with 1 in Hv. lra.
Qed.
Print Assumptions C56_misplaced_duals_refuted.

Example C56_nonvacuous : (* cost x*y with x = 5 fixed *)
  let cost : hmap R := [(list_to_map [(0%nat, 1); (1%nat, 1)], 1 / 100)] in
  subs_ok ex_x5 (std_schedule ex_x5) /\ is_posy cost /\ length cost = 1%nat /\
  exists s, nm_sub 0 ex_x5 cost (std_schedule ex_x5 cost) = Ok s.
Proof.
  cbn zeta. split; [apply ex_x5_ok|].
  assert (Hpo : is_posy [(list_to_map [(0%nat, 1); (1%nat, 1)], 1 / 100)]).
  { destruct ex_u_posy as ((_ & Hc) & Hp & _). split; [split|split].
    - apply NoDup_singleton.
    - intros e c [[= <- <-]|[]]. apply Hc. left. reflexivity.
    - intros e c [[= <- <-]|[]]. lra.
    - discriminate. }
  split; [exact Hpo|]. split; [reflexivity|].
  destruct (sub_any 0 (std_schedule ex_x5) ex_x5 (proj1 ex_x5_ok) (proj2 ex_x5_ok) _ (proj1 Hpo)) as (s & Es & _). eauto.
Qed.

(** ** C57 *)

(** At a solution [p] with multipliers [la >= 0] that vanish on constraints that
    are not tight, whose parts report the sensitivities [C32] and [C56] speak of:
    no point [p'] that meets the constraints, with constants and variables
    changed in any way, costs less than the sensitivities allow. [L] lists the
    variables and constants. *)
Theorem C57_sensitivities_bound_changes :
  forall (L : list nat) (fixed : gmap nat R) (p p' : point) (cost : hmap R) (ss0 : expv R)
         (cs : list (hmap R * (R * expv R))),
  positive_point p -> positive_point p' -> covers L cost -> all_positive cost -> cost <> [] -> cost_part p cost ss0 ->
  (forall u la ss, In (u, (la, ss)) cs -> covers L u /\ all_positive u /\ free_terms fixed u <> [] /\
     0 <= la /\ constraint_part fixed p u la ss /\
     met fixed p u /\ met fixed p' u /\ (la = 0 \/ simplified fixed u p = 1)) ->
  let S := total_sens ss0 (map (fun c => snd (snd c)) cs) in
  ln (eval p cost) + lsum (fun k => eget S k * (ln (p' k) - ln (p k))) L <= ln (eval p' cost).
Proof. exact perturbed_cost. Qed.
Print Assumptions C57_sensitivities_bound_changes.

(** In particular, when the sensitivities to the free variables vanish, [p] is
    optimal for its own constants. *)
Theorem C57_stationary_is_optimal :
  forall (L : list nat) (fixed : gmap nat R) (p p' : point) (cost : hmap R) (ss0 : expv R)
         (cs : list (hmap R * (R * expv R))),
  positive_point p -> positive_point p' -> covers L cost -> all_positive cost -> cost <> [] -> cost_part p cost ss0 ->
  (forall u la ss, In (u, (la, ss)) cs -> covers L u /\ all_positive u /\ free_terms fixed u <> [] /\
     0 <= la /\ constraint_part fixed p u la ss /\
     met fixed p u /\ met fixed p' u /\ (la = 0 \/ simplified fixed u p = 1)) ->
  (forall k, In k L -> fixed !! k = None -> eget (total_sens ss0 (map (fun c => snd (snd c)) cs)) k = 0) ->
  (forall k, fixed !! k <> None -> p' k = p k) ->
  eval p cost <= eval p' cost.
Proof.
  intros L fixed p p' cost ss0 cs Hp Hp' Hc Hu Hne H0 Hcs Hst Heq.
  pose proof (perturbed_cost L fixed p p' cost ss0 cs Hp Hp' Hc Hu Hne H0 Hcs) as H.
  rewrite (lsum_ext _ (fun _ => 0)), lsum_zero in H.
  - apply Rnot_lt_le. intros Hlt. apply ln_increasing in Hlt; [lra|]. apply eval_all_positive; auto.
  - intros k Hk. destruct (fixed !! k) eqn:E.
    + rewrite (Heq k) by congruence. ring.
    + rewrite (Hst k Hk E). ring.
Qed.
Print Assumptions C57_stationary_is_optimal.

(** *** A case: minimise x subject to [a/x <= 1], a = 2 fixed (x is 0, a is 1);
    the change takes a and x to 4. *)
Example C57_nonvacuous :
  let fixed : gmap nat R := {[1%nat := 2]} in
  let u : hmap R := [(list_to_map [(0%nat, -1); (1%nat, 1)], 1)] in
  let cost : hmap R := [({[0%nat := 1]}, 1)] in
  let p := fun _ : nat => 2 in let p' := fun _ : nat => 4 in
  covers [0%nat; 1%nat] cost /\ cost_part p cost {[0%nat := 1]} /\
  covers [0%nat; 1%nat] u /\ all_positive u /\ free_terms fixed u <> [] /\
  constraint_part fixed p u 1 (list_to_map [(0%nat, -1); (1%nat, 1)]) /\
  met fixed p u /\ met fixed p' u /\ simplified fixed u p = 1 /\
  (forall k, eget (total_sens {[0%nat := 1]} [list_to_map [(0%nat, -1); (1%nat, 1)]]) k = if decide (k = 1%nat) then 1 else 0).
Proof.
  cbn zeta. set (e := list_to_map [(0%nat, -1); (1%nat, 1)] : expv R).
  assert (He : forall k, e !! k = if decide (k = 0%nat) then Some (-1) else if decide (k = 1%nat) then Some 1 else None).
  { intros k. unfold e. cbn [list_to_map foldr fst snd]. destruct (decide (k = 0%nat)) as [->|H0]; [reflexivity|].
    rewrite lookup_insert_ne by auto. destruct (decide (k = 1%nat)) as [->|H1]; [reflexivity|]. rewrite lookup_insert_ne by auto. apply lookup_empty. }
  assert (Hfree : free_terms {[1%nat := 2]} [(e, 1)] = [(e, 1)] /\ constant_terms {[1%nat := 2]} [(e, 1)] = []).
  { unfold free_terms, constant_terms. cbn [List.filter fst].
    replace (bool_decide (surviving {[1%nat := 2]} e = ∅)) with false; [auto|]. symmetry. apply bool_decide_eq_false. intros E.
    apply (f_equal (fun m : gmap nat R => m !! 0%nat)) in E. unfold surviving in E.
    rewrite lookup_empty in E. apply lookup_difference_None in E. rewrite He in E. cbn in E. destruct E as [E|[x E]]; [discriminate|].
    rewrite lookup_singleton_ne in E by lia. discriminate. }
  destruct Hfree as [HF HC].
  assert (Hv : forall q x, 0 < x -> (forall k, q k = x) -> mono_val q e = 1).
  { intros q x Hx Hq. unfold e. cbn [list_to_map foldr fst snd]. rewrite mono_val_insert by reflexivity.
    change (<[1%nat := 1]> ∅) with ({[1%nat := 1]} : expv R). rewrite mono_val_singleton by (rewrite Hq; auto). rewrite !Hq.
    replace (-1) with (- (1)) by lra. rewrite Rpower_Ropp, Rpower_1 by auto. field. lra. }
  assert (Hsv : forall q, simplified {[1%nat := 2]} [(e, 1)] q = term_val q (e, 1)).
  { intros q. unfold simplified. rewrite HF, HC. cbn [lsum]. field. }
  assert (S2 : simplified {[1%nat := 2]} [(e, 1)] (fun _ => 2) = 1).
  { rewrite Hsv. unfold term_val. cbn [fst snd]. rewrite (Hv _ 2) by (auto; lra). ring. }
  assert (S4 : simplified {[1%nat := 2]} [(e, 1)] (fun _ => 4) = 1).
  { rewrite Hsv. unfold term_val. cbn [fst snd]. rewrite (Hv _ 4) by (auto; lra). ring. }
  assert (Cov : forall (e0 : expv R) c0, (forall k, e0 !! k <> None -> k = 0%nat \/ k = 1%nat) -> covers [0%nat; 1%nat] [(e0, c0)]).
  { intros e0 c0 H. split; [repeat constructor; cbn; intuition lia|]. intros k Hk. apply in_vks_true in Hk as (e1 & c1 & [[= <- <-]|[]] & Hk).
    apply H in Hk as [->| ->]; cbn; auto. }
  split; [|split; [|split; [|split; [|split; [|split; [|split; [|split; [|split]]]]]]]].
  - apply Cov. intros k Hk. left. destruct (decide (0%nat = k)); auto. rewrite lookup_singleton_ne in Hk by auto. congruence.
  - intros k. unfold log_deriv. pose proof (mono_log_deriv {[0%nat := 1]} 1 (fun _ => 2) k ltac:(lra) ltac:(lra)) as H. unfold log_deriv in H.
    eapply derivable_pt_lim_ext; [|exact H]. intros s. cbv beta. rewrite eval_terms. cbn [lsum]. f_equal. ring.
  - apply Cov. intros k Hk. rewrite He in Hk. destruct (decide (k = 0%nat)); auto. destruct (decide (k = 1%nat)); auto. congruence.
  - intros e0 c0 [[= <- <-]|[]]. lra.
  - rewrite HF. discriminate.
  - intros k. exists (eget e k). split; [|fold e; lra].
    pose proof (mono_log_deriv e 1 (fun _ => 2) k ltac:(lra) ltac:(lra)) as H. unfold log_deriv in *.
    eapply derivable_pt_lim_ext; [|exact H]. intros s. cbv beta. rewrite Hsv. reflexivity.
  - split; [rewrite HC; cbn; lra|rewrite S2; lra].
  - split; [rewrite HC; cbn; lra|rewrite S4; lra].
  - exact S2.
  - intros k. rewrite total_sens_eget. cbn [lsum]. fold e. unfold eget. rewrite He.
    destruct (decide (k = 0%nat)) as [->|H0].
    + rewrite lookup_singleton. destruct (decide (0%nat = 1%nat)); [lia|lra].
    + rewrite lookup_singleton_ne by auto. destruct (decide (k = 1%nat)); lra.
Qed.
