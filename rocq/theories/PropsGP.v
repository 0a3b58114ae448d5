(** C26-C27: the matrices a GeometricProgram hands to the solvers. *)
From Verif Require Import Base HashVec Nomial NomialSem NomialProofs Sub SubSem SubProofs SubExtra Mono Constraint ConstraintSem ConstraintProofs GPGen GPGenProofs PropsConstraint.
Open Scope R_scope.

(** Any order in which the variables of a monomial may be visited. *)
Definition any_order (ord : var_order R) : Prop :=
  forall e, List.NoDup (ord e) /\ forall k, In k (ord e) <-> e !! k <> None.

(** ** C26 *)

(** [x j] is the logarithm of the variable of column [j]. For every posynomial
    [h], number [p], its slice [s, t) begins after the terms of the posynomials
    before it, has one row for each of its terms, and the terms' values
    [c_i * exp((A x)_i)] add up to [h]. *)
Theorem C26_rows_evaluate_posynomials :
  forall (ord : var_order R) (hmaps : list (bool * hmap R)), any_order ord ->
  let g := gen ord hmaps in
  length (g_midxs g) = length hmaps /\
  forall p b h, hmaps !! p = Some (b, h) ->
  let s := length (flat_map snd (take p hmaps)) in
  g_midxs g !! p = Some (s, (s + length h)%nat) /\
  forall (x : nat -> R) (env : point), (forall v j, varidx g v = Some j -> env v = exp (x j)) ->
  lsum (fun i => nth i (g_cs g) 0 * exp (coo_dot (g_coo g) x i)) (seq s (length h)) = eval env h.
Proof.
  intros ord hmaps Hord g. pose proof (gen_loop_inv ord Hord hmaps (map (fun mh => length (snd mh)) hmaps)) as HI.
  split.
  { unfold g. rewrite gen_eq. cbn [g_midxs]. rewrite (gi_midxs _ _ HI). unfold midx_spec. rewrite map_length, seq_length. auto. }
  intros p b h Hp. assert (Hlen : (p < length hmaps)%nat) by (apply lookup_lt_Some in Hp; auto). split.
  - unfold g. rewrite gen_eq. cbn [g_midxs]. rewrite (gi_midxs _ _ HI). unfold midx_spec.
    rewrite list_lookup_fmap, lookup_seq_lt by auto. cbn. f_equal. f_equal. unfold terms.
    rewrite (take_S_r hmaps p (b, h)) by auto. rewrite flat_map_app, app_length. cbn. rewrite app_nil_r. auto.
  - intros x env Henv. rewrite eval_lsum. apply lsum_seq_terms. intros n [e c] Hn. cbn [fst snd].
    assert (Ht : terms hmaps !! (length (flat_map snd (take p hmaps)) + n)%nat = Some (e, c)).
    { transitivity ((terms (take p hmaps) ++ h ++ terms (drop (S p) hmaps)) !! (length (terms (take p hmaps)) + n)%nat).
      - rewrite <- (terms_slice hmaps p b h Hp). reflexivity.
      - rewrite lookup_app_r by lia. replace (_ - _)%nat with n by lia. apply lookup_app_l_Some. auto. }
    rewrite (gen_row ord Hord hmaps _ e x env); auto.
    + unfold hmap in *. f_equal. unfold g. rewrite gen_eq. cbn [g_cs]. rewrite (gi_cs _ _ HI).
      apply nth_lookup_Some. rewrite list_lookup_fmap, Ht. auto.
    + unfold hmap in *. rewrite gen_eq. cbn [g_exps]. rewrite (gi_exps _ _ HI), list_lookup_fmap, Ht. auto.
Qed.
Print Assumptions C26_rows_evaluate_posynomials.

(** The slices begin at 0, each begins where the one before ends, the last ends
    at the number of rows; [p_idxs] names the slice a row is in; [k] is the
    number of rows of each; and the matrix has one row for each term and one
    column for each variable. *)
Theorem C26_slices_partition_rows :
  forall (ord : var_order R) (hmaps : list (bool * hmap R)), any_order ord ->
  let g := gen ord hmaps in
  let rows := length (flat_map snd hmaps) in
  (hmaps <> [] -> exists t0, g_midxs g !! 0%nat = Some (0%nat, t0)) /\
  (forall p s t s' t', g_midxs g !! p = Some (s, t) -> g_midxs g !! S p = Some (s', t') -> s' = t) /\
  (forall s t, last (g_midxs g) = Some (s, t) -> t = rows) /\
  (forall i p, g_pidxs g !! i = Some p <-> exists s t, g_midxs g !! p = Some (s, t) /\ (s <= i < t)%nat) /\
  g_k g = map (fun st => snd st - fst st)%nat (g_midxs g) /\
  length (g_cs g) = rows /\ length (g_exps g) = rows /\
  ((0 < rows)%nat -> fst (coo_shape (g_coo g)) = rows) /\
  ((0 < length (g_varlocs g))%nat -> snd (coo_shape (g_coo g)) = length (g_varlocs g)).
Proof.
  intros ord hmaps Hord g rows.
  pose proof (gen_loop_inv ord Hord hmaps (map (fun mh => length (snd mh)) hmaps)) as HI.
  assert (Em : g_midxs g = midx_spec hmaps) by (unfold g; rewrite gen_eq; apply (gi_midxs _ _ HI)).
  assert (Ep : g_pidxs g = pidx_spec hmaps) by (unfold g; rewrite gen_eq; apply (gi_pidxs _ _ HI)).
  rewrite Em, Ep. split; [|split; [|split; [|split; [|split; [|split; [|split; [|split]]]]]]].
  - intros Hne. destruct hmaps as [|h hs]; [contradiction|]. eexists. unfold midx_spec. cbn. reflexivity.
  - intros p s t s' t' H1 H2. apply midx_lookup in H1 as (_ & _ & ->), H2 as (_ & -> & _). auto.
  - intros s t Hl. rewrite last_lookup in Hl. apply midx_lookup in Hl as (Hl & _ & ->).
    rewrite midx_length in *. unfold rows, terms. rewrite take_ge by lia. auto.
  - intros i p. apply pidx_spec_ok.
  - unfold g. rewrite gen_eq. cbn [g_k]. rewrite gen_loop_k. unfold midx_spec. rewrite map_map. cbn [fst snd].
    apply list_eq. intros p. rewrite !list_lookup_fmap.
    destruct (hmaps !! p) as [[b h]|] eqn:E.
    + rewrite lookup_seq_lt by (eapply lookup_lt_Some; eauto).
      etransitivity; [exact (f_equal (fmap (M := option) (fun mh : bool * hmap R => length (snd mh))) E)|]. cbn. f_equal.
      change (flat_map snd (take p hmaps)) with (terms (take p hmaps)).
      rewrite (take_S_r hmaps p (b, h)) by auto. rewrite terms_snoc, app_length. cbn [snd]. unfold hmap in *. lia.
    + rewrite lookup_seq_ge by (apply lookup_ge_None; auto).
      exact (f_equal (fmap (M := option) (fun mh : bool * hmap R => length (snd mh))) E).
  - unfold g. rewrite gen_eq. cbn [g_cs]. rewrite (gi_cs _ _ HI), map_length. auto.
  - unfold g. rewrite gen_eq. cbn [g_exps]. rewrite (gi_exps _ _ HI), map_length. auto.
  - apply rows_shape. auto.
  - apply cols_shape. auto.
Qed.
Print Assumptions C26_slices_partition_rows.

(** Every variable of the posynomials, and no other, has a column. *)
Theorem C26_columns :
  forall (ord : var_order R) (hmaps : list (bool * hmap R)), any_order ord ->
  let g := gen ord hmaps in
  (forall v, varidx g v <> None <-> exists b h e c, In (b, h) hmaps /\ In (e, c) h /\ e !! v <> None) /\
  (forall v v' j, varidx g v = Some j -> varidx g v' = Some j -> v = v') /\
  (forall v j, varidx g v = Some j -> (j < length (g_varlocs g))%nat).
Proof.
  intros ord hmaps Hord g.
  pose proof (gen_loop_inv ord Hord hmaps (map (fun mh => length (snd mh)) hmaps)) as HI.
  destruct (gi_v _ _ HI) as [Hm Hnd Hk Hl Hc]. unfold g, varidx. rewrite gen_eq. cbn [g_varlocs].
  set (vl := g_varlocs (gen_loop ord hmaps (map (fun mh => length (snd mh)) hmaps))) in *.
  assert (Hpos : forall v j, position (dkeys vl) v = Some j -> dkeys vl !! j = Some v).
  { clearbody vl. clear. intros v. generalize (dkeys vl). induction l as [|k l IH]; intros j; cbn [position]; [discriminate|].
    destruct (decide (v = k)) as [->|_].
    - intros [= <-]. reflexivity.
    - destruct (position l v) as [j'|]; [|discriminate]. cbn. intros [= <-]. apply IH. reflexivity. }
  split; [|split].
  - intros v. transitivity (In v (dkeys vl)).
    + split.
      * intros Hv. destruct (position (dkeys vl) v) as [j|] eqn:E; [|congruence].
        apply Hpos in E. apply elem_of_list_In, elem_of_list_lookup_2 with j. auto.
      * intros Hv E. destruct (position_spec _ _ Hv) as (j & Ej & _). congruence.
    + rewrite Hk. unfold has. split.
      * intros [i Hi]. destruct (map fst (terms hmaps) !! i) as [e|] eqn:Et; [|discriminate].
        apply elem_of_list_lookup_2, elem_of_list_In, in_map_iff in Et as ([e' c] & <- & Hin). cbn [fst] in Hi.
        unfold terms in Hin. apply in_flat_map in Hin as ([b h] & Hb & He). exists b, h, e', c. split; [auto|split; [auto|]].
        destruct (e' !! v); congruence.
      * intros (b & h & e & c & Hb & He & Hv).
        assert (Hin : In e (map fst (terms hmaps))).
        { apply in_map_iff. exists (e, c). split; auto. apply in_flat_map. exists (b, h); auto. }
        apply elem_of_list_In, elem_of_list_lookup in Hin as (i & Hi). exists i. rewrite Hi.
        destruct (e !! v); congruence.
  - intros v v' j H1 H2. apply Hpos in H1, H2. congruence.
  - intros v j Hj. apply Hpos, lookup_lt_Some in Hj. unfold dkeys in Hj. rewrite map_length in Hj. auto.
Qed.
Print Assumptions C26_columns.

Definition std_order {T} (e : expv T) : list nat := map fst (map_to_list e).
Example C26_nonvacuous : any_order std_order.
Proof.
  intros e. unfold std_order. split.
  - apply NoDup_ListNoDup, NoDup_fst_map_to_list.
  - intros k. rewrite in_map_iff. split.
    + intros ([k' x] & <- & Hin). apply elem_of_list_In, elem_of_map_to_list in Hin. cbn. congruence.
    + intros Hk. destruct (e !! k) as [x|] eqn:E; [|congruence]. exists (k, x). split; auto.
      apply elem_of_list_In, elem_of_map_to_list. auto.
Qed.
Example C26_computed : (* x + 2 and 3*x*y^2, with x = v0 and y = v1 *)
  let h1 : hmap Q := [({[0%nat := 1%Q]}, 1%Q); (e_empty, 2%Q)] in
  let h2 : hmap Q := [(<[0%nat := 1%Q]> {[1%nat := 2%Q]}, 3%Q)] in
  let g := gen std_order [(false, h1); (false, h2)] in
  g_midxs g = [(0, 2); (2, 3)]%nat /\ g_pidxs g = [0; 0; 1]%nat /\ coo_shape (g_coo g) = (3, 2)%nat /\
  g_varlocs g = [(0, [0; 2]); (1, [2])]%nat /\
  g_coo g = [(1, 0, 0%Q); (0, 0, 1%Q); (2, 0, 1%Q); (2, 1, 2%Q)]%nat.
Proof. vm_compute. auto 10. Qed.

(** ** C27 *)

(** The constraint objects of a program: an equality's inequalities are those
    of two monomials. *)
Definition equalities_made (cs : list (constr R)) : Prop :=
  forall st us, In (CMeq st us) cs ->
  exists se left right, is_mono left /\ is_mono right /\ meq_unsubbed se left right = Ok us.

(** Row [i] begins the first posynomial of an equality that survives
    substitution: the equality is one of the constraints, it yields two
    posynomials, and [i] terms come before them. *)
Definition begins_equality (inf : R) (pick : hmap R -> schedule) (se : bool) (fixed : gmap nat R)
    (cost : hmap R) (cs : list (constr R)) (i : nat) : Prop :=
  exists pre st us post before h1 h2, cs = pre ++ CMeq st us :: post /\
    gp_hmaps inf pick se fixed cost pre = Ok before /\
    constr_hmaps inf pick se fixed (CMeq st us) = Ok [(true, h1); (true, h2)] /\
    i = length (flat_map snd before).

Theorem C27_equality_pairs :
  forall (ord : var_order R) (inf : R) (pick : hmap R -> schedule) (se : bool) (fixed : gmap nat R)
         (cost : hmap R) (cs : list (constr R)) (hmaps : list (bool * hmap R)),
  any_order ord -> subs_ok fixed pick -> equalities_made cs ->
  gp_hmaps inf pick se fixed cost cs = Ok hmaps ->
  let g := gen ord hmaps in
  (forall i, In i (g_first g) <-> begins_equality inf pick se fixed cost cs i) /\
  (forall i, In i (g_all g) <-> begins_equality inf pick se fixed cost cs i \/
                                exists j, i = S j /\ begins_equality inf pick se fixed cost cs j) /\
  length (g_all g) = (2 * length (g_first g))%nat /\
  (forall st us out, In (CMeq st us) cs -> constr_hmaps inf pick se fixed (CMeq st us) = Ok out ->
     out = [] \/ exists h1 h2 : hmap R, out = [(true, h1); (true, h2)] /\ length h1 = 1%nat /\ length h2 = 1%nat).
Proof.
  intros ord inf pick se fixed cost cs hmaps Hord [Hf Hp] Hm E g.
  assert (Hmade : forall c, In c cs -> made c) by (intros c Hc; destruct c; cbn; auto; eapply Hm; eauto).
  unfold gp_hmaps in E. apply rbind_ok in E as (st0 & E0 & E). destruct (any_nonpositive (s_cp st0)) eqn:Ea; [discriminate|].
  apply rbind_ok in E as (hs & Ehs & E). injection E as <-.
  destruct (chain_blocks inf pick fixed Hf Hp se cs [(false, s_cp st0)] hs [] [] Hmade Ehs) as (f & a & B & F & A).
  { apply (bl_plain [] [] [] (s_cp st0)). constructor. }
  cbn [app] in B. destruct (gen_blocks ord Hord _ _ _ (map (fun mh => length (snd mh)) ((false, s_cp st0) :: hs)) B) as [Ef Eall].
  assert (Hrows : forall i, first_rows inf pick fixed se [(false, s_cp st0)] cs i <-> begins_equality inf pick se fixed cost cs i).
  { intros i. split.
    - intros (pre & st & us & post & before & h1 & h2 & Hc & Hpre & Hmq & Hi).
      exists pre, st, us, post, ((false, s_cp st0) :: before), h1, h2. split; auto. split; [|auto].
      unfold gp_hmaps. rewrite E0. cbn [rbind]. rewrite Ea, Hpre. reflexivity.
    - intros (pre & st & us & post & before & h1 & h2 & Hc & Hpre & Hmq & Hi).
      unfold gp_hmaps in Hpre. rewrite E0 in Hpre. cbn [rbind] in Hpre. rewrite Ea in Hpre.
      apply rbind_ok in Hpre as (b' & Eb & Hpre). injection Hpre as <-.
      exists pre, st, us, post, b', h1, h2. auto. }
  unfold g. rewrite gen_eq. cbn [g_first g_all]. rewrite Ef, Eall. split; [|split; [|split]].
  - intros i. rewrite F. apply Hrows.
  - intros i. rewrite A. setoid_rewrite Hrows. tauto.
  - destruct (blocks_lt _ _ _ B) as [L _]. exact L.
  - intros st us out Hin Hout. apply (meq_shape inf pick fixed Hf Hp se st us); auto.
Qed.
Print Assumptions C27_equality_pairs.

Example C27_computed : (* x == 2*y after 1 == 1 and before x >= 1 *)
  let m (k : nat) (c : Q) : hmap Q := [({[k := 1%Q]}, c)] in
  let none := CS None None in
  let cs := match meq_unsubbed false (m 1%nat 1%Q) (m 1%nat 1%Q), meq_unsubbed false (m 0%nat 1%Q) (m 1%nat 2%Q),
                  posy_ineq false (m 0%nat 1%Q) OpGe [(e_empty, 1%Q)] with
            | Ok a, Ok b, Ok c => [CMeq none a; CMeq none b; CPosy none c] | _, _, _ => [] end in
  rmap (fun hs => let g := gen std_order hs in (g_first g, g_all g, map fst hs))
    (gp_hmaps 0%Q (std_schedule ∅) false ∅ (m 0%nat 1%Q) cs) = Ok ([1], [1; 2], [false; true; true; false])%nat.
Proof. vm_compute. reflexivity. Qed.
