(** C28-C29: which variables are bounded. *)
From Coq Require Import Permutation.
From Verif Require Import Base HashVec Nomial NomialSem NomialProofs Sub Constraint ConstraintSem ConstraintProofs GPGen GPGenProofs PropsConstraint PropsGP Bounds BoundsSem BoundsProofs.
Open Scope R_scope.

(** ** C28 *)

(** Any order of iteration over sets, a different one each time. *)
Definition any_shuffle (sh : shuffle) : Prop := forall n l, Permutation l (sh n l).

(** In whatever order [varlocs], [meq_idxs] and the sets of bounds are visited,
    the loop goes around at most once more than there are bounds, and what is
    reported is what has no bound. *)
Theorem C28_check_bounds_exact :
  forall (ord : var_order R) (hmaps : list (bool * hmap R)) (sh1 sh2 : shuffle) (rows : list nat) (fuel : nat),
  any_order ord -> any_shuffle sh1 -> any_shuffle sh2 ->
  let g := gen ord hmaps in
  Permutation (g_first g) rows -> (2 * length (g_varlocs g) < fuel)%nat ->
  exists missing, check_bounds fuel ord sh1 sh2 rows g = Some missing /\
    forall v up, In (v, up) missing <-> varidx g v <> None /\ ~ has_bound g (v, up).
Proof.
  intros ord hmaps sh1 sh2 rows fuel Hord H1 H2 g Hrows Hfuel.
  destruct (check_ok ord hmaps sh1 sh2 rows fuel Hord H1 H2) as (missing & E & Hm).
  - intros i. split; apply Permutation_in; [apply Permutation_sym|]; auto.
  - exact Hfuel.
  - exists missing. split; auto. intros v up. rewrite Hm. cbn [fst].
    assert (Hv : variable g v <-> varidx g v <> None); [|tauto].
    unfold g. rewrite (proj1 (C26_columns ord hmaps Hord) v).
    pose proof (gen_loop_inv ord Hord hmaps (map (fun mh => length (snd mh)) hmaps)) as HI.
    unfold variable. rewrite gen_eq. cbn [g_exps]. rewrite (gi_exps _ _ HI). split.
    + intros (i & e & He & Hv). apply elem_of_list_lookup_2, elem_of_list_In, in_map_iff in He as ([e' c] & <- & Hin).
      apply in_flat_map in Hin as ([b h] & Hb & Hin). exists b, h, e', c. auto.
    + intros (b & h & e & c & Hb & He & Hv).
      assert (Hin : In e (map fst (terms hmaps))).
      { apply in_map_iff. exists (e, c). split; auto. apply in_flat_map. exists (b, h); auto. }
      apply elem_of_list_In, elem_of_list_lookup in Hin as (i & Hi). exists i, e. auto.
Qed.
Print Assumptions C28_check_bounds_exact.

(** So two runs with different orders report the same. *)
Theorem C28_order_irrelevant :
  forall (ord ord' : var_order R) (hmaps : list (bool * hmap R)) (sh1 sh2 sh1' sh2' : shuffle) (rows rows' : list nat)
         (fuel fuel' : nat) missing missing',
  any_order ord -> any_shuffle sh1 -> any_shuffle sh2 -> any_order ord' -> any_shuffle sh1' -> any_shuffle sh2' ->
  let g := gen ord hmaps in
  Permutation (g_first g) rows -> Permutation (g_first g) rows' ->
  (2 * length (g_varlocs g) < fuel)%nat -> (2 * length (g_varlocs g) < fuel')%nat ->
  check_bounds fuel ord sh1 sh2 rows g = Some missing -> check_bounds fuel' ord sh1' sh2' rows' g = Some missing' ->
  forall b, In b missing <-> In b missing'.
Proof.
  intros ord ord' hmaps sh1 sh2 sh1' sh2' rows rows' fuel fuel' missing missing' Ho H1 H2 Ho' H1' H2' g Hr Hr' Hf Hf' E E' [v up].
  destruct (C28_check_bounds_exact ord hmaps sh1 sh2 rows fuel) as (m & Em & Hm); auto.
  destruct (C28_check_bounds_exact ord hmaps sh1' sh2' rows' fuel') as (m' & Em' & Hm'); auto.
  fold g in Em, Em', Hm, Hm'. rewrite E in Em. rewrite E' in Em'. injection Em as ->. injection Em' as ->.
  rewrite Hm, Hm'. tauto.
Qed.
Print Assumptions C28_order_irrelevant.

Example C28_computed : (* x/(y*z) == 1 with x <= 1, y >= 1 and z <= 1: z has no lower bound, nor x, and y no upper *)
  let e : expv Q := <[0%nat := 1%Q]> (<[1%nat := (-1)%Q]> {[2%nat := (-1)%Q]}) in
  let e' : expv Q := <[0%nat := (-1)%Q]> (<[1%nat := 1%Q]> {[2%nat := 1%Q]}) in
  let hs : list (bool * hmap Q) := [(true, [(e, 1%Q)]); (true, [(e', 1%Q)]); (false, [({[0%nat := 1%Q]}, 1%Q)]);
             (false, [({[1%nat := (-1)%Q]}, 1%Q)]); (false, [({[2%nat := 1%Q]}, 1%Q)])] in
  let g := gen std_order hs in
  option_map (fun m => map (fun b => bmem b m) [(0, true); (0, false); (1, true); (1, false); (2, true); (2, false)]%nat)
    (check_bounds 9 std_order (fun _ l => l) (fun _ l => l) (g_first g) g) = Some [false; true; true; false; false; true] /\
  (* and with z >= 1 as well, y is bounded above by the equality, and x below *)
  let g := gen std_order (hs ++ [(false, [({[2%nat := (-1)%Q]}, 1%Q)])]) in
  check_bounds 9 std_order (fun _ l => l) (fun _ l => l) (g_first g) g = Some [].
Proof. vm_compute. split; reflexivity. Qed.
Example C28_nonvacuous : any_shuffle (fun _ l => l) /\ any_shuffle (fun _ l => rev l).
Proof. split; intros n l; [reflexivity|apply Permutation_rev]. Qed.

(** ** C29 *)

(** Sets of constraints nested to any depth: the loops of all of them end, going
    around at most once more than there are conditional bounds, and [bounded]
    is the least set that contains the elements' bounds and substituted
    variables and is closed under the constraints' conditions. *)
Theorem C29_bounds_are_the_closure :
  forall (ts : list ctree) (subs : list nat) (fuel : nat),
  (count_conditional (CNode ts subs) < fuel)%nat ->
  exists bounded q, cset_bounds fuel (CNode ts subs) = Some (bounded, q) /\
  forall b, In b bounded <-> closure (tree_base (CNode ts subs)) (tree_rule (CNode ts subs)) b.
Proof.
  intros ts subs fuel Hf. destruct (tree_ok (CNode ts subs) fuel Hf) as (s & q & E & S & _ & N & F).
  exists s, q. split; auto. intros b. rewrite <- (closed_closure s q F b).
  specialize (S (fun _ => False) (fun _ _ => False) b).
  rewrite (closure_ext _ (fun b => In b s \/ False) _ (fun b c => rules_of q b c \/ False)).
  - rewrite S. apply closure_ext; intros; tauto.
  - intros; tauto.
  - intros x c. rewrite (rule_of_nodup q x c N). unfold rules_of. tauto.
Qed.
Print Assumptions C29_bounds_are_the_closure.

(** The bounds of a posynomial inequality: the sides its exponents' signs give. *)
Theorem C29_inequality_bounds :
  forall (ord : var_order R) (unsubbed : list (hmap R)), any_order ord ->
  forall v up, In (v, up) (posy_bounded ord unsubbed) <->
  exists h e c x, In h unsubbed /\ In (e, c) h /\ e !! v = Some x /\ Rltb 0 x = up.
Proof.
  intros ord us Hord v up. unfold posy_bounded. rewrite in_flat_map. split.
  - intros (h & Hh & Hb). apply in_flat_map in Hb as (e & He & Hb). apply in_flat_map in Hb as (k & Hk & Hb).
    destruct (e !! k) as [x|] eqn:Ex; [|destruct Hb]. destruct Hb as [[= <- <-]|[]].
    unfold dkeys in He. apply in_map_iff in He as ([e' c] & <- & He). exists h, e', c, x. auto.
  - intros (h & e & c & x & Hh & He & Hx & <-). exists h. split; auto. apply in_flat_map. exists e. split.
    + unfold dkeys. apply in_map_iff. exists (e, c). auto.
    + apply in_flat_map. exists v. split; [apply (proj2 (Hord e)); congruence|]. rewrite Hx. left. reflexivity.
Qed.
Print Assumptions C29_inequality_bounds.

(** The conditional bounds of an equality of more than one variable. *)
Theorem C29_equality_conditions :
  forall (ord : var_order R) (nvks : nat) (e : expv R) (c : R) (rest : list (hmap R)),
  any_order ord -> (1 < nvks)%nat -> (forall k x, e !! k = Some x -> x <> 0) ->
  let q := meq_conds ord nvks ([(e, c)] :: rest) in
  (forall v up cond, tree_rule (CLeaf [] q) (v, up) cond -> exists x, e !! v = Some x /\
     forall b, In b cond <-> exists k y, e !! k = Some y /\ k <> v /\ b = (k, if same_side x y then negb up else up)) /\
  (forall v up, e !! v <> None -> exists cond, tree_rule (CLeaf [] q) (v, up) cond).
Proof.
  intros ord nvks e c rest Hord Hn Hnz q. subst q. unfold meq_conds.
  apply Nat.ltb_lt in Hn. rewrite Hn. cbn [tree_rule]. 
  assert (Hss : forall x y, x <> 0 -> y <> 0 -> same_sign y x = same_side x y).
  { intros x y Hx Hy. unfold same_sign, same_side. cbn [n0 nltb R_num]. unfold Rltb.
    destruct (Rlt_dec 0 x), (Rlt_dec 0 y), (Rlt_dec y 0), (Rlt_dec x 0); cbn; auto; lra. }
  split.
  - intros v up cond (cs & Hin & Hc). apply in_flat_map in Hin as (k & Hk & Hin).
    destruct (e !! k) as [x|] eqn:Ex; [|destruct Hin].
    assert (E : k = v /\ cs = [map (fun k0 => (k0, match e !! k0 with Some y => if same_sign y x then negb up else negb (negb up) | None => negb up end))
                   (List.filter (fun k0 => negb (Nat.eqb k0 k)) (ord e))]).
    { destruct Hin as [[= -> <- <-]|[[= -> <- <-]|[]]]; auto. }
    destruct E as [-> ->]. destruct Hc as [<-|[]]. exists x. split; auto. intros b. rewrite in_map_iff. split.
    + intros (k & <- & Hk'). apply filter_In in Hk' as [Hk' Hne]. apply negb_true_iff, Nat.eqb_neq in Hne.
      apply (proj2 (Hord e)) in Hk'. destruct (e !! k) as [y|] eqn:Ey; [|congruence]. exists k, y. split; auto. split; auto.
      rewrite Hss by eauto. rewrite Bool.negb_involutive. auto.
    + intros (k & y & Hy & Hne & ->). exists k. rewrite Hy, Hss by eauto. rewrite Bool.negb_involutive. split; auto.
      apply filter_In. split; [apply (proj2 (Hord e)); congruence|]. apply negb_true_iff, Nat.eqb_neq. auto.
  - intros v up Hv. destruct (e !! v) as [x|] eqn:Ex; [|congruence].
    destruct up; eexists; eexists; (split; [apply in_flat_map; exists v; split; [apply (proj2 (Hord e)); congruence|rewrite Ex]|]).
    + left. reflexivity.
    + left. reflexivity.
    + right. left. reflexivity.
    + left. reflexivity.
Qed.
Print Assumptions C29_equality_conditions.

(** An equality of one variable gives no bounds at all: of [x == 5] the set
    reports [x] unbounded, although the condition for its bounds is empty (and
    although check_bounds finds it bounded). *)
Theorem C29_single_variable_equality_refuted :
  exists us : list (hmap Q), meq_unsubbed false [({[0%nat := 1%Q]}, 1%Q)] [(e_empty, 5%Q)] = Ok us /\
  cset_bounds 9 (CNode [CLeaf [] (meq_conds std_order 1 us)] []) = Some ([], []) /\
  (* the same equality written with a variable that cancels does *)
  option_map fst (cset_bounds 9 (CNode [CLeaf [] (meq_conds std_order 2 us)] [])) = Some [(0, true); (0, false)]%nat /\
  let g := gen std_order (map (pair true) us) in
  check_bounds 9 std_order (fun _ l => l) (fun _ l => l) (g_first g) g = Some [].
Proof. eexists. split; [vm_compute; reflexivity|]. vm_compute. auto. Qed.
Print Assumptions C29_single_variable_equality_refuted.

Example C29_computed : (* {x == y*z, {y <= 1, z <= 1}} and {.., x == w} with y = 3 substituted inside *)
  let xyz : expv Q := <[0%nat := 1%Q]> (<[1%nat := (-1)%Q]> {[2%nat := (-1)%Q]}) in
  let xw : expv Q := <[0%nat := 1%Q]> {[3%nat := (-1)%Q]} in
  let le (k : nat) := CLeaf (posy_bounded std_order [[({[k := 1%Q]}, 1%Q)]]) [] in
  let t := CNode [CNode [CLeaf [] (meq_conds std_order 3 [[(xyz, 1%Q)]]); CNode [le 1; le 2] []] [1];
                  CLeaf [] (meq_conds std_order 2 [[(xw, 1%Q)]])]%nat [] in
  option_map (fun r => map (fun b => bmem b (fst r))
      [(0, true); (0, false); (1, true); (1, false); (2, true); (2, false); (3, true); (3, false)]%nat) (cset_bounds 20 t)
  = Some [true; false; true; true; true; false; true; false].
Proof. vm_compute. reflexivity. Qed.
