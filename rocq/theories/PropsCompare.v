(** C85: a comparison makes the constraint that was written. C86: a comparison of arrays constrains each pair of elements.
    Specification vocabulary: CompareSpec.v. *)
From Verif Require Import Base HashVec Nomial NomialSem NomialProofs CanonProofs
  Sub SubSem SubExtra Mono Constraint ConstraintSem ConstraintProofs PropsConstraint Compare CompareSpec CompareProofs.
From Verif Require Layout Vector PropsLayout.
Open Scope R_scope.

(** ** C85 *)
Theorem C85_comparison : forall (se : bool) (op : oper) (a b : operand R), proper a -> proper b ->
  match compare se op a b with
  | Ok c => made se op a b c
  | Err e => rejected se op a b e
  end.
Proof. exact compare_spec. Qed.
Print Assumptions C85_comparison.

(** What a program is given for it stands for it. *)
Definition C85_for (allowed : oper -> operand R -> operand R -> Prop) (se : bool) : Prop :=
  forall (inf : R) (pick : hmap R -> schedule) (fixed : gmap nat R) (st : cstate R) (op : oper) (a b : operand R),
  subs_ok fixed pick -> proper a -> proper b -> allowed op a b ->
  let original := fun env => related op (value_at (override env fixed) a) (value_at (override env fixed) b) in
  match compare se op a b with
  | Ok (Posy _ _ _ u) | Ok (Meq _ _ u) =>
      match as_hmapslt1 inf pick fixed st u with
      | Err _ => impossible original
      | Ok (_, out) =>
          well_formed fixed out /\ implied_by out original /\
          (implies out original \/
           (out = [] /\ exists c, 0 < c <= 1 + tolerance /\ forall env, positive_point env ->
              value_at (override env fixed) (lesser_side op a b) = c * value_at (override env fixed) (greater_side op a b)))
      end
  | Ok (Truth t) => t = true <-> forall env, original env
  | Ok (Sig _ _ _ _) => False
  | Err _ => impossible original
  end.
Theorem C85_in_program_partial : C85_for (fun op a b => gp_compatible op a b /\ free_of_clashes op a b) false.
Proof.
  intros inf pick fixed st op a b S Pa Pb [G F] original. pose proof (compare_spec false op a b Pa Pb) as C.
  assert (NP : forall op a b, gp_compatible op a b -> ~ nonpositive a /\ ~ nonpositive b).
  { assert (N1 : forall a, posy_side a -> ~ nonpositive a).
    { intros x (_ & P & _) (c & -> & L). specialize (P e_empty c (or_introl eq_refl)). lra. }
    assert (N2 : forall a, mono_side a -> ~ nonpositive a) by (intros x M; apply N1, mono_posy, M).
    intros [] x y [H1 H2]; cbn in H1, H2; split; auto. }
  destruct (NP op a b G) as [Na Nb].
  assert (Pos : forall c env, value_at env (lesser_side op a b) = c * value_at env (greater_side op a b) -> 0 < c).
  { intros c env K. rewrite !value_terms in K.
    assert (0 < eval env (terms (lesser_side op a b))) as P1.
    { assert (is_posy (terms (lesser_side op a b))) as (_ & Q1 & Q2); [|apply eval_all_positive; assumption].
      destruct op; cbn in G |- *; [apply G|apply G|apply mono_posy, G]. }
    assert (0 < eval env (terms (greater_side op a b))) as P2.
    { assert (is_mono (terms (greater_side op a b))) as (e & d & -> & _ & Hd) by (destruct op; cbn in G |- *; apply G).
      cbn [eval]. rewrite Rplus_0_r. apply Rmult_lt_0_compat; [exact Hd|]. apply mono_val_pos. }
    destruct (Rlt_le_dec 0 c) as [L|L]; [exact L|]. exfalso. rewrite K in P1. pose proof (Rmult_le_compat_r _ c 0 (Rlt_le _ _ P2) L). lra. }
  destruct (compare false op a b) as [[t|l o r u|l o r u|l r u]|e]; cbn [made rejected] in C.
  - destruct C as [(_ & _ & C)|(-> & C & _)]; [|contradiction].
    split; [intros T env; apply C; exact T|]. intros K. apply (C (override (fun _ => 1) fixed)). apply (K (fun _ => 1)).
  - destruct C as (No & _ & H & L & GR & No' & E).
    pose proof (C18_posynomial_inequality_partial inf pick fixed st l r o S No') as T.
    rewrite L, GR, E in T. specialize (T ltac:(destruct op; [apply G|apply G|congruence]) ltac:(destruct op; [apply G|apply G|congruence]) F).
    cbv zeta in T. destruct (as_hmapslt1 inf pick fixed st u) as [[st' out]|e].
    + destruct T as (W & I1 & I2). split; [exact W|]. split; [intros env Pe K; apply I1; [exact Pe|]; apply H; exact K|].
      destruct I2 as [I2|(-> & c & I2)]; [left; intros env Pe K; apply H; apply I2; assumption|]. right. split; [reflexivity|]. exists c.
      assert (V : forall env, positive_point env -> value_at (override env fixed) (lesser_side op a b) = c * value_at (override env fixed) (greater_side op a b))
        by (intros env Pe; rewrite !value_terms; apply I2; exact Pe).
      split; [|exact V]. split; [|apply (I2 (fun _ => 1)); intros ?; lra]. apply (Pos c _ (V (fun _ => 1) ltac:(intros ?; lra))).
    + intros env Pe K. apply (T env Pe). apply H. exact K.
  - destruct C as (? & _). discriminate.
  - destruct C as (-> & _ & Sd & E).
    assert (M : is_mono l /\ is_mono r) by (destruct Sd as [[-> ->]|[-> ->]]; [exact G|split; apply G]). destruct M as [Ml Mr].
    pose proof (C20_monomial_equality inf pick fixed st false l r S Ml Mr) as T. rewrite E in T. cbv zeta in T.
    assert (H : forall env, eval env l = eval env r <-> value_at env a = value_at env b).
    { intros env. rewrite !value_terms. destruct Sd as [[-> ->]|[-> ->]]; [reflexivity|]. split; intros; symmetry; assumption. }
    destruct (as_hmapslt1 inf pick fixed st u) as [[st' out]|e].
    + destruct T as (W & I1 & I2). split; [exact W|]. split; [intros env Pe K; apply I1; [exact Pe|]; apply H; exact K|].
      destruct I2 as [(_ & I2)|(-> & c & L1 & L2 & I2)]; [left; intros env Pe K; apply H; apply I2; assumption|]. right. split; [reflexivity|].
      destruct Sd as [[-> ->]|[-> ->]].
      * assert (V : forall env, positive_point env -> value_at (override env fixed) (lesser_side OpEq a b) = c * value_at (override env fixed) (greater_side OpEq a b))
          by (intros env Pe; cbn [lesser_side greater_side]; rewrite !value_terms; apply I2; exact Pe).
        exists c. split; [|exact V]. split; [|exact L1]. apply (Pos c _ (V (fun _ => 1) ltac:(intros ?; lra))).
      * assert (V : forall env, positive_point env -> value_at (override env fixed) (lesser_side OpEq a b) = / c * value_at (override env fixed) (greater_side OpEq a b)).
        { intros env Pe. cbn [lesser_side greater_side]. rewrite !value_terms. rewrite (I2 env Pe).
          destruct (Req_dec c 0) as [->|Hc]; [|field; exact Hc].
          exfalso. assert (0 < eval (override env fixed) (terms b)) as P0.
          { destruct Ml as (e & d & -> & _ & Hd). cbn [eval]. rewrite Rplus_0_r. apply Rmult_lt_0_compat; [exact Hd|]. apply mono_val_pos. }
          rewrite (I2 env Pe) in P0. lra. }
        exists (/ c). split; [|exact V]. split; [|exact L2]. apply (Pos _ _ (V (fun _ => 1) ltac:(intros ?; lra))).
    + intros env Pe K. apply (T env Pe). apply H. exact K.
  - destruct C as [C|[C|[(_ & _ & C & _)|(_ & C)]]]; [contradiction|contradiction|contradiction|]. intros env Pe K. apply (C F _ K).
Qed.
Print Assumptions C85_in_program_partial.

(** Missing: the clashes of C18, and numbers that aren't positive. With signomials enabled, [x <= -1] makes [-x <= 1], and where x is a constant
    this is dropped as always true. *)
Theorem C85_negative_number_refuted :
  ~ C85_for (fun op a b => op = OpLe /\ exists x c, a = Nom true (var_hmap x) /\ b = Number c) true.
Proof.
  intros H.
  set (fixed := {[0%nat := 3]} : gmap nat R).
  assert (S : subs_ok fixed (std_schedule fixed)).
  { split; [|intros h; apply std_schedule_valid]. intros k v Hk. unfold fixed in Hk. apply lookup_singleton_Some in Hk as [_ <-]. lra. }
  assert (M : is_mono (var_hmap 0 : hmap R)) by (exists {[0%nat := 1]}, 1; split; [reflexivity|]; split; [apply exp_canon_singleton|]; lra).
  assert (P : proper (Nom true (var_hmap 0))).
  { split; [apply mono_posy; exact M|]. split; [discriminate|]. intros _. exact M. }
  specialize (H 0 (std_schedule fixed) fixed (CS None None) OpLe (Nom true (var_hmap 0)) (Number (-1)) S P I
    ltac:(split; [reflexivity|]; exists 0%nat, (-1); auto)).
  set (u := [({[0%nat := 1]} : expv R, 1 / -1)] : hmap R).
  assert (Ec : compare true OpLe (Nom true (var_hmap 0)) (Number (-1)) = Ok (Posy (var_hmap 0) OpLe (num_hmap (-1)) [u])).
  { unfold compare, class_of. assert (classify (var_hmap 0 : hmap R) = CMonomial) as EM by (apply classify_CMonomial; exists {[0%nat := 1]}, 1; split; [reflexivity|lra]).
    rewrite EM. cbn [strict_subclass depth Nat.ltb Nat.leb]. unfold method, le_method, class_of. rewrite EM. cbn [is_number orb].
    unfold posynomial_inequality. cbn [side]. unfold signomial_init. rewrite andb_false_r. cbn [rbind]. unfold divides. cbn [var_hmap num_hmap].
    destruct (decide (-1 = n0)) as [D|_]; [exfalso; cbn in D; lra|]. cbn [rbind posy_ineq]. unfold gen_unsubbed, var_hmap, num_hmap. cbn [dkeys map fst rename_loop].
    unfold rename_step. cbn [dget]. rewrite decide_True by reflexivity. cbn [rbind]. cbn [ddel]. rewrite decide_True by reflexivity. cbn [dset].
    assert (exp_sub ({[0%nat := n1]} : expv R) e_empty = {[0%nat := n1]}) as -> by (unfold exp_sub, exp_neg, exp_mul, e_empty, exp_add; rewrite fmap_empty; apply right_id; apply _).
    unfold simplify. cbn [dget]. destruct (decide (e_empty = {[0%nat := n1]})) as [D|_].
    { exfalso. apply (f_equal (lookup 0%nat)) in D. unfold e_empty in D. rewrite lookup_empty, lookup_singleton in D. discriminate. }
    cbn [rbind]. unfold signomial_init. rewrite andb_false_r. reflexivity. }
  rewrite Ec in H.
  assert (Cu : canonical u).
  { split; [apply NoDup_ListNoDup; cbn; repeat constructor; intros []|]. intros e c [[= <- <-]|[]]. split; [apply exp_canon_singleton; lra|]. lra. }
  destruct (C19_constant_inequality_partial 0 (std_schedule fixed) fixed (CS None None) u S Cu ltac:(discriminate)) as [[K _] _].
  { intros k Hk. unfold u, in_vks in Hk. cbn in Hk. destruct (decide (k = 0%nat)) as [->|Hne]; [unfold fixed; rewrite lookup_singleton; discriminate|].
    rewrite orb_false_r in Hk. rewrite lookup_singleton_ne in Hk by auto. discriminate. }
  assert (Ov : forall env, override env fixed 0%nat = 3) by (intros env; unfold override, fixed; rewrite lookup_singleton; reflexivity).
  destruct K as [st' K].
  { unfold u. cbn [eval]. pose proof (mono_val_pos (override (fun _ => 1) fixed) {[0%nat := 1]}). unfold tolerance. lra. }
  rewrite K in H. destruct H as (_ & _ & [H|(_ & c & Hc & H)]).
  - specialize (H (fun _ => 1) ltac:(intros ?; lra) ltac:(intros ? [])). cbn [related value_at] in H.
    pose proof (mono_val_pos (override (fun _ => 1) fixed) {[0%nat := 1]}) as P0. cbn [var_hmap eval] in H. change (@n1 R _) with 1 in H. lra.
  - specialize (H (fun _ => 1) ltac:(intros ?; lra)). cbn [lesser_side greater_side value_at var_hmap eval] in H.
    pose proof (mono_val_pos (override (fun _ => 1) fixed) {[0%nat := 1]}) as P0. change (@n1 R _) with 1 in H. lra.
Qed.
Print Assumptions C85_negative_number_refuted.

(** [==] may raise although it asks only whether its sides are the same: [x == 0] does, whether signomials are enabled or not, and so does
    [x == 2*x]. *)
Theorem C85_equality_raises_refuted :
  let x : operand Q := Nom true (var_hmap 0) in
  compare false OpEq x (Number 0%Q) = Err InvalidPosynomialE /\ compare true OpEq x (Number 0%Q) = Err ZeroDivisionE /\
  compare false OpEq x (Nom false [({[0%nat := 1%Q]}, 2%Q)]) = Err PrimalInfeasibleE.
Proof. vm_compute. repeat split. Qed.
Print Assumptions C85_equality_raises_refuted.

(** *** Cases: [x + 1 <= 2*y], and [2*y >= x + 1]; [x + y >= 1] *)
Example C85_nonvacuous :
  let a : operand R := Nom false [({[0%nat := 1]}, 1); (e_empty, 1)] in
  let b : operand R := Nom false [({[1%nat := 1]}, 2)] in
  proper a /\ proper b /\ gp_compatible OpLe a b /\ free_of_clashes OpLe a b /\ gp_compatible OpGe b a /\ ~ gp_compatible OpGe a b.
Proof.
  intros a b.
  assert (Pa : is_posy (terms a)).
  { split; [split|split].
    - apply NoDup_ListNoDup. cbn. repeat constructor; cbn; [|intros []]. intros [K|[]]. apply (f_equal (lookup 0%nat)) in K.
      unfold e_empty in K. rewrite lookup_empty, lookup_singleton in K. discriminate.
    - intros e c [[= <- <-]|[[= <- <-]|[]]]; (split; [|lra]); [apply exp_canon_singleton; lra|apply exp_canon_empty].
    - intros e c [[= <- <-]|[[= <- <-]|[]]]; lra.
    - discriminate. }
  assert (Pb : is_mono (terms b)) by (exists {[1%nat := 1]}, 2; split; [reflexivity|]; split; [apply exp_canon_singleton; lra|lra]).
  split; [split; [apply Pa|split; [discriminate|discriminate]]|].
  split; [split; [apply (mono_posy _ Pb)|split; [discriminate|discriminate]]|].
  split; [split; assumption|]. split.
  - intros e c [= <- <-] [|[|i]] [|[|j]] ei ci ej cj L E1 E2; try lia; cbn in E1, E2; try discriminate.
    injection E1 as <- <-. injection E2 as <- <-. intros K. apply (f_equal (lookup 1%nat)) in K.
    unfold exp_sub, exp_add, exp_neg, exp_mul, e_empty in K. rewrite lookup_union_with, lookup_empty, lookup_singleton_ne, lookup_fmap, lookup_singleton in K by discriminate.
    discriminate.
  - split; [split; assumption|]. intros [_ (e & c & K & _)]. discriminate K.
Qed.
Example C85_computed : (* [2 <= x] asks x; [x + 1 >= y] needs signomials *)
  let x : operand Q := Nom true (var_hmap 0) in let p : operand Q := Nom false [({[0%nat := 1%Q]}, 1%Q); (∅, 1%Q)] in let y : operand Q := Nom true (var_hmap 1) in
  rmap (fun c => match c with Posy _ op _ u => Some (op, map items u) | _ => None end) (compare false OpLe (Number 2%Q) x) = Ok (Some (OpGe, [[([(0%nat, (-1)%Q)], 2%Q)]])) /\
  compare false OpGe p y = Err TypeErrorE /\
  rmap (fun c => match c with Sig _ op _ u => Some (op, items u) | _ => None end) (compare true OpGe p y) =
    Ok (Some (OpGe, [([(1%nat, 1%Q)], 1%Q); ([(0%nat, 1%Q)], (-1)%Q); ([], (-1)%Q)])).
Proof. vm_compute. repeat split. Qed.

(** ** C86 *)
Definition proper_array (a : Vector.array (operand R)) : Prop := forall i, in_range (Vector.dims a) i -> proper (Vector.elt a i).
(** All pairs of matching elements are related. *)
Definition all_related (q : point) (op : oper) (a b : Vector.array (operand R)) (shape : list nat) : Prop :=
  forall i ja jb, in_range shape i -> matches (Vector.dims a) ja i -> matches (Vector.dims b) jb i ->
  related op (value_at q (Vector.elt a ja)) (value_at q (Vector.elt b jb)).

Lemma compare_arrays_flat se op (a b : Vector.array (operand R)) c : compare_arrays se op a b = Ok c ->
  exists first l, ac_op c = op /\ together (Vector.dims a) (Vector.dims b) (ac_shape c) /\ ac_flat c = cast first l /\
  Forall2 (fun i x => compare se op (Vector.elt a (index_in (Vector.dims a) i)) (Vector.elt b (index_in (Vector.dims b) i)) = Ok x) (Layout.indices (ac_shape c)) l /\
  (size (Vector.dims a) <> 0 /\ size (Vector.dims b) <> 0)%nat.
Proof.
  unfold compare_arrays, vectorized. destruct (_ || _) eqn:Z; [discriminate|]. apply orb_false_iff in Z as [Za Zb]. apply Nat.eqb_neq in Za, Zb.
  destruct (compare se op _ _) as [first|]; [|discriminate]. cbn [rbind].
  destruct (broadcast_shape _ _) as [shape|] eqn:B; [|discriminate]. cbn [rbind].
  destruct (evaluate _ _) as [l|] eqn:E; [|discriminate]. cbn [rbind fst snd]. intros [= <-]. exists first, l. cbn [ac_op ac_shape ac_flat].
  apply broadcast_together in B. apply evaluate_ok in E. split; [reflexivity|]. split; [exact B|]. split; [reflexivity|]. split; [exact E|]. split; assumption.
Qed.

(** As members of a constraint set, the constraints of an array constraint hold at a point just if all the pairs of elements are related there. There is
    one for each element of the result. *)
Theorem C86_elementwise : forall (se : bool) (op : oper) (a b : Vector.array (operand R)) (c : array_constraint R) (l : list (comparison R)),
  proper_array a -> proper_array b -> compare_arrays se op a b = Ok c -> in_set c = Ok l ->
  together (Vector.dims a) (Vector.dims b) (ac_shape c) /\ length l = size (ac_shape c) /\
  forall q, Forall (satisfied q) l <-> all_related q op a b (ac_shape c).
Proof.
  intros se op a b c l Pa Pb E I. apply compare_arrays_flat in E as (first & raw & Eo & T & Ef & F & Za & Zb).
  unfold in_set in I. destruct (existsb is_truth (ac_flat c)) eqn:X; [discriminate|]. injection I as <-.
  assert (NT : forall x, In x (ac_flat c) -> is_truth x = false).
  { intros x Hx. destruct (is_truth x) eqn:Y; [|reflexivity]. assert (existsb is_truth (ac_flat c) = true) by (apply existsb_exists; eauto). congruence. }
  assert (Er : ac_flat c = raw).
  { rewrite Ef. unfold cast. destruct first; auto. destruct raw as [|x raw]; [reflexivity|]. exfalso.
    specialize (NT (Truth (truth x))). rewrite Ef in NT. cbn in NT. discriminate (NT (or_introl eq_refl)). }
  rewrite Er in *. clear Ef. split; [exact T|]. split; [rewrite <- indices_length; symmetry; apply (Forall2_length _ _ _ F)|]. intros q.
  destruct (together_length _ _ _ T) as [La Lb].
  assert (Q : forall i x, In i (Layout.indices (ac_shape c)) -> compare se op (Vector.elt a (index_in (Vector.dims a) i)) (Vector.elt b (index_in (Vector.dims b) i)) = Ok x ->
    is_truth x = false -> satisfied q x <-> related op (value_at q (Vector.elt a (index_in (Vector.dims a) i))) (value_at q (Vector.elt b (index_in (Vector.dims b) i)))).
  { intros i x Hi Ex Nx. apply PropsLayout.indices_In in Hi. apply (compare_satisfied se); [| |exact Ex|exact Nx].
    - apply Pa. eapply index_range_l; [exact T|exact Hi].
    - apply Pb. eapply index_range_l; [apply together_comm; exact T|exact Hi]. }
  split.
  - intros Sat i ja jb Hi Ma Mb. apply matches_index in Ma as ->. apply matches_index in Mb as ->.
    assert (In i (Layout.indices (ac_shape c))) as Hin by (apply PropsLayout.indices_In; exact Hi).
    apply elem_of_list_In in Hin as Hin'. apply elem_of_list_lookup in Hin' as [n Hn].
    destruct (Forall2_lookup_l _ _ _ _ _ F Hn) as (x & Hx & Ex). assert (In x raw) as Ix by (apply elem_of_list_In; eapply elem_of_list_lookup_2; exact Hx).
    apply (Q i x Hin Ex (NT x Ix)). rewrite Forall_forall in Sat. apply Sat. apply elem_of_list_In. exact Ix.
  - intros A. apply Forall_forall. intros x Ix. apply elem_of_list_In in Ix as Ix'. apply elem_of_list_lookup in Ix as [n Hn].
    destruct (Forall2_lookup_r _ _ _ _ _ F Hn) as (i & Hi & Ex). assert (In i (Layout.indices (ac_shape c))) as Hin by (apply elem_of_list_In; eapply elem_of_list_lookup_2; exact Hi).
    apply (Q i x Hin Ex (NT x Ix')). apply PropsLayout.indices_In in Hin. assert (length i = length (ac_shape c)) as Li by (apply (Forall2_length _ _ _ Hin)).
    apply A with i; [exact Hin|apply index_matches; lia|apply index_matches; lia].
Qed.
Print Assumptions C86_elementwise.

(** Arrays that fit, with elements, whose pairs each make a constraint, make an array constraint that constraint sets accept. *)
Definition makes_constraint (se : bool) (op : oper) (a b : operand R) : Prop := exists c, compare se op a b = Ok c /\ is_truth c = false.
Definition C86_accepted_for (ok : bool -> oper -> operand R -> operand R -> Prop) : Prop :=
  forall (se : bool) (op : oper) (a b : Vector.array (operand R)) (shape : list nat),
  together (Vector.dims a) (Vector.dims b) shape -> size (Vector.dims a) <> 0%nat -> size (Vector.dims b) <> 0%nat ->
  (forall i ja jb, in_range shape i -> matches (Vector.dims a) ja i -> matches (Vector.dims b) jb i -> ok se op (Vector.elt a ja) (Vector.elt b jb)) ->
  exists c l, compare_arrays se op a b = Ok c /\ ac_shape c = shape /\ in_set c = Ok l.
Theorem C86_accepted_partial : C86_accepted_for makes_constraint.
Proof.
  intros se op a b shape T Za Zb H. destruct (together_length _ _ _ T) as [La Lb].
  assert (K : forall i, in_range shape i -> makes_constraint se op (Vector.elt a (index_in (Vector.dims a) i)) (Vector.elt b (index_in (Vector.dims b) i))).
  { intros i Hi. assert (length i = length shape) as Li by (apply (Forall2_length _ _ _ Hi)). apply (H i _ _ Hi); apply index_matches; lia. }
  unfold compare_arrays, vectorized. apply Nat.eqb_neq in Za as Za', Zb as Zb'. rewrite Za', Zb'. cbn [orb].
  pose proof (zeros_range shape (together_nonzero _ _ _ T Za Zb)) as Z.
  destruct (H _ _ _ Z (zeros_matches _ _ La) (zeros_matches _ _ Lb)) as (first & -> & NF). cbn [rbind].
  rewrite (proj2 (broadcast_together _ _ _) T). cbn [rbind].
  destruct (evaluate_total (fun i => compare se op (Vector.elt a (index_in (Vector.dims a) i)) (Vector.elt b (index_in (Vector.dims b) i))) (Layout.indices shape)) as [l El].
  { intros i Hi. apply PropsLayout.indices_In in Hi. destruct (K i Hi) as (c & E & _). eauto. }
  rewrite El. cbn [rbind fst snd]. eexists _, l. split; [reflexivity|]. split; [reflexivity|].
  assert (cast first l = l) as C by (destruct first; [discriminate NF|reflexivity|reflexivity|reflexivity]).
  unfold in_set. cbn [ac_flat]. rewrite C.
  assert (existsb is_truth l = false) as ->; [|reflexivity].
  apply not_true_is_false. intros X. apply existsb_exists in X as (x & Ix & Tx). apply elem_of_list_In, elem_of_list_lookup in Ix as [n Hn].
  apply evaluate_ok in El. destruct (Forall2_lookup_r _ _ _ _ _ El Hn) as (i & Hi & Ex).
  assert (In i (Layout.indices shape)) as Hin by (apply elem_of_list_In; eapply elem_of_list_lookup_2; exact Hi). apply PropsLayout.indices_In in Hin.
  destruct (K i Hin) as (c & E & N). rewrite Ex in E. injection E as <-. congruence.
Qed.
Print Assumptions C86_accepted_partial.

(** Missing: pairs of numbers that are in order. [NomialArray([1, x]) <= [2, 3]] cannot be a constraint: its first pair makes a truth value, and with it
    all become truth values. *)
Theorem C86_numbers_refuted :
  let x : operand Q := Nom true (var_hmap 0) in
  let a := Vector.Arr [2%nat] (fun i => match i with [0%nat] => Number 1%Q | _ => x end) in
  let b := Vector.Arr [2%nat] (fun i => match i with [0%nat] => Number 2%Q | _ => Number 3%Q end) in
  compare false OpLe (Number 1%Q) (Number 2%Q) = Ok (Truth true) /\
  (exists c, compare false OpLe x (Number 3%Q) = Ok c /\ is_truth c = false) /\
  compare_arrays false OpLe a b = Ok (AC OpLe [2%nat] [Truth true; Truth true]) /\
  in_set (AC OpLe [2%nat] [Truth (T := Q) true; Truth true]) = Err ValueErrorE.
Proof. split; [reflexivity|]. split; [eexists; split; vm_compute; reflexivity|]. split; vm_compute; reflexivity. Qed.
Print Assumptions C86_numbers_refuted.

(** As a condition, [a == b] is whether all pairs of elements are the same function. *)
Theorem C86_truth : forall (se : bool) (a b : Vector.array (operand R)) (c : array_constraint R),
  proper_array a -> proper_array b ->
  (forall i, in_range (Vector.dims a) i -> ~ nonpositive (Vector.elt a i)) -> (forall i, in_range (Vector.dims b) i -> ~ nonpositive (Vector.elt b i)) ->
  compare_arrays se OpEq a b = Ok c ->
  array_truth c = true <-> forall q, positive_point q -> all_related q OpEq a b (ac_shape c).
Proof.
  intros se a b c Pa Pb Na Nb E. apply compare_arrays_flat in E as (first & raw & Eo & T & Ef & F & Za & Zb).
  destruct (together_length _ _ _ T) as [La Lb].
  assert (Et : array_truth c = forallb truth raw).
  { unfold array_truth. rewrite Eo, Ef. unfold cast. destruct first; auto. clear. induction raw as [|x raw IH]; [reflexivity|]. cbn. rewrite IH. reflexivity. }
  rewrite Et. clear Et.
  assert (Q : forall i x, In i (Layout.indices (ac_shape c)) -> compare se OpEq (Vector.elt a (index_in (Vector.dims a) i)) (Vector.elt b (index_in (Vector.dims b) i)) = Ok x ->
    truth x = true <-> forall q, positive_point q -> value_at q (Vector.elt a (index_in (Vector.dims a) i)) = value_at q (Vector.elt b (index_in (Vector.dims b) i))).
  { intros i x Hi Ex. apply PropsLayout.indices_In in Hi.
    assert (Ra : in_range (Vector.dims a) (index_in (Vector.dims a) i)) by (eapply index_range_l; [exact T|exact Hi]).
    assert (Rb : in_range (Vector.dims b) (index_in (Vector.dims b) i)) by (eapply index_range_l; [apply together_comm; exact T|exact Hi]).
    pose proof (compare_spec se OpEq _ _ (Pa _ Ra) (Pb _ Rb)) as S. rewrite Ex in S. destruct x as [t|? ? ? ?|? ? ? ?|l r u]; cbn [made truth] in *.
    - destruct S as [(N1 & N2 & S)|(_ & _ & S)]; [|exact S]. split; [intros Ht q _; apply S; exact Ht|]. intros K.
      apply (S (fun _ => 1)). apply K. intros ?; lra.
    - destruct S as (No & _). congruence.
    - destruct S as (_ & No & _). congruence.
    - destruct S as (_ & [S|[S|G]] & Sd & _); [destruct (Na _ Ra S)|destruct (Nb _ Rb S)|]. destruct G as [Ga Gb].
      assert (M : is_mono l /\ is_mono r /\ ((forall q, positive_point q -> eval q l = eval q r) <-> forall q, positive_point q -> value_at q (Vector.elt a (index_in (Vector.dims a) i)) = value_at q (Vector.elt b (index_in (Vector.dims b) i)))).
      { destruct Sd as [[-> ->]|[-> ->]]; (split; [assumption|]; split; [assumption|]); split; intros K q Pq; specialize (K q Pq); rewrite ?value_terms in *; congruence. }
      destruct M as (Ml & Mr & <-). pose proof (mono_posy _ Ml) as (Cl & _). pose proof (mono_posy _ Mr) as (Cr & _).
      destruct Ml as (e & d & -> & _), Mr as (e' & d' & -> & _). rewrite <- mono_identical by assumption. destruct (decide _); [tauto|]. split; [discriminate|tauto]. }
  rewrite forallb_forall. split.
  - intros A q Pq i ja jb Hi Ma Mb. apply matches_index in Ma as ->. apply matches_index in Mb as ->. cbn [related].
    assert (In i (Layout.indices (ac_shape c))) as Hin by (apply PropsLayout.indices_In; exact Hi).
    apply elem_of_list_In in Hin as Hin'. apply elem_of_list_lookup in Hin' as [n Hn].
    destruct (Forall2_lookup_l _ _ _ _ _ F Hn) as (x & Hx & Ex). apply (Q i x Hin Ex); [|exact Pq]. apply A. apply elem_of_list_In. eapply elem_of_list_lookup_2; exact Hx.
  - intros A x Ix. apply elem_of_list_In, elem_of_list_lookup in Ix as [n Hn].
    destruct (Forall2_lookup_r _ _ _ _ _ F Hn) as (i & Hi & Ex). assert (In i (Layout.indices (ac_shape c))) as Hin by (apply elem_of_list_In; eapply elem_of_list_lookup_2; exact Hi).
    apply (Q i x Hin Ex). intros q Pq. apply PropsLayout.indices_In in Hin. assert (length i = length (ac_shape c)) as Li by (apply (Forall2_length _ _ _ Hin)).
    apply (A q Pq i); [exact Hin|apply index_matches; lia|apply index_matches; lia].
Qed.
Print Assumptions C86_truth.
(** [a <= b] and [a >= b] of arrays are never true as conditions. *)
Theorem C86_inequality : forall (se : bool) op (a b : Vector.array (operand R)) (c : array_constraint R),
  compare_arrays se op a b = Ok c -> op <> OpEq -> array_truth c = false.
Proof.
  intros se op a b c E N. unfold compare_arrays in E. destruct (vectorized se op a b); [|discriminate E]. injection E as <-.
  unfold array_truth. cbn. destruct op; [reflexivity|reflexivity|contradiction].
Qed.
Print Assumptions C86_inequality.

(** *** A case: a column of two and a row of three make six pairs. *)
Example C86_nonvacuous : together [2; 1]%nat [3]%nat [2; 3]%nat /\
  let a := Vector.Arr [2; 1]%nat (fun i => Nom true (var_hmap (nth 0 i 0%nat) : hmap Q)) in
  let b := Vector.Arr [3]%nat (fun i => Nom true (var_hmap (10 + nth 0 i 0)%nat : hmap Q)) in
  rmap (fun c => (ac_shape c, map (fun x => match x with Posy _ op _ u => Some (op, map items u) | _ => None end) (ac_flat c))) (compare_arrays false OpLe a b) =
  Ok ([2; 3]%nat, map (fun p => Some (OpLe, [[([(fst p, 1%Q); (snd p, (-1)%Q)], 1%Q)]])) [(0, 10); (0, 11); (0, 12); (1, 10); (1, 11); (1, 12)]%nat).
Proof.
  split; [|vm_compute; reflexivity]. split; [reflexivity|]. intros [|[|[|d]]] n E; cbn in E; try discriminate; injection E as <-; cbn; auto.
Qed.
