(** Properties C18-C23: single-equation constraints.
    Specification vocabulary: NomialSem.v, SubSem.v, ConstraintSem.v. *)
From Verif Require Import Base HashVec Nomial NomialSem NomialProofs CanonProofs DiffProofs
  Sub SubSem SubProofs SubExtra Mono MonoProofs Constraint ConstraintSem ConstraintProofs.
Open Scope R_scope.

(** Substitutions: positive values, and any iteration order Python may use. *)
Definition subs_ok (fixed : gmap nat R) (pick : hmap R -> schedule) : Prop :=
  (forall k v, fixed !! k = Some v -> 0 < v) /\ (forall h, valid_schedule fixed h (pick h)).

(** What a list [out] of posynomials must be to stand for the condition [C]:
    every member a posynomial in the free variables; satisfied wherever [C]
    holds; and [C] holds wherever it is satisfied. *)
Definition well_formed (fixed : gmap nat R) (out : list (hmap R)) : Prop :=
  forall v, In v out -> is_posy v /\ forall k, in_vks v k = true -> fixed !! k = None.
Definition implied_by (out : list (hmap R)) (C : point -> Prop) : Prop :=
  forall env, positive_point env -> C env -> sat env out.
Definition implies (out : list (hmap R)) (C : point -> Prop) : Prop :=
  forall env, positive_point env -> sat env out -> C env.
Definition impossible (C : point -> Prop) : Prop := forall env, positive_point env -> ~ C env.

(** ** C18 *)

(** The full claim, including the case in which construction or substitution
    reports an error: then nothing satisfies the inequality. The only slack is
    the documented tolerance for an inequality between two constants. *)
Definition C18_for (clash_free : hmap R -> hmap R -> Prop) : Prop :=
  forall (inf : R) (pick : hmap R -> schedule) (fixed : gmap nat R) (st : cstate R)
         (left right : hmap R) (op : oper),
  subs_ok fixed pick -> op <> OpEq ->
  is_posy (lesser left op right) -> is_mono (greater left op right) ->
  clash_free (lesser left op right) (greater left op right) ->
  let original := fun env => holds (override env fixed) left op right in
  match posy_ineq false left op right with
  | Err _ => forall env, ~ holds env left op right
  | Ok us =>
      match as_hmapslt1 inf pick fixed st us with
      | Err _ => impossible original
      | Ok (_, out) =>
          well_formed fixed out /\ implied_by out original /\
          (implies out original \/
           (out = [] /\ exists c, forall env, positive_point env ->
              eval (override env fixed) (lesser left op right) = c * eval (override env fixed) (greater left op right) /\
              c <= 1 + tolerance))
      end
  end.

(** Proved when no quotient of a term of the posynomial by the monomial is a
    term of the posynomial that comes later. *)
Theorem C18_posynomial_inequality_partial :
  C18_for (fun p m => forall e c, m = [(e, c)] -> no_clash p e).
Proof.
  exact (fun inf pick fixed st left right op '(conj Hf Hp) => posy_ineq_correct inf pick fixed Hf Hp st left right op).
Qed.
Print Assumptions C18_posynomial_inequality_partial.

(** Without that condition it is false: dividing [e1] gives the key [e2], whose
    own coefficient is overwritten before it is read. Whole terms disappear. *)
Theorem C18_clash_drops_a_term_refuted :
  (forall (se : bool) (e1 e2 m : expv R) (c1 c2 cm : R),
     e1 <> e2 -> exp_sub e1 m = e2 -> exp_sub e2 m <> e_empty -> 0 < c1 -> 0 < cm ->
     gen_unsubbed se [(e1, c1); (e2, c2)] [(m, cm)] = Ok [[(exp_sub e2 m, c1 / cm / cm)]]) /\
  ~ C18_for (fun _ _ => True).
Proof.
  split; [exact clash_drops|]. intros H.
  (* y >= z + z/y, with y the variable 0 and z the variable 1 *)
  set (ez := {[1%nat := 1]} : expv R). set (ey := {[0%nat := 1]} : expv R).
  set (ezy := exp_sub ez ey).
  assert (Cz : exp_canon ez) by apply exp_canon_singleton.
  assert (Cy : exp_canon ey) by apply exp_canon_singleton.
  assert (Czy : exp_canon ezy) by (apply exp_canon_sub; auto).
  assert (Gz : eget ez 0 = 0 /\ eget ez 1 = 1) by (split; reflexivity).
  assert (Gy : eget ey 0 = 1 /\ eget ey 1 = 0) by (split; reflexivity).
  assert (Hne : ez <> ezy).
  { intros E. apply (f_equal (fun e => eget e 0)) in E. unfold ezy in E. rewrite eget_sub in E. lra. }
  assert (Hne2 : exp_sub ezy ey <> e_empty).
  { intros E. apply (f_equal (fun e => eget e 0)) in E. unfold ezy in E. rewrite !eget_sub, eget_empty in E. lra. }
  specialize (H 0 (fun _ => []) ∅ (CS None None) [(ez, 1); (ezy, 1)] [(ey, 1)] OpLe).
  assert (Hp : forall h : hmap R, valid_schedule ∅ h []).
  { intros h. split; [constructor|]. split; [|intros ? ? []]. intros vk. split; [intros []|].
    intros [[v Hv] _]. rewrite lookup_empty in Hv. discriminate. }
  assert (Hf0 : forall (k : nat) (v : R), (∅ : gmap nat R) !! k = Some v -> 0 < v).
  { intros k v Hk. rewrite lookup_empty in Hk. discriminate. }
  specialize (H (conj Hf0 Hp) ltac:(discriminate)).
  cbn [lesser greater posy_ineq] in H.
  rewrite (clash_drops false ez ezy ey 1 1 1 Hne eq_refl Hne2 ltac:(lra) ltac:(lra)) in H.
  assert (HP : is_posy [(ez, 1); (ezy, 1)]).
  { split; [split|split].
    - apply NoDup_ListNoDup. cbn. repeat constructor; cbn; intuition.
    - intros e c [[= <- <-]|[[= <- <-]|[]]]; (split; [auto|lra]).
    - intros e c [[= <- <-]|[[= <- <-]|[]]]; lra.
    - discriminate. }
  assert (HM : is_mono [(ey, 1)]) by (exists ey, 1; split; [auto|split; [auto|lra]]).
  specialize (H HP HM I). cbn [as_hmapslt1] in H. cbn [nm_sub sub_passes sub_init s_cp rbind] in H.
  unfold simplify in H. cbn [dget] in H. rewrite decide_False in H by (intros E; apply Hne2; auto). cbn [rbind] in H.
  replace (any_nonpositive [(exp_sub ezy ey, 1 / 1 / 1)]) with false in H.
  2:{ symmetry. apply any_nonpositive_false. intros e c [[= <- <-]|[]]. lra. }
  cbn [rbind snd fst] in H. destruct H as (_ & _ & [H|[H _]]); [|discriminate].
  specialize (H (fun _ => 1) ltac:(intros ?; lra)).
  assert (M1 : forall e : expv R, mono_val (fun _ => 1) e = 1).
  { exact mono_val_ones. }
  assert (Ho : override (fun _ => 1) (∅ : gmap nat R) = (fun _ => 1)).
  { apply FunctionalExtensionality.functional_extensionality. intros k. unfold override. rewrite lookup_empty. auto. }
  cbn [holds] in H. rewrite Ho in H. cbn [eval] in H. rewrite !M1 in H.
  assert (1 * 1 + (1 * 1 + 0) <= 1 * 1 + 0); [|lra]. apply H.
  intros u [<-|[]]. cbn [eval]. rewrite M1. lra.
Qed.
Print Assumptions C18_clash_drops_a_term_refuted.

(** *** A case: [2*y + 3 <= x] with y = 5 substituted. *)
Definition ex_left : hmap R := [({[1%nat := 1]}, 2); (∅, 3)].
Definition ex_right : hmap R := [({[0%nat := 1]}, 1)].
Definition ex_y5 : gmap nat R := {[1%nat := 5]}.
Lemma ex_y5_pos : subs_ok ex_y5 (std_schedule ex_y5).
Proof.
  split; [|intros h; apply std_schedule_valid]. intros k v Hk. unfold ex_y5 in Hk. apply lookup_singleton_Some in Hk as [_ <-]. lra.
Qed.
Example C18_nonvacuous : subs_ok ex_y5 (std_schedule ex_y5) /\
  is_posy (lesser ex_left OpLe ex_right) /\ is_mono (greater ex_left OpLe ex_right) /\
  forall e c, greater ex_left OpLe ex_right = [(e, c)] -> no_clash (lesser ex_left OpLe ex_right) e.
Proof.
  split; [apply ex_y5_pos|]. cbn [lesser greater]. split; [split; [split|split]|split].
  - apply NoDup_ListNoDup. cbn. repeat constructor; cbn; intuition.
    apply (f_equal (fun e : gmap nat R => e !! 1%nat)) in H0. discriminate.
  - intros e c [[= <- <-]|[[= <- <-]|[]]]; (split; [|lra]);
      [apply exp_canon_singleton|intros k x Hx; rewrite lookup_empty in Hx; discriminate].
  - intros e c [[= <- <-]|[[= <- <-]|[]]]; lra.
  - discriminate.
  - exists {[0%nat := 1]}, 1. split; auto. split; [apply exp_canon_singleton|lra].
  - intros e c [= <- <-] i j ei ci ej cj Hij Hi Hj E.
    destruct j as [|[|j]]; [lia| |destruct j; discriminate]. destruct i as [|]; [|lia].
    injection Hi as <- <-. injection Hj as <- <-.
    apply (f_equal (fun e => eget e 0)) in E. rewrite eget_sub in E.
    change (eget {[1%nat := 1]} 0) with 0 in E. change (eget {[0%nat := 1]} 0) with 1 in E.
    change (eget ∅ 0) with 0 in E. lra.
Qed.

Example C18_computed : (* 2*y + 3 <= x, y = 5: one posynomial 13/x *)
  let left : hmap Q := [({[1%nat := 1%Q]}, 2%Q); (∅, 3%Q)] in
  let right : hmap Q := [({[0%nat := 1%Q]}, 1%Q)] in
  let fixed : gmap nat Q := {[1%nat := 5%Q]} in
  rmap (fun us => rmap (fun r => map items (snd r)) (as_hmapslt1 0%Q (std_schedule fixed) fixed (CS None None) us))
    (posy_ineq false left OpLe right) = Ok (Ok [[([(0%nat, (-1)%Q)], 13%Q)]]).
Proof. vm_compute. reflexivity. Qed.

(** ** C19 *)

(** When every variable of a constraint's posynomial is substituted, it is
    dropped if its value is at most 1 plus the tolerance, and PrimalInfeasible
    is raised otherwise. *)
Theorem C19_constant_inequality_partial :
  forall (inf : R) (pick : hmap R -> schedule) (fixed : gmap nat R) (st : cstate R) (u : hmap R),
  subs_ok fixed pick -> canonical u -> u <> [] -> (forall k, in_vks u k = true -> fixed !! k <> None) ->
  let value := eval (override (fun _ => 1) fixed) u in
  (value <= 1 + tolerance <-> exists st', as_hmapslt1 inf pick fixed st [u] = Ok (st', [])) /\
  (1 + tolerance < value <-> as_hmapslt1 inf pick fixed st [u] = Err PrimalInfeasibleE).
Proof.
  intros inf pick fixed st u [Hf Hp] Hc Hne Hall value.
  destruct (as_hmapslt1_constant inf pick fixed Hf Hp st u Hc Hne Hall) as [H1 H2]. fold value in H1, H2.
  split; split; auto.
  - intros (st' & E). apply Rnot_lt_le. intros Hx. rewrite (H2 Hx) in E. discriminate.
  - intros E. apply Rnot_le_lt. intros Hx. destruct (H1 Hx) as (st' & E'). rewrite E' in E. discriminate.
Qed.
Print Assumptions C19_constant_inequality_partial.

(** With a variable left, a posynomial is never dropped, and any error means
    that no positive point satisfies it. *)
Theorem C19_constant_part_partial :
  forall (inf : R) (pick : hmap R -> schedule) (fixed : gmap nat R) (st : cstate R) (u : hmap R) (k : nat),
  subs_ok fixed pick -> is_posy u -> in_vks u k = true -> fixed !! k = None ->
  match as_hmapslt1 inf pick fixed st [u] with
  | Ok (_, out) => length out = 1%nat
  | Err _ => impossible (fun env => eval (override env fixed) u <= 1)
  end.
Proof.
  intros inf pick fixed st u k [Hf Hp] (Hc & Hpos & Hne) Hk Hfk.
  pose proof (as_hmapslt1_one inf pick fixed Hf Hp st u Hc Hpos Hne) as HO.
  destruct (as_hmapslt1 inf pick fixed st [u]) as [[st' [|v [|]]]|x]; auto.
  - destruct HO as [_ Hall]. exfalso. apply (Hall k Hk Hfk).
  - contradiction.
  - intros env He Hle. specialize (HO env He). lra.
Qed.
Print Assumptions C19_constant_part_partial.

(** Missing above: inequalities made in SignomialsEnabled. There a constant
    between 1 and 1 plus the tolerance, beside other terms, makes a
    "posynomial" with negative coefficients, and substituting drops the
    constraint: [1.0005 + x <= 1] with x = 3 is accepted, though 4.0005 > 1. *)
Theorem C19_false_constant_dropped_refuted :
  let left : hmap Q := [(∅, (20010 # 20000)%Q); ({[0%nat := 1%Q]}, 1%Q)] in
  let right : hmap Q := [(∅, 1%Q)] in
  let fixed : gmap nat Q := {[0%nat := 3%Q]} in
  rmap (fun us => rmap (fun r => map items (snd r)) (as_hmapslt1 0%Q (std_schedule fixed) fixed (CS None None) us))
    (posy_ineq true left OpLe right) = Ok (Ok []).
Proof. vm_compute. reflexivity. Qed.
Print Assumptions C19_false_constant_dropped_refuted.

Example C19_nonvacuous : (* 2*y <= 1 with y = 5 *)
  subs_ok ex_y5 (std_schedule ex_y5) /\ canonical [({[1%nat := 1]}, 2)] /\
  (forall k, in_vks (T := R) [({[1%nat := 1]}, 2)] k = true -> ex_y5 !! k <> None).
Proof.
  split; [apply ex_y5_pos|]. split.
  - split; [apply NoDup_singleton|]. intros e c [[= <- <-]|[]]. split; [apply exp_canon_singleton|lra].
  - intros k Hk. apply in_vks_true in Hk as (e & c & [[= <- <-]|[]] & Hk).
    destruct (decide (k = 1%nat)) as [->|Hne]; [discriminate|]. rewrite lookup_singleton_ne in Hk by lia. congruence.
Qed.

(** ** C20 *)

(** Both directions survive, or the equality is between constants equal within
    the tolerance and both are dropped. *)
Theorem C20_monomial_equality :
  forall (inf : R) (pick : hmap R -> schedule) (fixed : gmap nat R) (st : cstate R) (se : bool) (left right : hmap R),
  subs_ok fixed pick -> is_mono left -> is_mono right ->
  let original := fun env => eval (override env fixed) left = eval (override env fixed) right in
  match meq_unsubbed se left right with
  | Err _ => forall env, eval env left <> eval env right
  | Ok us =>
      match as_hmapslt1 inf pick fixed st us with
      | Err _ => impossible original
      | Ok (_, out) =>
          well_formed fixed out /\ implied_by out original /\
          ((length out = 2%nat /\ implies out original) \/
           (out = [] /\ exists c, c <= 1 + tolerance /\ / c <= 1 + tolerance /\ forall env, positive_point env ->
              eval (override env fixed) left = c * eval (override env fixed) right))
      end
  end.
Proof.
  exact (fun inf pick fixed st se left right '(conj Hf Hp) => meq_correct inf pick fixed Hf Hp st se left right).
Qed.
Print Assumptions C20_monomial_equality.

Example C20_nonvacuous : is_mono ex_right /\ is_mono [({[1%nat := 1]}, 2)].
Proof.
  split; [exists {[0%nat := 1]}, 1|exists {[1%nat := 1]}, 2];
    (split; [auto|split; [apply exp_canon_singleton|lra]]).
Qed.
Example C20_computed : (* x == 2*y with y = 5: 1/10*x <= 1 and 10/x <= 1 *)
  let left : hmap Q := [({[0%nat := 1%Q]}, 1%Q)] in
  let right : hmap Q := [({[1%nat := 1%Q]}, 2%Q)] in
  let fixed : gmap nat Q := {[1%nat := 5%Q]} in
  rmap (fun us => rmap (fun r => map items (snd r)) (as_hmapslt1 0%Q (std_schedule fixed) fixed (CS None None) us))
    (meq_unsubbed false left right) = Ok (Ok [[([(0%nat, 1%Q)], (1 # 10)%Q)]; [([(0%nat, (-1)%Q)], 10%Q)]]).
Proof. vm_compute. reflexivity. Qed.

(** ** C21 *)

(** [se1] and [se2] are the states of SignomialsEnabled when the constraint is
    made and when the problem is solved. An error other than "not GP
    compatible" means that nothing satisfies the constraint. *)
Theorem C21_signomial_inequality_partial :
  forall (inf : R) (pick : hmap R -> schedule) (fixed : gmap nat R) (se1 se2 : bool)
         (left right siglt0 : hmap R) (op : oper),
  subs_ok fixed pick -> canonical left -> canonical right ->
  sig_ineq se1 left op right = Ok siglt0 ->
  (forall st e c, nm_sub inf fixed siglt0 (pick siglt0) = Ok st ->
     snd (posy_negy (s_cp st)) = [(e, c)] -> no_clash (fst (posy_negy (s_cp st))) e) ->
  let original := fun env => holds (override env fixed) left op right in
  match sig_as_hmapslt1 inf pick se2 fixed siglt0 with
  | Err x => x = InvalidGPConstraintE \/ impossible original
  | Ok out =>
      well_formed fixed out /\ implied_by out original /\
      (implies out original \/
       (out = [] /\ exists (p m : hmap R) c, c <= 1 + tolerance /\ forall env, positive_point env ->
          eval (override env fixed) siglt0 = eval env p - eval env m /\ 0 < eval env m /\ eval env p = c * eval env m))
  end.
Proof.
  intros inf pick fixed se1 se2 left right siglt0 op [Hf Hp] Hl Hr Hs Hcl original.
  destruct (sig_ineq_correct se1 left right siglt0 op Hl Hr Hs) as [Hc Hv].
  assert (Ho : forall env, positive_point env -> positive_point (override env fixed))
    by (intros env He; apply override_positive; auto).
  pose proof (sig_correct inf pick fixed Hf Hp se2 siglt0 Hc Hcl) as HS.
  destruct (sig_as_hmapslt1 inf pick se2 fixed siglt0) as [out|x].
  - destruct HS as (H1 & H2 & H3). split; [exact H1|]. split.
    + intros env He Hx. apply H2; auto. apply Hv; auto.
    + destruct H3 as [H3|H3]; [left|right; exact H3]. intros env He Hx. apply (Hv _ (Ho env He)). auto.
  - destruct HS as [HS|HS]; [left; auto|right]. intros env He Hx. apply (Hv _ (Ho env He)) in Hx. specialize (HS env He). lra.
Qed.
Print Assumptions C21_signomial_inequality_partial.

(** Missing: terms that clash, as in C18. [y >= z + z/y + w - w]-like
    inequalities inherit the loss of terms; so does the approximation of C22. *)
Theorem C21_clash_drops_a_term_refuted : (* z + z/y <= y as a signomial inequality *)
  let siglt0 : hmap Q := [({[1%nat := 1%Q]}, 1%Q); (list_to_map [(0%nat, (-1)%Q); (1%nat, 1%Q)], 1%Q); ({[0%nat := 1%Q]}, (-1)%Q)] in
  rmap (map items) (sig_as_hmapslt1 0%Q (std_schedule ∅) true ∅ siglt0)
    = Ok [[([(0%nat, (-2)%Q); (1%nat, 1%Q)], 1%Q)]].
Proof. vm_compute. reflexivity. Qed.
Print Assumptions C21_clash_drops_a_term_refuted.

(** *** A case: [x*y <= z] written as a signomial inequality, with y = 5. *)
Example C21_nonvacuous :
  let left : hmap R := [(list_to_map [(0%nat, 1); (1%nat, 1)], 1)] in
  let right : hmap R := [({[2%nat := 1]}, 1)] in
  subs_ok ex_y5 (std_schedule ex_y5) /\ canonical left /\ canonical right /\
  exists siglt0, sig_ineq true left OpLe right = Ok siglt0 /\
  (forall st e c, nm_sub 0 ex_y5 siglt0 (std_schedule ex_y5 siglt0) = Ok st ->
     snd (posy_negy (s_cp st)) = [(e, c)] -> no_clash (fst (posy_negy (s_cp st))) e).
Proof.
  set (exy := list_to_map [(0%nat, 1); (1%nat, 1)] : expv R). set (ez := {[2%nat := 1]} : expv R). cbn zeta.
  assert (Hne : exy <> ez).
  { intros E. apply (f_equal (fun e : gmap nat R => e !! 2%nat)) in E. discriminate. }
  assert (Cxy : exp_canon exy).
  { intros k x Hx. unfold exy in Hx. apply elem_of_list_to_map_2, elem_of_list_In in Hx.
    destruct Hx as [[= <- <-]|[[= <- <-]|[]]]; lra. }
  assert (C1 : canonical [(exy, 1)]).
  { split; [apply NoDup_singleton|]. intros e c [[= <- <-]|[]]. split; [auto|lra]. }
  assert (C2 : canonical [(ez, 1)]).
  { split; [apply NoDup_singleton|]. intros e c [[= <- <-]|[]]. split; [apply exp_canon_singleton|lra]. }
  split; [apply ex_y5_pos|]. split; auto. split; auto.
  assert (Cs : canonical [(exy, 1); (ez, -1)]).
  { split.
    - apply NoDup_ListNoDup. cbn. repeat constructor; cbn; intuition.
    - intros e c [[= <- <-]|[[= <- <-]|[]]]; (split; [|lra]); [auto|apply exp_canon_singleton]. }
  exists [(exy, 1); (ez, -1)]. split.
  - unfold sig_ineq, py_sub, py_neg, py_mul. cbn [negb]. rewrite decide_False by (cbn; lra).
    cbn [hv_mul map signomial_init rmap rbind fst snd]. unfold signomial_init. rewrite !andb_false_r. cbn [rmap rbind py_add].
    unfold signomial_init. rewrite !andb_false_r. cbn [rmap]. unfold hv_add. cbn [fold_left]. unfold hv_add_item. cbn [dget fst snd].
    rewrite decide_False by auto. cbn [dset]. rewrite decide_False by auto. cbn [nmul nopp n1 R_num].
    replace (1 * - (1)) with (-1) by lra. reflexivity.
  - intros st e c Hs _. destruct ex_y5_pos as [Hf Hp].
    apply (single_no_clash _ (surviving ex_y5 exy)).
    + apply posy_negy_NoDup.
      destruct (sub_main 0 [(exy, 1); (ez, -1)] ex_y5 (proj1 Cs) (positive_defined _ _ Hf) _ (Hp _)) as (st' & E' & Hg & _).
      assert (st' = st) as -> by congruence. apply Hg.
    + intros e' c' Hin.
      destruct (positive_origin 0 (std_schedule ex_y5) ex_y5 _ st Hf Hp Cs Hs e' c' Hin) as (o & co & Ho & Hpos & <-).
      destruct Ho as [[= <- <-]|[[= <- <-]|[]]]; [auto|lra].
Qed.

(** ** C22 *)

(** [guess] is the point given (1 where it says nothing); [vks] the iteration
    order of the variables of the negative part. The approximation implies the
    signomial inequality everywhere (or is a comparison of constants dropped
    within tolerance), and at the guess it holds whenever the signomial
    inequality does; an error means that it does not hold there. *)
Theorem C22_approximation_partial :
  forall (inf : R) (pick : gmap nat R -> hmap R -> schedule) (se : bool) (guess : gmap nat R)
         (siglt0 P N : hmap R) (vks : list nat),
  canonical siglt0 -> posy_negy siglt0 = (P, N) -> P <> [] -> N <> [] ->
  (forall k v, guess !! k = Some v -> 0 < v) ->
  NoDup vks -> (forall k, In k vks <-> in_vks N k = true) ->
  (forall x0 h, valid_schedule x0 h (pick x0 h)) ->
  exists me mc, mono_approx inf (x0_of guess vks) (pick (x0_of guess vks)) se N vks = Ok [(me, mc)] /\
  (no_clash P me ->
   let x0 := override (fun _ => 1) guess in
   match as_gpconstr inf pick se guess siglt0 vks with
   | Err _ => forall env, positive_point env -> (forall k, In k vks -> env k = x0 k) -> 0 < eval env siglt0
   | Ok l =>
       (forall u, In u l -> all_positive u) ->
       (implies l (fun env => eval env siglt0 <= 0) \/
        (l = [] /\ exists c, c <= 1 + tolerance /\ forall env, eval env P = c * eval env [(me, mc)])) /\
       (forall env, positive_point env -> (forall k, In k vks -> env k = x0 k) ->
          eval env siglt0 <= 0 -> sat env l)
   end).
Proof. exact gpconstr_correct. Qed.
Print Assumptions C22_approximation_partial.

(** The two exceptions are real (computed over the rationals). Terms that clash are lost, as in C18 and C21: of [z + z/y - y <= 0] the approximation keeps
    [z/y**2 <= 1], which holds at y = z = 1. *)
Theorem C22_clash_drops_a_term_refuted :
  let siglt0 : hmap Q := [({[1%nat := 1%Q]}, 1%Q); (list_to_map [(0%nat, (-1)%Q); (1%nat, 1%Q)], 1%Q); ({[0%nat := 1%Q]}, (-1)%Q)] in
  rmap (map items) (as_gpconstr 0%Q std_schedule true ∅ siglt0 [0%nat]) = Ok [[([(0%nat, (-2)%Q); (1%nat, 1%Q)], 1%Q)]].
Proof. vm_compute. reflexivity. Qed.
Print Assumptions C22_clash_drops_a_term_refuted.
(** An approximation that compares constants is dropped within the tolerance: around y = z = 1, [2.001*y**0.5*z**0.5 - y - z <= 0] becomes no constraint
    at all, although it is false there. *)
Theorem C22_tolerance_refuted :
  let siglt0 : hmap Q := [(list_to_map [(0%nat, (1 # 2)%Q); (1%nat, (1 # 2)%Q)], (2001 # 1000)%Q); ({[0%nat := 1%Q]}, (-1)%Q); ({[1%nat := 1%Q]}, (-1)%Q)] in
  as_gpconstr 0%Q std_schedule true ∅ siglt0 [0%nat; 1%nat] = Ok [] /\
  Qlt 0 (2001 # 1000 - 1 - 1).   (* its value at y = z = 1 *)
Proof. split; [vm_compute; reflexivity|reflexivity]. Qed.
Print Assumptions C22_tolerance_refuted.

(** *** A case: [x - y - z <= 0] about y = 2. *)
Example C22_nonvacuous :
  let P : hmap R := [({[0%nat := 1]}, 1)] in
  let N : hmap R := [({[1%nat := 1]}, 1); ({[2%nat := 1]}, 1)] in
  let siglt0 : hmap R := [({[0%nat := 1]}, 1); ({[1%nat := 1]}, -1); ({[2%nat := 1]}, -1)] in
  canonical siglt0 /\ posy_negy siglt0 = (P, N) /\
  (forall k v, ({[1%nat := 2]} : gmap nat R) !! k = Some v -> 0 < v) /\
  NoDup [2%nat; 1%nat] /\ (forall k, In k [2%nat; 1%nat] <-> in_vks N k = true) /\
  (forall me, no_clash P me).
Proof.
  cbn zeta. set (e0 := {[0%nat := 1]} : expv R). set (e1 := {[1%nat := 1]} : expv R). set (e2 := {[2%nat := 1]} : expv R).
  assert (D : forall i j : nat, i <> j -> ({[i := 1]} : expv R) <> {[j := 1]}).
  { intros i j Hij E. apply (f_equal (fun e : gmap nat R => e !! i)) in E.
    rewrite lookup_singleton, lookup_singleton_ne in E by auto. discriminate. }
  assert (N1 : NoDup (dkeys [(e0, 1); (e1, -1); (e2, -1)])).
  { apply NoDup_ListNoDup. unfold e0, e1, e2. cbn. repeat constructor; cbn; intros Hx; repeat destruct Hx as [Hx|Hx]; auto;
      revert Hx; apply D; lia. }
  split; [split; auto; intros e c [[= <- <-]|[[= <- <-]|[[= <- <-]|[]]]]; (split; [apply exp_canon_singleton|lra])|].
  split.
  { rewrite posy_negy_spec by auto. cbn [List.filter fst snd map]. unfold Rltb.
    destruct (Rlt_dec 0 1); [|lra]. destruct (Rlt_dec 0 (-1)); [lra|]. destruct (Rlt_dec 1 0); [lra|].
    destruct (Rlt_dec (-1) 0); [|lra]. cbn [map fst snd]. replace (- -1) with 1 by lra. reflexivity. }
  split; [intros k v Hk; apply lookup_singleton_Some in Hk as [_ <-]; lra|].
  split; [apply NoDup_ListNoDup; repeat constructor; cbn; intuition lia|].
  split.
  { intros k. rewrite in_vks_true. unfold var_of. cbn [In]. split.
    - intros [<-|[<-|[]]]; [exists e2, 1|exists e1, 1]; (split; [auto|discriminate]).
    - intros (e & c & [[= <- <-]|[[= <- <-]|[]]] & Hk); unfold e1, e2 in Hk.
      + destruct (decide (1%nat = k)) as [<-|Hn]; auto. rewrite lookup_singleton_ne in Hk; congruence.
      + destruct (decide (2%nat = k)) as [<-|Hn]; auto. rewrite lookup_singleton_ne in Hk; congruence. }
  intros me. apply (single_no_clash _ e0); [apply NoDup_singleton|]. intros e c [[= <- <-]|[]]. auto.
Qed.

(** ** C23 *)
Theorem C23_relaxed_at_one :
  forall (env : point) (rv : nat) (left right : hmap R) (op : oper), env rv = 1 ->
  (holds_all env (relaxed rv left op right) <-> holds env left op right).
Proof. exact (fun env rv left right op => relaxed_one env rv left op right). Qed.
Print Assumptions C23_relaxed_at_one.

Theorem C23_relaxing_never_tightens_partial :
  forall (env : point) (rv : nat) (left right : hmap R) (op : oper) (r r' : R),
  positive_point env -> all_positive left -> all_positive right ->
  in_vks left rv = false -> in_vks right rv = false -> 0 < r <= r' ->
  holds_all (upd env rv r) (relaxed rv left op right) -> holds_all (upd env rv r') (relaxed rv left op right).
Proof. exact (fun env rv left right op r r' => relaxed_mono env rv left op right r r'). Qed.
Print Assumptions C23_relaxing_never_tightens_partial.

(** Missing: sides that may be negative. There relaxing can tighten:
    [x - 3*z <= x - 2*z] holds everywhere, but [x - 3*z <= 3*(x - 2*z)] fails
    at x = z = 1. *)
Theorem C23_relaxing_can_tighten_refuted :
  exists (env : point) (left right : hmap R) (rv : nat),
    positive_point env /\ in_vks left rv = false /\ in_vks right rv = false /\
    holds_all (upd env rv 1) (relaxed rv left OpLe right) /\
    ~ holds_all (upd env rv 3) (relaxed rv left OpLe right).
Proof.
  exists (fun _ => 1), [({[0%nat := 1]}, 1); ({[1%nat := 1]}, -3)], [({[0%nat := 1]}, 1); ({[1%nat := 1]}, -2)], 2%nat.
  split; [intros ?; lra|]. split; [reflexivity|]. split; [reflexivity|].
  rewrite !relaxed_at by (unfold upd; rewrite decide_True by auto; lra).
  rewrite !eval_upd_absent by reflexivity. cbn [eval]. rewrite !mono_val_ones.
  unfold upd. rewrite !decide_True by auto. lra.
Qed.
Print Assumptions C23_relaxing_can_tighten_refuted.

Example C23_nonvacuous : all_positive ex_left /\ all_positive ex_right /\
  in_vks ex_left 7 = false /\ in_vks ex_right 7 = false.
Proof.
  split; [|split; [|split; reflexivity]]; intros e c Hin.
  - destruct Hin as [[= <- <-]|[[= <- <-]|[]]]; lra.
  - destruct Hin as [[= <- <-]|[]]; lra.
Qed.
