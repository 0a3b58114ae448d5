(** C70: a docstring about bounds is accepted just if it is right. *)
From Verif Require Import Base Bounds BoundsSem BoundsProofs Verify.
Open Scope nat_scope.

(** The bounds that the constraints of a model have conditions for *)
Fixpoint tree_conditional (t : ctree) (b : bound) : Prop :=
  match t with
  | CLeaf _ q => In b (dkeys q)
  | CNode ts _ => (fix any (ts : list ctree) : Prop := match ts with [] => False | t :: ts' => tree_conditional t b \/ any ts' end) ts
  end.
Definition has (t : ctree) : bound -> Prop := closure (tree_base t) (tree_rule t).
(** The bounds a model has if others are given *)
Definition has_given (t : ctree) (given : list bound) : bound -> Prop := closure (fun b => tree_base t b \/ In b given) (tree_rule t).

Lemma dkeys_ddel {V} (q : list (bound * V)) b x : In x (dkeys (ddel q b)) -> In x (dkeys q).
Proof. induction q as [|[a v] q IH]; simpl; auto. destruct (decide (b = a)); simpl; tauto. Qed.
Lemma dkeys_ddel_eq {V} (q : list (bound * V)) b : NoDup (dkeys q) -> ~ In b (dkeys (ddel q b)).
Proof.
  induction q as [|[a v] q IH]; simpl; auto. intros Hn. apply NoDup_cons in Hn as [Ha Hn]. destruct (decide (b = a)) as [->|Hne]; simpl.
  - intros Hx. apply Ha, elem_of_list_In. auto.
  - intros [Hx|Hx]; [congruence|]. apply IH; auto.
Qed.
Lemma dkeys_dset {V} (q : list (bound * V)) b v x : In x (dkeys (dset q b v)) -> x = b \/ In x (dkeys q).
Proof.
  induction q as [|[a w] q IH]; simpl; [intros [<-|[]]; auto|]. destruct (decide (b = a)) as [->|]; simpl; [tauto|]. intros [Hx|Hx]; [tauto|]. destruct (IH Hx); tauto.
Qed.
Lemma pass_keys ks : forall s (q : conds) alive, NoDup (dkeys q) -> let '(s', q', alive') := fold_left add_step ks (s, q, alive) in
  (forall b, In b (dkeys q') -> In b (dkeys q)) /\ (alive = true -> alive' = true) /\ (alive' = false -> forall b, In b ks -> In b s -> ~ In b (dkeys q')).
Proof.
  induction ks as [|b ks IH]; intros s q alive Hn; cbn [fold_left]; [split; [auto|split; [auto|intros _ b []]]|].
  pose proof (add_step_ok s q alive b Hn) as H1. cbn [add_step] in *. destruct (bmem b s) eqn:Eb; [|destruct (existsb _ _)].
  - destruct H1 as (N1 & _). specialize (IH s (ddel q b) alive N1). destruct (fold_left add_step ks _) as [[s' q'] alive']. destruct IH as (I1 & I2 & I3).
    split; [intros x Hx; eapply dkeys_ddel; eauto|]. split; auto. intros Ha x [<-|Hx] Hs; auto. intros Hq. apply I1 in Hq. revert Hq. apply dkeys_ddel_eq. auto.
  - destruct H1 as (N1 & _). specialize (IH (s ++ [b]) (ddel q b) true N1). destruct (fold_left add_step ks _) as [[s' q'] alive']. destruct IH as (I1 & I2 & I3).
    split; [intros x Hx; eapply dkeys_ddel; eauto|]. split; auto. intros Ha. specialize (I2 eq_refl). congruence.
  - specialize (IH s q alive Hn). destruct (fold_left add_step ks _) as [[s' q'] alive']. destruct IH as (I1 & I2 & I3). split; auto. split; auto.
    intros Ha x [<-|Hx] Hs; auto. apply bmem_false in Eb. contradiction.
Qed.
Lemma loop_keys : forall fuel s (q : conds) s' (q' : conds), NoDup (dkeys q) -> add_meq_bounds fuel s q = Some (s', q') ->
  (forall b, In b (dkeys q') -> In b (dkeys q)) /\ (forall b, In b s' -> ~ In b (dkeys q')).
Proof.
  induction fuel as [|fuel IH]; intros s q s' q' Hn E; [discriminate|]. cbn [add_meq_bounds] in E.
  assert (Hk : List.NoDup (dkeys q)) by (apply NoDup_ListNoDup; auto). pose proof (add_pass_ok (dkeys q) s q false Hn Hk) as H1. pose proof (pass_keys (dkeys q) s q false Hn) as H2.
  destruct (fold_left add_step (dkeys q) (s, q, false)) as [[s1 q1] a1]. destruct H1 as (N1 & _ & _ & _ & _ & F1 & _). destruct H2 as (K1 & _ & K2). destruct a1.
  - apply IH in E as [E1 E2]; auto.
  - injection E as <- <-. split; auto. destruct (F1 eq_refl) as [-> _]. intros b Hb Hq. apply (K2 eq_refl b); auto.
Qed.
Lemma update_keys (q' : conds) : forall (q : conds) b, In b (dkeys (conds_update q q')) -> In b (dkeys q) \/ In b (dkeys q').
Proof.
  unfold conds_update. induction q' as [|[b' cs] q' IH]; intros q b Hb; cbn [fold_left] in Hb; auto. apply IH in Hb as [Hb|Hb]; [|simpl; auto].
  apply dkeys_dset in Hb as [->|Hb]; simpl; auto.
Qed.
Lemma tree_keys t : forall fuel s q, cset_bounds fuel t = Some (s, q) -> forall b, In b (dkeys q) -> tree_conditional t b.
Proof.
  induction t as [b0 q0|ts subs IH] using ctree_rect'; intros fuel s q E b Hb.
  - injection E as <- <-. auto.
  - rewrite cset_bounds_node in E. destruct (all_sets fuel ts [] []) as [[s1 q1]|] eqn:Ea; [|discriminate].
    assert (G : NoDup (dkeys q1) /\ forall b, In b (dkeys q1) -> tree_conditional (CNode ts subs) b).
    { clear E Hb. assert (G : forall ts, Forall (fun t => forall fuel s q, cset_bounds fuel t = Some (s, q) -> forall b, In b (dkeys q) -> tree_conditional t b) ts ->
        forall s0 q0 s1 q1, all_sets fuel ts s0 q0 = Some (s1, q1) -> NoDup (dkeys q0) -> NoDup (dkeys q1) /\ forall b, In b (dkeys q1) -> In b (dkeys q0) \/ tree_conditional (CNode ts subs) b).
      { clear. induction 1 as [|t ts Ht Hts IH]; intros s0 q0 s1 q1 Ea Hn; cbn [all_sets] in Ea; [injection Ea as <- <-; auto|].
        destruct (cset_bounds fuel t) as [[b' q']|] eqn:Et; [|discriminate]. apply IH in Ea as [N1 K1]; [|apply nodup_update; auto]. split; auto.
        intros b Hb. cbn [tree_conditional] in *. apply K1 in Hb as [Hb|Hb]; [|auto]. apply update_keys in Hb as [Hb|Hb]; [auto|]. right. left. eapply Ht; eauto. }
      destruct (G ts IH [] [] s1 q1 Ea) as [N K]; [constructor|]. split; auto. intros b' Hb'. destruct (K b' Hb') as [[]|]; auto. }
    destruct G as [N K]. apply K. apply (loop_keys _ _ _ _ _ N E). auto.
Qed.

Lemma rule_conditional t : forall b c, tree_rule t b c -> tree_conditional t b.
Proof.
  induction t as [b0 q0|ts subs IH] using ctree_rect'; intros b c Hr.
  - destruct Hr as (cs & Hi & _). simpl. apply in_map_iff. exists (b, cs). auto.
  - apply tree_rule_node in Hr as (t & Hi & Hr). rewrite Forall_forall in IH. assert (Ht : tree_conditional t b) by (eapply IH; [apply elem_of_list_In|]; eauto).
    clear -Hi Ht. cbn [tree_conditional]. induction ts as [|t' ts IH]; [destruct Hi|]. destruct Hi as [->|Hi]; [left; exact Ht|right; apply IH; auto].
Qed.

(** If the docstring and the constraints are about the model's own variables, the check ends and finds just the bounds that the docstring says are not there,
    or else just the bounds that the model would not have even if those in the docstring were given. *)
Theorem C70_exact_partial : forall ts subs fuel varkeys expected, let t := CNode ts subs in
  NoDup varkeys -> (forall b, tree_base t b -> In (fst b) varkeys) -> (forall b, tree_conditional t b -> In (fst b) varkeys) -> (forall b, In b expected -> In (fst b) varkeys) ->
  count_conditional t < fuel ->
  exists v, verify_docstring fuel varkeys expected t = Some v /\
  match v with
  | Excess bs => bs <> [] /\ forall b, In b bs <-> In b expected /\ has t b
  | Missing bs => (forall b, In b expected -> ~ has t b) /\ bs <> [] /\ forall b, In b bs <-> In (fst b) varkeys /\ ~ has_given t expected b
  | Fine => (forall b, In b expected -> ~ has t b) /\ forall b, In (fst b) varkeys -> has_given t expected b
  end.
Proof.
  intros ts subs fuel varkeys expected t Hn Hbase Hcond Hexp Hf. destruct (tree_ok t fuel Hf) as (s & q & E & S & L & N & F).
  assert (Hin : forall b, In b s <-> has t b).
  { intros b. rewrite <- (closed_closure s q F b). specialize (S (fun _ => False) (fun _ _ => False) b).
    rewrite (closure_ext _ (fun b => In b s \/ False) _ (fun b c => rules_of q b c \/ False)).
    - rewrite S. apply closure_ext; intros; tauto.
    - intros; tauto.
    - intros x c. rewrite (rule_of_nodup q x c N). unfold rules_of. tauto. }
  unfold verify_docstring. rewrite E. unfold verify. destruct (List.filter (fun b => bmem b expected) s) as [|b0 bs] eqn:Ef.
  2:{ exists (Excess (b0 :: bs)). split; auto. split; [discriminate|]. intros b. rewrite <- Ef, filter_In, bmem_In, Hin. tauto. }
  assert (Hno : forall b, In b expected -> ~ has t b).
  { intros b Hb Hh. apply Hin in Hh. assert (Hx : In b (List.filter (fun b => bmem b expected) s)) by (apply filter_In; rewrite bmem_In; auto). rewrite Ef in Hx. destruct Hx. }
  destruct (add_loop_ok (Datatypes.S (length q)) (s ++ expected) q fuel N) as (s' & q' & E' & N' & C' & F'); [lia|lia|]. rewrite E'.
  destruct (loop_keys _ _ _ _ _ N E') as [K1 K2]. pose proof (tree_keys t fuel s q E) as K0.
  assert (Hin' : forall b, In b s' <-> has_given t expected b).
  { intros b. rewrite <- (closed_closure s' q' F' b). specialize (C' (fun _ => False) (fun _ _ => False) b).
    rewrite (closure_ext _ (fun b => In b s' \/ False) _ (fun b c => rule_of q' b c \/ False)) by (intros; tauto).
    rewrite <- C'. specialize (S (fun b => In b expected) (fun _ _ => False) b).
    rewrite (closure_ext _ (fun b => In b s \/ In b expected) _ (fun b c => rules_of q b c \/ False)).
    - rewrite S. apply closure_ext; intros; tauto.
    - intros x. rewrite in_app_iff. tauto.
    - intros x c. rewrite (rule_of_nodup q x c N). unfold rules_of. tauto. }
  assert (Hvk : forall b, has_given t expected b -> In (fst b) varkeys).
  { intros b Hb. unfold has_given in Hb. destruct Hb as [b [Hb|Hb]|b c Hr _]; auto. apply Hcond.
    eapply rule_conditional; eauto. }
  assert (Hall : forall b, In b (flat_map (fun k => [(k, true); (k, false)]) varkeys) <-> In (fst b) varkeys).
  { intros [k up]. rewrite in_flat_map. simpl. split; [intros (k' & Hk & [[= <- <-]|[[= <- <-]|[]]]); auto|]. intros Hk. exists k. split; auto. destruct up; auto. }
  assert (Hm : forall b, In b (dkeys q') -> In (fst b) varkeys /\ ~ has_given t expected b).
  { intros b Hb. split; [apply Hcond, K0, K1; auto|]. rewrite <- Hin'. intros Hs. apply (K2 b Hs Hb). }
  set (missing := if _ =? _ then _ else _).
  assert (Hmiss : forall b, In b missing <-> In (fst b) varkeys /\ ~ has_given t expected b).
  { unfold missing. destruct (length (remove_dups s') + length (dkeys q') =? 2 * length varkeys) eqn:El.
    - apply Nat.eqb_eq in El. intros b. split; auto. intros [Hk Hh].
      (* the bounds found and those left over are all there are *)
      set (A := remove_dups s' ++ dkeys q'). set (B := flat_map (fun k => [(k, true); (k, false)]) varkeys).
      assert (HA : List.NoDup A).
      { apply NoDup_ListNoDup. apply NoDup_app. split; [apply NoDup_remove_dups|]. split; auto. intros x Hx Hy. rewrite elem_of_remove_dups, elem_of_list_In in Hx. apply elem_of_list_In in Hy.
        apply (K2 x Hx Hy). }
      assert (HB : length B = 2 * length varkeys) by (unfold B; clear; induction varkeys; simpl; lia).
      assert (Hincl : incl A B).
      { intros x Hx. apply Hall. apply in_app_or in Hx as [Hx|Hx]; [|apply Hm; auto]. rewrite <- elem_of_list_In, elem_of_remove_dups, elem_of_list_In in Hx. apply Hvk, Hin'. auto. }
      assert (Hb : In b A).
      { apply (NoDup_length_incl (l' := B) HA); [unfold A; rewrite app_length, HB; lia|exact Hincl|apply Hall; auto]. }
      apply in_app_or in Hb as [Hb|Hb]; auto. rewrite <- elem_of_list_In, elem_of_remove_dups, elem_of_list_In, Hin' in Hb. contradiction.
    - intros b. rewrite in_app_iff, filter_In, Hall, andb_true_iff, !negb_true_iff, !bmem_false, Hin'. split.
      + intros [Hb|[Hb [Hc _]]]; auto.
      + intros [Hk Hh]. destruct (bmem b (dkeys q')) eqn:Eb; [left; apply bmem_In; auto|right; split; auto; split; auto; apply bmem_false; auto]. }
  destruct missing as [|b0 bs].
  - exists Fine. split; auto. split; auto. intros b Hb. destruct (bmem b s') eqn:Eb; [apply Hin', bmem_In; auto|]. apply bmem_false in Eb. rewrite Hin' in Eb.
    destruct (proj2 (Hmiss b) (conj Hb Eb)).
  - exists (Missing (b0 :: bs)). split; auto.
Qed.
Print Assumptions C70_exact_partial.

(** So a docstring is accepted just if none of the bounds it says are not there are, and with those all others are. *)
Corollary C70_accepted_partial : forall ts subs fuel varkeys expected, let t := CNode ts subs in
  NoDup varkeys -> (forall b, tree_base t b -> In (fst b) varkeys) -> (forall b, tree_conditional t b -> In (fst b) varkeys) -> (forall b, In b expected -> In (fst b) varkeys) ->
  count_conditional t < fuel ->
  verify_docstring fuel varkeys expected t = Some Fine <->
  (forall b, In b expected -> ~ has t b) /\ (forall k up, In k varkeys -> has_given t expected (k, up)).
Proof.
  intros ts subs fuel varkeys expected t Hn Hb Hc He Hf. destruct (C70_exact_partial ts subs fuel varkeys expected Hn Hb Hc He Hf) as (v & E & Hv). fold t in E, Hv. rewrite E. split.
  - intros [= ->]. destruct Hv as [H1 H2]. split; auto.
  - intros [H1 H2]. destruct v as [bs|bs|]; auto; exfalso.
    + destruct Hv as [Hne Hv]. destruct bs as [|b bs]; [contradiction|]. destruct (proj1 (Hv b) (or_introl eq_refl)) as [Hx Hy]. apply (H1 b); auto.
    + destruct Hv as (_ & Hne & Hv). destruct bs as [|[k up] bs]; [contradiction|]. destruct (proj1 (Hv (k, up)) (or_introl eq_refl)) as [Hx Hy]. apply Hy, H2. auto.
Qed.
Print Assumptions C70_accepted_partial.

(** x*y == z with z <= 1: with x's and y's lower bounds and z's in the docstring, everything is bounded. *)
Definition sample : list ctree :=
  [CLeaf [] [((0, true), [[(1, false); (2, true)]]); ((0, false), [[(1, true); (2, false)]]); ((1, true), [[(0, false); (2, true)]]); ((1, false), [[(0, true); (2, false)]]);
             ((2, true), [[(0, true); (1, true)]]); ((2, false), [[(0, false); (1, false)]])];
   CLeaf [(2, true)] []].
Example C70_nonvacuous :
  (forall b, tree_base (CNode sample []) b -> In (fst b) [0; 1; 2]) /\ (forall b, tree_conditional (CNode sample []) b -> In (fst b) [0; 1; 2]) /\
  count_conditional (CNode sample []) < 9 /\
  verify_docstring 9 [0; 1; 2] [(0, false); (1, false)] (CNode sample []) = Some Fine /\
  verify_docstring 9 [0; 1; 2] [(0, false)] (CNode sample []) = Some (Missing [(0, true); (1, false); (2, false)]) /\
  verify_docstring 9 [0; 1; 2] [(0, false); (1, false); (2, true)] (CNode sample []) = Some (Excess [(2, true)]).
Proof.
  split; [|split; [|split; [simpl; lia|vm_compute; auto]]].
  - intros b. simpl. intros [[[]|[[<-|[]]|[]]]|[]]. simpl. auto.
  - intros b. simpl. intros [H|[[]|[]]]. repeat (destruct H as [<-|H]; [simpl; auto|]). destruct H.
Qed.

(** The bounds that are found are only counted at first. Where the docstring names a variable that is not the model's (that of a model that is not part of it, say),
    a missing bound goes unnoticed: x, with x <= 1 only, has no lower bound. *)
Theorem C70_foreign_variables_refuted : exists ts varkeys expected, let t := CNode ts [] in
  NoDup varkeys /\ (forall b, tree_base t b -> In (fst b) varkeys) /\ (forall b, tree_conditional t b -> In (fst b) varkeys) /\
  verify_docstring 9 varkeys expected t = Some Fine /\ ~ has_given t expected (0, false) /\ In 0 varkeys.
Proof.
  exists [CLeaf [(0, true)] []], [0], [(1, true)]. split; [apply (bool_decide_unpack _); vm_compute; exact I|]. split; [|split; [|split; [reflexivity|split; [|simpl; auto]]]].
  - intros b [[[<-|[]]|[]]|[]]. simpl. auto.
  - intros b [[]|[]].
  - intros H. inversion H as [? [[[[E|[]]|[]]|[]]|[E|[]]]|? ? [(cs & [] & _)|[]]]; discriminate E.
Qed.
Print Assumptions C70_foreign_variables_refuted.
