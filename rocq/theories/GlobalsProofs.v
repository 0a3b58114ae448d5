(** Proofs about the session's global state (Globals.v). *)
From Verif Require Import Base Globals.
Open Scope nat_scope.

(** ** What every program leaves alone *)

Lemma dmem_Some {K V} `{EqDecision K} (d : list (K * V)) k : dmem d k = true <-> exists v, dget d k = Some v.
Proof.
  unfold dmem. destruct (dget d k); split; eauto; try discriminate. intros (v & [=]).
Qed.

Definition has (s : state) (L : lineage) : Prop := exists vs, dget (namedvars s) L = Some vs.

Lemma enter_has name s : has (enter_named name s) (current (enter_named name s)).
Proof.
  unfold has, enter_named. simpl. destruct (dmem (namedvars s) _) eqn:E.
  - apply dmem_Some in E. exact E.
  - eexists. apply dget_dset_eq.
Qed.
Lemma enter_keeps name s L : has s L -> has (enter_named name s) L.
Proof.
  unfold has, enter_named. simpl. destruct (dmem (namedvars s) _) eqn:E; auto. intros (vs & Hv).
  destruct (decide (L = (current s ++ [(name, default 0 (dget (modelnums s) (current s, name)))])%list)) as [->|].
  - eexists. apply dget_dset_eq.
  - exists vs. rewrite dget_dset_ne; auto.
Qed.

Lemma run_shape p : forall s s' r, run p s = (s', r) ->
  current s' = current s /\ vectorization s' = vectorization s /\ (signomials s = false -> signomials s' = false) /\
  (forall L, length L <= length (current s) -> has s L -> has s' L).
Proof.
  induction p as [| e|p IHp q IHq|p IHp q IHq|p IHp|n p IHp|name p IHp|name idx units|]; intros s s' r E; simpl in E.
  - injection E as <- <-. auto.
  - injection E as <- <-. auto.
  - destruct (run p s) as [s1 [e|]] eqn:E1; [injection E as <- <-; eapply IHp; eauto|].
    destruct (IHp _ _ _ E1) as (C1 & V1 & S1 & N1). destruct (IHq _ _ _ E) as (C2 & V2 & S2 & N2).
    split; [congruence|]. split; [congruence|]. split; [auto|]. intros L HL HN. apply N2; [rewrite C1; auto|auto].
  - destruct (run p s) as [s1 [e|]] eqn:E1; [|injection E as <- <-; eapply IHp; eauto].
    destruct (IHp _ _ _ E1) as (C1 & V1 & S1 & N1). destruct (IHq _ _ _ E) as (C2 & V2 & S2 & N2).
    split; [congruence|]. split; [congruence|]. split; [auto|]. intros L HL HN. apply N2; [rewrite C1; auto|auto].
  - destruct (run p (set_signomials true s)) as [s1 r1] eqn:E1. injection E as <- <-.
    destruct (IHp _ _ _ E1) as (C1 & V1 & S1 & N1). simpl in *. auto.
  - destruct (run p (set_vectorization (n :: vectorization s) s)) as [s1 r1] eqn:E1. injection E as <- <-.
    destruct (IHp _ _ _ E1) as (C1 & V1 & S1 & N1). simpl in *. rewrite V1. auto.
  - destruct (run p (enter_named name s)) as [s1 r1] eqn:E1.
    destruct (IHp _ _ _ E1) as (C1 & V1 & S1 & N1). destruct (N1 _ (le_n _) (enter_has name s)) as (vs & Hv).
    unfold exit_named in E. rewrite <- C1 in Hv. rewrite Hv in E. injection E as <- <-. simpl in *. rewrite C1 in *.
    split; [apply removelast_last|]. split; [auto|]. split; [auto|]. intros L HL HN.
    destruct (N1 L) as (ws & Hw); [rewrite app_length; simpl; lia|apply enter_keeps; auto|].
    exists ws. simpl. rewrite Base.dget_ddel_ne; auto. intros ->. rewrite app_length in HL. simpl in HL. lia.
  - injection E as <- <-. unfold make_var. destruct (current s) as [|x l] eqn:Ec; simpl; rewrite ?Ec; split_and!; auto.
    intros L HL (ws & Hw). unfold has. simpl. destruct (decide (L = x :: l)) as [->|]; [eexists; apply dget_dset_eq|].
    exists ws. rewrite dget_dset_ne; auto.
  - injection E as <- <-. simpl. auto.
Qed.

(** ** Numbering *)

Definition numbered_below (s : state) (l : lineage) : Prop :=
  exists L name num, l = (L ++ [(name, num)])%list /\ num < default 0 (dget (modelnums s) (L, name)).

Lemma enter_new name s : (forall l, In l (entered s) -> numbered_below s l) ->
  ~ In (current (enter_named name s)) (entered s).
Proof.
  intros H Hin. destruct (H _ Hin) as (L & name' & num & E & Hlt). simpl in E.
  apply app_inj_tail in E as [E1 E2]. injection E2 as E3 E4. subst L name' num. exact (Nat.lt_irrefl _ Hlt).
Qed.
Lemma enter_numbered name s : (forall l, In l (entered s) -> numbered_below s l) ->
  forall l, In l (entered (enter_named name s)) -> numbered_below (enter_named name s) l.
Proof.
  intros H l [<-|Hin]; simpl.
  - exists (current s), name, (default 0 (dget (modelnums s) (current s, name))). split; auto. simpl. rewrite dget_dset_eq. simpl. apply Nat.lt_succ_diag_r.
  - destruct (H _ Hin) as (L & name' & num & E & Hlt). exists L, name', num. split; auto. simpl.
    destruct (decide ((L, name') = (current s, name))) as [E'|].
    + rewrite E' in *. rewrite dget_dset_eq. simpl. apply Nat.lt_lt_succ_r. exact Hlt.
    + rewrite dget_dset_ne; auto.
Qed.

(** ** Own variables *)

Definition own (s : state) (L : lineage) : list vkey := List.filter (fun v => bool_decide (vk_lineage v = Some L)) (rev (made s)).

Record inv (s : state) : Prop := Inv {
  inv_nodup : NoDup (entered s);
  inv_num : forall l, In l (entered s) -> numbered_below s l;
  inv_cur : forall L, L `prefix_of` current s -> L <> [] -> In L (entered s) /\ dget (namedvars s) L = Some (own s L);
  inv_keys : forall L, has s L -> L `prefix_of` current s;
  inv_left : forall L vs, In (L, vs) (left_ s) -> vs = own s L /\ In L (entered s) /\ ~ L `prefix_of` current s;
  inv_made : forall v L, In v (made s) -> vk_lineage v = Some L -> In L (entered s);
  inv_keyset : NoDup (dkeys (namedvars s));
  inv_entered_left : forall L, In L (entered s) -> L `prefix_of` current s \/ exists vs, In (L, vs) (left_ s)
}.

Lemma inv_fresh : inv fresh.
Proof.
  constructor; simpl; try tauto.
  - constructor.
  - intros L HL. apply prefix_nil_inv in HL. contradiction.
  - intros L (vs & [=]).
  - constructor.
Qed.

Lemma prefix_snoc {A} (L c : list A) x : L `prefix_of` (c ++ [x])%list -> L = (c ++ [x])%list \/ L `prefix_of` c.
Proof.
  intros (k & E). destruct k as [|y k _] using rev_ind.
  - rewrite app_nil_r in E. auto.
  - rewrite app_assoc in E. apply app_inj_tail in E as [-> _]. right. exists k. auto.
Qed.
Lemma snoc_not_prefix {A} (c : list A) x : ~ (c ++ [x])%list `prefix_of` c.
Proof. intros HL. apply prefix_length in HL. rewrite app_length in HL. simpl in HL. lia. Qed.

Lemma own_none s L : inv s -> ~ In L (entered s) -> own s L = [].
Proof.
  intros Hi Hn. unfold own. destruct (List.filter _ _) as [|v l] eqn:E; auto. exfalso. apply Hn.
  assert (Hv : In v (v :: l)) by (left; auto). rewrite <- E in Hv. apply filter_In in Hv as [Hv Hb].
  apply bool_decide_eq_true in Hb. apply (inv_made s Hi v); auto. apply in_rev. auto.
Qed.

Lemma inv_enter name s : inv s -> inv (enter_named name s).
Proof.
  intros Hi. set (l := current (enter_named name s)).
  assert (Hnew : ~ In l (entered s)) by (apply enter_new, (inv_num s Hi)).
  assert (Hl : l = (current s ++ [(name, default 0 (dget (modelnums s) (current s, name)))])%list) by reflexivity.
  assert (Hno : ~ has s l).
  { intros Hh. apply (inv_keys s Hi) in Hh. rewrite Hl in Hh. revert Hh. apply snoc_not_prefix. }
  assert (Hd : dmem (namedvars s) l = false).
  { destruct (dmem _ _) eqn:E; auto. exfalso. apply Hno, dmem_Some. auto. }
  assert (Hnv : namedvars (enter_named name s) = dset (namedvars s) l []).
  { simpl. rewrite <- Hl, Hd. auto. }
  constructor.
  - simpl. rewrite <- Hl. constructor; [|apply Hi]. intros Hin. apply Hnew, elem_of_list_In. auto.
  - apply enter_numbered, Hi.
  - intros L HL Hne. rewrite Hnv. change (own (enter_named name s) L) with (own s L). change (current _) with l in HL. rewrite Hl in HL.
    apply prefix_snoc in HL as [->|HL].
    + rewrite <- Hl. split; [left; auto|]. rewrite dget_dset_eq, own_none; auto.
    + destruct (inv_cur s Hi L HL Hne) as [H1 H2]. split; [right; auto|]. rewrite dget_dset_ne; auto. intros ->. auto.
  - intros L. unfold has. rewrite Hnv. change (current (enter_named name s)) with l.
    destruct (decide (L = l)) as [->|]; [intros _; reflexivity|]. rewrite dget_dset_ne by auto. intros Hh.
    apply (inv_keys s Hi) in Hh. rewrite Hl. apply prefix_app_r. auto.
  - intros L vs Hin. destruct (inv_left s Hi L vs Hin) as (H1 & H2 & H3). split; [exact H1|]. split; [right; auto|].
    change (current _) with l. rewrite Hl. intros HL. apply prefix_snoc in HL as [->|HL]; [|auto]. rewrite <- Hl in H2. auto.
  - intros v L Hv E. right. eapply inv_made; eauto.
  - rewrite Hnv. apply NoDup_dset, Hi.
  - intros L [<-|Hin]; [left; reflexivity|]. destruct (inv_entered_left s Hi L Hin) as [HL|HL]; [left|right; exact HL].
    change (current _) with l. rewrite Hl. apply prefix_app_r. auto.
Qed.

Lemma inv_exit s s' x : inv s -> (exists c, current s = (c ++ [x])%list) -> exit_named s = Ok s' -> inv s'.
Proof.
  intros Hi (c & Hc) E. unfold exit_named in E. destruct (dget (namedvars s) (current s)) as [vs|] eqn:Hv; [|discriminate].
  injection E as <-. assert (Hr : removelast (current s) = c) by (rewrite Hc; apply removelast_last).
  assert (Hpre : forall L, L `prefix_of` c -> L `prefix_of` current s) by (intros L HL; rewrite Hc; apply prefix_app_r; auto).
  assert (Hne : forall L, L `prefix_of` c -> L <> current s).
  { intros L HL ->. rewrite Hc in HL. revert HL. apply snoc_not_prefix. }
  assert (Hcur := inv_cur s Hi (current s) (reflexivity _)). destruct Hcur as [He Ho]; [rewrite Hc; destruct c; discriminate|].
  constructor; simpl; rewrite ?Hr.
  - apply Hi.
  - apply Hi.
  - intros L HL Hn. rewrite Base.dget_ddel_ne by auto. apply (inv_cur s Hi); auto.
  - intros L (ws & Hw). simpl in Hw. destruct (decide (L = current s)) as [->|Hn].
    + rewrite Base.dget_ddel_eq in Hw; [discriminate|apply Hi].
    + rewrite Base.dget_ddel_ne in Hw by auto. assert (HL : L `prefix_of` current s) by (apply (inv_keys s Hi); exists ws; auto).
      rewrite Hc in HL. apply prefix_snoc in HL as [->|HL]; [congruence|auto].
  - intros L ws [[= <- <-]|Hin].
    + split; [rewrite Hv in Ho; injection Ho; auto|]. split; [auto|]. rewrite Hc. apply snoc_not_prefix.
    + destruct (inv_left s Hi L ws Hin) as (H1 & H2 & H3). split; [auto|]. split; [auto|]. auto.
  - apply Hi.
  - apply NoDup_ddel, Hi.
  - intros L Hin. destruct (inv_entered_left s Hi L Hin) as [HL|(ws & HL)].
    + rewrite Hc in HL. apply prefix_snoc in HL as [->|HL]; [right; exists vs; left; rewrite Hc; auto|left; auto].
    + right. exists ws. auto.
Qed.

Lemma inv_make name idx units s : inv s -> inv (make_var name idx units s).
Proof.
  intros Hi. unfold make_var. destruct (current s) as [|x l] eqn:Ec.
  - assert (Hown : forall L, own (State (signomials s) (vectorization s) [] (modelnums s) (namedvars s)
                (VKey name None idx units :: made s) (entered s) (left_ s)) L = own s L).
    { intros L. unfold own. simpl. rewrite List.filter_app. simpl. apply app_nil_r. }
    constructor; simpl; try (apply Hi).
    + intros L HL Hn. apply prefix_nil_inv in HL. contradiction.
    + intros L Hh. rewrite <- Ec. apply (inv_keys s Hi). exact Hh.
    + intros L vs Hin. rewrite Hown. rewrite <- Ec. apply (inv_left s Hi). auto.
    + intros v L [<-|Hv]; [discriminate|]. apply (inv_made s Hi); auto.
    + intros L Hin. rewrite <- Ec. apply (inv_entered_left s Hi L Hin).
  - set (v := VKey name (Some (x :: l)) idx units).
    set (s' := State _ _ _ _ _ _ _ _).
    assert (Hown : forall L, L <> x :: l -> own s' L = own s L).
    { intros L HL. unfold own. simpl. rewrite List.filter_app. simpl. rewrite bool_decide_eq_false_2; [apply app_nil_r|].
      intros [= E]. auto. }
    assert (Hown' : own s' (x :: l) = (own s (x :: l) ++ [v])%list).
    { unfold own. simpl. rewrite List.filter_app. simpl. rewrite bool_decide_eq_true_2; auto. }
    assert (Hcur := inv_cur s Hi (current s) (reflexivity _)). destruct Hcur as [He Ho]; [rewrite Ec; discriminate|].
    rewrite Ec in He, Ho.
    constructor; try (apply Hi).
    + intros L HL Hn. change (current s') with (x :: l) in HL. rewrite <- Ec in HL. destruct (inv_cur s Hi L HL Hn) as [H1 H2]. split; [auto|].
      change (namedvars s') with (dset (namedvars s) (x :: l) (default [] (dget (namedvars s) (x :: l)) ++ [v])%list).
      destruct (decide (L = x :: l)) as [->|Hd].
      * rewrite dget_dset_eq, Hown', Ho. reflexivity.
      * rewrite dget_dset_ne, Hown; auto.
    + intros L (ws & Hw). change (current s') with (x :: l). change (namedvars s') with (dset (namedvars s) (x :: l) (default [] (dget (namedvars s) (x :: l)) ++ [v])%list) in Hw.
      destruct (decide (L = x :: l)) as [->|Hd]; [reflexivity|]. rewrite dget_dset_ne in Hw by auto. rewrite <- Ec. apply (inv_keys s Hi). exists ws. auto.
    + intros L vs Hin. destruct (inv_left s Hi L vs Hin) as (H1 & H2 & H3). change (current s') with (x :: l). rewrite <- Ec.
      split; [|auto]. rewrite Hown; auto. intros ->. apply H3. rewrite Ec. reflexivity.
    + intros u L [<-|Hu]; [intros [= <-]; auto|]. apply (inv_made s Hi); auto.
    + change (namedvars s') with (dset (namedvars s) (x :: l) (default [] (dget (namedvars s) (x :: l)) ++ [v])%list). apply NoDup_dset, Hi.
    + intros L Hin. change (current s') with (x :: l). rewrite <- Ec. apply (inv_entered_left s Hi L Hin).
Qed.

Lemma inv_sig b s : inv s -> inv (set_signomials b s).
Proof. intros [H1 H2 H3 H4 H5 H6 H7 H8]. constructor; assumption. Qed.
Lemma inv_vec v s : inv s -> inv (set_vectorization v s).
Proof. intros [H1 H2 H3 H4 H5 H6 H7 H8]. constructor; assumption. Qed.

Lemma run_inv p : forall s s' r, no_reset p -> inv s -> run p s = (s', r) -> inv s'.
Proof.
  induction p as [| e|p IHp q IHq|p IHp q IHq|p IHp|n p IHp|name p IHp|name idx units|]; intros s s' r Hn Hi E; simpl in E, Hn.
  - injection E as <- <-. auto.
  - injection E as <- <-. auto.
  - destruct (run p s) as [s1 [e|]] eqn:E1; [injection E as <- <-|]; [eapply IHp; eauto; tauto|].
    eapply IHq; [tauto| |exact E]. eapply IHp; [tauto| |exact E1]; auto.
  - destruct (run p s) as [s1 [e|]] eqn:E1; [|injection E as <- <-; eapply IHp; eauto; tauto].
    eapply IHq; [tauto| |exact E]. eapply IHp; [tauto| |exact E1]; auto.
  - destruct (run p (set_signomials true s)) as [s1 r1] eqn:E1. injection E as <- <-.
    apply inv_sig. eapply IHp; [auto| |exact E1]. apply inv_sig. auto.
  - destruct (run p (set_vectorization (n :: vectorization s) s)) as [s1 r1] eqn:E1. injection E as <- <-.
    apply inv_vec. eapply IHp; [auto| |exact E1]. apply inv_vec. auto.
  - destruct (run p (enter_named name s)) as [s1 r1] eqn:E1.
    assert (Hs : inv s1) by exact (IHp _ _ _ Hn (inv_enter name s Hi) E1).
    destruct (run_shape _ _ _ _ E1) as (C1 & _ & _ & N1).
    destruct (exit_named s1) as [s2|e] eqn:Ex.
    + injection E as <- <-. eapply inv_exit; [exact Hs| |exact Ex]. rewrite C1. simpl. eexists. reflexivity.
    + injection E as <- <-. exact Hs.
  - injection E as <- <-. apply inv_make. auto.
  - contradiction.
Qed.
