(** Proofs about substitution (C09-C11). *)
From Verif Require Import Base HashVec HashVecProofs Nomial NomialSem NomialProofs CanonProofs Sub SubSem.
From Coq Require Import Permutation.
Open Scope R_scope.

(** ** Weighted sums over a map *)
Definition wsum (w : expv R -> R) (h : hmap R) : R := lsum (fun t => snd t * w (fst t)) h.

Lemma wsum_dset w (h : hmap R) e c : wsum w (dset h e c) = wsum w h + (c - coef h e) * w e.
Proof.
  unfold wsum, coef. induction h as [|[e' c'] h IH]; simpl; [lra|].
  destruct (decide (e = e')) as [->|Hne]; simpl; [lra|].
  change (dget h e) with (dget h e) in *. rewrite IH. lra.
Qed.

Lemma wsum_ddel w (h : hmap R) e : wsum w (ddel h e) = wsum w h - coef h e * w e.
Proof.
  unfold wsum, coef. induction h as [|[e' c'] h IH]; simpl; [lra|].
  destruct (decide (e = e')) as [->|Hne]; simpl; [lra|]. rewrite IH. lra.
Qed.

Lemma coef_get (h : hmap R) e c : dget h e = Some c -> coef h e = c.
Proof. unfold coef. intros ->; auto. Qed.
Lemma coef_none (h : hmap R) e : dget h e = None -> coef h e = 0.
Proof. unfold coef. intros ->; auto. Qed.

Lemma evalp_wsum env h : evalp env h = wsum (mono_valp env) h.
Proof. unfold wsum. induction h as [|[e c] h IH]; simpl; auto. rewrite IH; auto. Qed.

Lemma wsum_never_empty w (h : hmap R) : wsum w (never_empty h) = wsum w h.
Proof. destruct h; simpl; auto. unfold wsum. simpl. lra. Qed.

Lemma NoDup_never_empty (h : hmap R) : NoDup (dkeys h) -> NoDup (dkeys (never_empty h)).
Proof. destruct h; simpl; auto. intros _. apply NoDup_singleton. Qed.

Lemma delete_ne (e : expv R) k : e !! k <> None -> delete k e <> e.
Proof. intros Hk E. apply Hk. rewrite <- E. apply lookup_delete. Qed.

(** ** One step *)
Section Step.
Variable inf : R.
Implicit Types st : sst R.

(** What a successful step does. *)
Lemma step_cases st vk cval i st' : subinplace inf st vk cval i = Ok st' ->
  exists e x, s_cur st !! i = Some e /\ e !! vk = Some x /\
  s_cs st' = alter (fun c => c * powval inf cval x) i (s_cs st) /\
  ((exists c, dget (s_cp st) e = Some c /\
      s_cur st' = <[i := delete vk e]> (s_cur st) /\
      ((exists cv, dget (ddel (s_cp st) e) (delete vk e) = Some cv /\
          s_sq st' = delete vk e :: s_sq st /\
          s_cp st' = never_empty (if decide (powval inf cval x * c = - cv)
                                  then ddel (ddel (s_cp st) e) (delete vk e)
                                  else dset (ddel (s_cp st) e) (delete vk e) (cv + powval inf cval x * c)))
       \/ (dget (ddel (s_cp st) e) (delete vk e) = None /\ s_sq st' = s_sq st /\
          s_cp st' = never_empty (if decide (powval inf cval x * c = 0) then ddel (s_cp st) e
                                  else dset (ddel (s_cp st) e) (delete vk e) (powval inf cval x * c)))))
   \/ (dget (s_cp st) e = None /\ s_cp st' = s_cp st /\ s_sq st' = s_sq st /\
       ((In e (s_sq st) /\ s_cur st' = <[i := delete vk e]> (s_cur st)) \/
        (~ In e (s_sq st) /\ s_cur st' = s_cur st)))).
Proof.
  unfold subinplace. destruct (s_cur st !! i) as [e|] eqn:Ee; [|discriminate].
  destruct (e !! vk) as [x|] eqn:Ex; [|discriminate].
  intros Hs. exists e, x. split; [reflexivity|]. split; [exact Ex|].
  destruct (dget (s_cp st) e) as [c|] eqn:Ec.
  - destruct (dget (ddel (s_cp st) e) (delete vk e)) as [cv|] eqn:Ecv; injection Hs as <-; cbn.
    + split; auto. left. exists c. split; auto. split; auto. left. exists cv. auto.
    + split; auto. left. exists c. split; auto.
  - destruct (existsb (fun e2 => bool_decide (e2 = e)) (s_sq st)) eqn:Eq; injection Hs as <-; cbn.
    + split; auto. right. repeat split; auto. left. split; auto.
      apply existsb_exists in Eq as (e2 & Hin & Hb). apply bool_decide_eq_true in Hb. subst; auto.
    + split; auto. right. repeat split; auto. right. split; auto.
      intros Hin. rewrite <- not_true_iff_false in Eq. apply Eq. apply existsb_exists.
      exists e. split; auto. apply bool_decide_eq_true; auto.
Qed.

Lemma step_wsum w st vk cval i st' : NoDup (dkeys (s_cp st)) ->
  (forall e x, s_cur st !! i = Some e -> e !! vk = Some x ->
     w e = powval inf cval x * w (delete vk e)) ->
  subinplace inf st vk cval i = Ok st' -> wsum w (s_cp st') = wsum w (s_cp st).
Proof.
  intros Hn Hw Hs. destruct (step_cases _ _ _ _ _ Hs) as (e & x & Ee & Ex & _ & [Hc|(_ & -> & _)]); auto.
  specialize (Hw e x Ee Ex). destruct Hc as (c & Ec & _ & [(cv & Ecv & _ & ->)|(Ecv & _ & ->)]);
    rewrite wsum_never_empty.
  - dcase D.
    + rewrite !wsum_ddel, (coef_get _ _ _ Ec), (coef_get _ _ _ Ecv), Hw.
      replace cv with (- (powval inf cval x * c)) by lra. ring.
    + rewrite wsum_dset, wsum_ddel, (coef_get _ _ _ Ec), (coef_get _ _ _ Ecv), Hw. ring.
  - dcase D.
    + rewrite wsum_ddel, (coef_get _ _ _ Ec), Hw.
      rewrite <- Rmult_assoc, (Rmult_comm c), D. ring.
    + rewrite wsum_dset, wsum_ddel, (coef_get _ _ _ Ec), (coef_none _ _ Ecv), Hw. ring.
Qed.

Lemma step_NoDup_cp st vk cval i st' : NoDup (dkeys (s_cp st)) ->
  subinplace inf st vk cval i = Ok st' -> NoDup (dkeys (s_cp st')).
Proof.
  intros Hn Hs. destruct (step_cases _ _ _ _ _ Hs) as (e & x & Ee & Ex & _ & [Hc|(_ & -> & _)]); auto.
  destruct Hc as (c & Ec & _ & [(cv & Ecv & _ & ->)|(Ecv & _ & ->)]); apply NoDup_never_empty; dcase D;
    auto using NoDup_ddel, NoDup_dset.
Qed.

(** The keys after a step. *)
Lemma never_empty_keys (h : hmap R) e : In e (dkeys (never_empty h)) -> e = e_empty \/ In e (dkeys h).
Proof. destruct h; simpl; intuition. Qed.

Lemma dkeys_ddel_In_NoDup (h : hmap R) k x : NoDup (dkeys h) ->
  In x (dkeys (ddel h k)) <-> x <> k /\ In x (dkeys h).
Proof.
  intros Hn. split.
  - intros Hin. split; [|eapply dkeys_ddel_In; eauto]. intros ->.
    apply dmem_In in Hin. unfold dmem in Hin. rewrite dget_ddel_eq in Hin by auto. discriminate.
  - intros [Hne Hin]. apply dmem_In. apply dmem_In in Hin. unfold dmem in *.
    rewrite dget_ddel_ne by auto. auto.
Qed.

Lemma step_keys st vk cval i st' e' : NoDup (dkeys (s_cp st)) ->
  subinplace inf st vk cval i = Ok st' -> In e' (dkeys (s_cp st')) ->
  e' = e_empty \/
  (exists e c, s_cur st !! i = Some e /\ dget (s_cp st) e = Some c /\
     e' = delete vk e /\ s_cur st' = <[i := e']> (s_cur st)) \/
  (In e' (dkeys (s_cp st)) /\ (forall e, s_cur st !! i = Some e -> e' <> e)).
Proof.
  intros Hn Hs Hin. destruct (step_cases _ _ _ _ _ Hs) as (e & x & Ee & Ex & _ & [Hc|(Ec & E1 & _)]).
  - destruct Hc as (c & Ec & Ecur & Hc).
    assert (e' = e_empty \/ e' = delete vk e \/ In e' (dkeys (ddel (s_cp st) e))) as HH.
    { destruct Hc as [(cv & Ecv & _ & E)|(Ecv & _ & E)]; rewrite E in Hin;
        apply never_empty_keys in Hin as [->|Hin]; auto; right; revert Hin; dcase D; intros Hin.
      - right. eapply dkeys_ddel_In; eauto.
      - apply dkeys_dset_In in Hin as [->|Hin]; auto.
      - auto.
      - apply dkeys_dset_In in Hin as [->|Hin]; auto. }
    destruct HH as [->|[->|HH]]; [auto| |].
    + right. left. exists e, c. auto.
    + right. right. apply dkeys_ddel_In_NoDup in HH as [Hne HH]; auto. split; auto.
      intros e0 E0. congruence.
  - right. right. rewrite E1 in Hin. split; auto. intros e0 E0 ->.
    assert (e0 = e) as -> by congruence. apply dget_None in Ec. auto.
Qed.

End Step.

(** ** Passes *)
Section Passes.
Variable inf : R.
Variable h0 : hmap R.
Variable fixed : gmap nat R.
Implicit Types st : sst R.

(** The current exponents are the original ones minus some processed
    variables; [done k i]: variable [k] has been processed for term [i]. *)
Definition tracks (done : nat -> nat -> Prop) st : Prop :=
  length (s_cur st) = length h0 /\ length (s_cs st) = length h0 /\
  forall i o c, h0 !! i = Some (o, c) -> exists e, s_cur st !! i = Some e /\
    forall k, (e !! k = o !! k \/ (e !! k = None /\ done k i)).

Definition witnessed st : Prop :=
  forall e, In e (dkeys (s_cp st)) -> e = e_empty \/ exists i, s_cur st !! i = Some e.

Definition done_step (done : nat -> nat -> Prop) vk i : nat -> nat -> Prop :=
  fun k j => done k j \/ (k = vk /\ j = i).

Lemma step_tracks done st vk cval i st' : tracks done st ->
  subinplace inf st vk cval i = Ok st' -> tracks (done_step done vk i) st'.
Proof.
  intros (L1 & L2 & Ht) Hs. destruct (step_cases _ _ _ _ _ _ Hs) as (e & x & Ee & Ex & Ecs & Hc).
  assert (s_cur st' = <[i := delete vk e]> (s_cur st) \/ s_cur st' = s_cur st) as Hcur.
  { destruct Hc as [(c & _ & -> & _)|(_ & _ & _ & [[_ ->]|[_ ->]])]; auto. }
  split; [|split].
  - destruct Hcur as [->| ->]; rewrite ?insert_length; auto.
  - rewrite Ecs, alter_length. auto.
  - intros j o c Hj. destruct (Ht j o c Hj) as (ej & Ej & Hk).
    destruct Hcur as [Hcur|Hcur]; rewrite Hcur.
    + destruct (decide (j = i)) as [->|Hne].
      * assert (ej = e) as -> by congruence. exists (delete vk e).
        split; [apply list_lookup_insert; eapply lookup_lt_Some; eauto|].
        intros k. destruct (decide (k = vk)) as [->|Hkv].
        -- right. split; [apply lookup_delete|]. right; auto.
        -- rewrite lookup_delete_ne by auto. destruct (Hk k) as [E|[E D]]; [left; auto|right; split; auto; left; auto].
      * exists ej. rewrite list_lookup_insert_ne by auto. split; auto.
        intros k. destruct (Hk k) as [E|[E D]]; [left; auto|right; split; auto; left; auto].
    + exists ej. split; auto. intros k. destruct (Hk k) as [E|[E D]]; [left; auto|right; split; auto; left; auto].
Qed.

Lemma step_witnessed st vk cval i st' : NoDup (dkeys (s_cp st)) -> witnessed st ->
  subinplace inf st vk cval i = Ok st' -> witnessed st'.
Proof.
  intros Hn Hw Hs e' Hin. destruct (step_keys _ _ _ _ _ _ _ Hn Hs Hin)
    as [->|[(e & c & Ee & Ec & -> & Ecur)|[Hin' Hne]]]; auto.
  - right. exists i. rewrite Ecur. apply list_lookup_insert. eapply lookup_lt_Some; eauto.
  - destruct (step_cases _ _ _ _ _ _ Hs) as (e & x & Ee & Ex & Ecs & Hc).
    destruct (Hw e' Hin') as [->|(j & Ej)]; auto. right. exists j.
    assert (j <> i) as Hji by (intros ->; apply (Hne e'); auto).
    destruct Hc as [(c & _ & -> & _)|(_ & _ & _ & [[_ ->]|[_ ->]])];
      rewrite ?list_lookup_insert_ne by auto; auto.
Qed.

(** No entry mentions a variable of [V]. *)
Definition clear_of (V : nat -> Prop) st : Prop :=
  forall e k, In e (dkeys (s_cp st)) -> V k -> e !! k = None.

Lemma step_clear V st vk cval i st' : NoDup (dkeys (s_cp st)) -> clear_of V st ->
  subinplace inf st vk cval i = Ok st' -> clear_of V st'.
Proof.
  intros Hn Hc Hs e' k Hin Hk. destruct (step_keys _ _ _ _ _ _ _ Hn Hs Hin)
    as [->|[(e & c & Ee & Ec & -> & Ecur)|[Hin' Hne]]].
  - apply lookup_empty.
  - destruct (decide (k = vk)) as [->|Hkv]; [apply lookup_delete|].
    rewrite lookup_delete_ne by auto. apply Hc; auto. eapply dget_In_keys; eauto.
  - apply Hc; auto.
Qed.

(** Within a pass: entries that still mention [vk] belong to terms not yet
    visited. *)
Definition pending vk rest st : Prop :=
  forall e, In e (dkeys (s_cp st)) -> e !! vk <> None ->
  exists i, In i rest /\ s_cur st !! i = Some e.

Lemma step_pending vk rest st cval i st' : NoDup (dkeys (s_cp st)) ->
  pending vk (i :: rest) st ->
  subinplace inf st vk cval i = Ok st' -> pending vk rest st'.
Proof.
  intros Hn Hp Hs e' Hin Hk. destruct (step_keys _ _ _ _ _ _ _ Hn Hs Hin)
    as [->|[(e & c & Ee & Ec & -> & Ecur)|[Hin' Hne]]].
  - exfalso. apply Hk. apply lookup_empty.
  - exfalso. apply Hk. apply lookup_delete.
  - destruct (Hp e' Hin' Hk) as (j & Hj & Ej). exists j.
    assert (j <> i) as Hji by (intros ->; apply (Hne e'); auto).
    split; [destruct Hj as [->|]; [congruence|auto]|].
    destruct (step_cases _ _ _ _ _ _ Hs) as (e & x & Ee & Ex & Ecs & Hc).
    destruct Hc as [(c & _ & -> & _)|(_ & _ & _ & [[_ ->]|[_ ->]])];
      rewrite ?list_lookup_insert_ne by auto; auto.
Qed.

(** The invariant between passes; [V] are the variables processed so far. *)
Record good (done : nat -> nat -> Prop) st : Prop := {
  g_nd : NoDup (dkeys (s_cp st));
  g_tr : tracks done st;
  g_wi : witnessed st
}.

Lemma step_good done st vk cval i st' : good done st ->
  subinplace inf st vk cval i = Ok st' -> good (done_step done vk i) st'.
Proof.
  intros [Hn Ht Hw] Hs. split.
  - eapply step_NoDup_cp; eauto.
  - eapply step_tracks; eauto.
  - eapply step_witnessed; eauto.
Qed.

Definition done_pass (done : nat -> nat -> Prop) vk (idxs : list nat) : nat -> nat -> Prop :=
  fun k j => done k j \/ (k = vk /\ In j idxs).

Lemma tracks_impl (d1 d2 : nat -> nat -> Prop) st : (forall k j, d1 k j -> d2 k j) -> tracks d1 st -> tracks d2 st.
Proof.
  intros Hd (L1 & L2 & Ht). split; [|split]; auto. intros i o c Hi.
  destruct (Ht i o c Hi) as (e & Ee & Hk). exists e. split; auto.
  intros k. destruct (Hk k) as [E|[E D]]; auto.
Qed.

Lemma good_impl (d1 d2 : nat -> nat -> Prop) st : (forall k j, d1 k j -> d2 k j) -> good d1 st -> good d2 st.
Proof. intros Hd [Hn Ht Hw]. split; auto. eapply tracks_impl; eauto. Qed.

(** A pass over fresh (variable, term) pairs succeeds. *)
Lemma step_total done st vk cval i o c : tracks done st -> h0 !! i = Some (o, c) ->
  o !! vk <> None -> ~ done vk i -> exists st', subinplace inf st vk cval i = Ok st'.
Proof.
  intros (_ & _ & Ht) Hi Ho Hd. destruct (Ht i o c Hi) as (e & Ee & Hk).
  unfold subinplace. rewrite Ee. destruct (Hk vk) as [E|[_ D]]; [|contradiction].
  destruct (e !! vk) as [x|] eqn:Ex; [|congruence].
  destruct (dget (s_cp st) e).
  - destruct (dget (ddel (s_cp st) e) (delete vk e)); eauto.
  - destruct (existsb _ _); eauto.
Qed.

Lemma pass_total idxs : forall done st vk cval, tracks done st -> List.NoDup idxs ->
  (forall i, In i idxs -> ~ done vk i /\ exists o c, h0 !! i = Some (o, c) /\ o !! vk <> None) ->
  exists st', sub_pass inf st vk cval idxs = Ok st'.
Proof.
  induction idxs as [|i idxs IH]; intros done st vk cval Ht Hn Hi; cbn [sub_pass]; [eauto|].
  inversion Hn as [|? ? Hx Hn']; subst.
  destruct (Hi i (or_introl eq_refl)) as (Hd & o & c & Ho & Hk).
  destruct (step_total done st vk cval i o c Ht Ho Hk Hd) as (st1 & E1). rewrite E1. cbn [rbind].
  apply (IH (done_step done vk i)); auto.
  - eapply step_tracks; eauto.
  - intros j Hj. destruct (Hi j (or_intror Hj)) as (Hdj & Hoj). split; auto.
    intros [D|[_ ->]]; auto.
Qed.

Lemma pass_good idxs : forall done st vk cval st', good done st ->
  sub_pass inf st vk cval idxs = Ok st' -> good (done_pass done vk idxs) st'.
Proof.
  induction idxs as [|i idxs IH]; intros done st vk cval st' Hg Hs; cbn [sub_pass] in Hs.
  - injection Hs as <-. eapply good_impl; [|exact Hg]. intros; left; auto.
  - apply rbind_ok in Hs as (st1 & E1 & Hs). pose proof (step_good _ _ _ _ _ _ Hg E1) as Hg1.
    eapply good_impl; [|eapply IH; eauto]. intros k j [[D|[-> ->]]|[-> D]].
    + left; auto.
    + right; split; [auto|left; auto].
    + right; split; [auto|right; auto].
Qed.

Lemma pass_wsum w idxs : forall done st vk cval st', good done st ->
  (forall e x, e !! vk = Some x -> (exists i o c, h0 !! i = Some (o, c) /\ o !! vk = Some x) ->
     w e = powval inf cval x * w (delete vk e)) ->
  sub_pass inf st vk cval idxs = Ok st' -> wsum w (s_cp st') = wsum w (s_cp st).
Proof.
  induction idxs as [|i idxs IH]; intros done st vk cval st' Hg Hw Hs; cbn [sub_pass] in Hs.
  - injection Hs as <-; auto.
  - apply rbind_ok in Hs as (st1 & E1 & Hs). pose proof (step_good _ _ _ _ _ _ Hg E1) as Hg1.
    rewrite (IH _ _ _ _ _ Hg1 Hw Hs). eapply step_wsum; [apply Hg| |exact E1].
    intros e x Ee Ex. apply Hw; auto. destruct Hg as [_ (L1 & _ & Ht) _].
    destruct (lookup_lt_is_Some_2 h0 i) as ([o c] & Ho).
    { rewrite <- L1. eapply lookup_lt_Some; eauto. }
    exists i, o, c. split; auto. destruct (Ht i o c Ho) as (e' & Ee' & Hk).
    assert (e' = e) as -> by congruence. destruct (Hk vk) as [E|[E _]]; congruence.
Qed.

Lemma pass_clear V idxs : forall done st vk cval st', good done st -> clear_of V st ->
  sub_pass inf st vk cval idxs = Ok st' -> clear_of V st'.
Proof.
  induction idxs as [|i idxs IH]; intros done st vk cval st' Hg Hc Hs; cbn [sub_pass] in Hs.
  - injection Hs as <-; auto.
  - apply rbind_ok in Hs as (st1 & E1 & Hs). pose proof (step_good _ _ _ _ _ _ Hg E1) as Hg1.
    eapply IH; [exact Hg1| |exact Hs]. eapply step_clear; [apply Hg|exact Hc|exact E1].
Qed.

Lemma pass_pending idxs : forall done st vk cval st', good done st -> pending vk idxs st ->
  sub_pass inf st vk cval idxs = Ok st' -> pending vk [] st'.
Proof.
  induction idxs as [|i idxs IH]; intros done st vk cval st' Hg Hp Hs; cbn [sub_pass] in Hs.
  - injection Hs as <-; auto.
  - apply rbind_ok in Hs as (st1 & E1 & Hs). pose proof (step_good _ _ _ _ _ _ Hg E1) as Hg1.
    eapply IH; [exact Hg1| |exact Hs]. eapply step_pending; [apply Hg|exact Hp|exact E1].
Qed.

(** *** The whole run *)
Definition sched_ok (done : nat -> nat -> Prop) (sched : schedule) : Prop :=
  List.NoDup (map fst sched) /\
  forall vk idxs, In (vk, idxs) sched -> List.NoDup idxs /\
    (exists v, fixed !! vk = Some v) /\
    (forall i, ~ done vk i) /\
    forall i, In i idxs <-> exists e c, h0 !! i = Some (e, c) /\ e !! vk <> None.

Definition done_sched (done : nat -> nat -> Prop) (sched : schedule) : nat -> nat -> Prop :=
  fun k j => done k j \/ exists idxs, In (k, idxs) sched /\ In j idxs.

Lemma sched_ok_tail done vk idxs sched : sched_ok done ((vk, idxs) :: sched) ->
  sched_ok (done_pass done vk idxs) sched.
Proof.
  intros [Hn Hs]. cbn in Hn. inversion Hn as [|? ? Hx Hn']; subst. split; auto.
  intros vk' idxs' Hin. destruct (Hs vk' idxs' (or_intror Hin)) as (A & B & C & D).
  split; [auto|]. split; [auto|]. split; [|auto].
  intros i [E|[-> _]]; [eapply C; eauto|]. apply Hx. apply in_map_iff. exists (vk, idxs'); auto.
Qed.

Lemma passes_main (w : expv R -> R) sched : forall (V : nat -> Prop) done st,
  sched_ok done sched -> good done st -> clear_of V st ->
  (forall vk v e x, fixed !! vk = Some v -> e !! vk = Some x ->
     (exists i o c, h0 !! i = Some (o, c) /\ o !! vk = Some x) ->
     w e = powval inf v x * w (delete vk e)) ->
  exists st', sub_passes inf fixed st sched = Ok st' /\
    good (done_sched done sched) st' /\
    clear_of (fun k => V k \/ In k (map fst sched)) st' /\
    wsum w (s_cp st') = wsum w (s_cp st).
Proof.
  induction sched as [|[vk idxs] sched IH]; intros V done st Hok Hg Hc Hw; cbn [sub_passes].
  - exists st. split; auto. split; [eapply good_impl; [|exact Hg]; intros; left; auto|]. split; auto.
    intros e k Hin [Hk|[]]. apply (Hc e k); auto.
  - pose proof (sched_ok_tail _ _ _ _ Hok) as Hok'. destruct Hok as [Hn Hs].
    destruct (Hs vk idxs (or_introl eq_refl)) as (Hni & (v & Hv) & Hnd & Hi). rewrite Hv.
    destruct (pass_total idxs done st vk v (g_tr _ _ Hg) Hni) as (st1 & E1).
    { intros i Hin. split; auto. apply Hi in Hin as (e & c & Hh & He). eauto. }
    rewrite E1. cbn [rbind]. pose proof (pass_good _ _ _ _ _ _ Hg E1) as Hg1.
    assert (Hc1 : clear_of (fun k => V k \/ k = vk) st1).
    { intros e k Hin [Hk| ->].
      - eapply (pass_clear V idxs done st vk v st1); eauto.
      - destruct (e !! vk) eqn:E; auto. exfalso.
        destruct (pass_pending idxs done st vk v st1 Hg) with (e := e) as (i & [] & _); auto; [|congruence].
        intros e' Hin' He'. destruct (g_wi _ _ Hg e' Hin') as [->|(i & Ei)].
        + exfalso. apply He'. apply lookup_empty.
        + exists i. split; auto. apply Hi. destruct (g_tr _ _ Hg) as (L1 & _ & Ht).
          destruct (lookup_lt_is_Some_2 h0 i) as ([o c] & Ho).
          { rewrite <- L1. eapply lookup_lt_Some; eauto. }
          exists o, c. split; auto. destruct (Ht i o c Ho) as (e2 & Ee2 & Hk).
          assert (e2 = e') as -> by congruence. destruct (Hk vk) as [E'|[E' _]]; congruence. }
    destruct (IH _ _ _ Hok' Hg1 Hc1 Hw) as (st' & E' & Hg' & Hc' & Hw').
    exists st'. split; auto. split; [|split].
    + eapply good_impl; [|exact Hg']. intros k j [[D|[-> D]]|(is' & D1 & D2)].
      * left; auto.
      * right. exists idxs. split; [left; auto|auto].
      * right. exists is'. split; [right; auto|auto].
    + intros e k Hin [Hk|[E|Hk]]; apply (Hc' e k); auto.
    + rewrite Hw'. eapply pass_wsum; [exact Hg| |exact E1]. intros e x Ex Ho. eapply Hw; eauto.
Qed.

End Passes.

(** ** C09 *)
Lemma mono_valp_insert env k a e : e !! k = None ->
  mono_valp env (<[k := a]> e) = Rpow (env k) a * mono_valp env e.
Proof. intros Hk. unfold mono_valp. rewrite map_fold_insert_L; auto. intros; lra. Qed.

Lemma mono_valp_delete env e k x : e !! k = Some x ->
  mono_valp env e = Rpow (env k) x * mono_valp env (delete k e).
Proof.
  intros Hx. rewrite <- (insert_delete e k x Hx) at 1. apply mono_valp_insert, lookup_delete.
Qed.

Lemma mono_valp_ext env env' e : (forall k x, e !! k = Some x -> env k = env' k) ->
  mono_valp env e = mono_valp env' e.
Proof.
  induction e as [|k a e Hk IH] using map_ind; intros He.
  - unfold mono_valp. rewrite !map_fold_empty; auto.
  - rewrite !mono_valp_insert by auto. rewrite IH, (He k a); auto.
    + apply lookup_insert.
    + intros j y Hj. apply (He j y). rewrite lookup_insert_ne; auto. intros ->. congruence.
Qed.

Lemma mono_valp_pos env e : positive_point env -> mono_valp env e = mono_val env e.
Proof.
  intros Hp. induction e as [|k a e Hk IH] using map_ind.
  - unfold mono_valp, mono_val. rewrite !map_fold_empty; auto.
  - rewrite mono_valp_insert by auto. unfold mono_val. rewrite map_fold_insert_L; auto.
    + fold (mono_val env e). rewrite IH, Rpow_pos by auto. auto.
    + intros; lra.
Qed.

Lemma evalp_pos env h : positive_point env -> evalp env h = eval env h.
Proof. intros Hp. induction h as [|[e c] h IH]; simpl; auto. rewrite IH, mono_valp_pos; auto. Qed.

Lemma lookup_In {A} (l : list A) x : In x l <-> exists i, l !! i = Some x.
Proof. rewrite <- elem_of_list_In. apply elem_of_list_lookup. Qed.

Lemma lookup_map {A B} (f : A -> B) (l : list A) i : map f l !! i = option_map f (l !! i).
Proof. revert i; induction l as [|a l IH]; intros [|i]; simpl; auto. Qed.

Section Whole.
Variable inf : R.
Variable h : hmap R.
Variable fixed : gmap nat R.
Hypothesis Hn : NoDup (dkeys h).

Lemma init_good : good h (fun _ _ => False) (sub_init h).
Proof.
  split; auto.
  - split; [|split]; cbn; rewrite ?map_length; auto.
    intros i o c Hi. exists o. split; [|auto]. pose proof (lookup_map fst h i) as E. unfold hmap in *. rewrite Hi in E. exact E.
  - intros e Hin. right. cbn in *. apply lookup_In in Hin. exact Hin.
Qed.

Lemma valid_sched_ok sched : valid_schedule fixed h sched -> sched_ok h fixed (fun _ _ => False) sched.
Proof.
  intros (H1 & H2 & H3). split; [apply NoDup_ListNoDup; auto|].
  intros vk idxs Hin. destruct (H3 vk idxs Hin) as [Hni Hi]. split; [apply NoDup_ListNoDup; auto|].
  split; [|split; auto]. apply H2. apply in_map_iff. exists (vk, idxs); auto.
Qed.

Lemma powval_defined v x : (v = 0 -> 0 <= x) -> powval inf v x = Rpow v x.
Proof.
  intros Hv. unfold powval. destruct (bool_decide (v = n0)) eqn:E; cbn [andb]; auto.
  apply bool_decide_eq_true in E. cbn in E. specialize (Hv E).
  assert (Rleb 0 x = true) as Hx by (apply Rleb_true; auto). cbn. rewrite Hx. auto.
Qed.

Hypothesis Hpd : powers_defined fixed h.

Lemma weight_ok env vk v e x : fixed !! vk = Some v -> e !! vk = Some x ->
  (exists i o c, h !! i = Some (o, c) /\ o !! vk = Some x) ->
  mono_valp (override env fixed) e = powval inf v x * mono_valp (override env fixed) (delete vk e).
Proof.
  intros Hv He (i & o & c & Hi & Ho). rewrite (mono_valp_delete _ _ _ _ He).
  unfold override at 1. rewrite Hv. rewrite powval_defined; auto.
  intros ->. eapply Hpd; eauto. apply lookup_In. eauto.
Qed.

Lemma sub_main sched : valid_schedule fixed h sched ->
  exists st, nm_sub inf fixed h sched = Ok st /\
    good h (fun k i => exists idxs, In (k, idxs) sched /\ In i idxs) st /\
    (forall e k v, In e (dkeys (s_cp st)) -> fixed !! k = Some v -> e !! k = None) /\
    (forall env, evalp env (s_cp st) = evalp (override env fixed) h).
Proof.
  intros Hv. pose proof (valid_sched_ok _ Hv) as Hok.
  assert (Hc0 : clear_of (fun _ => False) (sub_init h)) by (intros e k _ []).
  destruct (passes_main inf h fixed (mono_valp (override (fun _ => 1) fixed)) sched (fun _ => False)
    (fun _ _ => False) (sub_init h) Hok init_good Hc0 (weight_ok (fun _ => 1))) as (st & E & Hg & Hc & _).
  exists st. split; auto. split; [|].
  { eapply good_impl; [|exact Hg]. intros k j [[]|D]; auto. }
  assert (Hcl : forall e k v, In e (dkeys (s_cp st)) -> fixed !! k = Some v -> e !! k = None).
  { intros e k v Hin Hk. destruct (e !! k) as [x|] eqn:Ek; auto.
    rewrite <- Ek. apply (Hc e k Hin). right. destruct Hv as (_ & H2 & _). apply H2. split; [eauto|].
    destruct (g_wi _ _ _ Hg e Hin) as [->|(i & Ei)].
    { unfold e_empty in Ek. rewrite lookup_empty in Ek. discriminate. }
    destruct (g_tr _ _ _ Hg) as (L1 & _ & Ht). destruct (lookup_lt_is_Some_2 h i) as ([o c] & Ho).
    { rewrite <- L1. eapply lookup_lt_Some; eauto. }
    exists o, c. split; [apply lookup_In; eauto|].
    destruct (Ht i o c Ho) as (e2 & Ee2 & Hk2).
    assert (e2 = e) as -> by congruence. destruct (Hk2 k) as [E'|[E' _]]; congruence. }
  split; auto. intros env.
  destruct (passes_main inf h fixed (mono_valp (override env fixed)) sched (fun _ => False)
    (fun _ _ => False) (sub_init h) Hok init_good Hc0 (weight_ok env)) as (st' & E' & _ & _ & Hw).
  assert (st' = st) as -> by congruence.
  rewrite (evalp_wsum (override env fixed)). unfold sub_init in Hw. cbn [s_cp] in Hw. rewrite <- Hw.
  rewrite evalp_wsum. unfold wsum. apply lsum_ext. intros [e c] Hin. cbn. f_equal.
  apply mono_valp_ext. intros k x Hk. unfold override. destruct (fixed !! k) as [v|] eqn:Ev; auto.
  rewrite (Hcl e k v) in Hk; auto; [discriminate|]. apply in_map_iff. exists (e, c); auto.
Qed.
End Whole.

(** *** Canonical form of the result *)
Definition zero_hmap : hmap R := [(e_empty, 0)].
Definition nz (h : hmap R) : Prop := (forall e c, In (e, c) h -> c <> 0) \/ h = zero_hmap.

Lemma In_ddel (h : hmap R) k t : In t (ddel h k) -> In t h.
Proof.
  induction h as [|[a b] h IH]; cbn [ddel]; auto. dcase E; simpl; intuition.
Qed.
Lemma In_dset (h : hmap R) k v t : In t (dset h k v) -> t = (k, v) \/ In t h.
Proof.
  induction h as [|[a b] h IH]; cbn [dset]; simpl; [intuition|]. dcase E; simpl.
  - subst. intuition.
  - intuition.
Qed.

Lemma nz_never_empty (h : hmap R) : (forall e c, In (e, c) h -> c <> 0) -> nz (never_empty h).
Proof. destruct h; intros Hh; [right; reflexivity|left; exact Hh]. Qed.

Lemma step_nz inf (st : sst R) vk cval i st' : nz (s_cp st) ->
  subinplace inf st vk cval i = Ok st' -> nz (s_cp st').
Proof.
  intros Hz Hs. destruct (step_cases _ _ _ _ _ _ Hs) as (e & x & Ee & Ex & _ & [Hc|(_ & -> & _)]); auto.
  destruct Hc as (c & Ec & _ & Hc).
  destruct Hz as [Hz|Hz].
  - assert (Hd : forall e' c', In (e', c') (ddel (s_cp st) e) -> c' <> 0).
    { intros e' c' Hin. eapply Hz. eapply In_ddel; eauto. }
    destruct Hc as [(cv & Ecv & _ & ->)|(Ecv & _ & ->)]; apply nz_never_empty; dcase D.
    + intros e' c' Hin. eapply Hd. eapply In_ddel; eauto.
    + intros e' c' Hin. apply In_dset in Hin as [[= -> ->]|Hin]; [lra|eauto].
    + auto.
    + intros e' c' Hin. apply In_dset in Hin as [[= -> ->]|Hin]; [auto|eauto].
  - exfalso. rewrite Hz in Ec. cbn in Ec. revert Ec. dcase D; [|discriminate].
    subst e. unfold e_empty in Ex. rewrite lookup_empty in Ex. discriminate.
Qed.

Lemma passes_nz inf fixed sched : forall (st st' : sst R), nz (s_cp st) ->
  sub_passes inf fixed st sched = Ok st' -> nz (s_cp st').
Proof.
  assert (forall idxs (st st' : sst R) vk v, nz (s_cp st) -> sub_pass inf st vk v idxs = Ok st' -> nz (s_cp st')) as HP.
  { induction idxs as [|i idxs IH]; intros st st' vk v Hz Hs; cbn [sub_pass] in Hs.
    - injection Hs as <-; auto.
    - apply rbind_ok in Hs as (st1 & E1 & Hs). eapply IH; [|exact Hs]. eapply step_nz; eauto. }
  induction sched as [|[vk idxs] sched IH]; intros st st' Hz Hs; cbn [sub_passes] in Hs.
  - injection Hs as <-; auto.
  - destruct (fixed !! vk) as [v|]; [|discriminate].
    apply rbind_ok in Hs as (st1 & E1 & Hs). eapply IH; [|exact Hs]. eapply HP; eauto.
Qed.

Lemma sub_canonical inf h fixed sched st : canonical h -> powers_defined fixed h ->
  valid_schedule fixed h sched -> nm_sub inf fixed h sched = Ok st ->
  canonical (s_cp st) \/ s_cp st = zero_hmap.
Proof.
  intros Hc Hpd Hv Hs. assert (nz (s_cp st)) as [Hz|Hz]; [|left|right; auto].
  { eapply passes_nz; [|exact Hs]. left. cbn. intros e c Hin. eapply Hc; eauto. }
  destruct Hc as [Hn Hc]. destruct (sub_main inf h fixed Hn Hpd sched Hv) as (st' & E' & Hg & _).
  assert (st' = st) as -> by congruence. split; [apply Hg|]. intros e c Hin. split; [|eauto].
  intros k x Hk. assert (In e (dkeys (s_cp st))) as Hin' by (apply in_map_iff; exists (e, c); auto).
  destruct (g_wi _ _ _ Hg e Hin') as [->|(i & Ei)].
  { unfold e_empty in Hk. rewrite lookup_empty in Hk. discriminate. }
  destruct (g_tr _ _ _ Hg) as (L1 & _ & Ht). destruct (lookup_lt_is_Some_2 h i) as ([o c'] & Ho).
  { rewrite <- L1. eapply lookup_lt_Some; eauto. }
  destruct (Ht i o c' Ho) as (e2 & Ee2 & Hk2). assert (e2 = e) as -> by congruence.
  destruct (Hk2 k) as [E|[E _]]; [|congruence].
  eapply (Hc o c'); [apply lookup_In; eauto|]. rewrite <- E. eauto.
Qed.

Lemma hmap_eqb_refl (h : hmap R) : NoDup (dkeys h) -> hmap_eqb h h = true.
Proof. intros Hn. apply hmap_eqb_equiv; auto. intros e; auto. Qed.

Lemma passes_nonempty inf fixed sched : forall (st st' : sst R), s_cp st <> [] ->
  sub_passes inf fixed st sched = Ok st' -> s_cp st' <> [].
Proof.
  assert (forall h : hmap R, never_empty h <> []) as Hne by (intros [|]; discriminate).
  assert (forall idxs (st st' : sst R) vk v, s_cp st <> [] -> sub_pass inf st vk v idxs = Ok st' -> s_cp st' <> []) as HP.
  { induction idxs as [|i idxs IH]; intros st st' vk v Hz Hs; cbn [sub_pass] in Hs.
    - injection Hs as <-; auto.
    - apply rbind_ok in Hs as (st1 & E1 & Hs). eapply IH; [|exact Hs].
      destruct (step_cases _ _ _ _ _ _ E1) as (e & x & Ee & Ex & _ & [Hc|(_ & -> & _)]); auto.
      destruct Hc as (c & Ec & _ & [(cv & Ecv & _ & ->)|(Ecv & _ & ->)]); auto. }
  induction sched as [|[vk idxs] sched IH]; intros st st' Hz Hs; cbn [sub_passes] in Hs.
  - injection Hs as <-; auto.
  - destruct (fixed !! vk) as [v|]; [|discriminate].
    apply rbind_ok in Hs as (st1 & E1 & Hs). eapply IH; [|exact Hs]. eapply HP; eauto.
Qed.

Lemma sub_order_irrelevant inf h fixed s1 s2 st1 st2 : canonical h -> powers_defined fixed h ->
  valid_schedule fixed h s1 -> valid_schedule fixed h s2 ->
  nm_sub inf fixed h s1 = Ok st1 -> nm_sub inf fixed h s2 = Ok st2 ->
  hmap_eqb (s_cp st1) (s_cp st2) = true.
Proof.
  intros Hc Hpd V1 V2 R1 R2.
  assert (Hempty : h = [] -> forall s, valid_schedule fixed h s -> s = []).
  { intros -> s (_ & H2 & _). destruct s as [|[vk idxs] s]; auto. exfalso.
    destruct (proj1 (H2 vk)) as (_ & e & c & [] & _). left; auto. }
  destruct (decide (h = [])) as [E0|E0].
  { rewrite (Hempty E0 s1 V1) in R1. rewrite (Hempty E0 s2 V2) in R2. cbn in R1, R2.
    injection R1 as <-. injection R2 as <-. subst. reflexivity. }
  pose proof (passes_nonempty inf fixed s1 (sub_init h) st1 E0 R1) as N1.
  pose proof (passes_nonempty inf fixed s2 (sub_init h) st2 E0 R2) as N2.
  destruct (sub_main inf h fixed (proj1 Hc) Hpd s1 V1) as (t1 & E1 & G1 & _ & Hv1).
  destruct (sub_main inf h fixed (proj1 Hc) Hpd s2 V2) as (t2 & E2 & G2 & _ & Hv2).
  assert (t1 = st1) as -> by congruence. assert (t2 = st2) as -> by congruence.
  assert (He : forall env, positive_point env -> eval env (s_cp st1) = eval env (s_cp st2)).
  { intros env Hp. rewrite <- !evalp_pos by auto. rewrite Hv1, Hv2; auto. }
  assert (Z : forall env, eval env zero_hmap = 0) by (intros; cbn; lra).
  destruct (sub_canonical _ _ _ _ _ Hc Hpd V1 R1) as [C1|Z1], (sub_canonical _ _ _ _ _ Hc Hpd V2 R2) as [C2|Z2].
  - apply eq_decides; auto.
  - exfalso. apply N1. apply zero_nomial; auto. intros env Hp. rewrite He, Z2; auto.
  - exfalso. apply N2. apply zero_nomial; auto. intros env Hp. rewrite <- He, Z1; auto.
  - rewrite Z1, Z2. apply hmap_eqb_refl. apply NoDup_singleton.
Qed.

Lemma override_positive env fixed : positive_point env -> (forall k v, fixed !! k = Some v -> 0 < v) ->
  positive_point (override env fixed).
Proof. intros Hp Hf k. unfold override. destruct (fixed !! k) eqn:E; eauto. Qed.

Lemma positive_defined fixed (h : hmap R) : (forall k v, fixed !! k = Some v -> 0 < v) -> powers_defined fixed h.
Proof. intros Hf e c k x _ _ Hk. specialize (Hf _ _ Hk). lra. Qed.

(** ** C11 *)

(** The value a term contributes after substitution. *)
Definition subval (fixed : gmap nat R) (e : expv R) : R :=
  map_fold (fun k a acc => (match fixed !! k with Some v => Rpow v a | None => 1 end) * acc) 1 e.

Lemma subval_insert fixed k a e : e !! k = None ->
  subval fixed (<[k := a]> e) = (match fixed !! k with Some v => Rpow v a | None => 1 end) * subval fixed e.
Proof. intros Hk. unfold subval. rewrite map_fold_insert_L; auto. intros; lra. Qed.

Lemma subval_delete fixed e k x : e !! k = Some x ->
  subval fixed e = (match fixed !! k with Some v => Rpow v x | None => 1 end) * subval fixed (delete k e).
Proof.
  intros Hx. rewrite <- (insert_delete e k x Hx) at 1. apply subval_insert, lookup_delete.
Qed.

Lemma subval_clear fixed e : (forall k v, fixed !! k = Some v -> e !! k = None) -> subval fixed e = 1.
Proof.
  induction e as [|k a e Hk IH] using map_ind; intros He.
  - apply map_fold_empty.
  - rewrite subval_insert by auto. rewrite IH.
    + destruct (fixed !! k) eqn:E; [|lra]. specialize (He k r E). rewrite lookup_insert in He. discriminate.
    + intros j v Hj. specialize (He j v Hj). rewrite lookup_insert_None in He. tauto.
Qed.

Lemma surviving_delete fixed (e : expv R) k v : fixed !! k = Some v ->
  surviving fixed (delete k e) = surviving fixed e.
Proof.
  intros Hk. unfold surviving. apply map_eq. intros j. apply option_eq. intros x.
  rewrite !lookup_difference_Some. destruct (decide (j = k)) as [->|Hne].
  - rewrite Hk. split; intros [_ ?]; discriminate.
  - rewrite lookup_delete_ne by auto. tauto.
Qed.

Lemma surviving_clear fixed (e : expv R) : (forall k v, fixed !! k = Some v -> e !! k = None) ->
  surviving fixed e = e.
Proof.
  intros Hc. apply map_eq. intros j. apply option_eq. intros x. unfold surviving.
  rewrite lookup_difference_Some. split; [tauto|]. intros Hj. split; auto.
  destruct (fixed !! j) eqn:E; auto. rewrite (Hc j r E) in Hj. discriminate.
Qed.

Section Fractions.
Variable inf : R.
Variable h : hmap R.
Variable fixed : gmap nat R.
Hypothesis Hn : NoDup (dkeys h).
Hypothesis Hpd : powers_defined fixed h.
Implicit Types st : sst R.

Definition group_weight (e0 e : expv R) : R :=
  if decide (surviving fixed e = e0) then subval fixed e else 0.

Lemma group_weight_ok e0 vk v e x : fixed !! vk = Some v -> e !! vk = Some x ->
  (exists i o c, h !! i = Some (o, c) /\ o !! vk = Some x) ->
  group_weight e0 e = powval inf v x * group_weight e0 (delete vk e).
Proof.
  intros Hv He (i & o & c & Hi & Ho). unfold group_weight.
  rewrite (surviving_delete fixed e vk v Hv). dcase D; [|lra].
  rewrite (subval_delete _ _ _ _ He), Hv. rewrite powval_defined; auto.
  intros ->. eapply Hpd; eauto. apply lookup_In. eauto.
Qed.

Lemma lsum_single (cp : hmap R) e0 : NoDup (dkeys cp) ->
  lsum (fun t => if decide (fst t = e0) then snd t else 0) cp = coef cp e0.
Proof.
  unfold coef. induction cp as [|[e c] cp IH]; intros Hnd; cbn [lsum dget fst snd]; auto.
  inversion Hnd as [|? ? Hx Hnd']; subst. rewrite IH by auto.
  destruct (decide (e0 = e)) as [->|Hne].
  - rewrite decide_True by auto.
    assert (dget cp e = None) as ->; [|lra]. apply dget_None. intros Hin; apply Hx; apply elem_of_list_In; auto.
  - rewrite decide_False by auto. lra.
Qed.

(** The coefficient of every final entry. *)
Lemma final_coef sched st e0 : valid_schedule fixed h sched ->
  nm_sub inf fixed h sched = Ok st ->
  coef (s_cp st) e0 = lsum (fun t => if decide (surviving fixed (fst t) = e0)
                                     then snd t * subval fixed (fst t) else 0) h.
Proof.
  intros Hv Hs. destruct (sub_main inf h fixed Hn Hpd sched Hv) as (st' & E' & Hg & Hcl & _).
  assert (st' = st) as -> by congruence.
  assert (Hc0 : clear_of (fun _ => False) (sub_init h)) by (intros e k _ []).
  destruct (passes_main inf h fixed (group_weight e0) sched (fun _ => False)
    (fun _ _ => False) (sub_init h) (valid_sched_ok _ _ _ Hv) (init_good _ Hn) Hc0 (group_weight_ok e0))
    as (st1 & E1 & _ & _ & Hw).
  assert (st1 = st) as -> by (unfold nm_sub in E'; congruence).
  rewrite <- (lsum_single (s_cp st) e0) by apply Hg.
  transitivity (wsum (group_weight e0) (s_cp st)).
  - unfold wsum. apply lsum_ext. intros [e c] Hin. cbn [fst snd]. unfold group_weight.
    assert (forall k v, fixed !! k = Some v -> e !! k = None) as Hce.
    { intros k v Hk. eapply Hcl; eauto. apply in_map_iff. exists (e, c); auto. }
    rewrite surviving_clear by auto. dcase D; [|lra]. rewrite subval_clear by auto. lra.
  - rewrite Hw. unfold wsum, group_weight. cbn [s_cp sub_init]. apply lsum_ext. intros [e c] _. cbn [fst snd].
    dcase D; lra.
Qed.

(** csmap: the original coefficient times the substituted powers. *)
Definition cs_inv (done : nat -> nat -> Prop) st : Prop :=
  forall i o c, h !! i = Some (o, c) -> exists r cs, s_cs st !! i = Some cs /\
    (forall k, (done k i -> r !! k = None) /\ (~ done k i -> r !! k = o !! k)) /\
    cs * subval fixed r = c * subval fixed o.

Lemma step_cs done st vk v i st' : tracks h done st -> cs_inv done st -> fixed !! vk = Some v ->
  ~ done vk i ->
  subinplace inf st vk v i = Ok st' -> cs_inv (done_step done vk i) st'.
Proof.
  intros (L1 & L2 & Ht) Hcs Hv Hnd Hs j o c Hj.
  destruct (step_cases _ _ _ _ _ _ Hs) as (e & x & Ee & Ex & Ecs & _).
  destruct (Hcs j o c Hj) as (r & cs & Er & Hr & Heq). rewrite Ecs.
  destruct (decide (j = i)) as [->|Hne].
  - exists (delete vk r), (cs * powval inf v x).
    destruct (Ht i o c Hj) as (e' & Ee' & Hk). assert (e' = e) as -> by congruence.
    assert (Ho : o !! vk = Some x) by (destruct (Hk vk) as [E|[_ D]]; [congruence|contradiction]).
    split; [rewrite list_lookup_alter, Er; reflexivity|]. split.
    + intros k. destruct (Hr k) as [H1 H2]. split.
      * intros [D|[-> _]]; [|apply lookup_delete]. rewrite lookup_delete_None. auto.
      * intros D. unfold done_step in D. rewrite lookup_delete_ne.
        -- apply H2. tauto.
        -- intros ->. apply D. auto.
    + assert (Hrv : r !! vk = Some x) by (destruct (Hr vk) as [_ H2]; rewrite H2; auto).
      rewrite (subval_delete _ r vk x Hrv), Hv in Heq. rewrite powval_defined; [lra|].
      intros ->. apply (Hpd o c vk x); auto. apply lookup_In. exists i. exact Hj.
  - exists r, cs. split; [rewrite list_lookup_alter_ne; auto|]. split; auto.
    intros k. destruct (Hr k) as [H1 H2]. split.
    + intros [D|[_ D]]; [auto|congruence].
    + intros D. apply H2. intros D'. apply D. left; auto.
Qed.

Lemma cs_inv_equiv (d1 d2 : nat -> nat -> Prop) st : (forall k j, d1 k j <-> d2 k j) ->
  cs_inv d1 st -> cs_inv d2 st.
Proof.
  intros Hd Hc i o c Hi. destruct (Hc i o c Hi) as (r & cs & E & Hr & Heq).
  exists r, cs. split; auto. split; auto. intros k. rewrite <- Hd. auto.
Qed.

Lemma pass_cs idxs : forall done st vk v st', tracks h done st -> cs_inv done st ->
  fixed !! vk = Some v -> List.NoDup idxs -> (forall i, In i idxs -> ~ done vk i) ->
  sub_pass inf st vk v idxs = Ok st' -> cs_inv (done_pass done vk idxs) st'.
Proof.
  induction idxs as [|i idxs IH]; intros done st vk v st' Ht Hc Hv Hni Hnd Hs; cbn [sub_pass] in Hs.
  - injection Hs as <-. eapply cs_inv_equiv; [|exact Hc]. intros k j. unfold done_pass. simpl. tauto.
  - apply rbind_ok in Hs as (st1 & E1 & Hs). inversion Hni as [|? ? Hx Hni']; subst.
    assert (cs_inv (done_step done vk i) st1) as Hc1.
    { eapply step_cs; eauto. apply Hnd; left; auto. }
    assert (tracks h (done_step done vk i) st1) as Ht1 by (eapply step_tracks; eauto).
    eapply cs_inv_equiv; [|eapply (IH _ st1); eauto].
    + intros k j. unfold done_pass, done_step. simpl. intuition (subst; auto).
    + intros j Hj [D|[_ ->]]; [|contradiction]. eapply Hnd; [right; eauto|auto].
Qed.

Lemma passes_cs sched : forall done st st', sched_ok h fixed done sched -> good h done st ->
  cs_inv done st -> sub_passes inf fixed st sched = Ok st' -> cs_inv (done_sched done sched) st'.
Proof.
  induction sched as [|[vk idxs] sched IH]; intros done st st' Hok Hg Hc Hs; cbn [sub_passes] in Hs.
  - injection Hs as <-. eapply cs_inv_equiv; [|exact Hc]. intros k j. unfold done_sched. split; auto.
    intros [D|(? & [] & _)]; auto.
  - pose proof (sched_ok_tail _ _ _ _ _ _ Hok) as Hok'. destruct Hok as [_ Ho].
    destruct (Ho vk idxs (or_introl eq_refl)) as (Hni & (v & Hv) & Hnd & Hi). rewrite Hv in Hs.
    apply rbind_ok in Hs as (st1 & E1 & Hs).
    assert (good h (done_pass done vk idxs) st1) as Hg1 by (eapply pass_good; eauto).
    assert (cs_inv (done_pass done vk idxs) st1) as Hc1 by (eapply pass_cs; eauto; apply Hg).
    eapply cs_inv_equiv; [|eapply IH; eauto].
    intros k j. unfold done_sched, done_pass. split.
    + intros [[D|[-> D]]|(is' & D1 & D2)]; [left; auto| |].
      * right. exists idxs. split; [left; auto|auto].
      * right. exists is'. split; [right; auto|auto].
    + intros [D|(is' & [E|D1] & D2)]; [left; left; auto| |].
      * injection E as -> ->. left. right. auto.
      * right. eauto.
Qed.

Lemma final_cs sched st i o c : valid_schedule fixed h sched -> nm_sub inf fixed h sched = Ok st ->
  h !! i = Some (o, c) -> s_cs st !! i = Some (c * subval fixed o).
Proof.
  intros Hv Hs Hi. pose proof (valid_sched_ok _ _ _ Hv) as Hok.
  assert (cs_inv (fun _ _ => False) (sub_init h)) as Hc0.
  { intros j oj cj Hj. exists oj, cj. cbn [sub_init s_cs].
    split; [pose proof (lookup_map snd h j) as E; unfold hmap in *; rewrite Hj in E; exact E|].
    split; [|auto]. intros k; split; [intros []|auto]. }
  pose proof (passes_cs sched _ _ _ Hok (init_good _ Hn) Hc0 Hs) as Hc.
  destruct (Hc i o c Hi) as (r & cs & E & Hr & Heq). rewrite E. f_equal.
  rewrite <- Heq. rewrite (subval_clear fixed r); [lra|].
  intros k v Hk. destruct (Hr k) as [H1 H2]. destruct (r !! k) as [y|] eqn:Er; auto.
  exfalso. assert (D : ~ done_sched (fun _ _ => False) sched k i) by (intros D; specialize (H1 D); discriminate).
  specialize (H2 D). apply D. right. destruct Hv as (_ & V2 & V3).
  assert (Hin : In k (map fst sched)).
  { apply V2. split; [eauto|]. exists o, c. split; [apply lookup_In; eauto|congruence]. }
  apply in_map_iff in Hin as ([k' idxs] & E1 & Hin). cbn in E1. subst k'.
  exists idxs. split; auto. apply (V3 _ _ Hin). exists o, c. split; auto. congruence.
Qed.

(** When no term was left behind, the fractions of every entry sum to one. *)
Lemma final_fresh_fractions sched st : valid_schedule fixed h sched ->
  nm_sub inf fixed h sched = Ok st -> s_cur st = map (fun t => surviving fixed (fst t)) h ->
  forall e c, In (e, c) (s_cp st) -> c <> 0 ->
  lsum (fun t : nat * (expv R * R) => if decide (fst (snd t) = e) then snd (snd t) / c else 0)
    (List.combine (seq 0 (length (s_cur st))) (List.combine (s_cur st) (s_cs st))) = 1.
Proof.
  intros Hv Hs Hcur e c Hin Hc.
  destruct (sub_main inf h fixed Hn Hpd sched Hv) as (st' & E' & Hg & Hcl & _).
  assert (st' = st) as -> by congruence.
  pose proof (final_coef sched st e Hv Hs) as Hf.
  rewrite (coef_get _ _ c) in Hf by (apply dget_Some; [apply Hg|auto]).
  assert (Hcs : s_cs st = map (fun t => snd t * subval fixed (fst t)) h).
  { apply list_eq. intros i. rewrite lookup_map. destruct (h !! i) as [[o ci]|] eqn:Ei.
    - pose proof (final_cs sched st i o ci Hv Hs Ei) as F. unfold hmap in *. rewrite Ei. exact F.
    - unfold hmap in *. rewrite Ei. cbn. apply lookup_ge_None. destruct Hg as [_ (_ & L2 & _) _]. apply lookup_ge_None in Ei.
      unfold hmap in *. rewrite L2. exact Ei. }
  rewrite Hcur, Hcs, map_length.
  transitivity (/ c * lsum (fun t => if decide (surviving fixed (fst t) = e) then snd t * subval fixed (fst t) else 0) h);
    [|rewrite <- Hf; field; auto].
  clear - Hc. generalize 0%nat. induction h as [|[o x] l IH]; intros n; cbn [map length seq List.combine lsum fst snd]; [lra|].
  rewrite IH. dcase D; unfold Rdiv; lra.
Qed.

(** *** No term is left behind when no two terms become like terms *)
Definition surv st : Prop := length (s_cur st) = length h /\
  forall i o c, h !! i = Some (o, c) -> exists e, s_cur st !! i = Some e /\ surviving fixed e = surviving fixed o.
Definition live st : Prop := (forall e, In e (dkeys (s_cp st)) <-> exists i, s_cur st !! i = Some e) /\
  (forall e c, In (e, c) (s_cp st) -> c <> 0).

Lemma surv_lookup st i e : surv st -> s_cur st !! i = Some e ->
  exists o c, h !! i = Some (o, c) /\ surviving fixed e = surviving fixed o.
Proof.
  intros [L Hs] Hi. destruct (h !! i) as [[o c]|] eqn:E.
  - exists o, c. split; auto. destruct (Hs i o c E) as (e' & E' & Hsv). congruence.
  - exfalso. apply lookup_ge_None in E. apply lookup_lt_Some in Hi. unfold hmap in *. lia.
Qed.

Definition no_merge : Prop := forall i j o1 c1 o2 c2, h !! i = Some (o1, c1) -> h !! j = Some (o2, c2) ->
  surviving fixed o1 = surviving fixed o2 -> i = j.

Lemma surv_inj st i j e : no_merge -> surv st -> s_cur st !! i = Some e -> s_cur st !! j = Some e -> i = j.
Proof.
  intros Hm Hs H1 H2. destruct (surv_lookup _ _ _ Hs H1) as (o1 & c1 & E1 & S1).
  destruct (surv_lookup _ _ _ Hs H2) as (o2 & c2 & E2 & S2). eapply Hm; eauto. congruence.
Qed.

Lemma step_live st vk v i st' : no_merge -> fixed !! vk = Some v -> 0 < v ->
  NoDup (dkeys (s_cp st)) -> surv st -> live st ->
  subinplace inf st vk v i = Ok st' ->
  surv st' /\ live st' /\ exists e, s_cur st !! i = Some e /\ s_cur st' = <[i := delete vk e]> (s_cur st).
Proof.
  intros Hm Hv Hv0 Hnd Hs [Hl Hz] Hst.
  destruct (step_cases _ _ _ _ _ _ Hst) as (e & x & Ee & Ex & _ & Hc).
  assert (Hin : In e (dkeys (s_cp st))) by (apply Hl; eauto).
  assert (Hs' : surv (SST (s_cp st') (s_cs st') (<[i := delete vk e]> (s_cur st)) (s_sq st'))).
  { destruct Hs as [L Hs]. split; cbn [s_cur]; [rewrite insert_length; auto|].
    intros j o c Hj. destruct (Hs j o c Hj) as (ej & Ej & Sj). destruct (decide (i = j)) as [->|Hne].
    - exists (delete vk e). rewrite list_lookup_insert by (eapply lookup_lt_Some; eauto).
      split; auto. rewrite (surviving_delete fixed e vk v Hv). congruence.
    - exists ej. rewrite list_lookup_insert_ne; auto. }
  destruct Hc as [(c & Hc & Ecur & Hcase)|(Hno & _)].
  2:{ exfalso. apply dget_None in Hno. contradiction. }
  assert (Hnew : dget (ddel (s_cp st) e) (delete vk e) = None).
  { apply dget_None. rewrite dkeys_ddel_In_NoDup by auto. intros [H2 H1].
    apply Hl in H1 as (j & Hj).
    assert (j = i).
    { destruct (surv_lookup _ _ _ Hs Ee) as (o1 & c1 & E1 & S1).
      destruct (surv_lookup _ _ _ Hs Hj) as (o2 & c2 & E2 & S2). eapply Hm; eauto.
      rewrite <- S1, <- S2. apply (surviving_delete fixed e vk v Hv). }
    subst j. congruence. }
  destruct Hcase as [(cv & Hcv & _)|(_ & Esq & Ecp)]; [congruence|].
  assert (Hpv : powval inf v x * c <> 0).
  { rewrite powval_defined by lra. apply Rmult_integral_contrapositive_currified.
    - rewrite Rpow_pos by auto. pose proof (exp_pos (x * ln v)). unfold Rpower. lra.
    - apply (Hz e). apply dget_In; auto. }
  rewrite decide_False in Ecp by auto.
  assert (Ecp' : s_cp st' = dset (ddel (s_cp st) e) (delete vk e) (powval inf v x * c)).
  { rewrite Ecp. destruct (dset _ _ _) eqn:Ed; auto. exfalso.
    assert (Hk : dget (dset (ddel (s_cp st) e) (delete vk e) (powval inf v x * c)) (delete vk e) = Some (powval inf v x * c))
      by apply dget_dset_eq. rewrite Ed in Hk. discriminate. }
  split; [split; [rewrite Ecur; apply Hs'|intros; rewrite Ecur; eapply Hs'; eauto]|].
  split; [|exists e; auto]. split.
  - intros y. rewrite Ecp', Ecur, dkeys_dset_In, dkeys_ddel_In_NoDup by auto. split.
    + intros [->|[H2 H1]].
      * exists i. apply list_lookup_insert. eapply lookup_lt_Some; eauto.
      * apply Hl in H1 as (j & Hj). exists j. rewrite list_lookup_insert_ne; auto. congruence.
    + intros (j & Hj). destruct (decide (i = j)) as [<-|Hne].
      * rewrite list_lookup_insert in Hj by (eapply lookup_lt_Some; eauto). left. congruence.
      * rewrite list_lookup_insert_ne in Hj by auto. right. split; [|apply Hl; eauto].
        intros ->. apply Hne. exact (surv_inj st i j e Hm Hs Ee Hj).
  - intros y cy Hy. rewrite Ecp' in Hy. apply In_dset in Hy as [E|Hy].
    + injection E as -> ->. auto.
    + apply In_ddel in Hy. eauto.
Qed.


(** Every processed variable is gone from the terms it was processed for. *)
Definition gone (done : nat -> nat -> Prop) st : Prop :=
  forall i k e, done k i -> s_cur st !! i = Some e -> e !! k = None.

Lemma pass_live idxs : forall done st vk v st', no_merge -> fixed !! vk = Some v -> 0 < v ->
  NoDup (dkeys (s_cp st)) -> surv st -> live st -> gone done st ->
  sub_pass inf st vk v idxs = Ok st' ->
  NoDup (dkeys (s_cp st')) /\ surv st' /\ live st' /\ gone (done_pass done vk idxs) st'.
Proof.
  induction idxs as [|i idxs IH]; intros done st vk v st' Hm Hv Hv0 Hnd Hs Hl Hg Hst; cbn [sub_pass] in Hst.
  - injection Hst as <-. split; auto. split; auto. split; auto.
    intros j k e [D|[_ []]]. eauto.
  - apply rbind_ok in Hst as (st1 & E1 & Hst).
    destruct (step_live _ _ _ _ _ Hm Hv Hv0 Hnd Hs Hl E1) as (Hs1 & Hl1 & e0 & Ee0 & Ecur).
    assert (Hg1 : gone (done_step done vk i) st1).
    { intros j k e D Ej. rewrite Ecur in Ej. destruct (decide (i = j)) as [<-|Hne].
      - rewrite list_lookup_insert in Ej by (eapply lookup_lt_Some; eauto). injection Ej as <-.
        destruct (decide (vk = k)) as [<-|Hk]; [apply lookup_delete|].
        rewrite lookup_delete_ne by auto. destruct D as [D|[-> _]]; [eauto|congruence].
      - rewrite list_lookup_insert_ne in Ej by auto. destruct D as [D|[_ ->]]; [eauto|congruence]. }
    destruct (IH _ _ _ _ _ Hm Hv Hv0 (step_NoDup_cp _ _ _ _ _ _ Hnd E1) Hs1 Hl1 Hg1 Hst)
      as (A & B & C & D).
    split; auto. split; auto. split; auto.
    intros j k e Hd. apply D. destruct Hd as [Hd|[-> [<-|Hd]]]; [left; left; auto|left; right; auto|right; auto].
Qed.

Lemma passes_live sched : forall done st st', no_merge -> (forall k v, fixed !! k = Some v -> 0 < v) ->
  NoDup (dkeys (s_cp st)) -> surv st -> live st -> gone done st ->
  sub_passes inf fixed st sched = Ok st' ->
  surv st' /\ gone (done_sched done sched) st'.
Proof.
  induction sched as [|[vk idxs] sched IH]; intros done st st' Hm Hpos Hnd Hs Hl Hg Hst; cbn [sub_passes] in Hst.
  - injection Hst as <-. split; auto. intros j k e [D|(? & [] & _)]. eauto.
  - destruct (fixed !! vk) as [v|] eqn:Hv; [|discriminate]. apply rbind_ok in Hst as (st1 & E1 & Hst).
    destruct (pass_live _ _ _ _ _ _ Hm Hv (Hpos _ _ Hv) Hnd Hs Hl Hg E1) as (A & B & C & D).
    destruct (IH _ _ _ Hm Hpos A B C D Hst) as (F & G). split; auto.
    intros j k e Hd. apply G. destruct Hd as [Hd|(is' & [E|Hd1] & Hd2)].
    + left; left; auto.
    + injection E as -> ->. left; right; auto.
    + right. eauto.
Qed.

Lemma gone_fresh sched st : valid_schedule fixed h sched -> tracks h (done_sched (fun _ _ => False) sched) st -> surv st ->
  gone (done_sched (fun _ _ => False) sched) st -> 
  s_cur st = map (fun t => surviving fixed (fst t)) h.
Proof.
  intros (_ & V2 & V3) (_ & _ & Ht) [L Hs] Hg. apply list_eq. intros i. rewrite lookup_map.
  destruct (h !! i) as [[o c]|] eqn:Ei; unfold hmap in *; rewrite Ei; cbn.
  - destruct (Hs i o c Ei) as (e & Ee & Hsv). rewrite Ee. f_equal.
    transitivity (surviving fixed e); [|exact Hsv]. symmetry. apply surviving_clear.
    intros k v Hk. destruct (o !! k) as [x|] eqn:Ho.
    + eapply Hg; [|eauto]. right.
      assert (Hin : In k (map fst sched)).
      { apply V2. split; [eauto|]. exists o, c. split; [apply lookup_In; eauto|congruence]. }
      apply in_map_iff in Hin as ([k' idxs] & E1 & Hin). cbn in E1. subst k'.
      exists idxs. split; auto. apply (V3 _ _ Hin). exists o, c. split; auto. congruence.
    + destruct (Ht i o c Ei) as (e' & Ee' & Hk'). assert (e' = e) as -> by congruence.
      destruct (Hk' k) as [E|[E _]]; congruence.
  - apply lookup_ge_None. apply lookup_ge_None in Ei. lia.
Qed.

Lemma no_merge_fresh sched st : no_merge -> (forall k v, fixed !! k = Some v -> 0 < v) ->
  (forall e c, In (e, c) h -> c <> 0) -> valid_schedule fixed h sched ->
  nm_sub inf fixed h sched = Ok st -> s_cur st = map (fun t => surviving fixed (fst t)) h.
Proof.
  intros Hm Hpos Hz Hv Hs.
  destruct (sub_main inf h fixed Hn Hpd sched Hv) as (st' & E' & Hg & Hcl & _).
  assert (st' = st) as -> by congruence.
  assert (S0 : surv (sub_init h)).
  { split; cbn [sub_init s_cur]; [apply map_length|]. intros i o c Hi. exists o. split; auto.
    rewrite lookup_map. unfold hmap in *. rewrite Hi. reflexivity. }
  assert (L0 : live (sub_init h)).
  { split; cbn [sub_init s_cp s_cur]; [|auto]. intros e. unfold dkeys. apply lookup_In. }
  destruct (passes_live sched (fun _ _ => False) (sub_init h) st Hm Hpos Hn S0 L0 (fun i k e D => False_ind _ D) Hs) as (A & B).
  eapply gone_fresh; eauto. eapply tracks_impl; [|apply Hg].
  intros k j Hd. right. exact Hd.
Qed.

(** *** No term is left behind when a single variable is substituted *)
Lemma pass_single idxs : forall st vk v st', List.NoDup idxs -> NoDup (dkeys (s_cp st)) ->
  (forall i, In i idxs -> exists e, s_cur st !! i = Some e /\ e !! vk <> None /\ In e (dkeys (s_cp st))) ->
  (forall i j e, In i idxs -> In j idxs -> s_cur st !! i = Some e -> s_cur st !! j = Some e -> i = j) ->
  sub_pass inf st vk v idxs = Ok st' ->
  forall j, s_cur st' !! j = if in_dec Nat.eq_dec j idxs then option_map (delete vk) (s_cur st !! j) else s_cur st !! j.
Proof.
  induction idxs as [|i idxs IH]; intros st vk v st' Hni Hnd Hin Hinj Hst j; cbn [sub_pass] in Hst.
  - injection Hst as <-. reflexivity.
  - apply rbind_ok in Hst as (st1 & E1 & Hst). inversion Hni as [|? ? Hx Hni']; subst.
    destruct (Hin i (or_introl eq_refl)) as (e & Ee & Hev & Hek).
    assert (Hc : s_cur st1 = <[i := delete vk e]> (s_cur st) /\
                 (forall y, y !! vk <> None -> y <> e -> In y (dkeys (s_cp st)) -> In y (dkeys (s_cp st1)))).
    { destruct (step_cases _ _ _ _ _ _ E1) as (e' & x & Ee' & Ex & _ & Hc). assert (e' = e) as -> by congruence.
      assert (NE : forall (d : hmap R) y, In y (dkeys d) -> In y (dkeys (never_empty d))) by (intros [|]; simpl; tauto).
      destruct Hc as [(c & Hc & Ecur & Hcase)|(Hno & _)].
      2:{ exfalso. apply dget_None in Hno. contradiction. }
      split; auto. intros y Hy Hye Hyk.
      assert (Hyd : y <> delete vk e) by (intros ->; apply Hy, lookup_delete).
      pose proof (NoDup_ddel _ e Hnd) as Hnd1.
      assert (In y (dkeys (ddel (s_cp st) e))) as H1 by (apply dkeys_ddel_In_NoDup; auto).
      destruct Hcase as [(cv & Hcv & _ & ->)|(_ & _ & ->)]; apply NE; dcase D;
        rewrite ?dkeys_dset_In; auto. apply dkeys_ddel_In_NoDup; auto. }
    destruct Hc as [Ecur Hkeep].
    rewrite (fun A B => IH _ _ _ _ Hni' (step_NoDup_cp _ _ _ _ _ _ Hnd E1) A B Hst).
    + rewrite Ecur. destruct (decide (i = j)) as [<-|Hne].
      * rewrite list_lookup_insert by (eapply lookup_lt_Some; eauto).
        destruct (in_dec Nat.eq_dec i idxs); [contradiction|].
        destruct (in_dec Nat.eq_dec i (i :: idxs)) as [|N]; [rewrite Ee; reflexivity|].
        exfalso. apply N. left; auto.
      * rewrite list_lookup_insert_ne by auto.
        destruct (in_dec Nat.eq_dec j idxs), (in_dec Nat.eq_dec j (i :: idxs)) as [N|N]; auto.
        -- exfalso. apply N. right; auto.
        -- destruct N; [congruence|contradiction].
    + intros k Hk. destruct (Hin k (or_intror Hk)) as (ek & Eek & Hekv & Hekk).
      assert (i <> k) by (intros ->; contradiction).
      exists ek. rewrite Ecur, list_lookup_insert_ne by auto. split; auto. split; auto.
      apply Hkeep; auto. intros ->. apply H. eapply Hinj; eauto; [left; auto|right; auto].
    + intros k l ek Hk Hl. rewrite Ecur, !list_lookup_insert_ne by (intros ->; contradiction).
      apply Hinj; right; auto.
Qed.

Lemma single_fresh k0 v0 sched st : fixed = {[k0 := v0]} -> valid_schedule fixed h sched ->
  nm_sub inf fixed h sched = Ok st -> s_cur st = map (fun t => surviving fixed (fst t)) h.
Proof.
  intros Hf Hv Hs. pose proof Hv as (V1 & V2 & V3).
  destruct (sub_main inf h fixed Hn Hpd sched Hv) as (st' & E' & Hg & Hcl & _).
  assert (st' = st) as -> by congruence.
  assert (Hl : forall i j o c1 c2, h !! i = Some (o, c1) -> h !! j = Some (o, c2) -> i = j).
  { intros i j o c1 c2 Hi Hj. apply (NoDup_lookup (dkeys h) i j o Hn);
      unfold dkeys; rewrite lookup_map; unfold hmap in *; [rewrite Hi|rewrite Hj]; reflexivity. }
  assert (Hone : forall k, In k (map fst sched) -> k = k0).
  { intros k Hk. apply V2 in Hk as [(v & E) _]. rewrite Hf in E. apply lookup_singleton_Some in E as [<- _]. auto. }
  apply list_eq. intros i. rewrite lookup_map.
  destruct (h !! i) as [[o c]|] eqn:Ei; unfold hmap in *; rewrite Ei; cbn.
  2:{ apply lookup_ge_None. apply lookup_ge_None in Ei. destruct Hg as [_ (L1 & _) _].
      unfold hmap in *. rewrite L1. exact Ei. }
  assert (Hsv : surviving fixed o = delete k0 o).
  { apply map_eq. intros k. apply option_eq. intros x. unfold surviving. rewrite Hf.
    rewrite lookup_difference_Some, lookup_delete_Some, lookup_singleton_None. tauto. }
  transitivity (Some (delete k0 o)); [|f_equal; symmetry; exact Hsv].
  destruct sched as [|[vk idxs] [|[vk' idxs'] sched]].
  - cbn in Hs. injection Hs as <-. cbn [sub_init s_cur]. rewrite lookup_map. unfold hmap in *. rewrite Ei. cbn.
    f_equal. symmetry. apply delete_notin. destruct (o !! k0) eqn:E; auto. exfalso.
    apply (proj2 (V2 k0)). split; [rewrite Hf; exists v0; apply lookup_singleton|].
    exists o, c. split; [apply lookup_In; eauto|congruence].
  - assert (vk = k0) as -> by (apply Hone; left; auto).
    unfold nm_sub in Hs. cbn [sub_passes] in Hs. rewrite Hf, lookup_singleton in Hs.
    apply rbind_ok in Hs as (st1 & E1 & Hs). injection Hs as <-.
    destruct (V3 k0 idxs (or_introl eq_refl)) as [Hni Hi].
    assert (Ecur : forall j, s_cur (sub_init h) !! j = option_map fst (h !! j)) by (intros; apply lookup_map).
    pose proof (pass_single idxs (sub_init h) k0 v0 st1) as P.
    rewrite P; auto.
    + rewrite Ecur. unfold hmap in *. rewrite Ei. cbn. destruct (in_dec Nat.eq_dec i idxs) as [D|D]; auto.
      f_equal. symmetry. apply delete_notin. destruct (o !! k0) eqn:E; auto. exfalso. apply D.
      apply Hi. exists o, c. split; auto. congruence.
    + apply NoDup_ListNoDup; auto.
    + intros j Hj. apply Hi in Hj as (e & cj & Ej & Hek). exists e. rewrite Ecur. unfold hmap in *. rewrite Ej.
      split; auto. split; auto. cbn [sub_init s_cp]. unfold dkeys. apply lookup_In.
      exists j. rewrite lookup_map. rewrite Ej. reflexivity.
    + intros a b e Ha Hb. rewrite !Ecur. apply Hi in Ha as (ea & ca & Ea & _). apply Hi in Hb as (eb & cb & Eb & _).
      unfold hmap in *. rewrite Ea, Eb. cbn. intros [= ->] [= ->]. eapply Hl; eauto.
  - exfalso. assert (vk = k0) by (apply Hone; left; auto). assert (vk' = k0) by (apply Hone; right; left; auto).
    subst. cbn in V1. inversion V1 as [|? ? Hx]; subst. apply Hx. left.
Qed.
End Fractions.
