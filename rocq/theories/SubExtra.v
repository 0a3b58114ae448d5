(** More about substitution: zeros (C10), fractions (C11), a checker for
    schedules used by the examples. *)
From Verif Require Import Base HashVec HashVecProofs Nomial NomialSem NomialProofs CanonProofs Sub SubSem SubProofs XNum.
Open Scope R_scope.

Lemma Rpow_zero_pos x : 0 < x -> Rpow 0 x = 0.
Proof. intros Hx. unfold Rpow. destruct (Rlt_dec 0 0); [lra|]. destruct (Req_EM_T 0 0); [|lra].
  destruct (Req_EM_T x 0); lra. Qed.
Lemma Rpow_one x : Rpow 1 x = 1.
Proof. rewrite Rpow_pos by lra. unfold Rpower. rewrite ln_1, Rmult_0_r. apply exp_0. Qed.

Lemma subval_mono_valp fixed o : subval fixed o = mono_valp (override (fun _ => 1) fixed) o.
Proof.
  induction o as [|k a o Hk IH] using map_ind.
  - unfold subval, mono_valp. rewrite !map_fold_empty. auto.
  - rewrite subval_insert, mono_valp_insert, IH by auto. unfold override at 2.
    destruct (fixed !! k); auto. rewrite Rpow_one. auto.
Qed.

Lemma zero_removes inf (h : hmap R) k sched : canonical h ->
  (forall e c x, In (e, c) h -> e !! k = Some x -> 0 < x) -> valid_schedule {[k := 0]} h sched ->
  exists st, nm_sub inf {[k := 0]} h sched = Ok st /\
    forall e, coef (s_cp st) e = if decide (e !! k = None) then coef h e else 0.
Proof.
  intros [Hn Hc] Hp Hv.
  assert (Hpd : powers_defined {[k := 0]} h).
  { intros e c k' x Hin Hx Hk. apply lookup_singleton_Some in Hk as [<- _]. left. eapply Hp; eauto. }
  destruct (sub_main inf h {[k := 0]} Hn Hpd sched Hv) as (st & E & _). exists st. split; auto.
  intros e. rewrite (final_coef inf h {[k := 0]} Hn Hpd sched st e Hv E).
  assert (S : forall (o : expv R) x, (surviving {[k := 0]} o) !! k <> Some x).
  { intros o x Hs. unfold surviving in Hs. apply lookup_difference_Some in Hs as [_ Hs].
    rewrite lookup_singleton in Hs. discriminate. }
  dcase D.
  - rewrite <- (lsum_single h e) by auto. apply lsum_ext. intros [o c] Hin. cbn [fst snd].
    destruct (o !! k) as [x|] eqn:Ho.
    + assert (o <> e) as Hne by congruence. rewrite (decide_False (P := o = e)) by auto.
      dcase D2; auto. rewrite (subval_delete _ _ _ _ Ho), lookup_singleton, Rpow_zero_pos; [lra|eapply Hp; eauto].
    + assert (Hcl : forall k' v, ({[k := 0]} : gmap nat R) !! k' = Some v -> o !! k' = None).
      { intros k' v Hk. apply lookup_singleton_Some in Hk as [<- _]. auto. }
      rewrite (surviving_clear _ o Hcl), (subval_clear _ o Hcl). dcase D2; lra.
  - transitivity (lsum (fun _ => 0) h); [|apply lsum_zero]. apply lsum_ext. intros [o c] _. cbn [fst snd].
    dcase D2; auto. exfalso. destruct (e !! k) as [x|] eqn:Ek; [|congruence]. apply (S o x). congruence.
Qed.

Lemma zero_nan (e : expv xnum) (c x : Q) k : e !! k = Some (Fin x) -> (x < 0)%Q ->
  exists st, nm_sub PInf {[k := Fin 0]} [(e, Fin c)] [(k, [0%nat])] = Ok st /\
    s_cp st = [(delete k e, NaN)] /\ classify (s_cp st) = CMonomial.
Proof.
  intros He Hx.
  assert (P : powval PInf (Fin 0) (Fin x) = NaN).
  { unfold powval. cbn [n0 X_num nleb xleb]. rewrite bool_decide_true by auto.
    destruct (Qle_bool 0 x) eqn:El; [|reflexivity]. apply Qle_bool_iff in El. exfalso.
    apply (Qlt_irrefl 0). eapply Qle_lt_trans; eauto. }
  eexists. split.
  - unfold nm_sub, sub_init. cbn [sub_passes map fst snd]. rewrite lookup_singleton.
    cbn [sub_pass]. unfold subinplace. cbn [s_cur s_cp s_cs s_sq lookup list_lookup].
    rewrite He. cbn [dget]. rewrite (decide_True (P := e = e)) by auto. cbn [ddel].
    rewrite (decide_True (P := e = e)) by auto. cbn [dget]. rewrite P. cbn [nmul X_num xmul n0].
    rewrite (decide_False (P := NaN = Fin 0)) by discriminate. cbn [rbind]. reflexivity.
  - cbn [s_cp dset never_empty]. split; reflexivity.
Qed.

Lemma lookup_combine {A B} (l1 : list A) (l2 : list B) n a b :
  List.combine l1 l2 !! n = Some (a, b) <-> l1 !! n = Some a /\ l2 !! n = Some b.
Proof.
  revert l2 n. induction l1 as [|x l1 IH]; intros [|y l2] [|n]; cbn; try (intuition discriminate).
  - split; [intros [= -> ->]; auto|intros [[= ->] [= ->]]; auto].
  - apply IH.
Qed.

(** Fractions *)
Lemma fresh_mmap inf h fixed sched st : NoDup (dkeys h) -> powers_defined fixed h ->
  valid_schedule fixed h sched -> nm_sub inf fixed h sched = Ok st ->
  s_cur st = map (fun t => surviving fixed (fst t)) h ->
  (forall e c, In (e, c) (s_cp st) -> c <> 0) ->
  fractions_right fixed h (s_cp st) (mmap st).
Proof.
  intros Hn Hpd Hv Hs Hcur Hz. split; [unfold mmap; apply map_length|].
  intros n e c Hne.
  assert (Hin : In (e, c) (s_cp st)) by (apply lookup_In; eauto).
  set (fr := flat_map (fun t : nat * (expv R * R) => let '(i, (cu, cs)) := t in
      if decide (cu = e) then [(i, ndiv cs c)] else [])
    (List.combine (seq 0 (length (s_cur st))) (List.combine (s_cur st) (s_cs st)))).
  exists fr. split.
  { unfold mmap. pose proof (lookup_map (fun ec : expv R * R =>
    flat_map (fun t : nat * (expv R * R) =>
      let '(i, (cu, cs)) := t in
      if decide (cu = fst ec) then [(i, ndiv cs (snd ec))] else [])
    (List.combine (seq 0 (length (s_cur st))) (List.combine (s_cur st) (s_cs st)))) (s_cp st) n) as E.
    unfold hmap in *. rewrite Hne in E. exact E. }
  split.
  - rewrite <- (final_fresh_fractions inf h fixed Hn Hpd sched st Hv Hs Hcur e c Hin (Hz _ _ Hin)).
    unfold fr. generalize (List.combine (seq 0 (length (s_cur st))) (List.combine (s_cur st) (s_cs st))).
    induction l as [|[i [cu cs]] l IH]; cbn [flat_map lsum fst snd]; auto.
    rewrite <- IH. dcase D; cbn [app lsum snd]; [reflexivity|lra].
  - assert (Hcs : forall i o ci, h !! i = Some (o, ci) -> s_cs st !! i = Some (ci * subval fixed o))
      by (intros; eapply final_cs; eauto).
    assert (Hlen : length (s_cs st) = length h).
    { destruct (sub_main inf h fixed Hn Hpd sched Hv) as (st' & E' & Hg & _).
      assert (st' = st) as -> by congruence. destruct Hg as [_ (_ & L2 & _) _]. exact L2. }
    intros i q. unfold fr. rewrite in_flat_map. split.
    + intros ([j [cu cs]] & Hj & Hq). destruct (decide (cu = e)) as [->|]; [|destruct Hq].
      destruct Hq as [[= <- <-]|[]]. apply lookup_In in Hj as (m & Hm).
      apply lookup_combine in Hm as [H1 Hm]. apply lookup_combine in Hm as [H2 H3].
      apply lookup_seq in H1 as [-> _]. cbn [Nat.add] in *.
      rewrite Hcur, lookup_map in H2. destruct (h !! m) as [[o ci]|] eqn:Em; [|discriminate].
      cbn in H2. injection H2 as H2. exists o, ci. split; auto. split; auto.
      rewrite (Hcs m o ci Em) in H3. injection H3 as <-. unfold share. rewrite <- subval_mono_valp. reflexivity.
    + intros (o & ci & Hi & Hsv & ->). exists (i, (e, ci * subval fixed o)). split.
      * apply lookup_In. exists i. apply lookup_combine. split.
        -- apply lookup_seq. split; auto. rewrite Hcur, map_length. apply lookup_lt_Some in Hi. exact Hi.
        -- apply lookup_combine. split; [|eauto]. rewrite Hcur, lookup_map. unfold hmap in *. rewrite Hi. cbn. f_equal. exact Hsv.
      * rewrite decide_True by auto. left. unfold share. rewrite <- subval_mono_valp. reflexivity.
Qed.

Lemma positive_nonzero inf h fixed sched st : canonical h -> all_positive h ->
  (forall k v, fixed !! k = Some v -> 0 < v) -> valid_schedule fixed h sched ->
  nm_sub inf fixed h sched = Ok st -> forall e c, In (e, c) (s_cp st) -> c <> 0.
Proof.
  intros Hc Hp Hf Hv Hs e c Hin.
  pose proof (positive_defined fixed h Hf) as Hpd.
  destruct (sub_canonical _ _ _ _ _ Hc Hpd Hv Hs) as [[_ C]|Z]; [apply (C e c Hin)|]. exfalso.
  destruct (decide (h = [])) as [->|Hne].
  - destruct sched as [|[vk idxs] s].
    + cbn in Hs. injection Hs as <-. destruct Hin.
    + destruct Hv as (_ & H2 & _). destruct (proj1 (H2 vk)) as (_ & ? & ? & [] & _). left; auto.
  - destruct (sub_main inf h fixed (proj1 Hc) Hpd sched Hv) as (st' & E' & _ & _ & Hev).
    assert (st' = st) as -> by congruence.
    specialize (Hev (fun _ => 1)). rewrite Z in Hev.
    assert (P1 : positive_point (fun _ => 1)) by (intros ?; lra).
    rewrite (evalp_pos (override (fun _ => 1) fixed)) in Hev by (apply override_positive; auto).
    pose proof (eval_all_positive (override (fun _ => 1) fixed) h Hp Hne).
    unfold zero_hmap in Hev. cbn [evalp] in Hev. lra.
Qed.

Lemma fractions_no_like inf h fixed sched st : canonical h -> all_positive h ->
  (forall k v, fixed !! k = Some v -> 0 < v) -> no_like_terms fixed h ->
  valid_schedule fixed h sched -> nm_sub inf fixed h sched = Ok st ->
  fractions_right fixed h (s_cp st) (mmap st).
Proof.
  intros Hc Hp Hf Hm Hv Hs. pose proof (positive_defined fixed h Hf) as Hpd.
  eapply fresh_mmap; eauto; [apply Hc| |eapply positive_nonzero; eauto].
  eapply no_merge_fresh; eauto; [apply Hc|]. intros e c Hin. apply (proj2 Hc e c Hin).
Qed.

Lemma fractions_single inf h k v sched st : canonical h -> all_positive h -> 0 < v ->
  valid_schedule {[k := v]} h sched -> nm_sub inf {[k := v]} h sched = Ok st ->
  fractions_right {[k := v]} h (s_cp st) (mmap st).
Proof.
  intros Hc Hp Hf Hv Hs.
  assert (Hf' : forall k' v', ({[k := v]} : gmap nat R) !! k' = Some v' -> 0 < v').
  { intros k' v' Hk. apply lookup_singleton_Some in Hk as [_ <-]. auto. }
  pose proof (positive_defined _ h Hf') as Hpd.
  eapply fresh_mmap; eauto; [apply Hc| |eapply positive_nonzero; eauto].
  eapply single_fresh; eauto. apply Hc.
Qed.

(** ** A checker for schedules *)
Section Check.
Context {T : Type} `{Num T}.
Definition has (e : expv T) (k : nat) : bool := match e !! k with Some _ => true | None => false end.
Definition memb (k : nat) (l : list nat) : bool := existsb (Nat.eqb k) l.
Fixpoint nodupb (l : list nat) : bool :=
  match l with [] => true | x :: l => negb (memb x l) && nodupb l end.
Definition valid_scheduleb (fixed : expv T) (h : hmap T) (sched : schedule) : bool :=
  nodupb (map fst sched) &&
  forallb (fun k => has fixed k && existsb (fun t => has (fst t) k) h) (map fst sched) &&
  forallb (fun t => forallb (fun kx => negb (has fixed (fst kx)) || memb (fst kx) (map fst sched))
                            (map_to_list (fst t))) h &&
  forallb (fun s => nodupb (snd s) &&
     forallb (fun i => match h !! i with Some t => has (fst t) (fst s) | None => false end) (snd s) &&
     forallb (fun i => match h !! i with Some t => negb (has (fst t) (fst s)) | None => true end || memb i (snd s))
             (seq 0 (length h))) sched.

Lemma memb_In k l : memb k l = true <-> In k l.
Proof. unfold memb. rewrite existsb_exists. split; [intros (x & Hx & E); apply Nat.eqb_eq in E; subst; auto|].
  intros Hk. exists k. split; auto. apply Nat.eqb_refl. Qed.
Lemma nodupb_NoDup l : nodupb l = true -> NoDup l.
Proof.
  induction l as [|x l IH]; cbn; [constructor|]. intros E. apply andb_prop in E as [E1 E2].
  constructor; auto. intros Hx. apply elem_of_list_In, memb_In in Hx. rewrite Hx in E1. discriminate.
Qed.
Lemma has_true (e : expv T) k : has e k = true <-> e !! k <> None.
Proof. unfold has. destruct (e !! k); split; congruence. Qed.

Lemma valid_scheduleb_ok fixed h sched : valid_scheduleb fixed h sched = true -> valid_schedule fixed h sched.
Proof.
  unfold valid_scheduleb. intros E. apply andb_prop in E as [E E4]. apply andb_prop in E as [E E3].
  apply andb_prop in E as [E1 E2].
  rewrite forallb_forall in E2, E3, E4.
  split; [apply nodupb_NoDup; auto|]. split.
  - intros vk. split.
    + intros Hk. apply E2 in Hk. apply andb_prop in Hk as [Hk1 Hk2]. apply has_true in Hk1.
      split; [destruct (fixed !! vk); [eauto|congruence]|].
      apply existsb_exists in Hk2 as ([e c] & Hin & He). apply has_true in He. eauto.
    + intros ((v & Hv) & e & c & Hin & He). specialize (E3 _ Hin). rewrite forallb_forall in E3.
      destruct (e !! vk) as [x|] eqn:Ex; [|congruence].
      assert (In (vk, x) (map_to_list e)) as Hm by (apply elem_of_list_In, elem_of_map_to_list; auto).
      specialize (E3 _ Hm). cbn [fst] in E3. assert (has fixed vk = true) as Hh by (apply has_true; congruence).
      rewrite Hh in E3. cbn in E3. apply memb_In; auto.
  - intros vk idxs Hin. specialize (E4 _ Hin). cbn [fst snd] in E4. apply andb_prop in E4 as [E4 E6].
    apply andb_prop in E4 as [E4 E5]. rewrite forallb_forall in E5, E6.
    split; [apply nodupb_NoDup; auto|]. intros i. split.
    + intros Hi. specialize (E5 _ Hi). destruct (h !! i) as [[e c]|]; [|discriminate].
      apply has_true in E5. eauto.
    + intros (e & c & Hi & He). assert (In i (seq 0 (length h))) as Hs.
      { apply in_seq. split; [lia|]. apply lookup_lt_Some in Hi. exact Hi. }
      specialize (E6 _ Hs). rewrite Hi in E6. apply has_true in He. cbn [fst] in E6. rewrite He in E6.
      apply memb_In. exact E6.
Qed.
End Check.

(** ** A valid schedule always exists: insertion order *)
Section Std.
Context {T : Type} `{Num T}.
Definition std_schedule (fixed : expv T) (h : hmap T) : schedule :=
  map (fun k => (k, List.filter (fun i => match h !! i with Some t => has (fst t) k | None => false end)
                                (seq 0 (length h))))
    (List.filter (has fixed) (nodup Nat.eq_dec (flat_map (fun t => map fst (map_to_list (fst t))) h))).

Lemma std_schedule_keys fixed h : map fst (std_schedule fixed h) =
  List.filter (has fixed) (nodup Nat.eq_dec (flat_map (fun t => map fst (map_to_list (fst t))) h)).
Proof. unfold std_schedule. rewrite map_map. apply map_id. Qed.

Lemma std_schedule_valid fixed h : valid_schedule fixed h (std_schedule fixed h).
Proof.
  split; [|split].
  - rewrite std_schedule_keys. apply NoDup_ListNoDup. apply List.NoDup_filter, NoDup_nodup.
  - intros vk. rewrite std_schedule_keys, filter_In, nodup_In, in_flat_map, has_true. split.
    + intros [([e c] & Hin & Hk) Hf]. cbn [fst] in Hk. apply in_map_iff in Hk as ([k x] & E & Hk). cbn in E. subst k.
      apply elem_of_list_In, elem_of_map_to_list in Hk.
      split; [destruct (fixed !! vk); [eauto|congruence]|]. exists e, c. split; auto. congruence.
    + intros [(v & Hv) (e & c & Hin & He)]. split; [|congruence]. exists (e, c). split; auto. cbn [fst].
      destruct (e !! vk) as [x|] eqn:E; [|congruence]. apply in_map_iff. exists (vk, x). split; auto.
      apply elem_of_list_In, elem_of_map_to_list; auto.
  - intros vk idxs Hin. unfold std_schedule in Hin. apply in_map_iff in Hin as (k & [= -> <-] & _).
    split; [apply NoDup_ListNoDup, List.NoDup_filter, seq_NoDup|]. intros i. rewrite filter_In, in_seq. split.
    + intros [_ Hi]. destruct (h !! i) as [[e c]|]; [|discriminate]. apply has_true in Hi. eauto.
    + intros (e & c & Hi & He). split; [split; [lia|apply lookup_lt_Some in Hi; exact Hi]|].
      rewrite Hi. apply has_true. exact He.
Qed.
End Std.
