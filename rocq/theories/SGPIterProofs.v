(** The iterates of a sequential geometric program (C36). *)
From Verif Require Import Base HashVec HashVecProofs Nomial NomialSem NomialProofs CanonProofs DiffProofs Sub SubSem SubProofs SubExtra
  Mono MonoProofs Constraint ConstraintSem ConstraintProofs GPGen GPGenProofs SGP SGPSem SGPProofs ApproxProofs RebuildProofs
  SGPIterSpec.
Open Scope R_scope.

(** ** Sums and products *)
Lemma total_lsum {A} (f : A -> R) l : total (map f l) = lsum f l.
Proof. unfold total. induction l as [|a l IH]; cbn [map fold_right lsum]; [auto|]. rewrite IH. auto. Qed.

Lemma product_exp {A} (f : A -> R) l : product (map (fun a => exp (f a)) l) = exp (lsum f l).
Proof.
  induction l as [|a l IH]; cbn [map lsum]; unfold product in *; cbn [fold_right]; [symmetry; apply exp_0|].
  rewrite IH, exp_plus. reflexivity.
Qed.

Lemma Rleb_true a b : Rleb a b = true <-> a <= b.
Proof. unfold Rleb. destruct (Rle_dec a b); split; auto; discriminate. Qed.

Lemma filter_interval (f : nat -> bool) s t : forall n a, (forall i, (a <= i < a + n)%nat -> f i = true <-> (s <= i < t)%nat) ->
  (a <= s)%nat -> (s <= t <= a + n)%nat -> List.filter f (seq a n) = seq s (t - s).
Proof.
  induction n as [|n IH]; intros a Hf Ha Ht; cbn [seq List.filter].
  - replace (t - s)%nat with 0%nat by lia. auto.
  - destruct (Nat.eq_dec a s) as [->|Hne].
    + destruct (Nat.eq_dec s t) as [->|Hst].
      * replace (t - t)%nat with 0%nat by lia. cbn [seq].
        assert (f t = false) as ->.
        { destruct (f t) eqn:E; auto. apply Hf in E; lia. }
        clear IH Ha Ht. assert (G : forall n a, (t < a)%nat -> (forall i, (a <= i < a + n)%nat -> f i = false) -> List.filter f (seq a n) = []).
        { clear. induction n as [|n IH]; intros a Ha Hf; cbn [seq List.filter]; auto. rewrite Hf by lia. apply IH; [lia|]. intros; apply Hf; lia. }
        apply G; [lia|]. intros i Hi. destruct (f i) eqn:E; auto. apply Hf in E; lia.
      * assert (f s = true) as -> by (apply Hf; lia). replace (t - s)%nat with (S (t - S s)) by lia. cbn [seq]. f_equal.
        clear Ha. assert (G : forall n b, (b <= t <= b + n)%nat -> (forall i, (b <= i < b + n)%nat -> f i = true <-> (i < t)%nat) ->
          List.filter f (seq b n) = seq b (t - b)).
        { clear. induction n as [|n IH]; intros b Hb Hf; cbn [seq List.filter].
          - replace (t - b)%nat with 0%nat by lia. auto.
          - destruct (Nat.eq_dec b t) as [->|].
            + assert (f t = false) as -> by (destruct (f t) eqn:E; auto; apply Hf in E; lia).
              replace (t - t)%nat with 0%nat by lia. cbn [seq].
              assert (G : forall n a, (forall i, (a <= i < a + n)%nat -> f i = false) -> List.filter f (seq a n) = []).
              { clear. induction n as [|n IH]; intros a Hf; cbn [seq List.filter]; auto. rewrite Hf by lia. apply IH. intros; apply Hf; lia. }
              apply G. intros i Hi. destruct (f i) eqn:E; auto. apply Hf in E; lia.
            + assert (f b = true) as -> by (apply Hf; lia). replace (t - b)%nat with (S (t - S b)) by lia. cbn [seq]. f_equal.
              apply IH; [lia|]. intros i Hi. apply Hf. lia. }
        apply G; [lia|]. intros i Hi. rewrite Hf by lia. lia.
    + assert (f a = false) as -> by (destruct (f a) eqn:E; auto; apply Hf in E; lia).
      apply IH; [|lia|lia]. intros i Hi. apply Hf. lia.
Qed.

(** ** Values of nomials *)
Lemma esum_list (f : nat -> R -> R) (e : gmap nat R) : lsum (fun kx => f (fst kx) (snd kx)) (map_to_list e) = esum f e.
Proof.
  induction e as [|k x e Hk IH] using map_ind; [rewrite map_to_list_empty, esum_empty; auto|].
  rewrite (lsum_perm _ _ _ (map_to_list_insert e k x Hk)), esum_insert by auto. cbn [lsum fst snd]. rewrite IH. auto.
Qed.

Lemma term_at_val env e c : positive_point env -> term_at env (e, c) = c * mono_val env e.
Proof.
  intros He. unfold term_at. cbn [fst snd nmul R_num]. f_equal. rewrite mono_val_exp. unfold dot.
  rewrite <- esum_list, <- product_exp. f_equal. apply map_ext. intros [k x]. cbn [npow R_num fst snd].
  rewrite Rpow_pos by apply He. reflexivity.
Qed.

Lemma posy_negy_filter (h : hmap R) : NoDup (dkeys h) ->
  posy_negy h = (List.filter (fun t => Rltb 0 (snd t)) h,
                 map (fun t => (fst t, - snd t)) (List.filter (fun t => Rltb (snd t) 0) h)).
Proof.
  intros Hn. unfold posy_negy.
  assert (G : forall l py ny, NoDup (dkeys l) -> (forall e, In e (dkeys l) -> ~ In e (dkeys py) /\ ~ In e (dkeys ny)) ->
    fold_left (fun '(py, ny) (t : expv R * R) => let '(e, c) := t in
      if nltb n0 c then (dset py e c, ny) else if nltb c n0 then (py, dset ny e (nopp c)) else (py, ny)) l (py, ny) =
    (py ++ List.filter (fun t => Rltb 0 (snd t)) l, ny ++ map (fun t => (fst t, - snd t)) (List.filter (fun t => Rltb (snd t) 0) l))).
  { clear. induction l as [|[e c] l IH]; intros py ny Hn Hf; cbn [fold_left List.filter map]; [rewrite !app_nil_r; auto|].
    inversion Hn as [|? ? Hx Hn']; subst. destruct (Hf e (or_introl eq_refl)) as [F1 F2].
    assert (Hx' : ~ In e (dkeys l)) by (intros Hi; apply Hx, elem_of_list_In; exact Hi).
    cbn [nltb n0 R_num snd fst]. destruct (Rltb 0 c) eqn:E1.
    - assert (Rltb c 0 = false) as ->.
      { destruct (Rltb c 0) eqn:E; auto. apply Rltb_true in E, E1. lra. }
      rewrite IH; auto.
      + rewrite dset_absent_app, <- app_assoc by auto. reflexivity.
      + intros e' He'. destruct (Hf e' (or_intror He')) as [G1 G2]. split; auto. rewrite dset_absent_app by auto.
        unfold dkeys. rewrite map_app, in_app_iff. cbn. intros [Hc|[<-|[]]]; auto.
    - destruct (Rltb c 0) eqn:E2.
      + rewrite IH; auto.
        * rewrite (dset_absent_app ny), <- app_assoc by auto. reflexivity.
        * intros e' He'. destruct (Hf e' (or_intror He')) as [G1 G2]. split; auto. rewrite dset_absent_app by auto.
          unfold dkeys. rewrite map_app, in_app_iff. cbn. intros [Hc|[<-|[]]]; auto.
      + apply IH; auto. intros e' He'. apply (Hf e' (or_intror He')). }
  rewrite G; auto. 
Qed.

Lemma lsum_filter' {A} (F : A -> R) (b : A -> bool) l : lsum F (List.filter b l) = lsum (fun a => if b a then F a else 0) l.
Proof. induction l as [|a l IH]; cbn [List.filter lsum]; auto. destruct (b a); cbn [lsum]; rewrite IH; lra. Qed.

Lemma sides (h P N : hmap R) env : NoDup (dkeys h) -> posy_negy h = (P, N) -> positive_point env ->
  lesser_side env h = eval env P /\ greater_side env h = eval env N.
Proof.
  intros Hn E He. rewrite posy_negy_filter in E by auto. injection E as <- <-. unfold lesser_side, greater_side.
  rewrite !total_lsum, !eval_lsum, lsum_map, !lsum_filter'. split; apply lsum_ext; intros [e c] _; cbn [fst snd nltb n0 R_num].
  - rewrite term_at_val by auto. auto.
  - rewrite term_at_val by auto. cbn [nopp R_num]. destruct (Rltb c 0); auto. ring.
Qed.

Lemma at_most_le tol a b : at_most (T := R) tol a b <-> a <= (1 + tol) * b.
Proof. unfold at_most. cbn. apply Rleb_true. Qed.

(** ** The posynomials the solver sees *)
Lemma posy_at_eval ord n hs g ai vals env p b h : (forall e, List.NoDup (ord e) /\ forall k, In k (ord e) <-> e !! k <> None) ->
  minv ord n hs g ai -> length vals = length (g_varlocs g) -> (forall x, In x vals -> 0 < x) ->
  (forall j k, dkeys (g_varlocs g) !! j = Some k -> vals !! j = Some (env k)) ->
  hs !! p = Some (b, h) -> posy_at g vals p = eval env h.
Proof.
  intros Hord M Hlen Hpos Henv Hp.
  assert (Hrow : forall i e c, terms hs !! i = Some (e, c) -> row_at g vals i = c * mono_val env e).
  { intros i e c Ht. unfold row_at. cbn [nmul n0 n1 R_num]. f_equal.
    - rewrite (mi_cs _ _ _ _ _ M). apply nth_lookup_Some. rewrite list_lookup_fmap. unfold hmap in *. rewrite Ht. auto.
    - rewrite mono_val_exp.
      assert (Hv : forall j, ln (nth j vals 1) = column g (fun v => ln (env v)) j).
      { intros j. unfold column. destruct (dkeys (g_varlocs g) !! j) as [k|] eqn:Ek.
        - rewrite (nth_lookup_Some vals j 1 (env k)) by (apply Henv; auto). auto.
        - rewrite nth_overflow; [apply ln_1|]. apply lookup_ge_None in Ek. unfold dkeys in Ek. rewrite map_length in Ek. lia. }
      assert (Hp1 : forall j, 0 < nth j vals 1).
      { intros j. destruct (nth_in_or_default j vals 1) as [Hin| ->]; [auto|lra]. }
      rewrite (map_ext _ (fun t : nat * nat * R => exp (snd t * ln (nth (snd (fst t)) vals 1)))).
      2:{ intros t. cbn [npow R_num]. rewrite Rpow_pos by apply Hp1. reflexivity. }
      rewrite product_exp. f_equal.
      transitivity (coo_dot (g_coo g) (column g (fun v => ln (env v))) i).
      + rewrite coo_dot_lsum. unfold coo_row. rewrite lsum_filter'. apply lsum_ext. intros t _. rewrite Hv. auto.
      + rewrite (minv_dot ord Hord n hs g ai (fun v => ln (env v)) i e c M Ht). unfold dot.
        destruct (Hord e) as [H1 H2]. symmetry. apply (esum_cover (fun k x => x * ln (env k))); [intros; lra|auto|].
        intros k x Hk. apply H2. congruence. }
  unfold posy_at. rewrite total_lsum, (mi_pidxs _ _ _ _ _ M).
  assert (Hl : (p < length hs)%nat) by (eapply lookup_lt_Some; eauto).
  pose proof (terms_slice hs p b h Hp) as Hs. 
  rewrite (filter_interval _ (length (terms (take p hs))) (length (terms (take p hs)) + length h)).
  - replace (_ + _ - _)%nat with (length h) by lia. rewrite eval_lsum. apply lsum_seq_terms.
    intros m [e c] Hm. cbn [fst snd]. apply Hrow. rewrite Hs. unfold hmap in *. rewrite lookup_app_r by lia. replace (_ + _ - _)%nat with m by lia.
    apply lookup_app_l_Some. auto.
  - intros i Hi. rewrite Nat.eqb_eq, Nat.add_0_l in *.
    assert (Em : midx_spec hs !! p = Some (length (terms (take p hs)), (length (terms (take p hs)) + length h)%nat)).
    { unfold midx_spec. rewrite list_lookup_fmap, lookup_seq_lt by auto. cbn. f_equal. f_equal.
      rewrite (take_S_r hs p (b, h)) by auto. rewrite terms_snoc, app_length. auto. }
    destruct (pidx_spec hs !! i) as [q|] eqn:Eq; [|apply lookup_ge_None in Eq; lia].
    rewrite (nth_lookup_Some _ _ _ _ Eq). split.
    + intros ->. apply pidx_spec_ok in Eq as (s & t & E & Hst). rewrite Em in E. injection E as <- <-. auto.
    + intros Hst. assert (pidx_spec hs !! i = Some p) by (apply pidx_spec_ok; eauto). congruence.
  - lia.
  - rewrite pidx_length, Hs, !app_length. unfold hmap in *. lia.
Qed.

