(** Proofs about dual variables. *)
From Verif Require Import Base HashVec Nomial NomialSem NomialProofs Sub Constraint ConstraintSem ConstraintProofs GPGen GPGenProofs Dual.
Open Scope R_scope.

Lemma Reqb_true a b : Reqb a b = true <-> a = b.
Proof. unfold Reqb. destruct (Req_EM_T a b); split; congruence. Qed.
Lemma Reqb_false a b : Reqb a b = false <-> a <> b.
Proof. unfold Reqb. destruct (Req_EM_T a b); split; congruence. Qed.
Lemma Rltb_true a b : Rltb a b = true <-> a < b.
Proof. unfold Rltb. destruct (Rlt_dec a b); split; congruence. Qed.
Lemma Rltb_false a b : Rltb a b = false <-> b <= a.
Proof. unfold Rltb. destruct (Rlt_dec a b); split; try congruence; lra. Qed.

Lemma total_lsum {A} (f : A -> R) l : total (map f l) = lsum f l.
Proof. unfold total. induction l as [|a l IH]; cbn [map fold_right lsum]; auto. rewrite IH. auto. Qed.
Lemma total_nth l : total l = lsum (fun i => nth i l 0) (seq 0 (length l)).
Proof.
  rewrite <- total_lsum. f_equal. induction l as [|a l IH]; cbn; auto. f_equal. rewrite <- seq_shift, map_map. auto.
Qed.

Lemma slice_map {A} (d : A) l s n : (s + n <= length l)%nat -> slice l (s, (s + n)%nat) = map (fun i => nth i l d) (seq s n).
Proof.
  intros Hl. unfold slice. cbn [fst snd]. replace (s + n - s)%nat with n by lia.
  apply list_eq. intros k. destruct (decide (k < n)%nat) as [Hk|Hk].
  - rewrite lookup_take, lookup_drop, list_lookup_fmap, lookup_seq_lt by auto. cbn.
    destruct (l !! (s + k)%nat) as [a|] eqn:E.
    + f_equal. symmetry. apply nth_lookup_Some. auto.
    + apply lookup_ge_None in E. lia.
  - rewrite lookup_take_ge by lia. rewrite list_lookup_fmap, lookup_seq_ge by lia. auto.
Qed.

(** ** The shape of a generated program *)
Section Shape.
Variable ord : var_order R.
Hypothesis Hord : forall e, List.NoDup (ord e) /\ forall k, In k (ord e) <-> e !! k <> None.
Variable hs : list (bool * hmap R).
Variable g : gpdata R.
Hypothesis Hg : g = gen ord hs.
Let n := length (terms hs).
Let start (p : nat) := length (terms (take p hs)).
Definition size (p : nat) : nat := match hs !! p with Some bh => length (snd bh) | None => 0 end.

Lemma g_midxs_eq : g_midxs g = map (fun p => (start p, start p + size p)%nat) (seq 0 (length hs)).
Proof.
  rewrite Hg, gen_eq. cbn [g_midxs]. rewrite (gi_midxs _ _ (gen_loop_inv ord Hord hs _)). unfold midx_spec.
  apply map_ext_in. intros p Hp. apply in_seq in Hp. unfold start, size.
  destruct (hs !! p) as [bh|] eqn:E; [|apply lookup_ge_None in E; unfold hmap in *; lia].
  rewrite (take_S_r hs p bh) by auto. rewrite terms_snoc, app_length. auto.
Qed.
Lemma g_pidxs_eq : g_pidxs g = pidx_spec hs.
Proof. rewrite Hg, gen_eq. apply (gi_pidxs _ _ (gen_loop_inv ord Hord hs _)). Qed.
Lemma g_cs_eq : g_cs g = map snd (terms hs).
Proof. rewrite Hg, gen_eq. apply (gi_cs _ _ (gen_loop_inv ord Hord hs _)). Qed.
Lemma g_exps_eq : g_exps g = map fst (terms hs).
Proof. rewrite Hg, gen_eq. apply (gi_exps _ _ (gen_loop_inv ord Hord hs _)). Qed.
Lemma g_pidxs_length : length (g_pidxs g) = n.
Proof. rewrite g_pidxs_eq. apply pidx_length. Qed.
Lemma g_cs_length : length (g_cs g) = n.
Proof. rewrite g_cs_eq. apply map_length. Qed.

Lemma start_size p b h : hs !! p = Some (b, h) -> size p = length h /\ (start p + size p <= n)%nat /\ start (S p) = (start p + size p)%nat.
Proof.
  intros Hp. unfold size. rewrite Hp. cbn [snd]. split; auto.
  assert (E : start (S p) = (start p + length h)%nat).
  { unfold start. rewrite (take_S_r hs p (b, h)) by auto. rewrite terms_snoc, app_length. auto. }
  unfold hmap in *. rewrite <- E. split; [apply terms_take_le|auto].
Qed.

(** The slices cover the rows in order. *)
Lemma slices_seq : flat_map (fun p => seq (start p) (size p)) (seq 0 (length hs)) = seq 0 n.
Proof.
  assert (H : forall k, (k <= length hs)%nat -> flat_map (fun p => seq (start p) (size p)) (seq 0 k) = seq 0 (start k)).
  { induction k as [|k IH]; intros Hk; [reflexivity|].
    rewrite seq_S, flat_map_app. cbn [flat_map plus]. rewrite app_nil_r, IH by lia.
    destruct (hs !! k) as [[b h]|] eqn:E; [|apply lookup_ge_None in E; unfold hmap in *; lia].
    destruct (start_size k b h E) as (_ & _ & ->). rewrite seq_app. auto. }
  rewrite H by lia. unfold start, n. rewrite take_ge by lia. auto.
Qed.
Lemma lsum_slices (f : nat -> R) : lsum (fun p => lsum f (seq (start p) (size p))) (seq 0 (length hs)) = lsum f (seq 0 n).
Proof. rewrite <- slices_seq, lsum_flat. auto. Qed.

Lemma pidx_iff i p b h : hs !! p = Some (b, h) -> (i < n)%nat -> (nth i (g_pidxs g) 0%nat = p <-> (start p <= i < start p + size p)%nat).
Proof.
  intros Hp Hi. pose proof g_pidxs_length as HL.
  destruct (g_pidxs g !! i) as [p'|] eqn:E; [|apply lookup_ge_None in E; unfold hmap in *; lia].
  rewrite (nth_lookup_Some _ _ _ _ E). rewrite g_pidxs_eq in E.
  destruct (start_size p b h Hp) as (_ & _ & Hs). split.
  - intros ->. apply pidx_spec_ok in E as (s & t & Hm & Hst). apply midx_lookup in Hm as (_ & -> & ->). fold (start p) in *. fold (start (S p)) in *. lia.
  - intros Hin. assert (E' : pidx_spec hs !! i = Some p).
    { apply pidx_spec_ok. exists (start p), (start (S p)). split; [|lia]. unfold midx_spec.
      rewrite list_lookup_fmap, lookup_seq_lt by (apply lookup_lt_Some in Hp; auto). reflexivity. }
    congruence.
Qed.

Lemma filter_interval (f : nat -> bool) s k m : (s + k <= m)%nat ->
  (forall i, (i < m)%nat -> f i = true <-> (s <= i < s + k)%nat) -> List.filter f (seq 0 m) = seq s k.
Proof.
  intros Hm Hf. replace m with (s + (k + (m - s - k)))%nat by lia. rewrite !seq_app, !List.filter_app. cbn [plus].
  assert (H0 : forall l, (forall i, In i l -> f i = false) -> List.filter f l = []).
  { induction l as [|a l IH]; intros Hl; cbn; auto. rewrite (Hl a) by (left; auto). apply IH. intros; apply Hl; right; auto. }
  assert (H1 : forall l, (forall i, In i l -> f i = true) -> List.filter f l = l).
  { induction l as [|a l IH]; intros Hl; cbn; auto. rewrite (Hl a) by (left; auto). f_equal. apply IH. intros; apply Hl; right; auto. }
  rewrite H0, H1, H0.
  - rewrite app_nil_r. auto.
  - intros i Hi. apply in_seq in Hi. destruct (f i) eqn:E; auto. apply Hf in E; lia.
  - intros i Hi. apply in_seq in Hi. apply Hf; lia.
  - intros i Hi. apply in_seq in Hi. destruct (f i) eqn:E; auto. apply Hf in E; lia.
Qed.

Lemma rows_of_posy p b h : hs !! p = Some (b, h) ->
  List.filter (fun i => Nat.eqb (nth i (g_pidxs g) 0%nat) p) (seq 0 (length (g_pidxs g))) = seq (start p) (size p).
Proof.
  intros Hp. rewrite g_pidxs_length. destruct (start_size p b h Hp) as (_ & Hle & _). apply filter_interval; auto.
  intros i Hi. rewrite Nat.eqb_eq. eapply pidx_iff; eauto.
Qed.

(** The value of a row. *)
Definition rowval (primal : list R) (i : nat) : R := nth i (g_cs g) 0 * exp (prow g primal i).
Lemma eval_slice primal (env : point) p b h : hs !! p = Some (b, h) ->
  (forall v j, varidx g v = Some j -> env v = exp (nth j primal 0)) ->
  lsum (rowval primal) (seq (start p) (size p)) = eval env h.
Proof.
  intros Hp Henv. destruct (start_size p b h Hp) as (-> & _ & _).
  rewrite eval_lsum. apply lsum_seq_terms. intros k [e c] Hk. cbn [fst snd].
  assert (Ht : terms hs !! (start p + k)%nat = Some (e, c)).
  { transitivity ((terms (take p hs) ++ h ++ terms (drop (S p) hs)) !! (length (terms (take p hs)) + k)%nat).
    - rewrite <- (terms_slice hs p b h Hp). reflexivity.
    - rewrite lookup_app_r by lia. replace (_ - _)%nat with k by lia. apply lookup_app_l_Some. auto. }
  unfold rowval, prow. rewrite Hg in Henv. rewrite Hg at 2. rewrite (gen_row ord Hord hs _ e _ env); auto.
  - unfold hmap in *. f_equal. rewrite g_cs_eq. apply nth_lookup_Some. rewrite list_lookup_fmap, Ht. auto.
  - unfold hmap in *. rewrite <- Hg, g_exps_eq, list_lookup_fmap, Ht. auto.
Qed.

Hypothesis Hpos : forall b h e c, In (b, h) hs -> In (e, c) h -> 0 < c.
Lemma cs_pos i : (i < n)%nat -> 0 < nth i (g_cs g) 0.
Proof.
  intros Hi. rewrite g_cs_eq. destruct (terms hs !! i) as [[e c]|] eqn:E; [|apply lookup_ge_None in E; unfold n, hmap in *; lia].
  rewrite (nth_lookup_Some _ _ _ c).
  - apply elem_of_list_lookup_2, elem_of_list_In, in_flat_map in E as ([b h] & Hb & He). eauto.
  - unfold hmap in *. rewrite list_lookup_fmap, E. auto.
Qed.
Lemma rowval_pos primal i : (i < n)%nat -> 0 < rowval primal i.
Proof. intros Hi. apply Rmult_lt_0_compat; [apply cs_pos; auto|apply exp_pos]. Qed.
Lemma rowval_exp primal i : (i < n)%nat -> exp (ln (nth i (g_cs g) 0) + prow g primal i) = rowval primal i.
Proof. intros Hi. rewrite exp_plus, exp_ln by (apply cs_pos; auto). auto. Qed.

(** ** generate_nula *)
Definition dual_ok (nu la : list R) (by_posy : list (list R)) : Prop :=
  length nu = n /\ length la = length hs /\ length by_posy = length hs /\
  forall p, (p < length hs)%nat -> nth p by_posy [] = map (fun i => nth i nu 0) (seq (start p) (size p)) /\
                                  nth p la 0 = lsum (fun i => nth i nu 0) (seq (start p) (size p)).

Lemma nula_nu nu la0 primal nu' la' by' : length nu = n ->
  generate_nula g primal (Some nu) la0 = Some (nu', la', by') -> nu' = nu /\ dual_ok nu la' by'.
Proof.
  intros Hn E. cbn [generate_nula] in E. injection E as <- <- <-. split; auto.
  assert (Hb : map (slice nu) (g_midxs g) = map (fun p => map (fun i => nth i nu 0) (seq (start p) (size p))) (seq 0 (length hs))).
  { rewrite g_midxs_eq, map_map. apply map_ext_in. intros p Hp. apply in_seq in Hp.
    destruct (hs !! p) as [[b h]|] eqn:E; [|apply lookup_ge_None in E; unfold hmap in *; lia].
    apply slice_map. destruct (start_size p b h E) as (_ & Hle & _). lia. }
  rewrite Hb. split; auto. split; [rewrite !map_length, seq_length; auto|]. split; [rewrite map_length, seq_length; auto|].
  intros p Hp.
  assert (E1 : nth p (map (fun p => map (fun i => nth i nu 0) (seq (start p) (size p))) (seq 0 (length hs))) []
             = map (fun i => nth i nu 0) (seq (start p) (size p))).
  { apply nth_lookup_Some. rewrite list_lookup_fmap, lookup_seq_lt by auto. auto. }
  split; auto. rewrite <- total_lsum. rewrite <- E1. exact (map_nth total _ [] p).
Qed.

Lemma nula_la la primal nu' la' by' : hs <> [] -> (forall b h, In (b, h) hs -> h <> []) ->
  length la = length hs \/ length la = (length hs - 1)%nat ->
  generate_nula g primal None (Some la) = Some (nu', la', by') ->
  dual_ok nu' la' by' /\
  (length la = length hs -> la' = la) /\ (length la = (length hs - 1)%nat -> la' = 1 :: la) /\
  forall p i, (p < length hs)%nat -> (start p <= i < start p + size p)%nat ->
    nth i nu' 0 = nth p la' 0 * (rowval primal i / lsum (rowval primal) (seq (start p) (size p))).
Proof.
  intros Hne Hh Hlen E. cbn [generate_nula] in E.
  assert (Hm : length (g_midxs g) = length hs) by (rewrite g_midxs_eq, map_length, seq_length; auto). rewrite Hm in E.
  set (la1 := if (length la =? length hs - 1)%nat then 1 :: la else la) in E.
  assert (Hl1 : length la1 = length hs).
  { unfold la1. destruct (Nat.eqb_spec (length la) (length hs - 1)) as [El|El]; [|lia].
    cbn. destruct hs; [contradiction|cbn in *; lia]. }
  assert (Hby : by' = map (fun p => map (fun i => nth p la1 0 * (rowval primal i / lsum (rowval primal) (seq (start p) (size p))))
                                       (seq (start p) (size p))) (seq 0 (length hs))).
  { injection E as _ _ <-. rewrite Hl1. apply map_ext_in. intros p Hp. apply in_seq in Hp.
    destruct (hs !! p) as [[b h]|] eqn:Ep; [|apply lookup_ge_None in Ep; unfold hmap in *; lia].
    rewrite (rows_of_posy p b h Ep). destruct (start_size p b h Ep) as (_ & Hle & _).
    apply map_ext_in. intros i Hi. apply in_seq in Hi. rewrite rowval_exp by lia. rewrite total_lsum.
    rewrite (lsum_ext _ (rowval primal)); [unfold Rdiv; ring|]. intros j Hj. apply in_seq in Hj. apply rowval_exp. lia. }
  injection E as <- <- _. 
  set (F i := nth (nth i (g_pidxs g) 0%nat) la1 0 * (rowval primal i / lsum (rowval primal) (seq (start (nth i (g_pidxs g) 0%nat)) (size (nth i (g_pidxs g) 0%nat))))).
  assert (HF : forall p i, (p < length hs)%nat -> (start p <= i < start p + size p)%nat ->
             F i = nth p la1 0 * (rowval primal i / lsum (rowval primal) (seq (start p) (size p)))).
  { intros p i Hp Hi. destruct (hs !! p) as [[b h]|] eqn:Ep; [|apply lookup_ge_None in Ep; unfold hmap in *; lia].
    destruct (start_size p b h Ep) as (_ & Hle & _).
    assert (Ei : nth i (g_pidxs g) 0%nat = p) by (eapply pidx_iff; eauto; lia). unfold F. rewrite Ei. auto. }
  assert (Hby2 : by' = map (fun p => map F (seq (start p) (size p))) (seq 0 (length hs))).
  { rewrite Hby. apply map_ext_in. intros p Hp. apply in_seq in Hp. apply map_ext_in. intros i Hi. apply in_seq in Hi.
    symmetry. apply HF; lia. }
  assert (Hnu : concat by' = map F (seq 0 n)).
  { rewrite Hby2, <- slices_seq, flat_map_concat_map, concat_map, map_map. auto. }
  assert (Hnth : forall i, (i < n)%nat -> nth i (concat by') 0 = F i).
  { intros i Hi. rewrite Hnu. apply nth_lookup_Some. rewrite list_lookup_fmap, lookup_seq_lt by auto. auto. }
  match goal with |- context [concat ?x] => replace x with by' end.
  2:{ rewrite Hby. rewrite Hl1. symmetry. apply map_ext_in. intros p Hp. apply in_seq in Hp.
    destruct (hs !! p) as [[b h]|] eqn:Ep; [|apply lookup_ge_None in Ep; unfold hmap in *; lia].
    rewrite (rows_of_posy p b h Ep). destruct (start_size p b h Ep) as (_ & Hle & _).
    apply map_ext_in. intros i Hi. apply in_seq in Hi. rewrite rowval_exp by lia. rewrite total_lsum.
    rewrite (lsum_ext _ (rowval primal)); [unfold Rdiv; ring|]. intros j Hj. apply in_seq in Hj. apply rowval_exp. lia. }
  split; [|split; [|split]].
  - split; [rewrite Hnu, map_length, seq_length; auto|]. split; auto. split; [rewrite Hby, map_length, seq_length; auto|].
    intros p Hp. destruct (hs !! p) as [[b h]|] eqn:Ep; [|apply lookup_ge_None in Ep; unfold hmap in *; lia].
    destruct (start_size p b h Ep) as (Hsz & Hle & _).
    assert (Hf : map F (seq (start p) (size p)) = map (fun i => nth i (concat by') 0) (seq (start p) (size p))).
    { apply map_ext_in. intros i Hi. apply in_seq in Hi. rewrite Hnth by lia. auto. }
    split.
    + rewrite <- Hf, Hby2. apply nth_lookup_Some. rewrite list_lookup_fmap, lookup_seq_lt by auto. auto.
    + rewrite (lsum_ext _ (fun i => (nth p la1 0 / lsum (rowval primal) (seq (start p) (size p))) * rowval primal i)).
      2:{ intros i Hi. apply in_seq in Hi. rewrite Hnth by lia. rewrite (HF p) by lia. unfold Rdiv. ring. }
      rewrite lsum_scale. unfold Rdiv. rewrite Rmult_assoc, Rinv_l; [ring|].
      assert (Hz : 0 < lsum (rowval primal) (seq (start p) (size p))); [|lra].
      apply (lsum_pos_In _ _ (start p)).
      * intros j Hj. apply in_seq in Hj. apply Rlt_le, rowval_pos. lia.
      * apply in_seq. rewrite Hsz. assert (h <> []) by (eapply Hh, elem_of_list_In, elem_of_list_lookup_2; eauto).
        destruct h; [contradiction|cbn; lia].
      * apply rowval_pos. rewrite Hsz in *. assert (h <> []) by (eapply Hh, elem_of_list_In, elem_of_list_lookup_2; eauto).
        destruct h; [contradiction|cbn in *; lia].
  - intros Hl. unfold la1. destruct (Nat.eqb_spec (length la) (length hs - 1)) as [El|_]; auto.
    destruct hs; [contradiction|cbn in *; lia].
  - intros Hl. unfold la1. rewrite Hl, Nat.eqb_refl. auto.
  - intros p i Hp Hi. destruct (hs !! p) as [[b h]|] eqn:Ep; [|apply lookup_ge_None in Ep; unfold hmap in *; lia].
    destruct (start_size p b h Ep) as (_ & Hle & _). rewrite Hnth by lia. apply HF; auto.
Qed.

(** ** Weak duality *)
Lemma ln_le_sub1 t : 0 < t -> ln t <= t - 1.
Proof. intros Ht. pose proof (exp_ineq1_le (ln t)) as H. rewrite exp_ln in H by auto. lra. Qed.

Lemma gibbs (l : list nat) (nu u : nat -> R) la : 0 < la -> lsum nu l = la ->
  (forall i, In i l -> 0 < nu i) -> (forall i, In i l -> 0 < u i) ->
  lsum (fun i => nu i * (ln (u i) - ln (nu i / la))) l <= la * ln (lsum u l).
Proof.
  intros Hla Hsum Hnu Hu. set (U := lsum u l).
  assert (HU : 0 < U).
  { destruct l as [|a l]; [cbn in Hsum; lra|]. apply (lsum_pos_In u (a :: l) a).
    - intros i Hi. apply Rlt_le, Hu, Hi.
    - left; auto.
    - apply Hu. left; auto. }
  apply Rle_trans with (lsum (fun i => ln U * nu i + (la / U) * u i + (-1) * nu i) l).
  - apply lsum_le. intros i Hi. specialize (Hnu i Hi). specialize (Hu i Hi).
    assert (Hr : 0 < u i / U * (la / nu i)).
    { apply Rmult_lt_0_compat; apply Rdiv_lt_0_compat; auto. }
    assert (E : ln (u i / U * (la / nu i)) = ln (u i) - ln U - ln (nu i / la)).
    { rewrite ln_mult by (apply Rdiv_lt_0_compat; auto). unfold Rdiv.
      rewrite !ln_mult by (auto using Rinv_0_lt_compat). rewrite !ln_Rinv by auto. lra. }
    pose proof (ln_le_sub1 _ Hr) as Hle. rewrite E in Hle.
    apply (Rmult_le_compat_l (nu i)) in Hle; [|lra].
    replace (nu i * (u i / U * (la / nu i) - 1)) with ((la / U) * u i + (-1) * nu i) in Hle by (field; lra). lra.
  - rewrite !lsum_plus, !lsum_scale, Hsum. fold U. unfold Rdiv. rewrite Rmult_assoc, Rinv_l by lra. lra.
Qed.

Lemma osum_some l d : osum l = Some d -> forall x, In x l -> exists r, x = Some r.
Proof.
  revert d. induction l as [|o l IH]; intros d E x; [intros []|]. cbn in E. destruct o as [a|]; [|discriminate].
  cbn in E. fold (osum l) in E. destruct (osum l) as [r|] eqn:El; [|discriminate].
  intros [<-|Hx]; [eauto|]. eapply IH; eauto.
Qed.
Lemma osum_map {A} (f : A -> option R) (f' : A -> R) l d : osum (map f l) = Some d ->
  (forall a, In a l -> f a = Some (f' a)) -> d = lsum f' l.
Proof.
  revert d. induction l as [|a l IH]; intros d E Hf; cbn in *; [congruence|].
  rewrite (Hf a) in E by auto. cbn in E. fold (osum (map f l)) in E.
  destruct (osum (map f l)) as [r|] eqn:El; [|discriminate]. injection E as <-. f_equal. apply IH; auto.
Qed.

Lemma combine_slices (nu : list R) p b h : hs !! p = Some (b, h) ->
  combine (slice (g_cs g) (start p, (start p + size p)%nat)) (map (fun i => nth i nu 0) (seq (start p) (size p)))
  = map (fun i => (nth i (g_cs g) 0, nth i nu 0)) (seq (start p) (size p)).
Proof.
  intros Hp. destruct (start_size p b h Hp) as (_ & Hle & _).
  rewrite (slice_map 0); [|rewrite g_cs_length; lia].
  induction (seq (start p) (size p)) as [|i l IH]; cbn; auto. f_equal. auto.
Qed.

Lemma dual_cost_sum nu la by_posy d : dual_ok nu la by_posy -> dual_cost g la by_posy = Some d ->
  (forall p i, (p < length hs)%nat -> nth p la 0 <> 0 -> (start p <= i < start p + size p)%nat -> 0 < nth i nu 0 / nth p la 0) /\
  d = lsum (fun p => if Reqb (nth p la 0) 0 then 0 else
        lsum (fun i => nth i nu 0 * (ln (nth i (g_cs g) 0) - ln (nth i nu 0 / nth p la 0))) (seq (start p) (size p))) (seq 0 (length hs)).
Proof.
  intros (Hn & Hl & Hb & Hp) E. unfold dual_cost in E.
  assert (Em : enumerate (g_midxs g) = map (fun p => (p, (start p, (start p + size p)%nat))) (seq 0 (length hs))).
  { unfold enumerate. rewrite g_midxs_eq, map_length, seq_length. clear.
    induction (seq 0 (length hs)) as [|p l IH]; cbn; auto. f_equal. auto. }
  rewrite Em, map_map in E.
  assert (Hterm : forall p, (p < length hs)%nat ->
     (if Reqb (nth p la 0) 0 then Some 0
      else osum (map (fun cn => dual_term (fst cn) (snd cn) (nth p la 0))
                (combine (slice (g_cs g) (start p, (start p + size p)%nat)) (nth p by_posy [])))) =
     (if Reqb (nth p la 0) 0 then Some 0
      else osum (map (fun i => dual_term (nth i (g_cs g) 0) (nth i nu 0) (nth p la 0)) (seq (start p) (size p))))).
  { intros p Hlt. destruct (Reqb (nth p la 0) 0); auto. f_equal. rewrite (proj1 (Hp p Hlt)).
    destruct (hs !! p) as [[b h]|] eqn:Ep; [|apply lookup_ge_None in Ep; unfold hmap in *; lia].
    rewrite (combine_slices nu p b h Ep), map_map. auto. }
  assert (Hall : forall p, (p < length hs)%nat -> nth p la 0 <> 0 ->
            exists r, osum (map (fun i => dual_term (nth i (g_cs g) 0) (nth i nu 0) (nth p la 0)) (seq (start p) (size p))) = Some r).
  { intros p Hlt Hne. 
    destruct (osum_some _ _ E (if Reqb (nth p la 0) 0 then Some 0
      else osum (map (fun cn => dual_term (fst cn) (snd cn) (nth p la 0))
                (combine (slice (g_cs g) (start p, (start p + size p)%nat)) (nth p by_posy []))))) as [r Hr].
    - apply in_map_iff. exists p. split; auto. apply in_seq. lia.
    - rewrite Hterm in Hr by auto. apply Reqb_false in Hne. rewrite Hne in Hr. eauto. }
  assert (Hpos' : forall p i, (p < length hs)%nat -> nth p la 0 <> 0 -> (start p <= i < start p + size p)%nat -> 0 < nth i nu 0 / nth p la 0).
  { intros p i Hlt Hne Hi. destruct (Hall p Hlt Hne) as [r Hr].
    destruct (osum_some _ _ Hr (dual_term (nth i (g_cs g) 0) (nth i nu 0) (nth p la 0))) as [t Ht].
    - apply in_map_iff. exists i. split; auto. apply in_seq. lia.
    - unfold dual_term in Ht. destruct (Rlt_dec 0 (nth i nu 0 / nth p la 0)); [auto|discriminate]. }
  split; auto.
  apply (osum_map _ (fun p => if Reqb (nth p la 0) 0 then 0 else
        lsum (fun i => nth i nu 0 * (ln (nth i (g_cs g) 0) - ln (nth i nu 0 / nth p la 0))) (seq (start p) (size p))) _ _ E).
  intros p Hin. apply in_seq in Hin. cbn beta iota. rewrite Hterm by lia.
  destruct (Reqb (nth p la 0) 0) eqn:Ez; auto. apply Reqb_false in Ez. destruct (Hall p ltac:(lia) Ez) as [r Hr]. rewrite Hr. f_equal.
  apply (osum_map _ _ _ _ Hr). intros i Hi. apply in_seq in Hi. unfold dual_term.
  destruct (Rlt_dec 0 (nth i nu 0 / nth p la 0)) as [_|Hn']; auto. exfalso. apply Hn', Hpos'; auto; lia.
Qed.

(** For any point, the multipliers' combination of the logarithms of the
    posynomials is at least the dual cost plus a linear form. *)
Lemma lagrangian nu la by_posy d (x : list R) : dual_ok nu la by_posy -> dual_cost g la by_posy = Some d ->
  (forall i, 0 <= nth i nu 0) ->
  d + lsum (fun i => nth i nu 0 * prow g x i) (seq 0 n)
  <= lsum (fun p => nth p la 0 * ln (lsum (rowval x) (seq (start p) (size p)))) (seq 0 (length hs)).
Proof.
  intros Hd E Hnn. destruct (dual_cost_sum nu la by_posy d Hd E) as [Hq ->]. destruct Hd as (Hn & Hl & Hb & Hp).
  rewrite <- (lsum_slices (fun i => nth i nu 0 * prow g x i)), <- lsum_plus. apply lsum_le.
  intros p Hin. apply in_seq in Hin. destruct (Hp p) as [_ Hla]; [lia|].
  destruct (hs !! p) as [[b h]|] eqn:Ep; [|apply lookup_ge_None in Ep; unfold hmap in *; lia].
  destruct (start_size p b h Ep) as (_ & Hle & _).
  destruct (Reqb (nth p la 0) 0) eqn:Ez.
  - apply Reqb_true in Ez. rewrite Ez, Rmult_0_l, Rplus_0_l.
    rewrite (lsum_ext _ (fun _ => 0)); [rewrite lsum_zero; lra|]. intros i Hi.
    assert (Hz : nth i nu 0 = 0); [|rewrite Hz; lra].
    destruct (Req_dec (nth i nu 0) 0) as [|Hne]; auto. exfalso.
    assert (Hgt : 0 < lsum (fun i => nth i nu 0) (seq (start p) (size p))); [|lra].
    apply (lsum_pos_In _ _ i); auto. specialize (Hnn i). lra.
  - apply Reqb_false in Ez.
    assert (Hge : 0 <= nth p la 0) by (rewrite Hla; apply lsum_nonneg; auto).
    assert (Hgt : 0 < nth p la 0) by lra.
    rewrite <- lsum_plus.
    rewrite (lsum_ext _ (fun i => nth i nu 0 * (ln (rowval x i) - ln (nth i nu 0 / nth p la 0)))).
    + apply gibbs; auto.
      * intros i Hi. apply in_seq in Hi. specialize (Hq p i ltac:(lia) Ez ltac:(lia)).
        apply (Rmult_lt_compat_r (nth p la 0)) in Hq; auto. unfold Rdiv in Hq.
        rewrite Rmult_assoc, Rinv_l, Rmult_1_r, Rmult_0_l in Hq; auto.
      * intros i Hi. apply in_seq in Hi. apply rowval_pos. lia.
    + intros i Hi. apply in_seq in Hi. unfold rowval. rewrite ln_mult, ln_exp; [lra|apply cs_pos; lia|apply exp_pos].
Qed.

(** The linear form, column by column. *)
Lemma coo_tdot_lsum coo (y : nat -> R) j :
  coo_tdot coo y j = lsum (fun t => if Nat.eqb (snd (fst t)) j then snd t * y (fst (fst t)) else 0) coo.
Proof.
  unfold coo_tdot.
  assert (E : forall l acc, fold_left (fun acc t => acc + snd t * y (fst (fst t))) l acc
            = acc + lsum (fun t : nat * nat * R => snd t * y (fst (fst t))) l).
  { induction l as [|t l IH]; intros acc; cbn; [lra|]. rewrite IH. lra. }
  rewrite E, Rplus_0_l. induction coo as [|t coo IH]; cbn; auto.
  destruct (Nat.eqb (snd (fst t)) j); cbn; rewrite IH; lra.
Qed.
Lemma lsum_swap {A B} (f : A -> B -> R) la lb : lsum (fun a => lsum (f a) lb) la = lsum (fun b => lsum (fun a => f a b) la) lb.
Proof.
  induction la as [|a la IH]; cbn; [rewrite lsum_zero; auto|]. rewrite IH, <- lsum_plus. auto.
Qed.
Lemma adjoint (coo : list (nat * nat * R)) (y x : nat -> R) r c :
  (forall t, In t coo -> (fst (fst t) < r)%nat) -> (forall t, In t coo -> (snd (fst t) < c)%nat) ->
  lsum (fun i => y i * coo_dot coo x i) (seq 0 r) = lsum (fun j => x j * coo_tdot coo y j) (seq 0 c).
Proof.
  intros Hr Hc.
  assert (E1 : lsum (fun i => y i * coo_dot coo x i) (seq 0 r) = lsum (fun t => y (fst (fst t)) * (snd t * x (snd (fst t)))) coo).
  { rewrite (lsum_ext _ (fun i => lsum (fun t => if Nat.eqb (fst (fst t)) i then y i * (snd t * x (snd (fst t))) else 0) coo)).
    - rewrite lsum_swap. apply lsum_ext. intros t Ht.
      rewrite (lsum_ext _ (fun a => if Nat.eqb a (fst (fst t)) then y a * (snd t * x (snd (fst t))) else 0)).
      + rewrite (lsum_single (fun a => y a * (snd t * x (snd (fst t))))) by apply seq_NoDup.
        destruct (in_dec Nat.eq_dec (fst (fst t)) (seq 0 r)) as [_|Hn']; auto.
        exfalso. apply Hn', in_seq. specialize (Hr t Ht). lia.
      + intros i _. rewrite Nat.eqb_sym. auto.
    - intros i _. rewrite coo_dot_lsum, <- lsum_scale. apply lsum_ext. intros t _.
      destruct (Nat.eqb (fst (fst t)) i); lra. }
  assert (E2 : lsum (fun j => x j * coo_tdot coo y j) (seq 0 c) = lsum (fun t => y (fst (fst t)) * (snd t * x (snd (fst t)))) coo).
  { rewrite (lsum_ext _ (fun j => lsum (fun t => if Nat.eqb (snd (fst t)) j then y (fst (fst t)) * (snd t * x j) else 0) coo)).
    - rewrite lsum_swap. apply lsum_ext. intros t Ht.
      rewrite (lsum_ext _ (fun a => if Nat.eqb a (snd (fst t)) then y (fst (fst t)) * (snd t * x a) else 0)).
      + rewrite (lsum_single (fun a => y (fst (fst t)) * (snd t * x a))) by apply seq_NoDup.
        destruct (in_dec Nat.eq_dec (snd (fst t)) (seq 0 c)) as [_|Hn']; auto.
        exfalso. apply Hn', in_seq. specialize (Hc t Ht). lia.
      + intros i _. rewrite Nat.eqb_sym. auto.
    - intros i _. rewrite coo_tdot_lsum, <- lsum_scale. apply lsum_ext. intros t _.
      destruct (Nat.eqb (snd (fst t)) i) eqn:Ei; [|lra]. lra. }
  congruence.
Qed.

Lemma coo_rows t : In t (g_coo g) -> (fst (fst t) < n)%nat.
Proof.
  destruct t as [[i j] d]. intros Ht. cbn. rewrite Hg in Ht.
  destruct (proj1 (coo_places ord Hord hs i j) (ex_intro _ d Ht)) as [[_ Hx]|(v & _ & Hx)].
  - apply lookup_lt_Some in Hx. rewrite map_length in Hx. auto.
  - apply has_lt in Hx. rewrite map_length in Hx. auto.
Qed.
Lemma coo_cols t : In t (g_coo g) -> (snd (fst t) < snd (coo_shape (g_coo g)))%nat.
Proof.
  intros Ht. unfold coo_shape. destruct (g_coo g) as [|t0 l] eqn:E; [destruct Ht|]. rewrite <- E in *. cbn [snd].
  assert (Hm : forall l m, In m l -> (m <= list_max l)%nat).
  { clear. intros l m Hm. pose proof (proj1 (list_max_le l (list_max l)) ltac:(lia)) as HF.
    rewrite List.Forall_forall in HF. auto. }
  apply Nat.lt_succ_r, Hm, in_map_iff. exists t. auto.
Qed.

Lemma ln_nonpos x : x <= 1 -> ln x <= 0.
Proof.
  intros Hx. destruct (Rlt_dec 0 x) as [Hp|Hp].
  - rewrite <- ln_1. destruct (Req_dec x 1) as [->|]; [lra|]. apply Rlt_le, ln_increasing; lra.
  - unfold ln. destruct (Rlt_dec 0 x); [contradiction|lra].
Qed.

Lemma varidx_nth v j : varidx g v = Some j -> dkeys (g_varlocs g) !! j = Some v.
Proof.
  unfold varidx. generalize (dkeys (g_varlocs g)) as l. induction l as [|k l IH] in j |- *; cbn [position]; [discriminate|].
  destruct (decide (v = k)) as [->|_].
  - intros [= <-]. reflexivity.
  - destruct (position l v) as [j'|]; [|discriminate]. cbn. intros [= <-]. apply IH. reflexivity.
Qed.
Definition logs (env : point) : list R := map (fun v => ln (env v)) (dkeys (g_varlocs g)).
Lemma logs_env env : positive_point env -> forall v j, varidx g v = Some j -> env v = exp (nth j (logs env) 0).
Proof.
  intros He v j Hj. apply varidx_nth in Hj. rewrite (nth_lookup_Some _ _ _ (ln (env v))).
  - rewrite exp_ln; auto.
  - unfold logs. rewrite list_lookup_fmap, Hj. auto.
Qed.
Definition lognorm (env : point) : R := lsum (fun v => Rabs (ln (env v))) (dkeys (g_varlocs g)).

Lemma norm_cols env : lsum (fun j => Rabs (nth j (logs env) 0)) (seq 0 (snd (coo_shape (g_coo g)))) = lognorm env.
Proof.
  unfold lognorm. destruct (g_varlocs g) as [|vl vls] eqn:E.
  - rewrite (lsum_ext _ (fun _ => 0)); [rewrite lsum_zero; auto|]. intros j _. unfold logs. rewrite E. destruct j; cbn; apply Rabs_R0.
  - rewrite <- E.
    assert (Hc : snd (coo_shape (g_coo g)) = length (g_varlocs g)).
    { rewrite Hg. apply cols_shape; auto. rewrite <- Hg, E. cbn. lia. }
    rewrite Hc. unfold logs. replace (length (g_varlocs g)) with (length (dkeys (g_varlocs g))) by (unfold dkeys; apply map_length).
    generalize (dkeys (g_varlocs g)) as l. clear. induction l as [|v l IH]; cbn; auto.
    f_equal. rewrite <- seq_shift, lsum_map. exact IH.
Qed.

Lemma pass_facts cost primal nu la by_posy tol abstol b0 h0 rest : hs = (b0, h0) :: rest ->
  dual_ok nu la by_posy -> check_solution g cost primal nu la by_posy tol abstol = ChkOk ->
  almost_equal tol abstol (lsum (rowval primal) (seq (start 0) (size 0))) cost = true /\
  (forall p, (0 < p < length hs)%nat -> lsum (rowval primal) (seq (start p) (size p)) <= 1 + tol) /\
  almost_equal tol abstol (nth 0 la 0) 1 = true /\
  (0 <= tol -> forall i, - tol / 1000 <= nth i nu 0) /\
  (forall j, (j < snd (coo_shape (g_coo g)))%nat -> Rabs (coo_tdot (g_coo g) (fun i => nth i nu 0) j) <= tol) /\
  exists d, dual_cost g la by_posy = Some d /\ almost_equal tol abstol (exp d) cost = true.
Proof.
  intros Ehs (Hn & Hl & Hb & Hp) E. unfold check_solution in E. rewrite g_cs_length in E.
  change (map (fun i => nth i (g_cs g) 0 * exp (prow g primal i)) (seq 0 n)) with (map (rowval primal) (seq 0 n)) in E.
  assert (Hsl : forall p, (p < length hs)%nat ->
            total (slice (map (rowval primal) (seq 0 n)) (start p, (start p + size p)%nat)) = lsum (rowval primal) (seq (start p) (size p))).
  { intros p Hlt. destruct (hs !! p) as [[b h]|] eqn:Ep; [|apply lookup_ge_None in Ep; unfold hmap in *; lia].
    destruct (start_size p b h Ep) as (_ & Hle & _). rewrite (slice_map 0) by (rewrite map_length, seq_length; lia).
    rewrite total_lsum. apply lsum_ext. intros i Hi. apply in_seq in Hi. apply nth_lookup_Some.
    rewrite list_lookup_fmap, lookup_seq_lt by lia. auto. }
  assert (Hlen : (0 < length hs)%nat) by (rewrite Ehs; cbn; lia).
  rewrite g_midxs_eq in E. destruct (length hs) as [|m] eqn:Em; [lia|]. cbn [seq map] in E.
  destruct (almost_equal tol abstol (total (slice (map (rowval primal) (seq 0 n)) (start 0, (start 0 + size 0)%nat))) cost) eqn:E1;
    cbn [negb] in E; [|discriminate].
  rewrite Hsl in E1 by lia.
  destruct (existsb (fun mi => Rltb (1 + tol) (total (slice (map (rowval primal) (seq 0 n)) mi)))
              (map (fun p => (start p, (start p + size p)%nat)) (seq 1 m))) eqn:E2; [discriminate|].
  assert (Eb : total (nth 0 by_posy []) = nth 0 la 0).
  { destruct (Hp 0%nat) as [-> ->]; [lia|]. apply total_lsum. }
  rewrite Eb in E.
  destruct (almost_equal tol abstol (nth 0 la 0) 1) eqn:E3; cbn [negb] in E; [|discriminate].
  destruct (existsb (fun n0 => Rltb n0 0) nu && existsb (fun n0 => Rltb n0 (- tol / 1000)) nu) eqn:E4; [discriminate|].
  destruct (existsb (fun j => Rltb tol (Rabs (coo_tdot (g_coo g) (fun i => nth i nu 0) j)))
                      (seq 0 (snd (coo_shape (g_coo g))))) eqn:E5; [discriminate|].
  destruct (dual_cost g la by_posy) as [d|] eqn:E6; [|discriminate].
  destruct (almost_equal tol abstol (exp d) cost) eqn:E7; [|discriminate].
  assert (Hex : forall {A} (f : A -> bool) l a, existsb f l = false -> In a l -> f a = false).
  { intros A f l a Hf Ha. destruct (f a) eqn:Ef; auto. assert (Ht : existsb f l = true) by (apply existsb_exists; eauto). congruence. }
  split; [auto|]. split; [|split; [auto|split; [|split; [|eauto]]]].
  - intros p Hlt. rewrite <- Hsl by lia. apply Rltb_false.
    apply (Hex _ _ _ (start p, (start p + size p)%nat) E2). apply in_map_iff. exists p. split; auto. apply in_seq. lia.
  - intros Htol i. destruct (decide (i < n)%nat) as [Hi|Hi].
    + assert (Hin : In (nth i nu 0) nu) by (apply nth_In; lia).
      destruct (existsb (fun n0 => Rltb n0 0) nu) eqn:E4a.
      * apply (Hex _ _ _ _ E4) in Hin. apply Rltb_false in Hin. auto.
      * apply (Hex _ _ _ _ E4a) in Hin. apply Rltb_false in Hin. lra.
    + rewrite nth_overflow by lia. lra.
  - intros j Hj. apply Rltb_false, (Hex _ _ _ j E5). apply in_seq. lia.
Qed.

Lemma weak_duality cost primal nu la by_posy tol abstol b0 h0 rest : hs = (b0, h0) :: rest ->
  dual_ok nu la by_posy -> (forall i, 0 <= nth i nu 0) ->
  check_solution g cost primal nu la by_posy tol abstol = ChkOk ->
  exists d, almost_equal tol abstol (exp d) cost = true /\
  forall env, positive_point env -> (forall b h, In (b, h) rest -> eval env h <= 1) ->
  d - tol * lognorm env <= nth 0 la 0 * ln (eval env h0).
Proof.
  intros Ehs Hd Hnn E. destruct (pass_facts _ _ _ _ _ _ _ _ _ _ Ehs Hd E) as (_ & _ & _ & _ & Hres & d & Ed & Ha).
  exists d. split; auto. intros env Henv Hfeas.
  pose proof (lagrangian nu la by_posy d (logs env) Hd Ed Hnn) as Hlag.
  pose proof (logs_env env Henv) as Hlogs.
  assert (Hadj : lsum (fun i => nth i nu 0 * prow g (logs env) i) (seq 0 n) =
            lsum (fun j => nth j (logs env) 0 * coo_tdot (g_coo g) (fun i => nth i nu 0) j) (seq 0 (snd (coo_shape (g_coo g))))).
  { apply adjoint; [apply coo_rows|apply coo_cols]. }
  assert (Hlin : - (tol * lognorm env) <= lsum (fun i => nth i nu 0 * prow g (logs env) i) (seq 0 n)).
  { rewrite Hadj, <- norm_cols, <- lsum_scale.
    replace (- lsum (fun a => tol * Rabs (nth a (logs env) 0)) (seq 0 (snd (coo_shape (g_coo g)))))
      with (lsum (fun a => (-1) * (tol * Rabs (nth a (logs env) 0))) (seq 0 (snd (coo_shape (g_coo g))))) by (rewrite (lsum_scale (fun a => tol * Rabs (nth a (logs env) 0)) (-1)); lra).
    apply lsum_le. intros j Hj. apply in_seq in Hj. specialize (Hres j ltac:(lia)).
    set (y := nth j (logs env) 0). set (r := coo_tdot (g_coo g) (fun i => nth i nu 0) j) in *.
    pose proof (Rabs_pos y) as Hy.
    assert (Hab : Rabs (y * r) <= tol * Rabs y).
    { rewrite Rabs_mult. rewrite (Rmult_comm tol). apply Rmult_le_compat_l; auto. }
    pose proof (Rle_abs (- (y * r))) as H1. rewrite Rabs_Ropp in H1. lra. }
  assert (Hcost : lsum (fun p => nth p la 0 * ln (lsum (rowval (logs env)) (seq (start p) (size p)))) (seq 0 (length hs))
            <= nth 0 la 0 * ln (eval env h0)).
  { assert (E0 : hs !! 0%nat = Some (b0, h0)) by (rewrite Ehs; auto).
    replace (length hs) with (S (length rest)) by (rewrite Ehs; auto). cbn [seq lsum].
    rewrite (eval_slice (logs env) env 0 b0 h0 E0 Hlogs).
    assert (Hrest : lsum (fun p => nth p la 0 * ln (lsum (rowval (logs env)) (seq (start p) (size p)))) (seq 1 (length rest)) <= 0); [|lra].
    apply Rle_trans with (lsum (fun _ => 0) (seq 1 (length rest))); [|rewrite lsum_zero; lra].
    apply lsum_le. intros p Hp. apply in_seq in Hp.
    destruct (hs !! p) as [[b h]|] eqn:Ep; [|apply lookup_ge_None in Ep; rewrite Ehs in Ep; cbn in Ep; unfold hmap in *; lia].
    rewrite (eval_slice (logs env) env p b h Ep Hlogs).
    assert (Hla : 0 <= nth p la 0).
    { destruct Hd as (_ & _ & _ & Hp'). destruct (Hp' p) as [_ ->]; [apply lookup_lt_Some in Ep; auto|]. apply lsum_nonneg. auto. }
    assert (Hin : In (b, h) rest).
    { rewrite Ehs in Ep. destruct p as [|p]; [lia|]. cbn in Ep. apply elem_of_list_In, elem_of_list_lookup_2 with p. auto. }
    pose proof (ln_nonpos _ (Hfeas b h Hin)) as Hln.
    apply (Rmult_le_compat_l (nth p la 0)) in Hln; auto. lra. }
  lra.
Qed.

Lemma exact_equal a b : almost_equal 0 0 a b = true -> a = b.
Proof.
  unfold almost_equal. intros E. apply orb_true_iff in E as [E|E]; [apply orb_true_iff in E as [E|E]|].
  - apply Reqb_true; auto.
  - destruct (Reqb (a + b) 0); [discriminate|]. apply Rltb_true in E. pose proof (Rabs_pos ((a - b) / (a + b))). lra.
  - apply Rltb_true in E. pose proof (Rabs_pos (a - b)). lra.
Qed.
End Shape.
