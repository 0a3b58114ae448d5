(** Proofs about the generated matrices. *)
From Verif Require Import Base HashVec Nomial NomialSem NomialProofs Sub Mono Constraint ConstraintSem ConstraintProofs GPGen.
Open Scope nat_scope.

Lemma combine_app {A B} (l1 l2 : list A) (r1 r2 : list B) : length l1 = length r1 ->
  combine (l1 ++ l2) (r1 ++ r2) = combine l1 r1 ++ combine l2 r2.
Proof.
  revert r1; induction l1 as [|a l1 IH]; intros [|b r1]; cbn; intros Hl; try discriminate; auto.
  f_equal. apply IH. lia.
Qed.
Lemma enumerate_snoc {A} (l : list A) a : enumerate (l ++ [a]) = enumerate l ++ [(length l, a)].
Proof.
  unfold enumerate. rewrite app_length. cbn [length]. rewrite seq_app. cbn [seq].
  rewrite combine_app by (rewrite seq_length; auto). reflexivity.
Qed.
Lemma enumerate_length {A} (l : list A) : length (enumerate l) = length l.
Proof. unfold enumerate. rewrite combine_length, seq_length. lia. Qed.
Lemma map_snd_enumerate {A} (l : list A) : map snd (enumerate l) = l.
Proof.
  unfold enumerate. generalize 0 as s. induction l as [|a l IH]; intros s; cbn; auto. f_equal; auto.
Qed.

Section Struct.
Context {T : Type} `{Num T}.
Variable ord : var_order T.
Hypothesis Hord : forall e, List.NoDup (ord e) /\ forall k, In k (ord e) <-> e !! k <> None.

Definition has (exps : list (expv T)) (v i : nat) : bool :=
  match exps !! i with
  | Some e => match e !! v with Some _ => true | None => false end
  | None => false
  end.

Lemma locs_of_add m vl v w : locs_of (loc_add m vl v) w = if decide (w = v) then locs_of vl v ++ [m] else locs_of vl w.
Proof. unfold locs_of at 1, loc_add. rewrite dget_dset. destruct (decide (w = v)) as [->|]; auto. Qed.
Lemma keys_add m vl v w : In w (dkeys (loc_add m vl v)) <-> w = v \/ In w (dkeys vl).
Proof. apply dkeys_dset_In. Qed.
Lemma nodup_add m vl v : NoDup (dkeys vl) -> NoDup (dkeys (loc_add m vl v)).
Proof. apply NoDup_dset. Qed.

Lemma locs_of_fold m ks : forall vl w, List.NoDup ks ->
  locs_of (fold_left (loc_add m) ks vl) w = if in_dec Nat.eq_dec w ks then locs_of vl w ++ [m] else locs_of vl w.
Proof.
  induction ks as [|k ks IH]; intros vl w Hnd; cbn [fold_left].
  - destruct (in_dec Nat.eq_dec w []) as [[]|]; auto.
  - inversion Hnd as [|? ? Hk Hnd']; subst. rewrite IH by auto. rewrite locs_of_add.
    destruct (in_dec Nat.eq_dec w ks) as [Hi|Hi].
    + destruct (in_dec Nat.eq_dec w (k :: ks)) as [_|Hn]; [|cbn in Hn; tauto].
      destruct (decide (w = k)) as [->|]; [contradiction|auto].
    + destruct (decide (w = k)) as [->|Hne].
      * destruct (in_dec Nat.eq_dec k (k :: ks)) as [_|Hn]; [auto|cbn in Hn; tauto].
      * destruct (in_dec Nat.eq_dec w (k :: ks)) as [[->|]|]; [congruence|contradiction|auto].
Qed.
Lemma keys_fold m ks : forall vl w, In w (dkeys (fold_left (loc_add m) ks vl)) <-> In w ks \/ In w (dkeys vl).
Proof.
  induction ks as [|k ks IH]; intros vl w; cbn [fold_left]; [cbn; tauto|].
  rewrite IH, keys_add. cbn. intuition.
Qed.
Lemma nodup_fold m ks : forall vl, NoDup (dkeys vl) -> NoDup (dkeys (fold_left (loc_add m) ks vl)).
Proof. induction ks as [|k ks IH]; intros vl Hn; cbn [fold_left]; auto. apply IH, nodup_add, Hn. Qed.

(** What is known of [varlocs], [m_idx] and the constants' entries after the
    monomials [exps]. *)
Record vinv (exps : list (expv T)) (vl : list (nat * list nat)) (m : nat) (coo : list (nat * nat * T)) : Prop := {
  vi_m : m = length exps;
  vi_nd : NoDup (dkeys vl);
  vi_keys : forall v, In v (dkeys vl) <-> exists i, has exps v i = true;
  vi_locs : forall v, locs_of vl v = List.filter (has exps v) (seq 0 (length exps));
  vi_coo : forall t, In t coo <-> exists i, t = (i, 0, n0) /\ exps !! i = Some e_empty }.

Lemma has_lt exps v i : has exps v i = true -> i < length exps.
Proof.
  unfold has. destruct (exps !! i) eqn:E; [|discriminate]. intros _. apply lookup_lt_Some in E. auto.
Qed.
Lemma has_app exps e v i : i < length exps -> has (exps ++ [e]) v i = has exps v i.
Proof. intros Hi. unfold has. rewrite lookup_app_l; auto. Qed.
Lemma has_last exps e v : has (exps ++ [e]) v (length exps) = match e !! v with Some _ => true | None => false end.
Proof. unfold has. rewrite lookup_app_r, Nat.sub_diag by lia. reflexivity. Qed.

Lemma filter_ext_le {A} (f g : A -> bool) l : (forall a, In a l -> f a = g a) -> List.filter f l = List.filter g l.
Proof. apply filter_ext_in. Qed.

Lemma gen_exp_inv exps vl m coo e : vinv exps vl m coo ->
  let '(vl', m', coo') := gen_exp ord (vl, m, coo) e in vinv (exps ++ [e]) vl' m' coo'.
Proof.
  intros [Hm Hnd Hk Hl Hc]. destruct (Hord e) as [Hon Hoi]. cbn [gen_exp]. split.
  - rewrite app_length; cbn; lia.
  - apply nodup_fold; auto.
  - intros v. rewrite keys_fold, Hoi, Hk. split.
    + intros [He|[i Hi]].
      * exists (length exps). rewrite has_last. destruct (e !! v); congruence.
      * exists i. rewrite has_app; [auto|eapply has_lt; eauto].
    + intros [i Hi]. pose proof (has_lt _ _ _ Hi) as Hlt. rewrite app_length in Hlt. cbn in Hlt.
      destruct (decide (i = length exps)) as [->|Hne].
      * left. rewrite has_last in Hi. destruct (e !! v); congruence.
      * right. exists i. rewrite has_app in Hi by lia. auto.
  - intros v. rewrite locs_of_fold by auto. rewrite app_length, seq_app, List.filter_app. cbn [length seq plus List.filter].
    rewrite has_last.
    rewrite (filter_ext_le (has (exps ++ [e]) v) (has exps v)).
    2:{ intros a Ha. apply in_seq in Ha. apply has_app. lia. }
    rewrite Hl. destruct (in_dec Nat.eq_dec v (ord e)) as [Hi|Hi].
    + apply Hoi in Hi. destruct (e !! v); [|congruence]. subst m. auto.
    + destruct (e !! v) eqn:E; [|rewrite app_nil_r; auto]. exfalso; apply Hi, Hoi. congruence.
  - intros t.
    assert (Hlook : forall i, (exps ++ [e]) !! i = Some e_empty <-> exps !! i = Some e_empty \/ (i = length exps /\ e = e_empty)).
    { intros i. destruct (decide (i < length exps)) as [Hlt|Hge].
      - rewrite lookup_app_l by auto. intuition. lia.
      - rewrite lookup_app_r by lia. rewrite lookup_ge_None_2 with (l := exps) by lia.
        destruct (i - length exps) as [|n] eqn:En; cbn.
        + split; [intros [= ->]; right; split; [lia|auto]|intros [?|[? ->]]; [discriminate|auto]].
        + split; [discriminate|intros [?|[? _]]; [discriminate|lia]]. }
    destruct (decide (e = e_empty)) as [He|He].
    + rewrite in_app_iff, Hc. cbn. split.
      * intros [(i & -> & Hi)|[<-|[]]]; [exists i; split; auto; apply Hlook; auto|].
        exists m. split; auto. apply Hlook. right. auto.
      * intros (i & -> & Hi). apply Hlook in Hi as [Hi|[-> _]]; [left; eauto|right; left; subst m; auto].
    + rewrite Hc. split; intros (i & -> & Hi); exists i; split; auto; [apply Hlook; auto|].
      apply Hlook in Hi as [Hi|[_ Hi]]; [auto|contradiction].
Qed.

Lemma gen_exps_inv es : forall exps vl m coo, vinv exps vl m coo ->
  let '(vl', m', coo') := fold_left (gen_exp ord) es (vl, m, coo) in vinv (exps ++ es) vl' m' coo'.
Proof.
  induction es as [|e es IH]; intros exps vl m coo Hi; cbn [fold_left].
  - rewrite app_nil_r; auto.
  - pose proof (gen_exp_inv _ _ _ _ e Hi) as H1. destruct (gen_exp ord (vl, m, coo) e) as [[vl1 m1] coo1].
    specialize (IH (exps ++ [e]) vl1 m1 coo1 H1). destruct (fold_left _ es _) as [[vl2 m2] coo2].
    rewrite <- app_assoc in IH. exact IH.
Qed.

(** What is known of everything after the posynomials [hs]. *)
Definition terms (hs : list (bool * hmap T)) : hmap T := flat_map snd hs.
Definition pidx_spec (hs : list (bool * hmap T)) : list nat :=
  flat_map (fun ph => repeat (fst ph) (length (snd (snd ph)))) (enumerate hs).
Definition midx_spec (hs : list (bool * hmap T)) : list (nat * nat) :=
  map (fun p => (length (terms (take p hs)), length (terms (take (S p) hs)))) (seq 0 (length hs)).

Record ginv (hs : list (bool * hmap T)) (g : gpdata T) : Prop := {
  gi_midxs : g_midxs g = midx_spec hs;
  gi_pidxs : g_pidxs g = pidx_spec hs;
  gi_cs : g_cs g = map snd (terms hs);
  gi_exps : g_exps g = map fst (terms hs);
  gi_v : vinv (map fst (terms hs)) (g_varlocs g) (g_m g) (g_coo g) }.

Lemma terms_app hs hs' : terms (hs ++ hs') = terms hs ++ terms hs'.
Proof. apply flat_map_app. Qed.
Lemma terms_snoc hs h : terms (hs ++ [h]) = terms hs ++ snd h.
Proof. unfold terms. rewrite flat_map_app. cbn. rewrite app_nil_r. auto. Qed.

Lemma midx_snoc hs h : midx_spec (hs ++ [h]) = midx_spec hs ++ [(length (terms hs), length (terms hs) + length (snd h))].
Proof.
  unfold midx_spec. rewrite app_length. cbn [length]. rewrite seq_app, map_app. cbn [seq map plus]. f_equal.
  - apply map_ext_in. intros p Hp. apply in_seq in Hp. rewrite !take_app_le by lia. auto.
  - f_equal. rewrite take_app. rewrite take_ge by (rewrite app_length; cbn; lia). rewrite terms_snoc, app_length. auto.
Qed.

Lemma gen_hmap_inv hs g h : ginv hs g -> ginv (hs ++ [h]) (gen_hmap ord g (length hs, h)).
Proof.
  intros [Hm Hp Hc He Hv]. destruct h as [b h]. cbn [gen_hmap].
  pose proof (gen_exps_inv (dkeys h) _ _ _ _ Hv) as H1. pose proof (vi_m _ _ _ _ Hv) as Em.
  destruct (fold_left (gen_exp ord) (dkeys h) _) as [[vl m'] coo]. split; cbn [g_midxs g_pidxs g_cs g_exps g_varlocs g_m g_coo].
  - rewrite Hm, midx_snoc, Em, map_length. auto.
  - rewrite Hp. unfold pidx_spec. rewrite enumerate_snoc, flat_map_app. cbn. rewrite app_nil_r. auto.
  - rewrite Hc, terms_snoc, map_app. auto.
  - rewrite He, terms_snoc, map_app. auto.
  - rewrite terms_snoc, map_app. exact H1.
Qed.

Definition gen_loop (hs : list (bool * hmap T)) (ks : list nat) : gpdata T :=
  fold_left (gen_hmap ord) (enumerate hs) (GP ks [] [] [] [] [] [] [] 0 []).

Lemma gen_loop_inv hs ks : ginv hs (gen_loop hs ks).
Proof.
  unfold gen_loop. induction hs as [|h hs IH] using rev_ind.
  - split; auto. split; auto; cbn.
    + constructor.
    + intros v; split; [tauto|]. intros [i Hi]. unfold has in Hi. rewrite lookup_nil in Hi. discriminate.
    + intros t; split; [tauto|]. intros (i & _ & Hi). rewrite lookup_nil in Hi. discriminate.
  - rewrite enumerate_snoc, fold_left_app. cbn [fold_left]. apply gen_hmap_inv, IH.
Qed.
Lemma gen_loop_k hs ks : g_k (gen_loop hs ks) = ks.
Proof.
  unfold gen_loop. induction hs as [|[b h] hs IH] using rev_ind; auto.
  rewrite enumerate_snoc, fold_left_app. cbn [fold_left gen_hmap].
  destruct (fold_left (gen_exp ord) (dkeys h) _) as [[vl m'] coo]. auto.
Qed.

Lemma gen_eq hs : let g := gen_loop hs (map (fun mh => length (snd mh)) hs) in
  gen ord hs = GP (g_k g) (g_midxs g) (g_pidxs g) (g_cs g) (g_exps g) (g_varlocs g) (g_all g) (g_first g) (g_m g)
     (g_coo g ++ flat_map (coo_col (g_exps g)) (enumerate (g_varlocs g))).
Proof. reflexivity. Qed.

(** Positions. *)
Lemma position_spec l v : In v l -> exists j, position l v = Some j /\ l !! j = Some v.
Proof.
  induction l as [|k l IH]; cbn [position]; [intros []|]. intros Hi.
  destruct (decide (v = k)) as [->|Hne]; [exists 0; auto|].
  destruct Hi as [->|Hi]; [congruence|]. destruct (IH Hi) as (j & -> & Hj). exists (S j); auto.
Qed.
Lemma position_nodup l j v : NoDup l -> l !! j = Some v -> position l v = Some j.
Proof.
  intros Hn Hj. destruct (position_spec l v) as (j' & Ej & Hj'); [eapply elem_of_list_In, elem_of_list_lookup_2; eauto|].
  rewrite Ej. f_equal. eapply NoDup_lookup; eauto.
Qed.

(** The equality rows. *)
Lemma sadd_fresh s i : ~ In i s -> sadd s i = s ++ [i].
Proof.
  intros Hi. unfold sadd. destruct (existsb _ s) eqn:E; auto. apply existsb_exists in E as (x & Hx & Ex).
  apply Nat.eqb_eq in Ex. subst. contradiction.
Qed.
Lemma gen_loop_snoc hs ks b h : let g := gen_loop hs ks in let g' := gen_loop (hs ++ [(b, h)]) ks in
  let all := if b then sadd (g_all g) (length (terms hs)) else g_all g in
  g_all g' = all /\
  g_first g' = if b then if 2 * length (g_first g) <? length all then sadd (g_first g) (length (terms hs)) else g_first g
               else g_first g.
Proof.
  cbv zeta.
  assert (E : gen_loop (hs ++ [(b, h)]) ks = gen_hmap ord (gen_loop hs ks) (length hs, (b, h))).
  { unfold gen_loop. rewrite enumerate_snoc, fold_left_app. reflexivity. }
  rewrite E. cbn [gen_hmap].
  pose proof (vi_m _ _ _ _ (gi_v _ _ (gen_loop_inv hs ks))) as Em. rewrite map_length in Em.
  destruct (fold_left (gen_exp ord) (dkeys h) _) as [[vl m'] coo]. cbn [g_all g_first]. rewrite Em. auto.
Qed.

(** The start rows of the first posynomials and of all posynomials of the
    pairs, for a list of blocks each of which is a pair or unmarked. *)
Inductive blocks : list (bool * hmap T) -> list nat -> list nat -> Prop :=
| bl_nil : blocks [] [] []
| bl_plain hs f a h : blocks hs f a -> blocks (hs ++ [(false, h)]) f a
| bl_pair hs f a (h1 h2 : hmap T) : blocks hs f a -> length h1 = 1 -> length h2 = 1 ->
    blocks (hs ++ [(true, h1); (true, h2)]) (f ++ [length (terms hs)])
      (a ++ [length (terms hs); S (length (terms hs))]).

Lemma blocks_lt hs f a : blocks hs f a -> length a = 2 * length f /\ (forall i, In i f -> i < length (terms hs)) /\
  (forall i, In i a -> i < length (terms hs)).
Proof.
  induction 1 as [|hs f a h Hb IH|hs f a h1 h2 Hb IH L1 L2]; cbn; [repeat split; cbn; tauto| |].
  - destruct IH as (L & F & A). rewrite terms_snoc, app_length. repeat split; auto; intros i Hi; [apply F in Hi|apply A in Hi]; lia.
  - destruct IH as (L & F & A). rewrite !terms_app, !app_length. cbn [length terms flat_map app snd]. rewrite !app_length. cbn [length].
    split; [lia|]. split; intros i Hi; apply in_app_iff in Hi as [Hi|Hi];
      [apply F in Hi; lia|cbn in Hi; destruct Hi as [<-|[]]; lia|apply A in Hi; lia|cbn in Hi; destruct Hi as [<-|[<-|[]]]; lia].
Qed.

Lemma gen_blocks hs f a ks : blocks hs f a -> g_first (gen_loop hs ks) = f /\ g_all (gen_loop hs ks) = a.
Proof.
  induction 1 as [|hs f a h Hb IH|hs f a h1 h2 Hb IH L1 L2]; [auto| |].
  - destruct (gen_loop_snoc hs ks false h) as [-> ->]. auto.
  - destruct IH as [IHf IHa]. destruct (blocks_lt _ _ _ Hb) as (L & F & A).
    change [(true, h1); (true, h2)] with ([(true, h1)] ++ [(true, h2)]). rewrite app_assoc.
    destruct (gen_loop_snoc (hs ++ [(true, h1)]) ks true h2) as [Ea2 Ef2].
    destruct (gen_loop_snoc hs ks true h1) as [Ea1 Ef1].
    rewrite IHa, sadd_fresh in Ea1, Ef1 by (intros Hi; apply A in Hi; lia).
    rewrite IHf, sadd_fresh in Ef1 by (intros Hi; apply F in Hi; lia).
    rewrite app_length, L in Ef1. cbn [length] in Ef1.
    rewrite (proj2 (Nat.ltb_lt (2 * length f) (2 * length f + 1))) in Ef1 by lia.
    rewrite Ea1, Ef1 in Ef2. rewrite Ea1 in Ea2. rewrite terms_snoc in Ea2, Ef2. cbn [snd] in Ea2, Ef2.
    rewrite (app_length (terms hs) h1), L1 in Ea2, Ef2.
    replace (length (terms hs) + 1) with (S (length (terms hs))) in * by lia.
    rewrite sadd_fresh in Ea2, Ef2 by (intros Hi; apply in_app_iff in Hi as [Hi|[Hi|[]]]; [apply A in Hi|]; lia).
    cbn [length] in Ef2. rewrite ?app_length, ?L in Ef2. cbn [length] in Ef2.
    rewrite (proj2 (Nat.ltb_ge (2 * (length f + 1)) (2 * length f + 1 + 1))) in Ef2 by lia.
    split; [exact Ef2|]. rewrite Ea2, <- app_assoc. reflexivity.
Qed.

End Struct.

(** ** Slices and shape *)
Section Shape.
Context {T : Type} `{Num T}.
Variable ord : var_order T.
Hypothesis Hord : forall e, List.NoDup (ord e) /\ forall k, In k (ord e) <-> e !! k <> None.

Lemma midx_length (hs : list (bool * hmap T)) : length (midx_spec hs) = length hs.
Proof. unfold midx_spec. rewrite map_length, seq_length. auto. Qed.
Lemma pidx_snoc (hs : list (bool * hmap T)) h : pidx_spec (hs ++ [h]) = pidx_spec hs ++ repeat (length hs) (length (snd h)).
Proof. unfold pidx_spec. rewrite enumerate_snoc, flat_map_app. cbn. rewrite app_nil_r. auto. Qed.
Lemma pidx_length (hs : list (bool * hmap T)) : length (pidx_spec hs) = length (terms hs).
Proof.
  induction hs as [|h hs IH] using rev_ind; auto. rewrite pidx_snoc, terms_snoc, !app_length, repeat_length, IH. auto.
Qed.
Lemma lookup_repeat {A} (a b : A) n i : repeat a n !! i = Some b <-> b = a /\ i < n.
Proof.
  revert i; induction n as [|n IH]; intros i; cbn; [rewrite lookup_nil; split; [discriminate|intros []; lia]|].
  destruct i as [|i]; cbn; [split; [intros [= ->]; split; [auto|lia]|intros [-> _]; auto]|].
  rewrite IH. split; intros [-> Hi]; split; auto; lia.
Qed.
Lemma midx_lookup (hs : list (bool * hmap T)) p s t : midx_spec hs !! p = Some (s, t) ->
  p < length hs /\ s = length (terms (take p hs)) /\ t = length (terms (take (S p) hs)).
Proof.
  intros E. assert (Hl : p < length hs) by (rewrite <- midx_length; eapply lookup_lt_Some; eauto).
  unfold midx_spec in E. rewrite list_lookup_fmap, lookup_seq_lt in E by auto. cbn in E. injection E as <- <-. auto.
Qed.
Lemma terms_take_le (hs : list (bool * hmap T)) p : length (terms (take p hs)) <= length (terms hs).
Proof. rewrite <- (take_drop p hs) at 2. rewrite terms_app, app_length. lia. Qed.
Lemma pidx_spec_ok (hs : list (bool * hmap T)) i p :
  pidx_spec hs !! i = Some p <-> exists s t, midx_spec hs !! p = Some (s, t) /\ s <= i < t.
Proof.
  induction hs as [|h hs IH] using rev_ind.
  - cbn. rewrite lookup_nil. split; [discriminate|]. intros (s & t & E & _). rewrite lookup_nil in E. discriminate.
  - rewrite pidx_snoc, midx_snoc. split.
    + intros E. apply lookup_app_Some in E as [E|[Hl E]].
      * apply IH in E as (s & t & E & Hi). exists s, t. split; auto. apply lookup_app_l_Some; auto.
      * apply lookup_repeat in E as [-> Hi]. rewrite pidx_length in Hl, Hi.
        eexists _, _. split; [rewrite lookup_app_r by (rewrite midx_length; lia); rewrite midx_length, Nat.sub_diag; reflexivity|]. lia.
    + intros (s & t & E & Hi). apply lookup_app_Some in E as [E|[Hl E]].
      * apply lookup_app_l_Some. apply IH. eauto.
      * rewrite midx_length in Hl, E. destruct (p - length hs) as [|n] eqn:En; cbn in E; [|discriminate]. injection E as <- <-.
        rewrite lookup_app_r by (rewrite pidx_length; lia). apply lookup_repeat. rewrite pidx_length. split; lia.
Qed.

Lemma list_max_eq (l : list nat) n : (forall k, In k l -> k <= n) -> In n l -> list_max l = n.
Proof.
  intros Hle Hin. apply Nat.le_antisymm.
  - apply list_max_le. apply List.Forall_forall. auto.
  - assert (Hf : List.Forall (fun k => k <= list_max l) l) by (apply list_max_le; lia).
    rewrite List.Forall_forall in Hf. auto.
Qed.
Lemma in_enumerate {A} (l : list A) j a : In (j, a) (enumerate l) <-> l !! j = Some a.
Proof.
  induction l as [|b l IH] using rev_ind; [cbn; split; [tauto|rewrite lookup_nil; discriminate]|].
  rewrite enumerate_snoc, in_app_iff, IH. cbn. split.
  - intros [E|[[= <- ->]|[]]]; [apply lookup_app_l_Some; auto|]. rewrite lookup_app_r, Nat.sub_diag by lia. auto.
  - intros E. apply lookup_app_Some in E as [E|[Hl E]]; auto. right. left.
    destruct (j - length l)%nat eqn:Ej; cbn in E; [|discriminate]. injection E as ->. f_equal. lia.
Qed.

(** The places of the entries: constants in column 0, then each variable's. *)
Lemma coo_places hs i j : (exists d, In (i, j, d) (g_coo (gen ord hs))) <->
  (j = 0 /\ map fst (terms hs) !! i = Some e_empty) \/
  (exists v, dkeys (g_varlocs (gen ord hs)) !! j = Some v /\ has (map fst (terms hs)) v i = true).
Proof.
  rewrite gen_eq. set (g := gen_loop ord hs _). cbn [g_coo g_varlocs].
  pose proof (gen_loop_inv ord Hord hs (map (fun mh => length (snd mh)) hs)) as HI. fold g in HI.
  destruct (gi_v _ _ HI) as [Hm Hnd Hk Hl Hc]. rewrite (gi_exps _ _ HI) in *. set (exps := map fst (terms hs)) in *.
  assert (Hlocs : forall v locs, In (v, locs) (g_varlocs g) -> forall i, In i locs <-> has exps v i = true).
  { intros v locs Hin i'. pose proof (Hl v) as E. unfold locs_of in E. rewrite (In_dget _ v locs Hnd Hin) in E. subst locs.
    rewrite filter_In, in_seq. split; [tauto|]. intros Hh. pose proof (has_lt _ _ _ Hh). split; auto; lia. }
  split.
  - intros [d Hd]. apply in_app_iff in Hd as [Hd|Hd].
    + apply Hc in Hd as (i' & [= -> -> ->] & Hi). left. auto.
    + apply in_flat_map in Hd as ([j' [v locs]] & Hj & Hd). apply in_enumerate in Hj. cbn [coo_col] in Hd.
      apply in_map_iff in Hd as (i' & [= -> -> _] & Hi). right. exists v. split.
      * unfold dkeys. rewrite list_lookup_fmap, Hj. auto.
      * apply (Hlocs v locs); auto. apply elem_of_list_In, elem_of_list_lookup_2 with j; auto.
  - intros [[-> Hi]|(v & Hj & Hh)].
    + exists n0. apply in_app_iff. left. apply Hc. eauto.
    + unfold dkeys in Hj. rewrite list_lookup_fmap in Hj. destruct (g_varlocs g !! j) as [[v' locs]|] eqn:Ej; [|discriminate].
      injection Hj as ->. eexists. apply in_app_iff. right. apply in_flat_map. exists (j, (v, locs)).
      split; [apply in_enumerate; auto|]. cbn [coo_col]. apply in_map_iff. exists i. split; [reflexivity|].
      apply (Hlocs v locs); auto. apply elem_of_list_In, elem_of_list_lookup_2 with j; auto.
Qed.

Lemma coo_shape_eq (coo : list (nat * nat * T)) r c :
  (forall i j d, In (i, j, d) coo -> i <= r /\ j <= c) ->
  ((exists j d, In (r, j, d) coo) -> fst (coo_shape coo) = S r) /\
  ((exists i d, In (i, c, d) coo) -> snd (coo_shape coo) = S c).
Proof.
  intros Hle.
  assert (E : coo <> [] -> coo_shape coo = (S (list_max (map (fun t => fst (fst t)) coo)), S (list_max (map (fun t => snd (fst t)) coo))))
    by (destruct coo; [contradiction|reflexivity]).
  split; intros (k & d & Hin); rewrite E by (intros ->; destruct Hin); cbn [fst snd]; f_equal; apply list_max_eq.
  1, 3: intros x Hx; apply in_map_iff in Hx as ([[i j] d'] & <- & Hx); apply Hle in Hx; cbn; lia.
  all: apply in_map_iff; eexists; split; [|exact Hin]; reflexivity.
Qed.

Lemma rows_shape hs : 0 < length (terms hs) -> fst (coo_shape (g_coo (gen ord hs))) = length (terms hs).
Proof.
  intros Hpos.
  pose proof (gen_loop_inv ord Hord hs (map (fun mh => length (snd mh)) hs)) as HI.
  destruct (gi_v _ _ HI) as [Hm Hnd Hk Hl Hc].
  assert (Hrow : forall i j d, In (i, j, d) (g_coo (gen ord hs)) -> i < length (terms hs)).
  { intros i j d Hd. destruct (proj1 (coo_places hs i j)) as [[_ Hi]|(v & _ & Hh)]; [eauto| |].
    - apply lookup_lt_Some in Hi. rewrite map_length in Hi. auto.
    - apply has_lt in Hh. rewrite map_length in Hh. auto. }
  destruct (coo_shape_eq (g_coo (gen ord hs)) (length (terms hs) - 1) (list_max (map (fun t => snd (fst t)) (g_coo (gen ord hs))))) as [E _].
  { intros i j d Hd. split; [pose proof (Hrow i j d Hd); lia|].
    assert (Hf : List.Forall (fun k => k <= list_max (map (fun t => snd (fst t)) (g_coo (gen ord hs)))) (map (fun t => snd (fst t)) (g_coo (gen ord hs))))
      by (apply list_max_le; lia).
    rewrite List.Forall_forall in Hf. apply Hf. apply in_map_iff. exists (i, j, d). auto. }
  rewrite E; [lia|].
  destruct (map fst (terms hs) !! (length (terms hs) - 1)) as [e|] eqn:Ee.
  2:{ apply lookup_ge_None in Ee. rewrite map_length in Ee. lia. }
  destruct (decide (e = e_empty)) as [->|Hne].
  - destruct (proj2 (coo_places hs (length (terms hs) - 1) 0)) as [d Hd]; [left; auto|]. eauto.
  - apply map_choose in Hne as (v & y & Hy).
    assert (Hh : has (map fst (terms hs)) v (length (terms hs) - 1) = true) by (unfold has; rewrite Ee, Hy; auto).
    assert (Hin : In v (dkeys (g_varlocs (gen ord hs)))) by (rewrite gen_eq; cbn [g_varlocs]; apply Hk; eauto).
    apply elem_of_list_In, elem_of_list_lookup in Hin as (j & Hj).
    destruct (proj2 (coo_places hs (length (terms hs) - 1) j)) as [d Hd]; [right; eauto|]. eauto.
Qed.

Lemma cols_shape hs : let n := length (g_varlocs (gen ord hs)) in 0 < n -> snd (coo_shape (g_coo (gen ord hs))) = n.
Proof.
  intros n Hpos.
  pose proof (gen_loop_inv ord Hord hs (map (fun mh => length (snd mh)) hs)) as HI.
  destruct (gi_v _ _ HI) as [Hm Hnd Hk Hl Hc].
  destruct (coo_shape_eq (g_coo (gen ord hs)) (list_max (map (fun t => fst (fst t)) (g_coo (gen ord hs)))) (n - 1)) as [_ E].
  { intros i j d Hd. split.
    - assert (Hf : List.Forall (fun k => k <= list_max (map (fun t => fst (fst t)) (g_coo (gen ord hs)))) (map (fun t => fst (fst t)) (g_coo (gen ord hs))))
        by (apply list_max_le; lia).
      rewrite List.Forall_forall in Hf. apply Hf. apply in_map_iff. exists (i, j, d). auto.
    - destruct (proj1 (coo_places hs i j)) as [[-> _]|(v & Hj & _)]; [eauto|lia|].
      apply lookup_lt_Some in Hj. unfold dkeys in Hj. rewrite map_length in Hj. fold n in Hj. lia. }
  rewrite E; [lia|].
  destruct (dkeys (g_varlocs (gen ord hs)) !! (n - 1)) as [v|] eqn:Ev.
  2:{ apply lookup_ge_None in Ev. unfold dkeys in Ev. rewrite map_length in Ev. fold n in Ev. lia. }
  assert (Hi : exists i, has (map fst (terms hs)) v i = true).
  { apply Hk. rewrite gen_eq in Ev. cbn [g_varlocs] in Ev. apply elem_of_list_In, elem_of_list_lookup_2 with (n - 1). exact Ev. }
  destruct Hi as [i Hi]. destruct (proj2 (coo_places hs i (n - 1))) as [d Hd]; [right; eauto|]. eauto.
Qed.
End Shape.

(** ** Values *)
Open Scope R_scope.

Section Value.
Variable ord : var_order R.
Hypothesis Hord : forall e, List.NoDup (ord e) /\ forall k, In k (ord e) <-> e !! k <> None.

Lemma coo_dot_lsum coo (x : nat -> R) i :
  coo_dot coo x i = lsum (fun t => if Nat.eqb (fst (fst t)) i then snd t * x (snd (fst t)) else 0) coo.
Proof.
  unfold coo_dot. cbn [n0 nadd nmul R_num].
  assert (E : forall l acc, fold_left (fun acc t => acc + snd t * x (snd (fst t))) l acc
            = acc + lsum (fun t : nat * nat * R => snd t * x (snd (fst t))) l).
  { induction l as [|t l IH]; intros acc; cbn; [lra|]. rewrite IH. lra. }
  rewrite E. rewrite Rplus_0_l. unfold coo_row. induction coo as [|t coo IH]; cbn; auto.
  destruct (Nat.eqb (fst (fst t)) i); cbn; rewrite IH; lra.
Qed.

Lemma lsum_single (f : nat -> R) i l : List.NoDup l ->
  lsum (fun a => if Nat.eqb a i then f a else 0) l = if in_dec Nat.eq_dec i l then f i else 0.
Proof.
  induction l as [|a l IH]; intros Hn; cbn [lsum]; auto. inversion Hn as [|? ? Ha Hn']; subst. rewrite IH by auto.
  destruct (Nat.eqb_spec a i) as [->|Hne].
  - destruct (in_dec Nat.eq_dec i l) as [Hi|_]; [contradiction|].
    destruct (in_dec Nat.eq_dec i (i :: l)) as [_|Hi]; [lra|cbn in Hi; tauto].
  - destruct (in_dec Nat.eq_dec i l) as [Hi|Hi], (in_dec Nat.eq_dec i (a :: l)) as [Hj|Hj]; cbn in Hj; try lra; exfalso; tauto.
Qed.

Lemma lsum_flat {A B} (f : B -> R) (g : A -> list B) l : lsum f (flat_map g l) = lsum (fun a => lsum f (g a)) l.
Proof. induction l as [|a l IH]; cbn; auto. rewrite lsum_app, IH. auto. Qed.

Lemma has_R exps v i e : exps !! i = Some e -> (if has (T := R) exps v i then eget e v else 0) = eget e v.
Proof.
  intros Ei. unfold has. rewrite Ei. unfold eget. destruct (e !! v); auto.
Qed.

Lemma gen_row hs i e (x : nat -> R) (env : point) : let g := gen ord hs in
  g_exps g !! i = Some e ->
  (forall v j, varidx g v = Some j -> env v = exp (x j)) ->
  exp (coo_dot (g_coo g) x i) = mono_val env e.
Proof.
  cbv zeta. rewrite gen_eq. set (g := gen_loop ord hs _). cbn [g_exps g_coo]. unfold varidx. cbn [g_varlocs].
  intros Ei Henv. pose proof (gen_loop_inv ord Hord hs (map (fun mh => length (snd mh)) hs)) as HI. fold g in HI.
  destruct (gi_v _ _ HI) as [Hm Hnd Hk Hl Hc]. rewrite (gi_exps _ _ HI) in *. set (exps := map fst (terms hs)) in *.
  rewrite mono_val_exp. f_equal. rewrite coo_dot_lsum, lsum_app, lsum_flat.
  rewrite (lsum_ext _ (fun _ => 0) (g_coo g)), lsum_zero, Rplus_0_l.
  2:{ intros t Ht. apply Hc in Ht as (i' & -> & _). cbn. destruct (Nat.eqb i' i); lra. }
  rewrite (dot_ks env e (dkeys (g_varlocs g))).
  2:{ apply NoDup_ListNoDup; auto. }
  2:{ intros k y Hy. apply Hk. exists i. unfold has. rewrite Ei, Hy. auto. }
  unfold dkeys at 1. rewrite lsum_map.
  rewrite <- (map_snd_enumerate (g_varlocs g)) at 2. rewrite lsum_map. apply lsum_ext.
  intros [j [v locs]] Hj. apply in_enumerate in Hj. cbn [coo_col fst snd].
  assert (Ev : dkeys (g_varlocs g) !! j = Some v) by (unfold dkeys; rewrite list_lookup_fmap, Hj; auto).
  assert (El : locs = List.filter (has exps v) (seq 0 (length exps))).
  { rewrite <- Hl. unfold locs_of. rewrite (In_dget (g_varlocs g) v locs); auto.
    apply elem_of_list_In, elem_of_list_lookup_2 with j; auto. }
  rewrite lsum_map. cbn [fst snd].
  rewrite (Henv v j (position_nodup _ _ _ Hnd Ev)), ln_exp.
  rewrite (lsum_single (fun i => match exps !! i with
                       | Some e => match e !! v with Some x => x | None => n0 end
                       | None => n0 end * x j)).
  2:{ subst locs. apply List.NoDup_filter, seq_NoDup. }
  subst locs. rewrite Ei. change (match e !! v with Some x => x | None => n0 end) with (eget e v).
  destruct (in_dec Nat.eq_dec i _) as [Hi|Hi]; auto.
  assert (Hh : has exps v i = false).
  { destruct (has exps v i) eqn:Eh; auto. exfalso. apply Hi, filter_In. split; auto. apply in_seq.
    apply has_lt in Eh. lia. }
  pose proof (has_R exps v i e Ei) as E. rewrite Hh in E. rewrite <- E. lra.
Qed.

(** The terms of posynomial [p] are the rows of its slice. *)
Lemma terms_slice (hs : list (bool * hmap R)) p b h : hs !! p = Some (b, h) ->
  terms hs = terms (take p hs) ++ h ++ terms (drop (S p) hs).
Proof.
  intros Hp. rewrite <- (take_drop_middle hs p (b, h) Hp) at 1. rewrite terms_app. cbn. auto.
Qed.

Lemma lsum_seq_terms (f : nat -> R) (F : expv R * R -> R) (h : hmap R) : forall s,
  (forall n t, h !! n = Some t -> f (s + n)%nat = F t) ->
  lsum f (seq s (length h)) = lsum F h.
Proof.
  unfold hmap in *. induction h as [|t h IH]; intros s Hf; cbn [length seq lsum]; auto.
  rewrite <- (Hf 0%nat t) by auto. rewrite Nat.add_0_r. f_equal. apply IH. intros n t' Hn.
  rewrite <- (Hf (S n) t') by auto. f_equal. lia.
Qed.
End Value.

(** ** Pairs of equalities *)
Section Pairs.
Variable inf : R.
Variable pick : hmap R -> schedule.
Variable fixed : gmap nat R.

Lemma length_ddel (h : hmap R) e c : dget h e = Some c -> S (length (ddel h e)) = length h.
Proof.
  unfold hmap in *. induction h as [|[a b] h IH]; cbn; [discriminate|].
  destruct (decide (e = a)); cbn; auto.
Qed.
Lemma length_dset_le (h : hmap R) e c : (length (dset h e c) <= S (length h))%nat.
Proof.
  unfold hmap in *. induction h as [|[a b] h IH]; cbn; [lia|]. destruct (decide (e = a)); cbn; lia.
Qed.
Lemma length_dset_present (h : hmap R) e c c' : dget h e = Some c -> length (dset h e c') = length h.
Proof.
  unfold hmap in *. induction h as [|[a b] h IH]; cbn; [discriminate|]. destruct (decide (e = a)); cbn; auto.
Qed.
Lemma length_never_empty (h : hmap R) n : (1 <= n)%nat -> (length h <= n)%nat ->
  (1 <= length (never_empty h) <= n)%nat.
Proof. unfold hmap in *. destruct h; cbn; lia. Qed.

Lemma subinplace_length (st st' : sst R) vk v i n : subinplace inf st vk v i = Ok st' ->
  (1 <= length (s_cp st) <= n)%nat -> (1 <= length (s_cp st') <= n)%nat.
Proof.
  unfold subinplace. intros E Hl.
  destruct (s_cur st !! i) as [e|]; [|discriminate]. destruct (e !! vk) as [x|]; [|discriminate].
  destruct (dget (s_cp st) e) as [c|] eqn:Eg.
  - pose proof (length_ddel _ _ _ Eg) as Ld.
    destruct (dget (ddel (s_cp st) e) (delete vk e)) as [cv|] eqn:Eg2; injection E as <-; cbn [s_cp];
      apply length_never_empty; try lia; dcase Ex.
    + pose proof (length_ddel _ _ _ Eg2). lia.
    + rewrite (length_dset_present _ _ _ _ Eg2). lia.
    + lia.
    + eapply Nat.le_trans; [apply length_dset_le|lia].
  - destruct (existsb _ _); injection E as <-; cbn [s_cp]; auto.
Qed.
Lemma sub_pass_length vk v n idxs : forall st st' : sst R, sub_pass inf st vk v idxs = Ok st' ->
  (1 <= length (s_cp st) <= n)%nat -> (1 <= length (s_cp st') <= n)%nat.
Proof.
  induction idxs as [|i idxs IH]; intros st st' E Hl; cbn in E; [injection E as <-; auto|].
  apply rbind_ok in E as (st1 & E1 & E2). eapply IH; eauto. eapply subinplace_length; eauto.
Qed.
Lemma nm_sub_length (h : hmap R) sched st : nm_sub inf fixed h sched = Ok st -> h <> [] ->
  (1 <= length (s_cp st) <= length h)%nat.
Proof.
  unfold nm_sub. intros E Hne.
  assert (H0 : (1 <= length (s_cp (sub_init h)) <= length h)%nat).
  { unfold hmap in *. cbn. destruct h; [contradiction|cbn; lia]. }
  revert E H0. generalize (sub_init h) as st0, (length h) as n. clear Hne h.
  induction sched as [|[vk idxs] sched IH]; intros st0 n E H0; cbn in E; [injection E as <-; auto|].
  destruct (fixed !! vk) as [v|]; [|discriminate]. apply rbind_ok in E as (st1 & E1 & E2).
  eapply IH; eauto. eapply sub_pass_length; eauto.
Qed.

Lemma simplify_single (h h' : hmap R) : length h = 1%nat -> simplify h = Ok (Some h') -> length h' = 1%nat.
Proof.
  intros Hl. unfold simplify. destruct (dget h e_empty) as [c|]; [|intros [= <-]; auto].
  rewrite Hl. change (Nat.eqb 1 1) with true. rewrite andb_true_r.
  destruct (nleb (nopp feastol) (nsub n1 c)) eqn:E1; [discriminate|].
  destruct (nltb (nsub n1 c) (nopp feastol)) eqn:E2; [discriminate|]. cbn in E1, E2.
  apply Rleb_false in E1. apply Rltb_false in E2. lra.
Qed.

Lemma as_hmapslt1_singles us : forall (st st' : cstate R) out, (forall u, In u us -> length u = 1%nat) ->
  as_hmapslt1 inf pick fixed st us = Ok (st', out) -> forall v, In v out -> length v = 1%nat.
Proof.
  induction us as [|u us IH]; intros st st' out Hu E v Hv; cbn [as_hmapslt1] in E; [injection E as <- <-; destruct Hv|].
  apply rbind_ok in E as (s & Es & E). apply rbind_ok in E as (o & Eo & E).
  assert (Ls : length (s_cp s) = 1%nat).
  { apply nm_sub_length in Es; [rewrite (Hu u) in Es by (left; auto); lia|].
    intros ->. specialize (Hu [] (or_introl eq_refl)). discriminate. }
  destruct o as [h'|]; [|eapply IH; eauto; intros; apply Hu; right; auto].
  destruct (any_nonpositive h'); [discriminate|]. apply rbind_ok in E as ([s2 o2] & E2 & E).
  cbn [fst snd] in E. injection E as <- <-. destruct Hv as [<-|Hv]; [eapply simplify_single; eauto|].
  eapply IH; eauto. intros; apply Hu; right; auto.
Qed.

(** The constraint objects of a program. *)
Definition made (c : constr R) : Prop :=
  match c with
  | CMeq _ us => exists se left right, is_mono left /\ is_mono right /\ meq_unsubbed se left right = Ok us
  | _ => True
  end.

Hypothesis Hf : forall k v, fixed !! k = Some v -> 0 < v.
Hypothesis Hpick : forall h, valid_schedule fixed h (pick h).

Lemma meq_shape se st us out : made (CMeq st us) -> constr_hmaps inf pick se fixed (CMeq st us) = Ok out ->
  out = [] \/ exists h1 h2 : hmap R, out = [(true, h1); (true, h2)] /\ length h1 = 1%nat /\ length h2 = 1%nat.
Proof.
  intros (se' & l & r & Hl & Hr & Hus) E. cbn [constr_hmaps] in E.
  apply rmap_ok in E as ([st' o] & E & ->). cbn [snd].
  pose proof (meq_correct inf pick fixed Hf Hpick st se' l r Hl Hr) as HC. rewrite Hus, E in HC.
  destruct HC as (_ & _ & [[L _]|[-> _]]); [|left; auto].
  destruct o as [|h1 [|h2 [|]]]; try discriminate. right. exists h1, h2. split; auto.
  assert (Hs : forall v, In v [h1; h2] -> length v = 1%nat).
  { apply (as_hmapslt1_singles us st st' _); auto. intros u Hu.
    destruct Hl as (el & cl & -> & Hel & Hcl), Hr as (er & cr & -> & Her & Hcr). unfold meq_unsubbed in Hus.
    rewrite !gen_mono in Hus by auto. destruct (decide (el = er)) as [<-|Hne].
    - rewrite (decide_True (P := el = el)) in Hus by auto.
      destruct (Rle_dec (cl / cr) _), (Rle_dec (cr / cl) _); cbn in Hus; try discriminate. injection Hus as <-. destruct Hu.
    - rewrite (decide_False (P := er = el)) in Hus by auto. cbn in Hus. injection Hus as <-.
      destruct Hu as [<-|[<-|[]]]; auto. }
  split; apply Hs; cbn; auto.
Qed.

Lemma unmarked se c out : (forall st us, c <> CMeq st us) -> constr_hmaps inf pick se fixed c = Ok out ->
  Forall (fun bh => fst bh = false) out.
Proof.
  intros Hc E. destruct c as [st us|st us|h]; cbn [constr_hmaps] in E.
  - apply rmap_ok in E as (r & _ & ->). apply Forall_fmap, Forall_true. auto.
  - exfalso. eapply Hc; eauto.
  - apply rmap_ok in E as (r & _ & ->). apply Forall_fmap, Forall_true. auto.
Qed.

(** Where the equalities of a program are. *)
Definition first_rows se (start : list (bool * hmap R)) (cs : list (constr R)) (i : nat) : Prop :=
  exists pre st us post before h1 h2, cs = pre ++ CMeq st us :: post /\
    chain_hmaps inf pick se fixed pre = Ok before /\
    constr_hmaps inf pick se fixed (CMeq st us) = Ok [(true, h1); (true, h2)] /\
    i = length (flat_map snd (start ++ before)).

Lemma blocks_plain hs (f a : list nat) out : blocks (T := R) hs f a -> Forall (fun bh => fst bh = false) out -> blocks (hs ++ out) f a.
Proof.
  revert hs. induction out as [|[b h] out IH]; intros hs Hb Ho; [rewrite app_nil_r; auto|].
  inversion Ho as [|? ? E Ho']; subst. cbn in E. subst b.
  change ((false, h) :: out) with ([(false, h)] ++ out). rewrite app_assoc. apply IH; auto. constructor; auto.
Qed.

Lemma chain_blocks se cs : forall start hs f a, (forall c, In c cs -> made c) ->
  chain_hmaps inf pick se fixed cs = Ok hs -> blocks start f a ->
  exists f' a', blocks (start ++ hs) (f ++ f') (a ++ a') /\
    (forall i, In i f' <-> first_rows se start cs i) /\
    (forall i, In i a' <-> first_rows se start cs i \/ exists j, i = S j /\ first_rows se start cs j).
Proof.
  induction cs as [|c cs IH]; intros start hs f a Hm E Hb; cbn [chain_hmaps] in E.
  - injection E as <-. exists [], []. rewrite !app_nil_r. split; auto.
    assert (N : forall i, ~ first_rows se start [] i).
    { intros i (pre & st & us & post & ? & ? & ? & Hc & _). destruct pre; discriminate. }
    split; intros i; (split; [intros []|]); [apply N|intros [Hi|(j & _ & Hi)]; eapply N; eauto].
  - apply rbind_ok in E as (hc & Ec & E). apply rbind_ok in E as (ht & Et & E). injection E as <-.
    assert (Hsplit : forall i, first_rows se start (c :: cs) i <->
      (exists st us h1 h2, c = CMeq st us /\ hc = [(true, h1); (true, h2)] /\ i = length (flat_map snd start)) \/
      first_rows se (start ++ hc) cs i).
    { intros i. split.
      - intros (pre & st & us & post & before & h1 & h2 & Hc & Hpre & Hmq & Hi).
        destruct pre as [|c' pre]; cbn in Hc; injection Hc as -> ->.
        + left. exists st, us, h1, h2. cbn in Hpre. injection Hpre as <-. rewrite Ec in Hmq. injection Hmq as ->.
          rewrite app_nil_r in Hi. auto.
        + right. cbn [chain_hmaps] in Hpre. rewrite Ec in Hpre. cbn [rbind] in Hpre.
          apply rbind_ok in Hpre as (b' & Eb' & Hpre). injection Hpre as <-.
          exists pre, st, us, post, b', h1, h2. rewrite <- app_assoc. auto.
      - intros [(st & us & h1 & h2 & -> & -> & ->)|(pre & st & us & post & before & h1 & h2 & -> & Hpre & Hmq & ->)].
        + exists [], st, us, cs, [], h1, h2. rewrite app_nil_r. cbn [app chain_hmaps]. auto.
        + exists (c :: pre), st, us, post, (hc ++ before), h1, h2. cbn [app chain_hmaps]. rewrite Ec, Hpre. cbn [rbind].
          rewrite <- app_assoc. auto. }
    assert (Hplain : (forall i, ~ (exists st us h1 h2, c = CMeq st us /\ hc = [(true, h1); (true, h2)] /\ i = length (flat_map snd start))) ->
              blocks (start ++ hc) f a -> exists f' a', blocks (start ++ (hc ++ ht)) (f ++ f') (a ++ a') /\
    (forall i, In i f' <-> first_rows se start (c :: cs) i) /\
    (forall i, In i a' <-> first_rows se start (c :: cs) i \/ exists j, i = S j /\ first_rows se start (c :: cs) j)).
    { intros Hno Hb'. destruct (IH (start ++ hc) ht f a) as (f' & a' & B & F & A); auto.
      { intros c' Hc'. apply Hm. right; auto. }
      exists f', a'. rewrite app_assoc. split; [exact B|]. split.
      - intros i. rewrite F, Hsplit. split; auto. intros [Hx|]; auto. exfalso; eapply Hno; eauto.
      - intros i. rewrite A. split.
        + intros [Hi|(j & -> & Hj)]; [left|right; exists j; split; auto]; apply Hsplit; auto.
        + intros [Hi|(j & -> & Hj)]; [apply Hsplit in Hi as [Hx|]|apply Hsplit in Hj as [Hx|]];
            try (exfalso; eapply Hno; eauto; fail); [left; auto|right; eauto]. }
    assert (Hcase : (forall st us, c <> CMeq st us) \/ exists st us, c = CMeq st us).
    { destruct c; [left; discriminate|right; eauto|left; discriminate]. }
    destruct Hcase as [Hnm|(st & us & Hcm)].
    + apply Hplain.
      * intros i (st & us & _ & _ & Hx & _). eapply Hnm; eauto.
      * apply blocks_plain; auto. eapply unmarked; eauto.
    + subst c. destruct (meq_shape se st us hc) as [->|(h1 & h2 & -> & L1 & L2)]; auto.
      { apply Hm. left; auto. }
      * apply Hplain; [|rewrite app_nil_r; auto]. intros i (? & ? & ? & ? & _ & Hx & _). discriminate.
      * destruct (IH (start ++ [(true, h1); (true, h2)]) ht (f ++ [length (terms start)])
          (a ++ [length (terms start); S (length (terms start))])) as (f' & a' & B & F & A); auto.
        { intros c' Hc'. apply Hm. right; auto. }
        { apply bl_pair; auto. }
        rewrite <- !app_assoc in B.
        exists ([length (terms start)] ++ f'), ([length (terms start); S (length (terms start))] ++ a').
        split; [exact B|]. split.
        -- intros i. rewrite Hsplit, in_app_iff, F. cbn [In]. split.
           ++ intros [[<-|[]]|Hi]; auto. left. exists st, us, h1, h2. auto.
           ++ intros [(? & ? & ? & ? & _ & _ & ->)|Hi]; auto.
        -- intros i. rewrite in_app_iff, A. cbn [In]. split.
           ++ intros [[<-|[<-|[]]]|[Hi|(j & -> & Hj)]].
              ** left. apply Hsplit. left. exists st, us, h1, h2. auto.
              ** right. exists (length (terms start)). split; auto. apply Hsplit. left. exists st, us, h1, h2. auto.
              ** left. apply Hsplit. auto.
              ** right. exists j. split; auto. apply Hsplit. auto.
           ++ intros [Hi|(j & -> & Hj)].
              ** apply Hsplit in Hi as [(? & ? & ? & ? & _ & _ & ->)|Hi]; auto.
              ** apply Hsplit in Hj as [(? & ? & ? & ? & _ & _ & ->)|Hj]; [left; right; left; auto|right; right; eauto].
Qed.
End Pairs.
