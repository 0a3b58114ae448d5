(** Proofs about sensitivities. *)
From Coq Require Import FunctionalExtensionality.
From Verif Require Import Base HashVec Nomial NomialSem NomialProofs CanonProofs DiffProofs
  Sub SubSem SubProofs SubExtra Mono MonoProofs Constraint ConstraintSem ConstraintProofs GPGen GPGenProofs DualProofs Sens SensSem.
Open Scope R_scope.

(** ** Logarithmic derivatives *)
Lemma term_val_log p k s t : 0 < p k ->
  term_val (upd p k (p k * exp s)) t = term_val p t * exp (eget (fst t) k * s).
Proof.
  intros Hk. destruct t as [e c]. unfold term_val, eget. cbn [fst snd].
  destruct (e !! k) as [a|] eqn:E.
  - rewrite (mono_val_upd p k _ e a E), (mono_val_delete p k e a E).
    unfold Rpower at 1. rewrite ln_mult by (auto; apply exp_pos). rewrite ln_exp.
    rewrite Rmult_plus_distr_l, exp_plus. unfold Rpower. ring.
  - rewrite mono_val_upd_absent by auto. rewrite Rmult_0_l, exp_0. ring.
Qed.

Definition logsum (k : nat) (p : point) (l : hmap R) : R := lsum (fun t => eget (fst t) k * term_val p t) l.

Lemma lsum_log_deriv p k (l : hmap R) : 0 < p k ->
  derivable_pt_lim (fun s => lsum (term_val (upd p k (p k * exp s))) l) 0 (logsum k p l).
Proof.
  intros Hk. pose proof (expsum_deriv (map (fun t => (term_val p t, eget (fst t) k)) l) 0) as H.
  eapply derivable_pt_lim_ext; [|replace (logsum k p l) with (expsum (map (fun ca => (fst ca * snd ca, snd ca))
    (map (fun t => (term_val p t, eget (fst t) k)) l)) 0); [exact H|]].
  - intros s. unfold expsum. rewrite lsum_map. apply lsum_ext. intros t _. cbn [fst snd]. symmetry.
    apply term_val_log; auto.
  - unfold expsum, logsum. rewrite !lsum_map. apply lsum_ext. intros t _. cbn [fst snd].
    rewrite Rmult_0_r, exp_0. ring.
Qed.

Lemma upd_same p k : upd p k (p k * exp 0) = p.
Proof.
  apply functional_extensionality. intros j. unfold upd. rewrite exp_0, Rmult_1_r. destruct (decide (j = k)) as [->|]; auto.
Qed.

Lemma log_deriv_quot (N D : hmap R) (c : R) p k : 0 < p k -> 0 < lsum (term_val p) N -> 0 < c + lsum (term_val p) D ->
  log_deriv (fun q => lsum (term_val q) N / (c + lsum (term_val q) D)) p k
    (logsum k p N / lsum (term_val p) N - logsum k p D / (c + lsum (term_val p) D)).
Proof.
  intros Hk HN HD. unfold log_deriv.
  set (n := fun s => lsum (term_val (upd p k (p k * exp s))) N).
  set (d := fun s => c + lsum (term_val (upd p k (p k * exp s))) D).
  assert (En : n 0 = lsum (term_val p) N) by (unfold n; rewrite upd_same; auto).
  assert (Ed : d 0 = c + lsum (term_val p) D) by (unfold d; rewrite upd_same; auto).
  assert (Dn : derivable_pt_lim n 0 (logsum k p N)) by (apply lsum_log_deriv; auto).
  assert (Dd : derivable_pt_lim d 0 (logsum k p D)).
  { replace (logsum k p D) with (0 + logsum k p D) by ring.
    apply (derivable_pt_lim_plus (fun _ => c)); [apply derivable_pt_lim_const|apply lsum_log_deriv; auto]. }
  assert (Hq : derivable_pt_lim (fun s => n s / d s) 0 ((logsum k p N * d 0 - logsum k p D * n 0) / Rsqr (d 0))).
  { apply (derivable_pt_lim_div n d); auto. lra. }
  assert (Hpos : 0 < n 0 / d 0) by (rewrite En, Ed; apply Rdiv_lt_0_compat; auto).
  pose proof (derivable_pt_lim_comp (fun s => n s / d s) ln 0 _ _ Hq (derivable_pt_lim_ln _ Hpos)) as H.
  replace (logsum k p N / lsum (term_val p) N - logsum k p D / (c + lsum (term_val p) D))
    with (/ (n 0 / d 0) * ((logsum k p N * d 0 - logsum k p D * n 0) / Rsqr (d 0))).
  - exact H.
  - rewrite En, Ed. unfold Rsqr. field. lra.
Qed.

Lemma lsum_const_free {F : expv R * R -> R} fixed (u : hmap R) :
  lsum F u = lsum F (free_terms fixed u) + lsum F (constant_terms fixed u).
Proof.
  unfold free_terms, constant_terms. induction u as [|t u IH]; cbn [lsum List.filter]; [lra|].
  rewrite IH. destruct (bool_decide _); cbn [negb lsum]; lra.
Qed.

Lemma lsum_filter {A} (F : A -> R) (b : A -> bool) l : lsum F (List.filter b l) = lsum (fun a => if b a then F a else 0) l.
Proof. induction l as [|a l IH]; cbn [List.filter lsum]; auto. destruct (b a); cbn [lsum]; lra. Qed.

(** ** Weighted sums over arrays *)
Fixpoint asum (A : nat -> R) (s : nat) (l : list R) : R :=
  match l with [] => 0 | x :: l' => x * A s + asum A (S s) l' end.

Lemma asum_insert A l : forall s i x w, l !! i = Some x -> asum A s (<[i := x + w]> l) = asum A s l + w * A (s + i)%nat.
Proof.
  induction l as [|y l IH]; intros s [|i] x w H; cbn in H; try discriminate.
  - injection H as ->. cbn. rewrite Nat.add_0_r. ring.
  - change (<[S i := x + w]> (y :: l)) with (y :: <[i := x + w]> l). cbn [asum]. rewrite (IH (S s) i x w H).
    replace (S s + i)%nat with (s + S i)%nat by lia. ring.
Qed.

Lemma asum_zero A n : forall s, asum A s (replicate n 0) = 0.
Proof. induction n as [|n IH]; intros s; cbn; auto. rewrite IH. ring. Qed.

Definition fsum (A : nat -> R) (fr : list (nat * R)) : R := lsum (fun ip => snd ip * A (fst ip)) fr.

Lemma add_fractions_ok A fr : forall l w, (forall i p, In (i, p) fr -> (i < length l)%nat) ->
  exists l', add_fractions l fr w = Ok l' /\ length l' = length l /\ asum A 0 l' = asum A 0 l + w * fsum A fr.
Proof.
  induction fr as [|[i p] fr IH]; intros l w H; cbn [add_fractions].
  - exists l. split; auto. split; auto. unfold fsum. cbn. ring.
  - unfold add_at. destruct (lookup_lt_is_Some_2 l i) as (x & Ex); [eapply H; left; eauto|]. rewrite Ex. cbn [rbind].
    destruct (IH (<[i := x + p * w]> l) w) as (l' & E & L & Ha).
    { intros j q Hj. rewrite insert_length. eapply H. right. eauto. }
    exists l'. split; [exact E|]. rewrite insert_length in L. split; auto.
    rewrite Ha, (asum_insert A l 0 i x (p * w) Ex). unfold fsum. cbn [lsum fst snd Nat.add]. ring.
Qed.

Lemma add_pmap_ok A pmap : forall l nu, (forall fr i p, In fr pmap -> In (i, p) fr -> (i < length l)%nat) ->
  (length pmap <= length nu)%nat ->
  exists l', add_pmap l pmap nu = Ok l' /\ length l' = length l /\
    asum A 0 l' = asum A 0 l + lsum (fun fw => snd fw * fsum A (fst fw)) (List.combine pmap nu).
Proof.
  induction pmap as [|fr pmap IH]; intros l nu H Hl; cbn [add_pmap].
  - exists l. split; auto. split; auto. cbn. ring.
  - destruct nu as [|w nu]; [cbn in Hl; lia|].
    destruct (add_fractions_ok A fr l w) as (l1 & E1 & L1 & A1). { intros i p Hi. eapply H; [left|]; eauto. }
    assert (E : forall (X : res (list R)), match fr with | [] => rbind (add_fractions l fr w) (fun nu1 => add_pmap nu1 pmap nu)
       | _ :: _ => rbind (add_fractions l fr w) (fun nu1 => add_pmap nu1 pmap nu) end = add_pmap l1 pmap nu).
    { intros _. rewrite E1. destruct fr; reflexivity. }
    rewrite (E (Ok [])).
    destruct (IH l1 nu) as (l' & E' & L' & A'). { intros fr' i p Hf Hi. rewrite L1. eapply H; [right|]; eauto. }
    { cbn in Hl. lia. }
    exists l'. split; auto. split; [congruence|]. rewrite A', A1. cbn [List.combine lsum fst snd]. ring.
Qed.

(** ** Dictionaries of sensitivities *)
Lemma hget_eget (d : expv R) k : hget d k = eget d k.
Proof. reflexivity. Qed.

Lemma fold_add_hget (g : R -> R) (l : list (nat * R)) : forall (d : expv R) k, NoDup (map fst l) ->
  hget (fold_left (fun d kx => <[fst kx := g (snd kx) + hget d (fst kx)]> d) l d) k =
  hget d k + match dget l k with Some x => g x | None => 0 end.
Proof.
  induction l as [|[k0 x0] l IH]; intros d k Hn; cbn [fold_left map fst snd dget] in *; [lra|].
  inversion Hn as [|? ? Hx Hn']; subst. rewrite IH by auto.
  destruct (decide (k = k0)) as [->|Hk].
  - assert (dget l k0 = None) as ->. { apply dget_None. intros Hin. apply Hx. apply elem_of_list_In. exact Hin. }
    unfold hget at 1. rewrite lookup_insert. cbn. lra.
  - unfold hget at 1. rewrite lookup_insert_ne by auto. fold (hget d k). lra.
Qed.

Lemma dget_map_to_list (e : expv R) k : dget (map_to_list e) k = e !! k.
Proof.
  destruct (e !! k) as [x|] eqn:E.
  - apply In_dget; [apply NoDup_fst_map_to_list|]. apply elem_of_list_In. apply elem_of_map_to_list. auto.
  - apply dget_None. intros Hin. unfold dkeys in Hin. apply in_map_iff in Hin as ([k' x] & Hk & Hin). cbn in Hk. subst k'.
    apply elem_of_list_In in Hin. apply elem_of_map_to_list in Hin. congruence.
Qed.

Lemma add_term_hget d w (e : expv R) k : hget (add_term d w e) k = hget d k + w * eget e k.
Proof.
  unfold add_term. rewrite (fold_add_hget (fun x => w * x)) by apply NoDup_fst_map_to_list.
  rewrite dget_map_to_list. unfold eget. destruct (e !! k); lra.
Qed.

Lemma sum_terms_hget nu (u : hmap R) k : hget (sum_terms nu u) k = lsum (fun ne => fst ne * eget (fst (snd ne)) k) (List.combine nu u).
Proof.
  unfold sum_terms. enough (H : forall l d, hget (fold_left (fun d ne => add_term d (fst ne) (fst (snd ne))) l d) k
    = hget d k + lsum (fun ne : R * (expv R * R) => fst ne * eget (fst (snd ne)) k) l).
  { rewrite H. unfold hget at 1. rewrite lookup_empty. cbn [n0 R_num]. lra. }
  induction l as [|[w [e c]] l IH]; intros d; cbn [fold_left lsum fst snd]; [lra|]. rewrite IH, add_term_hget. lra.
Qed.

Lemma sum_terms_asum nu (u : hmap R) k : length nu = length u ->
  hget (sum_terms nu u) k = asum (fun i => match u !! i with Some t => eget (fst t) k | None => 0 end) 0 nu.
Proof.
  intros Hl. rewrite sum_terms_hget.
  enough (H : forall (pre : hmap R) nu u, length nu = length u -> lsum (fun ne : R * (expv R * R) => fst ne * eget (fst (snd ne)) k) (List.combine nu u)
    = asum (fun i => match (pre ++ u) !! i with Some t => eget (fst t) k | None => 0 end) (length pre) nu).
  { apply (H [] nu u Hl). }
  clear. intros pre nu. revert pre. induction nu as [|w nu IH]; intros pre [|t u] Hl; cbn in Hl; try discriminate; cbn [List.combine lsum asum]; auto.
  rewrite list_lookup_middle by auto. cbn [fst snd]. f_equal.
  rewrite (IH (pre ++ [t]) u) by lia. rewrite app_length. cbn [length]. rewrite Nat.add_1_r. rewrite <- app_assoc. reflexivity.
Qed.

(** ** Fractions *)
Lemma NoDup_flat_fst {A B} (f : nat * A -> list (nat * B)) (l : list (nat * A)) :
  (forall t x, In x (f t) -> fst x = fst t) -> (forall t, (length (f t) <= 1)%nat) ->
  List.NoDup (map fst l) -> List.NoDup (map fst (flat_map f l)).
Proof.
  intros Hf H1. induction l as [|t l IH]; cbn [flat_map map]; intros Hn; [constructor|].
  inversion Hn as [|? ? Hx Hn']; subst. rewrite map_app.
  assert (Hin : forall i, In i (map fst (flat_map f l)) -> In i (map fst l)).
  { intros i Hi. apply in_map_iff in Hi as (x & <- & Hi). apply in_flat_map in Hi as (t' & Ht & Hi).
    rewrite (Hf t' x Hi). apply in_map. auto. }
  specialize (H1 t). specialize (Hf t). destruct (f t) as [|x [|y r]]; cbn in *; [auto| |lia].
  constructor; auto. intros Hi. apply Hx. rewrite <- (Hf x) by auto. auto.
Qed.

Lemma mmap_NoDup (st : sst R) fr : In fr (mmap st) -> List.NoDup (map fst fr).
Proof.
  unfold mmap. intros Hin. apply in_map_iff in Hin as (ec & <- & _). apply NoDup_flat_fst.
  - intros [i [cu cs]] x. cbn [fst]. dcase D; intros [Hx|[]] || intros []; subst; auto.
  - intros [i [cu cs]]. dcase D; cbn; lia.
  - assert (H : forall n s (l : list (expv R * R)), List.NoDup (map fst (List.combine (seq s n) l))).
    { induction n as [|n IH]; intros s [|x l]; cbn; try constructor; auto.
      intros Hin. apply in_map_iff in Hin as ([j y] & Hj & Hin). cbn in Hj. subst j.
      apply in_combine_l in Hin. apply in_seq in Hin. lia. }
    apply H.
Qed.

Lemma lsum_seq_lookup (F : nat -> expv R * R -> R) (u : hmap R) : forall s,
  lsum (fun i => match u !! (i - s)%nat with Some t => F i t | None => 0 end) (seq s (length u)) =
  lsum (fun it => F (fst it) (snd it)) (List.combine (seq s (length u)) u).
Proof.
  induction u as [|t u IH]; intros s; cbn [length seq lsum List.combine]; auto.
  rewrite Nat.sub_diag. cbn [fst snd]. f_equal. rewrite <- IH. apply lsum_ext. intros i Hi. apply in_seq in Hi.
  replace (i - s)%nat with (S (i - S s)) by lia. reflexivity.
Qed.

Lemma fsum_group (fixed : gmap nat R) (u : hmap R) fr e c (B : expv R -> R) : List.NoDup (map fst fr) ->
  (forall i q, In (i, q) fr <-> exists o ci, u !! i = Some (o, ci) /\ surviving fixed o = e /\ q = share fixed o ci c) ->
  fsum (fun i => match u !! i with Some t => B (fst t) | None => 0 end) fr =
  lsum (fun t => if decide (surviving fixed (fst t) = e) then share fixed (fst t) (snd t) c * B (fst t) else 0) u.
Proof.
  intros Hn Hfr. set (A := fun i => match u !! i with Some t => B (fst t) | None => 0 end).
  set (g := fun i => match u !! i with
                     | Some t => if decide (surviving fixed (fst t) = e) then [(i, share fixed (fst t) (snd t) c)] else []
                     | None => [] end).
  assert (HP : Permutation fr (flat_map g (seq 0 (length u)))).
  { apply NoDup_Permutation.
    - apply NoDup_ListNoDup. eapply NoDup_map_inv; eauto.
    - apply NoDup_ListNoDup. apply (NoDup_map_inv fst). 
      assert (H : forall n s, List.NoDup (map fst (flat_map g (seq s n)))).
      { assert (Hg : forall i x, In x (g i) -> fst x = i).
        { intros i x. unfold g. destruct (u !! i) as [t|]; [|intros []]. dcase D; [|intros []]. intros [<-|[]]; auto. }
        assert (Hg1 : forall i, (length (g i) <= 1)%nat).
        { intros i. unfold g. destruct (u !! i) as [t|]; [|cbn; lia]. dcase D; cbn; lia. }
        induction n as [|n IH]; intros s; cbn; [constructor|]. rewrite map_app.
        specialize (Hg1 s). pose proof (Hg s) as Hgs. destruct (g s) as [|x [|y r]]; cbn in *; [auto| |lia].
        constructor; auto. rewrite (Hgs x) by auto. intros Hin. apply in_map_iff in Hin as (z & Hz & Hin).
        apply in_flat_map in Hin as (j & Hj & Hin). apply in_seq in Hj. rewrite (Hg j z Hin) in Hz. lia. }
      apply H.
    - intros [i q]. rewrite !elem_of_list_In, Hfr, in_flat_map. split.
      + intros (o & ci & Hi & Hs & ->). exists i. split.
        * apply in_seq. apply lookup_lt_Some in Hi. unfold hmap in *. lia.
        * unfold g. unfold hmap in *. rewrite Hi. cbn [fst snd]. rewrite decide_True by auto. left. auto.
      + intros (j & _ & Hj). unfold g in Hj. destruct (u !! j) as [[o ci]|] eqn:E; [|destruct Hj].
        cbn [fst snd] in Hj. destruct (decide (surviving fixed o = e)) as [D|]; [|destruct Hj].
        destruct Hj as [[= <- <-]|[]]. exists o, ci. auto. }
  unfold fsum. rewrite (lsum_perm _ _ _ HP), lsum_flat.
  transitivity (lsum (fun i => match u !! (i - 0)%nat with
     | Some t => (fun (_ : nat) t => if decide (surviving fixed (fst t) = e) then share fixed (fst t) (snd t) c * B (fst t) else 0) i t
     | None => 0 end) (seq 0 (length u))).
  - apply lsum_ext. intros i Hi. rewrite Nat.sub_0_r. unfold g, A. destruct (u !! i) as [t|] eqn:E; [|reflexivity].
    dcase D; cbn [lsum fst snd]; [|lra]. unfold hmap in *. rewrite E. lra.
  - rewrite lsum_seq_lookup. cbn beta. clear. generalize 0%nat as s.
    induction u as [|t u IH]; intros s; cbn [length seq List.combine lsum fst snd]; auto. rewrite IH. auto.
Qed.

(** The value of a term splits into the substituted and the surviving part. *)
Lemma mono_val_split fixed env (o : expv R) : positive_point env -> (forall k v, fixed !! k = Some v -> 0 < v) ->
  mono_val (override env fixed) o = subval fixed o * mono_val env (surviving fixed o).
Proof.
  intros He Hf. induction o as [|k a o Hk IH] using map_ind.
  - assert (surviving fixed ∅ = ∅) as -> by (apply surviving_clear; intros; apply lookup_empty).
    rewrite !mono_val_empty. unfold subval. rewrite map_fold_empty. lra.
  - rewrite mono_val_insert, subval_insert by auto. rewrite IH. unfold override at 1.
    destruct (fixed !! k) as [v|] eqn:E.
    + assert (surviving fixed (<[k:=a]> o) = surviving fixed o) as ->.
      { rewrite <- (surviving_delete fixed (<[k:=a]> o) k v E). rewrite delete_insert by auto. auto. }
      assert (Rpow v a = Rpower v a) as ->.
      { unfold Rpow. destruct (Rlt_dec 0 v); auto. exfalso. apply n. eauto. }
      ring.
    + assert (surviving fixed (<[k:=a]> o) = <[k := a]> (surviving fixed o)) as ->.
      { apply map_eq. intros j. apply option_eq. intros x. unfold surviving. rewrite lookup_difference_Some.
        destruct (decide (j = k)) as [->|Hj].
        - rewrite !lookup_insert. rewrite E. tauto.
        - rewrite !lookup_insert_ne by auto. rewrite lookup_difference_Some. tauto. }
      rewrite mono_val_insert; [ring|]. unfold surviving. apply lookup_difference_None. auto.
Qed.

Lemma lsum_keyed {V} (X : R) (x : expv R) (h : list (expv R * V)) : NoDup (dkeys h) -> In x (dkeys h) ->
  lsum (fun t => if decide (x = fst t) then X else 0) h = X.
Proof.
  induction h as [|[e c] h IH]; cbn [dkeys map lsum fst]; intros Hn Hin; [destruct Hin|].
  inversion Hn as [|? ? Hx Hn']; subst. destruct (decide (x = e)) as [->|Hne].
  - rewrite (lsum_ext _ (fun _ => 0)); [rewrite lsum_zero; lra|]. intros [e' c'] Ht. cbn [fst].
    destruct (decide (e = e')) as [->|]; auto. exfalso. apply Hx. apply elem_of_list_In. apply in_map_iff. exists (e', c'); auto.
  - destruct Hin as [->|Hin]; [congruence|]. rewrite (IH Hn' Hin). lra.
Qed.

Lemma lsum_ddel (F : expv R * R -> R) (h : hmap R) e c : dget h e = Some c -> lsum F (ddel h e) = lsum F h - F (e, c).
Proof.
  induction h as [|[e' c'] h IH]; cbn [dget ddel]; [discriminate|].
  destruct (decide (e = e')) as [->|Hne]; cbn [lsum]; [intros [= ->]; lra|]. intros H. rewrite (IH H). lra.
Qed.

Lemma index_of_lookup (h : hmap R) e c : dget h e = Some c ->
  h !! index_of e h = Some (e, c) /\ ddel h e = remove_nth (index_of e h) h.
Proof.
  induction h as [|[e' c'] h IH]; cbn [dget ddel index_of]; [discriminate|].
  destruct (decide (e = e')) as [->|Hne]; [intros [= ->]; split; auto|]. intros H. destruct (IH H) as [H1 H2].
  split; auto. unfold remove_nth in *. cbn [take drop app]. f_equal. exact H2.
Qed.

Lemma ddel_scale (h : hmap R) e s : ddel (hv_mul h s) e = hv_mul (ddel h e) s.
Proof.
  unfold hv_mul. induction h as [|[e' c'] h IH]; cbn [map ddel fst snd]; auto.
  destruct (decide (e = e')); auto. cbn [map fst snd]. f_equal. exact IH.
Qed.

Lemma combine_map_l {A B} (f : A -> B) (l : list A) : List.combine (map f l) l = map (fun x => (f x, x)) l.
Proof. induction l; cbn; f_equal; auto. Qed.
Lemma combine_maps {A B C} (f : A -> B) (g : A -> C) (l : list A) : List.combine (map f l) (map g l) = map (fun x => (f x, g x)) l.
Proof. induction l; cbn; f_equal; auto. Qed.
Lemma map_remove_nth {A B} (f : A -> B) n (l : list A) : remove_nth n (map f l) = map f (remove_nth n l).
Proof. unfold remove_nth. rewrite map_app. rewrite firstn_map, skipn_map. auto. Qed.

Section Posy.
Variable inf : R.
Variable pick : hmap R -> schedule.
Variable fixed : gmap nat R.
Hypothesis Hf : forall k v, fixed !! k = Some v -> 0 < v.
Hypothesis Hpick : forall h, valid_schedule fixed h (pick h).
Variable u : hmap R.
Hypothesis Hu : is_posy u.
Variable s : sst R.
Hypothesis Es : nm_sub inf fixed u (pick u) = Ok s.
Hypothesis Hfr : fractions_right fixed u (s_cp s) (mmap s).
Variable env : point.
Hypothesis Henv : positive_point env.
Let p := override env fixed.
Variable k : nat.
Let A := fun i => match u !! i with Some t => eget (fst t) k | None => 0 end.
Let frac (ec : expv R * R) : list (nat * R) :=
    flat_map (fun t : nat * (expv R * R) =>
      let '(i, (cu, cs)) := t in
      if decide (cu = fst ec) then [(i, ndiv cs (snd ec))] else [])
    (List.combine (seq 0 (length (s_cur s))) (List.combine (s_cur s) (s_cs s))).

Lemma mmap_frac : mmap s = map frac (s_cp s).
Proof. reflexivity. Qed.

Lemma frac_spec ec : In ec (s_cp s) -> List.NoDup (map fst (frac ec)) /\
  forall i q, In (i, q) (frac ec) <-> exists o ci, u !! i = Some (o, ci) /\ surviving fixed o = fst ec /\ q = share fixed o ci (snd ec).
Proof.
  intros Hin. split. { apply (mmap_NoDup s). rewrite mmap_frac. apply in_map. auto. }
  apply lookup_In in Hin as (n & Hn). destruct ec as [e c]. destruct Hfr as [_ H]. destruct (H n e c Hn) as (fr & Hm & _ & Hq).
  rewrite mmap_frac in Hm. pose proof (lookup_map frac (s_cp s) n) as E. unfold hmap in *. rewrite Hn in E. cbn [option_map] in E.
  assert (Some fr = Some (frac (e, c))) as [= ->] by (transitivity (map frac (s_cp s) !! n); auto). exact Hq.
Qed.

Lemma frac_bound ec : In ec (s_cp s) -> forall i q, In (i, q) (frac ec) -> (i < length u)%nat.
Proof.
  intros Hin i q Hi. apply (frac_spec ec Hin) in Hi as (o & ci & Hi & _). apply lookup_lt_Some in Hi. exact Hi.
Qed.

Lemma group_of ec : In ec (s_cp s) -> snd ec <> 0 ->
  term_val env ec * fsum A (frac ec) = lsum (fun t => if decide (surviving fixed (fst t) = fst ec) then eget (fst t) k * term_val p t else 0) u.
Proof.
  intros Hin Hc. destruct (frac_spec ec Hin) as [Hn Hq].
  unfold A. rewrite (fsum_group fixed u (frac ec) (fst ec) (snd ec) (fun e => eget e k) Hn Hq).
  rewrite <- lsum_scale. apply lsum_ext. intros [o co] _. cbn [fst snd]. dcase D; [|lra].
  unfold term_val, p. cbn [fst snd]. rewrite (mono_val_split fixed env o Henv Hf), D. unfold share.
  rewrite <- subval_mono_valp. field. auto.
Qed.

Lemma cp_facts : canonical (s_cp s) /\ all_positive (s_cp s) /\ s_cp s <> [] /\
  eval env (s_cp s) = eval p u /\ (forall t, In t u -> In (surviving fixed (fst t)) (dkeys (s_cp s))).
Proof.
  destruct Hu as (Hc & Hp & Hne).
  destruct (sub_posy inf u fixed (pick u) Hc Hp Hne Hf (Hpick u)) as (s' & E & Sc & Sp & Sn & Sk & Sev).
  assert (s' = s) as -> by congruence. split; auto. split; auto. split; auto. split; [apply Sev; auto|].
  intros [o co] Hin. exact (sub_posy_key inf u fixed (pick u) s Hc Hp Hf (Hpick u) Es o co Hin).
Qed.

Lemma all_groups : lsum (fun ec => term_val env ec * fsum A (frac ec)) (s_cp s) = logsum k p u.
Proof.
  destruct cp_facts as (Sc & Sp & Sn & Sev & Sk).
  transitivity (lsum (fun ec => lsum (fun t => if decide (surviving fixed (fst t) = fst ec) then eget (fst t) k * term_val p t else 0) u) (s_cp s)).
  { apply lsum_ext. intros [e c] Hin. apply group_of; auto. cbn [snd]. specialize (Sp _ _ Hin). lra. }
  rewrite lsum_swap. unfold logsum. apply lsum_ext. intros t Ht.
  apply (lsum_keyed _ (surviving fixed (fst t)) (s_cp s)); [apply Sc|apply Sk; auto].
Qed.

Lemma const_group c : dget (s_cp s) e_empty = Some c ->
  c = lsum (term_val p) (constant_terms fixed u) /\ c * fsum A (frac (e_empty, c)) = logsum k p (constant_terms fixed u).
Proof.
  intros Hc. destruct cp_facts as (Sc & Sp & Sn & Sev & Sk).
  assert (Hin : In (e_empty, c) (s_cp s)) by (apply dget_In; auto). split.
  - transitivity (coef (s_cp s) e_empty). { unfold coef. rewrite Hc. auto. }
    destruct Hu as (Huc & Hup & _).
    rewrite (final_coef inf u fixed (proj1 Huc) (positive_defined fixed u Hf) (pick u) s e_empty (Hpick u) Es).
    unfold constant_terms. rewrite lsum_filter. apply lsum_ext. intros [o co] _. cbn [fst snd].
    unfold e_empty. destruct (decide (surviving fixed o = ∅)) as [D|D].
    + rewrite bool_decide_true by auto. unfold term_val, p. cbn [fst snd]. rewrite (mono_val_split fixed env o Henv Hf), D.
      rewrite mono_val_empty. lra.
    + rewrite bool_decide_false by auto. auto.
  - assert (c <> 0) by (specialize (Sp _ _ Hin); lra).
    pose proof (group_of (e_empty, c) Hin ltac:(auto)) as H1. unfold term_val in H1 at 1. cbn [fst snd] in H1.
    rewrite mono_val_empty, Rmult_1_r in H1. rewrite H1. unfold logsum, constant_terms. rewrite lsum_filter.
    apply lsum_ext. intros [o co] _. cbn [fst snd]. unfold e_empty. destruct (decide (surviving fixed o = ∅)).
    + rewrite bool_decide_true by auto. auto.
    + rewrite bool_decide_false by auto. auto.
Qed.

Lemma no_constant : dget (s_cp s) e_empty = None -> constant_terms fixed u = [].
Proof.
  intros Hc. destruct cp_facts as (Sc & Sp & Sn & Sev & Sk). unfold constant_terms.
  assert (H : forall l : hmap R, (forall t, In t l -> In t u) ->
    List.filter (fun t => bool_decide (surviving fixed (fst t) = ∅)) l = []).
  { induction l as [|t l IH]; cbn [List.filter]; auto. intros Hl.
    rewrite bool_decide_false; [apply IH; intros; apply Hl; right; auto|].
    intros Ht. apply dget_None in Hc. apply Hc. unfold e_empty. rewrite <- Ht. apply Sk. apply Hl. left. auto. }
  apply H. auto.
Qed.

Lemma eval_terms q (l : hmap R) : eval q l = lsum (term_val q) l.
Proof. induction l as [|[e c] l IH]; cbn [eval lsum]; auto. unfold term_val at 1. cbn [fst snd]. lra. Qed.

Lemma term_pos q t : In t u -> 0 < term_val q t.
Proof.
  intros Hin. destruct t as [e c]. unfold term_val. cbn [fst snd]. apply Rmult_lt_0_compat.
  - destruct Hu as (_ & Hp & _). eauto. - apply mono_val_pos.
Qed.

Lemma posy_sens_correct (st : cstate R) la v : cs_const st = None ->
  forall st', as_hmapslt1 inf pick fixed st [u] = Ok (st', [v]) ->
  exists ss d, posy_sens st' la (dual_shares la v env) u = Ok (CS None None, ss) /\
    log_deriv (simplified fixed u) p k d /\ eget ss k = la * d.
Proof.
  intros Hst st' E. cbn [as_hmapslt1] in E. rewrite Es in E. cbn [rbind] in E.
  apply rbind_ok in E as (o & Eo & E). destruct o as [h'|]; [|discriminate].
  destruct (any_nonpositive h') eqn:EA; [discriminate|]. cbn [rbind fst snd] in E. injection E as <- <-.
  destruct cp_facts as (Sc & Sp & Sn & Sev & Sk).
  apply any_nonpositive_false in EA.
  assert (Hpk : 0 < p k) by (apply override_positive; auto).
  assert (Hh' : h' <> []).
  { pose proof (simplify_posy (s_cp s) (proj1 Sc) Sp Sn) as H. rewrite Eo in H. tauto. }
  assert (HV : 0 < eval env h') by (apply eval_all_positive; auto).
  destruct (simplify_some env (s_cp s) h' (proj1 Sc) Eo) as [[Hno ->]|(c & Hc & Hc1 & _ & _ & Hh & Hev)].
  - (* no constant term *)
    unfold note_const. rewrite Hno. unfold posy_sens. cbn [cs_pmap cs_const]. rewrite Hst.
    assert (HB : forall fr i q, In fr (mmap s) -> In (i, q) fr -> (i < length (replicate (length u) 0%R))%nat).
    { intros fr i q Hin Hi. rewrite replicate_length. rewrite mmap_frac in Hin. apply in_map_iff in Hin as (ec & <- & Hin).
      apply (frac_bound ec) with q; auto. }
    destruct (add_pmap_ok A (mmap s) (replicate (length u) 0) (dual_shares la (s_cp s) env) HB) as (l' & El & Ll & Al).
    { rewrite mmap_frac. unfold dual_shares. rewrite !map_length. auto. }
    cbn [n0 R_num]. unfold hmap in *. rewrite El. cbn [rbind].
    exists (sum_terms l' u). eexists. split; [reflexivity|]. split.
    + assert (HN : 0 < lsum (term_val p) (free_terms fixed u)).
      { rewrite Sev, eval_terms, (lsum_const_free fixed), (no_constant Hno) in HV. cbn [lsum] in HV. lra. }
      pose proof (log_deriv_quot (free_terms fixed u) [] 1 p k Hpk HN ltac:(cbn [lsum]; lra)) as Hd.
      unfold log_deriv in *. eapply derivable_pt_lim_ext; [|exact Hd]. intros x. cbn [lsum].
      unfold simplified. rewrite (no_constant Hno). cbn [lsum]. f_equal. f_equal. lra.
    + rewrite <- hget_eget. rewrite sum_terms_asum by (rewrite replicate_length in Ll; exact Ll).
      change (fun i => match u !! i with Some t => eget (fst t) k | None => 0 end) with A.
      rewrite Al, asum_zero. rewrite mmap_frac. unfold dual_shares. rewrite combine_maps, lsum_map.
      cbn [fst snd]. rewrite (lsum_ext _ (fun ec => la / eval env (s_cp s) * (term_val env ec * fsum A (frac ec)))) by (intros; unfold Rdiv; ring).
      rewrite lsum_scale, all_groups. unfold logsum. rewrite (lsum_const_free fixed u), (no_constant Hno).
      cbn [lsum]. rewrite Sev, eval_terms, (lsum_const_free fixed u), (no_constant Hno). cbn [lsum].
      assert (0 < lsum (term_val p) (free_terms fixed u)).
      { rewrite Sev, eval_terms, (lsum_const_free fixed), (no_constant Hno) in HV. cbn [lsum] in HV. lra. }
      rewrite !Rplus_0_r. field. lra.
  - (* a constant term *)
    unfold note_const. rewrite Hc. unfold posy_sens. cbn [cs_pmap cs_const].
    destruct (index_of_lookup (s_cp s) e_empty c Hc) as [Hidx Hrem].
    assert (Hin : In (e_empty, c) (s_cp s)) by (apply dget_In; auto).
    assert (Hc0 : 0 < 1 - c).
    { destruct (Rlt_dec 0 (1 - c)); auto. exfalso. assert (Hneg : / (1 - c) < 0) by (apply Rinv_lt_0_compat; lra).
      destruct (ddel (s_cp s) e_empty) as [|[e1 c1] r] eqn:Ed.
      { apply Hh'. rewrite Hh, ddel_scale, Ed. auto. }
      assert (Hin1 : In (e1, c1) (s_cp s)) by (eapply In_ddel; rewrite Ed; left; auto).
      specialize (Sp _ _ Hin1).
      assert (Hc1' : In (e1, c1 * / (1 - c)) h') by (rewrite Hh, ddel_scale, Ed; left; auto).
      specialize (EA _ _ Hc1'). nra. }
    set (hr := ddel (s_cp s) e_empty) in *.
    assert (Hpm : remove_nth (index_of e_empty (s_cp s)) (mmap s) = map frac hr).
    { rewrite mmap_frac. unfold hmap in *. rewrite map_remove_nth. f_equal. symmetry. exact Hrem. }
    assert (Hnth : nth (index_of e_empty (s_cp s)) (mmap s) [] = frac (e_empty, c)).
    { apply nth_lookup_Some. rewrite mmap_frac. pose proof (lookup_map frac (s_cp s) (index_of e_empty (s_cp s))) as El.
      unfold hmap in *. rewrite Hidx in El. exact El. }
    rewrite Hpm, Hnth.
    assert (HB : forall fr i q, In fr (map frac hr) -> In (i, q) fr -> (i < length (replicate (length u) 0%R))%nat).
    { intros fr i q Hin' Hi. rewrite replicate_length. apply in_map_iff in Hin' as (ec & <- & Hin').
      apply (frac_bound ec) with q; auto. apply (In_ddel (s_cp s) e_empty). exact Hin'. }
    assert (Hds : dual_shares la h' env = map (fun ec => la * (/ (1 - c)) / eval env h' * term_val env ec) hr).
    { unfold dual_shares. generalize (eval env h'). intros V. rewrite Hh, ddel_scale. fold hr. unfold hv_mul. rewrite map_map. apply map_ext.
      intros [e1 c1]. unfold term_val. cbn [fst snd nmul R_num]. unfold Rdiv. ring. }
    rewrite Hds.
    destruct (add_pmap_ok A (map frac hr) (replicate (length u) 0) (map (fun ec => la * (/ (1 - c)) / eval env h' * term_val env ec) hr) HB)
      as (l1 & El1 & Ll1 & Al1).
    { rewrite !map_length. auto. }
    cbn [n0 R_num nsub nadd nopp n1 ndiv nmul ninv]. unfold hmap in *. rewrite El1. cbn [rbind].
    replace (1 + - c) with (1 - c) by lra. rewrite decide_False by auto.
    destruct (add_fractions_ok A (frac (e_empty, c)) l1 (la * ((1 + - (1 - c)) * / (1 - c)))) as (l2 & El2 & Ll2 & Al2).
    { intros i q Hi. rewrite Ll1, replicate_length. eapply frac_bound; eauto. }
    unfold ndiv, nsub. cbn [nadd nopp nmul ninv n1 R_num]. rewrite El2. cbn [rbind].
    exists (sum_terms l2 u). eexists. split; [reflexivity|].
    destruct (const_group c Hc) as [HC HCg].
    assert (HNc : eval env h' * (1 - c) = lsum (term_val p) (free_terms fixed u)).
    { rewrite Hev, Sev, eval_terms, (lsum_const_free fixed u), <- HC. field. auto. }
    assert (HN : 0 < lsum (term_val p) (free_terms fixed u)) by (rewrite <- HNc; apply Rmult_lt_0_compat; auto).
    split.
    + pose proof (log_deriv_quot (free_terms fixed u) (map (fun t => (fst t, - snd t)) (constant_terms fixed u)) 1 p k Hpk HN) as Hd.
      assert (Hneg : forall q, lsum (term_val q) (map (fun t => (fst t, - snd t)) (constant_terms fixed u)) = - lsum (term_val q) (constant_terms fixed u)).
      { intros q. rewrite lsum_map. rewrite (lsum_ext _ (fun t => -1 * term_val q t)); [rewrite lsum_scale; lra|].
        intros t _. unfold term_val. cbn [fst snd]. lra. }
      rewrite Hneg, <- HC in Hd. specialize (Hd ltac:(lra)).
      unfold log_deriv in *. eapply derivable_pt_lim_ext; [|exact Hd]. intros x. cbv beta.
      rewrite Hneg. reflexivity.
    + rewrite <- hget_eget. rewrite sum_terms_asum by (rewrite Ll2, Ll1, replicate_length; auto).
      change (fun i => match u !! i with Some t => eget (fst t) k | None => 0 end) with A.
      rewrite Al2, Al1, asum_zero. rewrite combine_maps, lsum_map. cbn [fst snd].
      rewrite (lsum_ext _ (fun ec => la * (/ (1 - c)) / eval env h' * (term_val env ec * fsum A (frac ec)))) by (intros; ring).
      rewrite lsum_scale. unfold hr. rewrite (lsum_ddel _ (s_cp s) e_empty c Hc), all_groups.
      assert (Ht1 : term_val env (e_empty, c) = c) by (unfold term_val; cbn [fst snd]; rewrite mono_val_empty; lra).
      rewrite Ht1, HCg.
      assert (Hlog : logsum k p (map (fun t => (fst t, - snd t)) (constant_terms fixed u)) = - logsum k p (constant_terms fixed u)).
      { unfold logsum. rewrite lsum_map. rewrite (lsum_ext _ (fun t => -1 * (eget (fst t) k * term_val p t))); [rewrite lsum_scale; lra|].
        intros t _. unfold term_val. cbn [fst snd]. lra. }
      unfold hmap in *. rewrite Hlog, <- HNc.
      assert (Hall : logsum k p u = logsum k p (free_terms fixed u) + logsum k p (constant_terms fixed u)) by apply lsum_const_free.
      rewrite Hall. replace (1 + - (1 - c)) with c by lra.
      replace (la * (c * / (1 - c)) * fsum A (frac (e_empty, c))) with (la * / (1 - c) * (c * fsum A (frac (e_empty, c)))) by ring.
      unfold hmap in *. rewrite HCg. field. lra.
Qed.
End Posy.

(** ** Monomial equality *)
Lemma meq_sens_correct se (left right : hmap R) us la1 la2 : is_mono left -> is_mono right ->
  meq_unsubbed se left right = Ok us -> length us = 2%nat ->
  exists ss, meq_sens [] la1 us = Ok ([la1], (∅, 0)) /\ meq_sens [la1] la2 us = Ok ([], (ss, la1 - la2)) /\
    forall p k, positive_point p -> exists d,
      log_deriv (fun q => eval q left / eval q right) p k d /\ eget ss k = (la1 - la2) * d.
Proof.
  intros (el & cl & -> & Cel & Hl) (er & cr & -> & Cer & Hr) E Hlen. unfold meq_unsubbed in E.
  rewrite (gen_mono se el cl er cr), (gen_mono se er cr el cl) in E by auto.
  destruct (decide (el = er)) as [->|Hne].
  { exfalso. rewrite decide_True in E by auto. destruct (Rle_dec _ _) in E; [|discriminate]. cbn [rbind] in E.
    destruct (Rle_dec _ _) in E; [|discriminate]. cbn [rbind app] in E. injection E as <-. discriminate. }
  rewrite decide_False in E by auto. cbn [rbind app] in E. injection E as <-.
  eexists. split; [reflexivity|]. split; [reflexivity|]. intros p k Hp.
  pose proof (log_deriv_quot [(el, cl)] [(er, cr)] 0 p k (Hp k)) as Hd.
  assert (HA : 0 < lsum (term_val p) [(el, cl)]).
  { cbn [lsum]. unfold term_val. cbn [fst snd]. pose proof (mono_val_pos p el). nra. }
  assert (HB : 0 < lsum (term_val p) [(er, cr)]).
  { cbn [lsum]. unfold term_val. cbn [fst snd]. pose proof (mono_val_pos p er). nra. }
  specialize (Hd HA ltac:(lra)). eexists. split.
  - unfold log_deriv in *. eapply derivable_pt_lim_ext; [|exact Hd]. intros x. cbv beta.
    rewrite !eval_terms. rewrite Rplus_0_l. reflexivity.
  - cbn [lsum] in *. unfold logsum. cbn [lsum fst snd].
    assert (eget (exp_mul (exp_sub el er) (nsub la1 la2)) k = eget (exp_sub el er) k * (la1 - la2)) as ->.
    { unfold eget, exp_mul. rewrite lookup_fmap. destruct (exp_sub el er !! k); cbn; lra. }
    rewrite eget_sub. cbn [nsub nadd nopp R_num]. field. lra.
Qed.

(** ** Signomial inequality *)
Lemma smul_single (P : hmap R) ne nc : canonical P -> exp_canon ne -> 0 < nc ->
  smul P [(exp_neg ne, / nc)] = map (divterm ne nc) P.
Proof.
  intros [Hn Hc] Cne Hnc. unfold smul.
  assert (G : forall rest pre, P = pre ++ rest ->
    fold_left (fun h s => fold_left (smul_term (fst s) (snd s)) [(exp_neg ne, / nc)] h) rest (map (divterm ne nc) pre) = map (divterm ne nc) P).
  { induction rest as [|[e c] rest IH]; intros pre Hp; cbn [fold_left].
    - rewrite Hp, app_nil_r. auto.
    - cbn [fst snd smul_term].
      assert (Hz : c <> 0) by (apply (Hc e c); rewrite Hp; apply in_or_app; right; left; auto).
      assert (Hfresh : ~ In (exp_add e (exp_neg ne)) (dkeys (map (divterm ne nc) pre))).
      { unfold dkeys. rewrite map_map. intros Hin. apply in_map_iff in Hin as ([e' c'] & E & Hin). cbn [fst divterm] in E.
        assert (e' = e) as ->.
        { apply (exp_sub_inj e' e ne); [apply (Hc e' c'); rewrite Hp; apply in_or_app; auto|apply (Hc e c); rewrite Hp; apply in_or_app; right; left; auto|exact E]. }
        rewrite Hp in Hn. unfold dkeys in Hn. rewrite map_app in Hn. apply NoDup_app in Hn as (_ & Hd & _).
        apply (Hd e).
        - apply elem_of_list_In, in_map_iff. exists (e, c'); auto.
        - cbn. left. }
      assert (Hg : dget (map (divterm ne nc) pre) (exp_add e (exp_neg ne)) = None) by (apply dget_None; exact Hfresh).
      unfold hmap in *. rewrite Hg. cbn [nmul nopp nadd n0 R_num].
      assert (Hnz : c * / nc <> 0) by (apply Rmult_integral_contrapositive_currified; [auto|apply Rinv_neq_0_compat; lra]).
      rewrite decide_False by lra. rewrite Rplus_0_l.
      rewrite dset_absent_app by exact Hfresh.
      change [(exp_add e (exp_neg ne), c * / nc)] with (map (divterm ne nc) [(e, c)]). rewrite <- map_app.
      apply IH. rewrite <- app_assoc. exact Hp. }
  apply (G P []). auto.
Qed.

Lemma py_div_mono se (P : hmap R) ne nc : canonical P -> all_positive P -> exp_canon ne -> 0 < nc ->
  py_div se (VNom P) (VNom [(ne, nc)]) = Ok (VNom (map (divterm ne nc) P)).
Proof.
  intros HP HPp Cne Hnc. unfold py_div.
  assert (Hcl : classify [(ne, nc)] = CMonomial).
  { unfold classify. replace (any_nonpositive [(ne, nc)]) with false; [reflexivity|].
    symmetry. apply any_nonpositive_false. intros e c [[= <- <-]|[]]. auto. }
  rewrite decide_True by exact Hcl. unfold py_powz. rewrite decide_True by exact Hcl. cbn [mono_pow].
  assert (Hm1 : @nofZ R _ (-1) = -1) by reflexivity. rewrite Hm1.
  cbn [n0 R_num]. destruct (decide (-1 = 0)); [lra|]. cbn [rbind npow R_num]. rewrite Rpow_inv by lra.
  assert (Hi : 0 < / nc) by (apply Rinv_0_lt_compat; auto).
  assert (HA : any_nonpositive [(exp_mul ne (-1), / nc)] = false).
  { apply any_nonpositive_false. intros e c [[= <- <-]|[]]. auto. }
  unfold signomial_init at 1. rewrite HA. cbn [andb rbind rmap].
  unfold py_mul. change (exp_mul ne (-1)) with (exp_neg ne). rewrite smul_single by auto.
  unfold signomial_init. replace (any_nonpositive (map (divterm ne nc) P)) with false; [reflexivity|].
  symmetry. apply any_nonpositive_false. apply divterm_positive; auto.
Qed.

(** Which original terms make which quotient. *)
Section Groups.
Variable fixed : gmap nat R.
Variable ne : expv R.

Definition group (l : hmap R) (e : expv R) : hmap R :=
  List.filter (fun t => bool_decide (surviving fixed (fst t) = e)) l.
Definition negated (l : hmap R) : hmap R := map (fun t => (fst t, - snd t)) l.

Lemma surviving_canon (o : expv R) : exp_canon o -> exp_canon (surviving fixed o).
Proof. intros Ho k x Hx. apply lookup_difference_Some in Hx as [Hx _]. eauto. Qed.

Lemma group_app l1 l2 e : group (l1 ++ l2) e = group l1 e ++ group l2 e.
Proof. unfold group. induction l1 as [|t l1 IH]; cbn [app List.filter]; auto. destruct (bool_decide _); cbn [app]; f_equal; auto. Qed.

Lemma group_snoc l t e : group (l ++ [t]) e = if decide (surviving fixed (fst t) = e) then group l e ++ [t] else group l e.
Proof.
  rewrite group_app. unfold group. cbn [List.filter]. destruct (decide (surviving fixed (fst t) = e)).
  - rewrite bool_decide_true by auto. auto.
  - rewrite bool_decide_false by auto. apply app_nil_r.
Qed.

Lemma group_keys l e t : In t (group l e) -> In t l /\ surviving fixed (fst t) = e.
Proof. unfold group. intros Hin. apply filter_In in Hin as [Hin Hb]. apply bool_decide_eq_true in Hb. auto. Qed.

Lemma split_groups (l : hmap R) : canonical l ->
  exists coeffs, fold_left (split_term ne) (List.combine l (map (fun t => surviving fixed (fst t)) l)) ([], []) = (negated (group l ne), coeffs) /\
  forall e, exp_canon e -> e <> ne ->
    dget coeffs (exp_sub e ne) = match group l e with [] => None | g => Some g end.
Proof.
  induction l as [|[o c] l IH] using rev_ind; intros [Hn Hc].
  - exists []. split; [reflexivity|]. intros e _ _. reflexivity.
  - unfold dkeys in Hn. rewrite map_app in Hn. apply NoDup_app in Hn as (Hn1 & Hd & _).
    destruct IH as (coeffs & E & HI).
    { split; [exact Hn1|]. intros e' c' Hin. apply Hc. apply in_or_app; auto. }
    assert (Hco : exp_canon o) by (apply (Hc o c); apply in_or_app; right; left; auto).
    assert (Hfresh : forall e', ~ In o (dkeys (group l e'))).
    { intros e' Hin. apply in_map_iff in Hin as ([o' c'] & Ho & Hin). cbn in Ho. subst o'. apply group_keys in Hin as [Hin _].
      apply (Hd o); [apply elem_of_list_In; apply in_map_iff; exists (o, c'); auto|left]. }
    rewrite map_app. cbn [map fst]. 
    assert (Hcomb : forall (l1 : hmap R) (l2 : list (expv R)) x y, length l1 = length l2 -> List.combine (l1 ++ [x]) (l2 ++ [y]) = List.combine l1 l2 ++ [(x, y)]).
    { clear. induction l1 as [|a l1 IH]; intros [|b l2] x y Hl; cbn in *; try discriminate; auto. f_equal. apply IH. lia. }
    rewrite Hcomb by (rewrite map_length; auto). rewrite fold_left_app, E. cbn [fold_left split_term fst snd].
    destruct (decide (surviving fixed o = ne)) as [D|D].
    + exists coeffs. split.
      * f_equal. rewrite group_snoc. cbn [fst]. rewrite decide_True by auto.
        unfold negated. rewrite map_app. cbn [map fst snd]. apply dset_absent_app. unfold dkeys. rewrite map_map. cbn [fst]. apply Hfresh.
      * intros e Ce He. rewrite group_snoc. cbn [fst]. rewrite decide_False by congruence. apply HI; auto.
    + eexists. split.
      * f_equal. rewrite group_snoc. cbn [fst]. rewrite decide_False by auto. reflexivity.
      * assert (Cs : exp_canon (surviving fixed o)) by (apply surviving_canon; auto).
        intros e Ce He. rewrite dget_dset. rewrite group_snoc. cbn [fst].
        destruct (decide (exp_sub e ne = exp_sub (surviving fixed o) ne)) as [D2|D2].
        -- apply exp_sub_inj in D2; auto. subst e. rewrite decide_True by auto.
           rewrite (HI (surviving fixed o) Cs D).
           specialize (Hfresh (surviving fixed o)). destruct (group l (surviving fixed o)) as [|g gs] eqn:Eg; [reflexivity|].
           cbn [app]. f_equal. rewrite dset_absent_app; [reflexivity|exact Hfresh].
        -- rewrite decide_False by (intros Hs; apply D2; congruence). apply HI; auto.
Qed.
End Groups.

Section SigSens.
Variable inf : R.
Variable pick : hmap R -> schedule.
Variable fixed : gmap nat R.
Hypothesis Hf : forall k v, fixed !! k = Some v -> 0 < v.
Hypothesis Hpick : forall h, valid_schedule fixed h (pick h).
Variable s : hmap R.
Hypothesis Hs : canonical s.
Variable st : sst R.
Hypothesis Es : nm_sub inf fixed s (pick s) = Ok st.
Hypothesis Hcur : s_cur st = map (fun t => surviving fixed (fst t)) s.
Variables (P : hmap R) (ne : expv R) (nc : R).
Hypothesis HPN : posy_negy (s_cp st) = (P, [(ne, nc)]).
Hypothesis HPne : P <> [].
Hypothesis Hnocancel : forall t, In t s -> In (surviving fixed (fst t)) (dkeys (s_cp st)).
Variable vals : gmap nat R.
Hypothesis Hvals : forall k v, vals !! k = Some v -> 0 < v.
Hypothesis Hfv : forall k v, fixed !! k = Some v -> vals !! k = Some v.
Hypothesis Hall : forall k, in_vks s k = true -> vals !! k <> None.
Variable pickv : hmap R -> schedule.
Hypothesis Hpickv : forall h, valid_schedule vals h (pickv h).
Variable vks : hmap R -> list nat.
Hypothesis Hvks : forall h, List.NoDup (vks h) /\ forall k, In k (vks h) <-> in_vks h k = true.
Let p : point := override (fun _ => 1) vals.

Lemma p_pos : positive_point p.
Proof. apply override_positive; auto. intros ?; lra. Qed.
Lemma p_over : override p fixed = p.
Proof.
  apply functional_extensionality. intros k. unfold override at 1. destruct (fixed !! k) as [v|] eqn:E; auto.
  unfold p, override. rewrite (Hfv k v E). auto.
Qed.

Lemma sig_facts : canonical P /\ all_positive P /\ exp_canon ne /\ 0 < nc /\ NoDup (dkeys (s_cp st)) /\
  (forall e c, In (e, c) P -> dget (s_cp st) e = Some c /\ e <> ne) /\ dget (s_cp st) ne = Some (- nc) /\
  (forall e, In e (dkeys (s_cp st)) -> e <> ne -> In e (dkeys P)).
Proof.
  destruct (sub_any inf pick fixed Hf Hpick s Hs) as (st' & E & Hcan & Hk & Hev). assert (st' = st) as -> by congruence.
  assert (Hnd : NoDup (dkeys (s_cp st))) by (destruct Hcan as [[]| ->]; [auto|apply NoDup_singleton]).
  destruct (posy_negy_correct (s_cp st) P [(ne, nc)] Hnd HPN) as (Hval & HP & HN & Hrest).
  destruct (posy_negy_NoDup (s_cp st) Hnd) as [NP NN]. rewrite HPN in NP, NN. cbn [fst snd] in NP, NN.
  destruct (proj1 (HN ne nc) (or_introl eq_refl)) as [Hin Hnc].
  assert (Hcs : canonical (s_cp st)).
  { destruct Hcan as [|Hz]; auto. exfalso. rewrite Hz in Hin. destruct Hin as [[= <- Hx]|[]]. lra. }
  assert (Hgn : dget (s_cp st) ne = Some (- nc)) by (apply In_dget; auto).
  split; [split; auto; intros e c Hin'; apply HP in Hin' as [Hin' _]; apply Hcs; auto|].
  split; [intros e c Hin'; apply HP in Hin'; tauto|]. split; [apply (proj2 Hcs ne (- nc)); auto|].
  split; [auto|]. split; [auto|]. split.
  - intros e c Hin'. apply HP in Hin' as [Hin' Hpos]. assert (Hg : dget (s_cp st) e = Some c) by (apply In_dget; auto).
    split; auto. intros ->. rewrite Hgn in Hg. injection Hg as Hg. lra.
  - split; [auto|]. intros e He Hne. apply in_map_iff in He as ([e' c] & Ee & Hin'). cbn in Ee. subst e'.
    destruct (Rlt_dec 0 c); [apply in_map_iff; exists (e, c); split; auto; apply HP; auto|].
    exfalso. assert (c <> 0) by (apply (proj2 Hcs e c); auto).
    assert (Hin2 : In (e, - c) [(ne, nc)]).
    { apply HN. rewrite Ropp_involutive. split; auto. lra. }
    destruct Hin2 as [[= <- _]|[]]. auto.
Qed.

Lemma group_eval e : eval p (group fixed s e) = coef (s_cp st) e * mono_val p e.
Proof.
  rewrite (final_coef inf s fixed (proj1 Hs) (positive_defined fixed s Hf) (pick s) st e (Hpick s) Es).
  rewrite eval_terms. unfold group. rewrite lsum_filter. rewrite Rmult_comm, <- lsum_scale. apply lsum_ext. intros [o co] _.
  cbn [fst snd]. destruct (decide (surviving fixed o = e)) as [D|D].
  - rewrite bool_decide_true by auto. unfold term_val. cbn [fst snd]. rewrite <- p_over at 1.
    rewrite (mono_val_split fixed p o p_pos Hf), D. lra.
  - rewrite bool_decide_false by auto. lra.
Qed.

Lemma filter_NoDup_keys (b : expv R * R -> bool) (l : hmap R) : NoDup (dkeys l) -> NoDup (dkeys (List.filter b l)).
Proof.
  induction l as [|t l IH]; cbn [List.filter dkeys map]; auto. intros Hn. inversion Hn as [|? ? Hx Hn']; subst.
  specialize (IH Hn'). destruct (b t); auto. cbn [map]. constructor; auto.
  intros Hin. apply Hx. apply elem_of_list_In. apply elem_of_list_In in Hin. apply in_map_iff in Hin as (t' & Ht & Hin).
  apply filter_In in Hin as [Hin _]. apply in_map_iff. eauto.
Qed.

Definition within (g : hmap R) : Prop := NoDup (dkeys g) /\ g <> [] /\ forall k, var_of g k -> vals !! k <> None.

Lemma subval1_ok g : within g -> subval1 inf pickv vals g = Ok (eval p g).
Proof.
  intros (Hn & Hne & Hv). unfold subval1.
  destruct (sub_constant inf g vals (pickv g) Hn Hne Hvals Hv (Hpickv g)) as (s' & E & Hc).
  rewrite E. cbn [rbind]. rewrite Hc. rewrite decide_True by auto. reflexivity.
Qed.

Lemma diff_within g x : within g -> within (sig_diff g x).
Proof.
  intros (Hn & Hne & Hv). unfold sig_diff. destruct (in_vks g x) eqn:E.
  - apply in_vks_true in E. split; [apply nm_diff_NoDup|]. split; [apply nm_diff_nonempty; auto|].
    intros k Hk. apply Hv. eapply nm_diff_vars; eauto.
  - split; [apply NoDup_singleton|]. split; [discriminate|]. intros k (e & c & [[= <- <-]|[]] & Hk). exfalso. apply Hk. apply lookup_empty.
Qed.

Lemma diff_eval g x : NoDup (dkeys g) -> p x * eval p (sig_diff g x) = logsum x p g.
Proof.
  intros Hn. unfold sig_diff. destruct (in_vks g x) eqn:E.
  - rewrite eval_nm_diff; [|auto|apply p_pos]. reflexivity.
  - unfold num_hmap. cbn [eval n0 R_num]. unfold logsum. rewrite (lsum_ext _ (fun _ => 0)); [rewrite lsum_zero; lra|].
    intros [e c] Hin. cbn [fst]. unfold eget. destruct (e !! x) eqn:Ex; [|lra]. exfalso.
    assert (in_vks g x = true); [|congruence]. apply in_vks_true. exists e, c. split; auto. congruence.
Qed.

Lemma group_within e : In e (dkeys (s_cp st)) -> coef (s_cp st) e <> 0 -> within (group fixed s e).
Proof.
  intros He Hc. split; [apply filter_NoDup_keys; apply Hs|]. split.
  - intros Hg. pose proof (group_eval e) as H. rewrite Hg in H. cbn [eval] in H. pose proof (mono_val_pos p e).
    symmetry in H. apply Rmult_integral in H as [H|H]; [auto|lra].
  - intros k (o & c & Hin & Hk). apply Hall. apply in_vks_true. exists o, c. apply group_keys in Hin as [Hin _]. auto.
Qed.

Let ng : hmap R := negated (group fixed s ne).
Let nv : R := eval p ng.

Lemma negated_sum (F : hmap R -> R) l : (forall g, F g = lsum (term_val p) g) -> F (negated l) = - F l.
Proof.
  intros HF. rewrite !HF. unfold negated. rewrite lsum_map. rewrite (lsum_ext _ (fun t => -1 * term_val p t)).
  - rewrite lsum_scale. lra.
  - intros t _. unfold term_val. cbn [fst snd]. lra.
Qed.

Lemma ng_within : within ng.
Proof.
  destruct sig_facts as (_ & _ & _ & Hnc & Hnd & _ & Hgn & _).
  destruct (group_within ne) as (Hn & Hne & Hv).
  - apply in_map_iff. exists (ne, - nc). split; auto. apply dget_In; auto.
  - unfold coef. rewrite Hgn. lra.
  - unfold ng, negated. split; [unfold dkeys; rewrite map_map; exact Hn|]. split.
    + destruct (group fixed s ne); [congruence|discriminate].
    + intros k (o & c & Hin & Hk). apply in_map_iff in Hin as ([o' c'] & [= <- <-] & Hin). apply Hv. exists o', c'. auto.
Qed.

Lemma nv_eq : nv = nc * mono_val p ne /\ 0 < nv.
Proof.
  destruct sig_facts as (_ & _ & _ & Hnc & Hnd & _ & Hgn & _).
  assert (E : nv = nc * mono_val p ne).
  { unfold nv, ng. rewrite (negated_sum (eval p)) by (intros; apply eval_terms). rewrite group_eval. unfold coef. rewrite Hgn. lra. }
  split; auto. rewrite E. apply Rmult_lt_0_compat; auto. apply mono_val_pos.
Qed.

(** The sensitivity of the quotient made by the group [g]. *)
Definition gsens (g : hmap R) (w : R) (k : nat) : R :=
  w * (logsum k p g * / nv - logsum k p ng * eval p g * (/ nv * / nv)).

Lemma sig_var_ok g inv_mon nu_i ss x : within g -> vals !! x <> None ->
  exists ss', sig_var inf pickv vals ng g (/ nv) inv_mon nu_i ss x = Ok ss' /\
    forall k, hget ss' k = hget ss k + if decide (k = x) then gsens g (nu_i * inv_mon) x else 0.
Proof.
  intros Hg Hx. unfold sig_var. rewrite (subval1_ok _ (diff_within g x Hg)). cbn [rbind].
  rewrite (subval1_ok _ (diff_within ng x ng_within)). cbn [rbind]. rewrite (subval1_ok g Hg). cbn [rbind].
  destruct (vals !! x) as [xv|] eqn:E; [|congruence]. eexists. split; [reflexivity|].
  intros k. unfold hget at 1. destruct (decide (k = x)) as [->|Hk].
  - rewrite lookup_insert. cbn [nadd nmul nsub nopp R_num]. unfold gsens.
    pose proof (diff_eval g x (proj1 Hg)) as H1. pose proof (diff_eval ng x (proj1 ng_within)) as H2.
    assert (Hp : p x = xv) by (unfold p, override; rewrite E; auto). rewrite Hp in H1, H2.
    rewrite <- H1, <- H2. ring.
  - rewrite lookup_insert_ne by auto. unfold hget. lra.
Qed.

Lemma sig_vars_ok g inv_mon nu_i vars : within g -> (forall x, In x vars -> vals !! x <> None) -> forall ss,
  exists ss', sig_vars inf pickv vals ng g (/ nv) inv_mon nu_i ss vars = Ok ss' /\
    forall k, hget ss' k = hget ss k + INR (count_occ Nat.eq_dec vars k) * gsens g (nu_i * inv_mon) k.
Proof.
  intros Hg. induction vars as [|x vars IH]; intros Hv ss; cbn [sig_vars].
  - exists ss. split; auto. intros k. cbn. lra.
  - destruct (sig_var_ok g inv_mon nu_i ss x Hg) as (ss1 & E1 & H1); [apply Hv; left; auto|].
    rewrite E1. cbn [rbind]. destruct (IH ltac:(intros; apply Hv; right; auto) ss1) as (ss' & E & H).
    exists ss'. split; auto. intros k. rewrite H, H1. cbn [count_occ].
    destruct (Nat.eq_dec x k) as [->|Hne].
    + rewrite decide_True by auto. rewrite S_INR. lra.
    + rewrite decide_False by auto. lra.
Qed.

(** How often variable [k] is listed for the group [g]. *)
Definition mult (g : hmap R) (k : nat) : R :=
  (if in_vks ng k then 1 else 0) + (if in_vks g k then 1 else 0).

Lemma count_vks g k : INR (count_occ Nat.eq_dec (vks ng ++ vks g) k) = mult g k.
Proof.
  rewrite count_occ_app, plus_INR. unfold mult.
  assert (H : forall h, INR (count_occ Nat.eq_dec (vks h) k) = if in_vks h k then 1 else 0).
  { intros h. destruct (Hvks h) as [Hn Hv]. destruct (in_vks h k) eqn:E.
    - apply Hv in E. apply (NoDup_count_occ' Nat.eq_dec) in E; auto. rewrite E. reflexivity.
    - assert (~ In k (vks h)) as Hi by (intros Hi; apply Hv in Hi; congruence).
      apply (count_occ_not_In Nat.eq_dec) in Hi. rewrite Hi. reflexivity. }
  rewrite !H. auto.
Qed.

Lemma sig_parts_ok se : exists coeffs,
  sig_parts se s (s_cur st) P ne nc = Ok (SP (map (divterm ne nc) P) ng coeffs) /\
  forall e c, In (e, c) P -> dget coeffs (exp_sub e ne) = Some (group fixed s e) /\ within (group fixed s e).
Proof.
  destruct sig_facts as (CP & PP & Cne & Hnc & Hnd & HP & Hgn & _).
  destruct (split_groups fixed ne s Hs) as (coeffs & E & Hc).
  exists coeffs. split.
  - unfold sig_parts. rewrite py_div_mono by auto. cbn [rbind]. rewrite Hcur.
    unfold hmap in *. rewrite E. reflexivity.
  - intros e c Hin. destruct (HP e c Hin) as [Hg Hne].
    assert (Hw : within (group fixed s e)).
    { apply group_within.
      - apply in_map_iff. exists (e, c). split; auto. apply dget_In; auto.
      - unfold coef. rewrite Hg. apply (proj2 CP e c Hin). }
    split; auto. rewrite Hc; [|apply (proj2 CP e c Hin)|auto].
    destruct Hw as (_ & Hgne & _). destruct (group fixed s e); [congruence|auto].
Qed.

Lemma in_vks_in_s (g : hmap R) x : (forall t, In t g -> exists c, In (fst t, c) s) -> in_vks g x = true -> vals !! x <> None.
Proof.
  intros Hg Hx. apply in_vks_true in Hx as (o & c & Hin & Ho). apply Hall. apply in_vks_true.
  destruct (Hg _ Hin) as (c' & Hin'). exists o, c'. auto.
Qed.

Lemma sig_mons_ok coeffs : (forall e c, In (e, c) P -> dget coeffs (exp_sub e ne) = Some (group fixed s e) /\ within (group fixed s e)) ->
  forall (w : R) l, (forall t, In t l -> In t P) -> forall ss,
  exists ss', sig_mons inf pickv vks (SP (map (divterm ne nc) P) ng coeffs) vals (/ nv) ss
      (map (fun t => w * term_val p (divterm ne nc t)) l) (map (divterm ne nc) l) = Ok ss' /\
    forall k, hget ss' k = hget ss k + lsum (fun t => mult (group fixed s (fst t)) k * gsens (group fixed s (fst t)) w k) l.
Proof.
  intros Hco w. induction l as [|[e c] l IH]; intros Hl ss; cbn [map sig_mons].
  - exists ss. split; auto. intros k. cbn. lra.
  - destruct sig_facts as (CP & PP & Cne & Hnc & Hnd & HP & Hgn & _).
    assert (Hin : In (e, c) P) by (apply Hl; left; auto). destruct (Hco e c Hin) as [Hd Hw].
    cbn [divterm fst snd].
    assert (Hwm : within [(exp_sub e ne, c / nc)]).
    { split; [apply NoDup_singleton|]. split; [discriminate|].
      intros k (o & c' & [[= <- <-]|[]] & Hk).
      assert (Hek : e !! k <> None \/ ne !! k <> None).
      { destruct (e !! k) eqn:E1; [left; congruence|]. destruct (ne !! k) eqn:E2; [right; congruence|]. exfalso. apply Hk.
        unfold exp_sub, exp_neg, exp_mul. rewrite lookup_exp_add, lookup_fmap, E1, E2. reflexivity. }
      assert (Hsv : forall e', within (group fixed s e') -> e' !! k <> None -> vals !! k <> None).
      { intros e' (_ & Hgne & Hgv) He'. destruct (group fixed s e') as [|[o co] g] eqn:Eg; [congruence|].
        apply Hgv. exists o, co. split; [left; auto|].
        assert (Hi : In (o, co) (group fixed s e')) by (rewrite Eg; left; auto). apply group_keys in Hi as [_ Hi]. cbn in Hi.
        rewrite <- Hi in He'. intros Ho. apply He'. unfold surviving. apply lookup_difference_None. auto. }
      destruct Hek as [Hek|Hek]; [apply (Hsv e Hw Hek)|].
      apply (Hsv ne); auto. apply group_within; [apply in_map_iff; exists (ne, - nc); split; auto; apply dget_In; auto|].
      unfold coef. rewrite Hgn. lra. }
    rewrite (subval1_ok _ Hwm). cbn [rbind].
    assert (Hmv : eval p [(exp_sub e ne, c / nc)] = term_val p (divterm ne nc (e, c))) by (cbn [eval]; unfold term_val, divterm; cbn [fst snd]; lra).
    assert (Hmpos : 0 < term_val p (divterm ne nc (e, c))).
    { unfold term_val, divterm. cbn [fst snd]. apply Rmult_lt_0_compat; [|apply mono_val_pos]. apply Rdiv_lt_0_compat; auto. eapply PP; eauto. }
    unfold recip. rewrite Hmv. rewrite decide_False by (cbn; lra). cbn [rbind sp_coeffs sp_negy].
    cbn [divterm fst snd] in Hd. unfold hmap in *. rewrite Hd.
    destruct (sig_vars_ok (group fixed s e) (ndiv n1 (term_val p (divterm ne nc (e, c)))) (w * term_val p (divterm ne nc (e, c)))
      (vks ng ++ vks (group fixed s e)) Hw) with (ss := ss) as (ss1 & E1 & H1).
    { intros x Hx. apply in_app_iff in Hx as [Hx|Hx]; apply Hvks in Hx.
      - apply (in_vks_in_s ng); auto. intros t Ht. unfold ng, negated in Ht. apply in_map_iff in Ht as ([o co] & <- & Ht).
        apply group_keys in Ht as [Ht _]. cbn [fst]. eauto.
      - apply (in_vks_in_s (group fixed s e)); auto. intros [o co] Ht. apply group_keys in Ht as [Ht _]. cbn [fst]. eauto. }
    change (exp_sub e ne, c / nc) with (divterm ne nc (e, c)).
    unfold hmap in *. rewrite E1. cbn [rbind].
    destruct (IH ltac:(intros; apply Hl; right; auto) ss1) as (ss' & E & H).
    exists ss'. split; [exact E|]. intros k. rewrite H, H1, count_vks. cbn [lsum fst].
    assert (w * term_val p (divterm ne nc (e, c)) * ndiv n1 (term_val p (divterm ne nc (e, c))) = w) as Hw1.
    { unfold ndiv. cbn [nmul ninv n1 R_num]. field. lra. }
    rewrite Hw1. lra.
Qed.

Lemma sig_sens_value se la : exists parts ss,
  sig_parts se s (s_cur st) P ne nc = Ok parts /\ sp_mons parts = map (divterm ne nc) P /\
  sig_sens inf pickv vks parts vals (dual_shares la (sp_mons parts) p) = Ok ss /\
  forall k, eget ss k = lsum (fun t => mult (group fixed s (fst t)) k *
    gsens (group fixed s (fst t)) (la / eval p (map (divterm ne nc) P)) k) P.
Proof.
  destruct (sig_parts_ok se) as (coeffs & E & Hc). destruct nv_eq as [_ Hnv].
  destruct (sig_mons_ok coeffs Hc (la / eval p (map (divterm ne nc) P)) P ltac:(auto) ∅) as (ss & Em & Hss).
  exists (SP (map (divterm ne nc) P) ng coeffs), ss. split; auto. split; auto. split.
  - unfold sig_sens. cbn [sp_negy sp_mons]. rewrite (subval1_ok ng ng_within). cbn [rbind].
    fold nv. unfold recip. rewrite decide_False by (cbn; lra). cbn [rbind].
    replace (dual_shares la (map (divterm ne nc) P) p)
      with (map (fun t => la / eval p (map (divterm ne nc) P) * term_val p (divterm ne nc t)) P).
    + unfold ndiv. cbn [nmul ninv n1 R_num]. rewrite Rmult_1_l. exact Em.
    + unfold dual_shares. rewrite map_map. apply map_ext. intros t. unfold Rdiv. ring.
  - intros k. rewrite <- hget_eget, Hss. unfold hget at 1. rewrite lookup_empty. cbn [n0 R_num]. lra.
Qed.

Lemma partition_sum (F : expv R * R -> R) :
  lsum F (List.filter (fun t => negb (bool_decide (surviving fixed (fst t) = ne))) s) =
  lsum (fun t => lsum F (group fixed s (fst t))) P.
Proof.
  destruct sig_facts as (CP & PP & Cne & Hnc & Hnd & HP & Hgn & Hin).
  rewrite lsum_filter.
  transitivity (lsum (fun t => lsum (fun t' => if decide (surviving fixed (fst t') = fst t) then F t' else 0) s) P).
  - rewrite lsum_swap. apply lsum_ext. intros t Ht. destruct (decide (surviving fixed (fst t) = ne)) as [D|D].
    + rewrite bool_decide_true by auto. cbn [negb]. symmetry. rewrite (lsum_ext _ (fun _ => 0)); [apply lsum_zero|].
      intros [e c] HeP. cbn [fst]. rewrite decide_False; auto. rewrite D. intros E. apply (HP e c HeP). auto.
    + rewrite bool_decide_false by auto. cbn [negb]. symmetry.
      apply (lsum_keyed _ (surviving fixed (fst t)) P); [apply CP|apply Hin; auto].
  - apply lsum_ext. intros t _. unfold group. rewrite lsum_filter. apply lsum_ext. intros t' _.
    destruct (decide (surviving fixed (fst t') = fst t)); [rewrite bool_decide_true by auto|rewrite bool_decide_false by auto]; auto.
Qed.

Let GS := lsum (fun t => eval p (group fixed s (fst t))) P.

Lemma GS_pos : 0 < GS /\ eval p (map (divterm ne nc) P) = GS / nv.
Proof.
  destruct sig_facts as (CP & PP & Cne & Hnc & Hnd & HP & Hgn & Hin). destruct nv_eq as [Env Hnv].
  assert (E : GS = eval p P).
  { unfold GS. rewrite eval_terms. apply lsum_ext. intros [e c] Hi. cbn [fst]. rewrite group_eval. unfold coef.
    destruct (HP e c Hi) as [-> _]. reflexivity. }
  split; [rewrite E; apply eval_all_positive; auto|]. rewrite eval_divterm by lra. rewrite E, Env. reflexivity.
Qed.

Lemma sig_log_deriv k : log_deriv (sig_simplified fixed s ne) p k
  (lsum (fun t => logsum k p (group fixed s (fst t))) P / GS - logsum k p ng / nv).
Proof.
  destruct GS_pos as [HG _]. destruct nv_eq as [_ Hnv].
  set (N := List.filter (fun t => negb (bool_decide (surviving fixed (fst t) = ne))) s).
  assert (EN : lsum (term_val p) N = GS).
  { unfold N. rewrite partition_sum. unfold GS. apply lsum_ext. intros t _. symmetry. apply eval_terms. }
  assert (ED : lsum (term_val p) ng = nv) by (unfold nv; symmetry; apply eval_terms).
  pose proof (log_deriv_quot N ng 0 p k (p_pos k) ltac:(lra) ltac:(lra)) as Hd.
  rewrite EN, ED, Rplus_0_l in Hd.
  assert (EL : logsum k p N = lsum (fun t => logsum k p (group fixed s (fst t))) P) by (unfold N, logsum; apply partition_sum).
  rewrite EL in Hd. unfold log_deriv in *. eapply derivable_pt_lim_ext; [|exact Hd]. intros x. cbv beta.
  unfold sig_simplified. fold N. unfold ng, negated. rewrite lsum_map, Rplus_0_l.
  rewrite (lsum_ext (fun a => term_val _ (fst a, - snd a)) (fun t => -1 * term_val (upd p k (p k * exp x)) t)).
  - rewrite lsum_scale. f_equal. f_equal. unfold group. lra.
  - intros t _. unfold term_val. cbn [fst snd]. lra.
Qed.

Lemma gsens_sum w k : lsum (fun t => gsens (group fixed s (fst t)) w k) P =
  w * (lsum (fun t => logsum k p (group fixed s (fst t))) P * / nv - logsum k p ng * GS * (/ nv * / nv)).
Proof.
  unfold gsens, GS. rewrite lsum_scale. f_equal.
  rewrite (lsum_ext _ (fun t => / nv * logsum k p (group fixed s (fst t)) + - (logsum k p ng * (/ nv * / nv)) * eval p (group fixed s (fst t)))) by (intros; ring).
  rewrite lsum_plus, !lsum_scale. ring.
Qed.

Lemma gsens_total la k : lsum (fun t => gsens (group fixed s (fst t)) (la / eval p (map (divterm ne nc) P)) k) P =
  la * (lsum (fun t => logsum k p (group fixed s (fst t))) P / GS - logsum k p ng / nv).
Proof.
  rewrite gsens_sum. destruct GS_pos as [HG ->]. destruct nv_eq as [_ Hnv]. field. lra.
Qed.

Lemma logsum_absent k (g : hmap R) : in_vks g k = false -> logsum k p g = 0.
Proof.
  intros E. unfold logsum. rewrite (lsum_ext _ (fun _ => 0)); [apply lsum_zero|]. intros [e c] Hin. cbn [fst].
  unfold eget. destruct (e !! k) eqn:Ex; [|lra]. exfalso. assert (in_vks g k = true); [|congruence].
  apply in_vks_true. exists e, c. split; auto. congruence.
Qed.

(** A variable is listed once for every quotient when it is on one side only. *)
Lemma sig_once la k : in_vks ng k = false \/ (forall t, In t P -> in_vks (group fixed s (fst t)) k = false) ->
  lsum (fun t => mult (group fixed s (fst t)) k * gsens (group fixed s (fst t)) (la / eval p (map (divterm ne nc) P)) k) P =
  la * (lsum (fun t => logsum k p (group fixed s (fst t))) P / GS - logsum k p ng / nv).
Proof.
  intros H. rewrite <- gsens_total. apply lsum_ext. intros t Ht. unfold mult. destruct H as [H|H].
  - rewrite H. destruct (in_vks (group fixed s (fst t)) k) eqn:E; [lra|].
    unfold gsens. rewrite (logsum_absent k ng H), (logsum_absent k _ E). lra.
  - rewrite (H t Ht). destruct (in_vks ng k) eqn:E; [lra|]. unfold gsens. rewrite (logsum_absent k ng E), (logsum_absent k _ (H t Ht)). lra.
Qed.

Lemma sig_twice la k : in_vks ng k = true -> (forall t, In t P -> in_vks (group fixed s (fst t)) k = true) ->
  lsum (fun t => mult (group fixed s (fst t)) k * gsens (group fixed s (fst t)) (la / eval p (map (divterm ne nc) P)) k) P =
  2 * (la * (lsum (fun t => logsum k p (group fixed s (fst t))) P / GS - logsum k p ng / nv)).
Proof.
  intros H1 H2. rewrite <- gsens_total, <- lsum_scale. apply lsum_ext. intros t Ht. unfold mult. rewrite H1, (H2 t Ht). lra.
Qed.

(** What the constraint becomes. *)
Lemma sig_hmaps se : no_clash P ne -> sig_as_hmapslt1 inf pick se fixed s = Ok [map (divterm ne nc) P].
Proof.
  intros Hcl. destruct sig_facts as (CP & PP & Cne & Hnc & Hnd & HP & Hgn & Hin).
  unfold sig_as_hmapslt1. rewrite Es. cbn [rbind]. rewrite HPN.
  destruct P as [|t0 P'] eqn:EP; [congruence|]. rewrite <- EP in *. 
  assert (Hk : forall k, in_vks (map (divterm ne nc) P) k = true -> fixed !! k = None).
  { intros k Hk. apply in_vks_true in Hk as (e & c & Hi & Hek). apply in_map_iff in Hi as ([e' c'] & [= <- <-] & Hi). cbn [fst] in Hek.
    destruct (sub_any inf pick fixed Hf Hpick s Hs) as (st' & E & _ & Hcl' & _). assert (st' = st) as -> by congruence.
    destruct (fixed !! k) eqn:Efk; auto. exfalso. apply Hek.
    assert (e' !! k = None) as E1. { eapply Hcl'; eauto. apply in_map_iff. exists (e', c'). split; auto. apply dget_In. apply (HP e' c' Hi). }
    assert (ne !! k = None) as E2. { eapply Hcl'; eauto. apply in_map_iff. exists (ne, - nc). split; auto. apply dget_In. auto. }
    unfold exp_sub, exp_neg, exp_mul. rewrite lookup_exp_add, lookup_fmap, E1, E2. reflexivity. }
  assert (Hno : dget (map (divterm ne nc) P) e_empty = None).
  { apply dget_None. intros Hi. unfold dkeys in Hi. rewrite map_map in Hi. apply in_map_iff in Hi as ([e c] & E & Hi). cbn [divterm fst] in E.
    apply (HP e c Hi). apply exp_canon_ext; [apply (proj2 CP e c Hi)|auto|]. intros k. apply (f_equal (fun x => eget x k)) in E.
    rewrite eget_sub, eget_empty in E. lra. }
  assert (HA : any_nonpositive (map (divterm ne nc) P) = false) by (apply any_nonpositive_false; apply divterm_positive; auto).
  assert (Hg : gen_unsubbed se P [(ne, nc)] = Ok [map (divterm ne nc) P]).
  { unfold gen_unsubbed. rewrite (rename_loop_ok ne nc P CP Hcl). cbn [rbind]. unfold simplify.
    rewrite Hno. cbn [rbind]. unfold signomial_init. rewrite HA. cbn [andb rbind]. rewrite EP. reflexivity. }
  assert (Hr : as_hmapslt1 inf pick fixed (CS None None) [map (divterm ne nc) P] = Ok
    (note_const (CS None None) (map (divterm ne nc) P) (mmap (sub_init (map (divterm ne nc) P))), [map (divterm ne nc) P])).
  { cbn [as_hmapslt1]. rewrite (sub_nothing inf pick fixed Hpick _ Hk). cbn [rbind sub_init s_cp]. unfold simplify. rewrite Hno.
    cbn [rbind]. rewrite HA. reflexivity. }
  destruct t0 as [e0 c0]. rewrite EP. rewrite <- EP. rewrite Hg. cbn [rbind]. rewrite Hr. reflexivity.
Qed.
End SigSens.

(** ** Sums of sensitivities *)
Lemma cost_sens_eget nu (cost : hmap R) k :
  eget (cost_sens nu cost) k = lsum (fun ne => fst ne * eget (fst (snd ne)) k) (List.combine nu cost).
Proof.
  unfold cost_sens.
  enough (H : forall l d, eget (fold_left (fun d ne => exp_add d (exp_mul (fst (snd ne)) (fst ne))) l d) k
    = eget d k + lsum (fun ne : R * (expv R * R) => fst ne * eget (fst (snd ne)) k) l).
  { rewrite H. rewrite eget_empty. lra. }
  induction l as [|[w [e c]] l IH]; intros d; cbn [fold_left lsum fst snd]; [lra|]. rewrite IH, eget_add.
  assert (eget (exp_mul e w) k = w * eget e k) as ->.
  { unfold eget, exp_mul. rewrite lookup_fmap. destruct (e !! k); cbn; lra. }
  lra.
Qed.

Lemma add_sens_eget (gpv v_ss : expv R) k : eget (add_sens gpv v_ss) k = eget gpv k + eget v_ss k.
Proof.
  unfold add_sens. pose proof (fold_add_hget (fun x => x) (map_to_list v_ss) gpv k (NoDup_fst_map_to_list v_ss)) as H.
  cbn beta in H. rewrite <- !hget_eget. rewrite dget_map_to_list in H.
  transitivity (hget gpv k + match v_ss !! k with Some x => x | None => 0 end); [exact H|]. unfold hget, eget. destruct (v_ss !! k); reflexivity.
Qed.

Lemma total_sens_eget l : forall (cost : expv R) k, eget (total_sens cost l) k = eget cost k + lsum (fun ss => eget ss k) l.
Proof.
  induction l as [|ss l IH]; intros cost k; cbn [total_sens fold_left lsum]; [lra|].
  change (fold_left add_sens l (add_sens cost ss)) with (total_sens (add_sens cost ss) l). rewrite IH, add_sens_eget. lra.
Qed.

Lemma cost_sens_correct (cost cp : hmap R) fixed env k : positive_point env -> (forall k v, fixed !! k = Some v -> 0 < v) ->
  all_positive cost -> cost <> [] ->
  cp = map (fun t => (surviving fixed (fst t), snd t * subval fixed (fst t))) cost ->
  exists d, log_deriv (fun q => eval q cost) (override env fixed) k d /\
    eget (cost_sens (dual_shares 1 cp env) cost) k = d.
Proof.
  intros He Hf Hp Hne Hcp. set (p := override env fixed).
  assert (Hpp : positive_point p) by (apply override_positive; auto).
  assert (Hv : eval env cp = eval p cost).
  { rewrite !eval_terms, Hcp, lsum_map. apply lsum_ext. intros [o c] _. unfold term_val, p. cbn [fst snd].
    rewrite (mono_val_split fixed env o He Hf). ring. }
  assert (HV : 0 < eval p cost) by (apply eval_all_positive; auto).
  exists (logsum k p cost / lsum (term_val p) cost). split.
  - rewrite eval_terms in HV. pose proof (log_deriv_quot cost [] 1 p k (Hpp k) HV ltac:(cbn [lsum]; lra)) as Hd.
    unfold logsum in Hd at 2. cbn [lsum] in Hd. replace (logsum k p cost / lsum (term_val p) cost) with (logsum k p cost / lsum (term_val p) cost - 0 / (1 + 0)) by lra.
    unfold log_deriv in *. eapply derivable_pt_lim_ext; [|exact Hd]. intros x. cbv beta. rewrite eval_terms. f_equal. field.
  - rewrite cost_sens_eget. unfold dual_shares. rewrite Hv, Hcp.
    rewrite map_map.
    replace (List.combine (map (fun t => 1 * term_val env (surviving fixed (fst t), snd t * subval fixed (fst t)) / eval p cost) cost) cost)
      with (map (fun t => (1 * term_val env (surviving fixed (fst t), snd t * subval fixed (fst t)) / eval p cost, t)) cost)
      by (symmetry; apply combine_map_l).
    rewrite lsum_map. cbn [fst snd]. unfold logsum. rewrite <- eval_terms. unfold Rdiv. rewrite Rmult_comm, <- lsum_scale.
    apply lsum_ext. intros [o c] _. unfold term_val, p. cbn [fst snd]. rewrite (mono_val_split fixed env o He Hf). ring.
Qed.

(** ** Linked variables *)
Section Linked.
Variable consts : nat -> R.
Variable in_cost : nat -> bool.
Variable grads : nat -> list (nat * R).

(** [d log v / d log c]: the gradients of [v] at [c], times [c/v]. *)
Definition dlog (v c : nat) : R := match dget (grads v) c with Some d => d * consts c / consts v | None => 0 end.

Lemma carry_input_fold v (l : list (nat * R)) : NoDup (map fst l) -> ~ In v (map fst l) ->
  forall gpv cost w,
  (cost !! v = None \/ forall pre c post, l = pre ++ c :: post -> in_cost (fst c) = true -> post = []) ->
  exists gpv' cost' w', fold_left (carry_input consts in_cost v) l (gpv, cost, w) = (gpv', cost', w') /\
    (forall c, eget gpv' c = eget gpv c + w * match dget l c with Some d => d * consts c / consts v | None => 0 end) /\
    (forall c, ~ In c (map fst l) -> gpv' !! c = gpv !! c) /\
    (forall c, c <> v -> ~ In c (map fst l) -> cost' !! c = cost !! c).
Proof.
  induction l as [|[c0 d0] l IH]; intros Hn Hv gpv cost w Hok; cbn [fold_left].
  - exists gpv, cost, w. split; auto. split; [intros c; cbn; lra|]. split; auto.
  - cbn [map fst] in Hn, Hv. inversion Hn as [|? ? Hx Hn']; subst. cbn [carry_input].
    set (dvc := ndiv (nmul d0 (consts c0)) (consts v)).
    assert (Hget : forall c, eget (<[c0 := nadd (hget gpv c0) (nmul w dvc)]> gpv) c = eget gpv c + (if decide (c = c0) then w * (d0 * consts c0 / consts v) else 0)).
    { intros c. unfold eget at 1. destruct (decide (c = c0)) as [->|Hc].
      - rewrite lookup_insert. rewrite hget_eget. reflexivity.
      - rewrite lookup_insert_ne by auto. unfold eget. lra. }
    assert (Hnone : dget l c0 = None).
    { apply dget_None. intros Hin. apply Hx. apply elem_of_list_In. exact Hin. }
    assert (Hcomb : forall c, (if decide (c = c0) then w * (d0 * consts c0 / consts v) else 0) + w * match dget l c with Some d => d * consts c / consts v | None => 0 end
      = w * match dget ((c0, d0) :: l) c with Some d => d * consts c / consts v | None => 0 end).
    { intros c. cbn [dget]. destruct (decide (c = c0)) as [->|Hc]; [rewrite Hnone; lra|lra]. }
    destruct (cost !! v) as [dlc|] eqn:Ec.
    + destruct (in_cost c0) eqn:Ei.
      * assert (l = []) as ->.
        { destruct Hok as [Hok|Hok]; [congruence|]. apply (Hok [] (c0, d0) l); auto. }
        eexists _, _, _. split; [reflexivity|]. split; [|split].
        -- intros c. rewrite Hget. rewrite <- Hcomb. cbn [dget]. lra.
        -- intros c Hc. cbn [map fst In] in Hc. rewrite lookup_insert_ne by tauto. auto.
        -- intros c Hcv Hc. cbn [map fst In] in Hc. rewrite lookup_insert_ne by tauto. rewrite lookup_delete_ne by auto. auto.
      * destruct (IH Hn' ltac:(cbn in Hv; tauto) (<[c0 := nadd (hget gpv c0) (nmul w dvc)]> gpv) cost w) as (g' & c' & w' & E & H1 & H2 & H3).
        { right. intros pre c post Hl Hi. destruct Hok as [Hok|Hok]; [congruence|]. apply (Hok ((c0, d0) :: pre) c post); auto. cbn. f_equal. auto. }
        exists g', c', w'. split; [exact E|]. split; [|split].
        -- intros c. rewrite H1, Hget, <- Hcomb. lra.
        -- intros c Hc. cbn [map fst In] in Hc. rewrite H2 by tauto. rewrite lookup_insert_ne by tauto. auto.
        -- intros c Hcv Hc. cbn [map fst In] in Hc. apply H3; tauto.
    + destruct (IH Hn' ltac:(cbn in Hv; tauto) (<[c0 := nadd (hget gpv c0) (nmul w dvc)]> gpv) cost w) as (g' & c' & w' & E & H1 & H2 & H3).
      { left. auto. }
      exists g', c', w'. split; [exact E|]. split; [|split].
      * intros c. rewrite H1, Hget, <- Hcomb. lra.
      * intros c Hc. cbn [map fst In] in Hc. rewrite H2 by tauto. rewrite lookup_insert_ne by tauto. auto.
      * intros c Hcv Hc. cbn [map fst In] in Hc. apply H3; tauto.
Qed.

Hypothesis Hgn : forall v, NoDup (map fst (grads v)).
(** The inputs of a linked variable are not linked themselves. *)
Hypothesis Hin : forall v c d, In (c, d) (grads v) -> grads c = [].
(** Within the inputs of [v] only the last may be a variable of the cost, if
    [v] is one. *)
Definition last_in_cost (cost : expv R) (v : nat) : Prop :=
  cost !! v = None \/ forall pre c post, grads v = pre ++ c :: post -> in_cost (fst c) = true -> post = [].

Lemma carry_fold l : List.NoDup l -> (forall v, In v l -> grads v <> []) -> forall gpv cost,
  (forall v, In v l -> last_in_cost cost v) ->
  exists gpv' cost', fold_left (carry_var consts in_cost grads) l (gpv, cost) = (gpv', cost') /\
    (forall c, grads c = [] -> eget gpv' c = eget gpv c + lsum (fun v => eget gpv v * dlog v c) l) /\
    (forall v, In v l -> gpv' !! v = None) /\
    (forall v, grads v <> [] -> ~ In v l -> gpv' !! v = gpv !! v).
Proof.
  induction l as [|v l IH]; intros Hn Hg gpv cost Hok; cbn [fold_left].
  - exists gpv, cost. split; auto. split; [intros; cbn; lra|]. split; [intros v []|auto].
  - inversion Hn as [|? ? Hx Hn']; subst. cbn [carry_var].
    assert (Hlk : forall v', grads v' <> [] -> forall v2, ~ In v' (map fst (grads v2))).
    { intros v' Hv' v2 Hi. apply in_map_iff in Hi as ([c d] & <- & Hi). apply Hv'. cbn [fst]. eapply Hin; eauto. }
    destruct (carry_input_fold v (grads v) (Hgn v) (Hlk v (Hg v (or_introl eq_refl)) v) (delete v gpv) cost (hget gpv v) (Hok v (or_introl eq_refl)))
      as (g1 & c1 & w1 & E1 & H1 & H2 & H3).
    rewrite E1.
    assert (Hg1 : forall v', grads v' <> [] -> v' <> v -> g1 !! v' = gpv !! v').
    { intros v' Hv' Hne. rewrite H2 by (apply Hlk; auto). apply lookup_delete_ne. auto. }
    destruct (IH Hn' ltac:(intros; apply Hg; right; auto) g1 c1) as (g' & c' & E & K1 & K2 & K3).
    { intros v' Hv'. destruct (Hok v' (or_intror Hv')) as [Ho|Ho]; [left|right; auto].
      rewrite H3; auto; [intros ->; apply Hx; auto|apply Hlk; apply Hg; right; auto]. }
    exists g', c'. split; [exact E|]. split; [|split].
    + intros c Hc. rewrite K1 by auto. rewrite H1. cbn [lsum].
      assert (eget (delete v gpv) c = eget gpv c) as ->.
      { unfold eget. rewrite lookup_delete_ne; auto. intros ->. apply (Hg c (or_introl eq_refl)). auto. }
      change (hget gpv v) with (eget gpv v). change (match dget (grads v) c with Some d => d * consts c / consts v | None => 0 end) with (dlog v c).
      rewrite (lsum_ext (fun v0 => eget g1 v0 * dlog v0 c) (fun v0 => eget gpv v0 * dlog v0 c)); [lra|].
      intros v' Hv'. f_equal. unfold eget. rewrite Hg1; auto; [apply Hg; right; auto|intros ->; apply Hx; auto].
    + intros v' [<-|Hv']; [|apply K2; auto]. rewrite K3; [|apply Hg; left; auto|auto].
      rewrite H2 by (apply Hlk; apply Hg; left; auto). apply lookup_delete.
    + intros v' Hv' Hn2. cbn [In] in Hn2. rewrite K3 by (auto; tauto). apply Hg1; auto.
Qed.

Lemma carry_linked_correct (gpv cost : expv R) order : List.NoDup order -> (forall v, In v order <-> gpv !! v <> None) ->
  (forall v, last_in_cost cost v) ->
  exists gpv' cost', carry_linked consts in_cost grads gpv cost order = (gpv', cost') /\
    (forall c, grads c = [] -> eget gpv' c = eget gpv c + lsum (fun v => eget gpv v * dlog v c) order) /\
    (forall v, grads v <> [] -> gpv' !! v = None).
Proof.
  intros Hn Hord Hok. unfold carry_linked. set (lk := List.filter _ order).
  assert (Hlk : forall v, In v lk <-> In v order /\ grads v <> []).
  { intros v. unfold lk. rewrite filter_In. destruct (grads v); [split; intros [? ?]; [discriminate|congruence]|]. split; intros [? ?]; split; auto; discriminate. }
  destruct (carry_fold lk) with (gpv := gpv) (cost := cost) as (g' & c' & E & K1 & K2 & K3).
  - apply List.NoDup_filter. auto.
  - intros v Hv. apply Hlk in Hv. tauto.
  - intros v _. apply Hok.
  - exists g', c'. split; auto. split.
    + intros c Hc. rewrite K1 by auto. f_equal. unfold lk. rewrite lsum_filter. apply lsum_ext. intros v _.
      unfold dlog. destruct (grads v) eqn:Eg; [cbn [dget]; lra|auto].
    + intros v Hv. destruct (in_dec Nat.eq_dec v lk) as [Hi|Hi]; [apply K2; auto|].
      rewrite K3 by auto. destruct (gpv !! v) eqn:Eg; auto. exfalso. apply Hi. apply Hlk. split; auto. apply Hord. congruence.
Qed.
End Linked.

(** *** When nothing merges, the record kept of a signomial's terms is complete. *)
Lemma subval_pos fixed o : (forall k v, fixed !! k = Some v -> 0 < v) -> 0 < subval fixed o.
Proof.
  intros Hf. rewrite subval_mono_valp, mono_valp_pos by (apply override_positive; auto; intros ?; lra). apply mono_val_pos.
Qed.

Lemma no_like_sum fixed (h : hmap R) i o c : no_like_terms fixed h -> h !! i = Some (o, c) ->
  lsum (fun t => if decide (surviving fixed (fst t) = surviving fixed o) then snd t * subval fixed (fst t) else 0) h = c * subval fixed o.
Proof.
  revert i. induction h as [|[o' c'] l IH]; intros i Hm Hi; [discriminate|].
  assert (Hm' : no_like_terms fixed l).
  { intros a b o1 c1 o2 c2 Ha Hb Hs. assert (S a = S b) by (eapply Hm; eauto). lia. }
  cbn [lsum fst snd]. destruct i as [|i]; cbn [lookup list_lookup] in Hi.
  - injection Hi as -> ->. rewrite decide_True by auto.
    rewrite (lsum_ext _ (fun _ => 0)); [rewrite lsum_zero; lra|]. intros [o2 c2] Ht. cbn [fst snd].
    destruct (decide (surviving fixed o2 = surviving fixed o)) as [E|]; auto. exfalso.
    apply lookup_In in Ht as (j & Hj). assert (S j = 0%nat) by (eapply Hm; [exact Hj|reflexivity|auto]). lia.
  - rewrite (IH i) by auto. destruct (decide (surviving fixed o' = surviving fixed o)) as [E|]; [|lra]. exfalso.
    assert (0%nat = S i) by (eapply Hm; [reflexivity|exact Hi|auto]). lia.
Qed.

Lemma no_like_tracked inf fixed (h : hmap R) sched st : canonical h -> (forall k v, fixed !! k = Some v -> 0 < v) ->
  no_like_terms fixed h -> valid_schedule fixed h sched -> nm_sub inf fixed h sched = Ok st ->
  s_cur st = map (fun t => surviving fixed (fst t)) h /\
  forall t, In t h -> In (surviving fixed (fst t)) (dkeys (s_cp st)).
Proof.
  intros Hc Hf Hm Hv Hs. split.
  - eapply no_merge_fresh; eauto; [apply Hc|apply positive_defined; auto|]. intros e c Hin. apply (proj2 Hc e c Hin).
  - intros [o c] Ht. cbn [fst]. destruct (dget (s_cp st) (surviving fixed o)) as [x|] eqn:E; [eapply dget_In_keys; eauto|].
    exfalso. pose proof (final_coef inf h fixed (proj1 Hc) (positive_defined fixed h Hf) sched st (surviving fixed o) Hv Hs) as Hco.
    unfold coef in Hco. rewrite E in Hco.
    pose proof Ht as Hi. apply lookup_In in Hi as (i & Hi). rewrite (no_like_sum fixed h i o c Hm Hi) in Hco.
    pose proof (proj2 (proj2 Hc o c Ht)). pose proof (subval_pos fixed o Hf). nra.
Qed.

(** *** Costs whose substituted terms keep their order *)
Lemma aligned_terms inf fixed (cost : hmap R) sched s : canonical cost -> (forall k v, fixed !! k = Some v -> 0 < v) ->
  valid_schedule fixed cost sched -> nm_sub inf fixed cost sched = Ok s ->
  map fst (s_cp s) = map (fun t => surviving fixed (fst t)) cost ->
  s_cp s = map (fun t => (surviving fixed (fst t), snd t * subval fixed (fst t))) cost.
Proof.
  intros Hc Hf Hv Es Hal.
  destruct (sub_main inf cost fixed (proj1 Hc) (positive_defined fixed cost Hf) _ Hv) as (s' & E' & Hg & _).
  assert (s' = s) as -> by congruence.
  assert (Hnd : NoDup (map fst (s_cp s))) by apply Hg.
  assert (Hnl : no_like_terms fixed cost).
  { intros i j o1 c1 o2 c2 Hi Hj Hsv. rewrite Hal in Hnd.
    eapply (NoDup_lookup (map (fun t => surviving fixed (fst t)) cost) i j); [exact Hnd| |].
    - rewrite lookup_map. unfold hmap in *. rewrite Hi. reflexivity.
    - rewrite lookup_map. unfold hmap in *. rewrite Hj. cbn. f_equal. auto. }
  apply list_eq. intros i. rewrite lookup_map.
  assert (Hi : map fst (s_cp s) !! i = map (fun t => surviving fixed (fst t)) cost !! i) by (rewrite Hal; auto).
  rewrite !lookup_map in Hi. unfold hmap in *.
  destruct (cost !! i) as [[o c]|] eqn:E2; cbn [option_map fst snd] in Hi |- *.
  2:{ match type of Hi with option_map fst ?a = _ => destruct a eqn:E1 end; [discriminate|reflexivity]. }
  match type of Hi with option_map fst ?a = _ => destruct a as [[e x]|] eqn:E1 end; [|discriminate]. cbn [option_map fst] in Hi.
  assert (e = surviving fixed o) as -> by congruence. f_equal. f_equal.
  pose proof (final_coef inf cost fixed (proj1 Hc) (positive_defined fixed cost Hf) sched s (surviving fixed o) Hv Es) as Hco.
  rewrite (no_like_sum fixed cost i o c Hnl E2) in Hco. rewrite <- Hco. unfold coef.
  rewrite (In_dget (s_cp s) (surviving fixed o) x); auto. apply lookup_In. exists i. exact E1.
Qed.

Lemma aligned_single inf fixed (cost : hmap R) sched s : canonical cost -> all_positive cost -> (forall k v, fixed !! k = Some v -> 0 < v) ->
  valid_schedule fixed cost sched -> nm_sub inf fixed cost sched = Ok s -> length cost = 1%nat ->
  map fst (s_cp s) = map (fun t => surviving fixed (fst t)) cost.
Proof.
  intros Hc Hp Hf Hv Es Hl. destruct cost as [|[o c] [|]]; try discriminate. cbn [map fst].
  destruct (sub_main inf [(o, c)] fixed (proj1 Hc) (positive_defined fixed _ Hf) _ Hv) as (s' & E' & Hg & _).
  assert (s' = s) as -> by congruence.
  assert (Hnd : NoDup (map fst (s_cp s))) by apply Hg.
  pose proof (sub_posy_key inf [(o, c)] fixed sched s Hc Hp Hf Hv Es o c (or_introl eq_refl)) as Hk.
  assert (Hall : forall e, In e (map fst (s_cp s)) -> e = surviving fixed o).
  { intros e He. apply in_map_iff in He as ([e' x] & <- & Hin). cbn [fst].
    pose proof (positive_nonzero inf _ fixed sched s Hc Hp Hf Hv Es e' x Hin) as Hx.
    pose proof (final_coef inf [(o, c)] fixed (proj1 Hc) (positive_defined fixed _ Hf) sched s e' Hv Es) as Hco.
    unfold coef in Hco. rewrite (In_dget (s_cp s) e' x Hnd Hin) in Hco. cbn [lsum fst snd] in Hco.
    destruct (decide (surviving fixed o = e')); auto. lra. }
  unfold dkeys in Hk. destruct (map fst (s_cp s)) as [|a [|b l]].
  - destruct Hk.
  - f_equal. apply Hall. left. auto.
  - exfalso. apply NoDup_ListNoDup in Hnd. inversion Hnd as [|? ? Hx _]; subst. apply Hx. left.
    rewrite (Hall a), (Hall b); auto; [right; left; auto|left; auto].
Qed.
