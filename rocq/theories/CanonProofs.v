(** Canonical form, classes, equality (C04, C05, C06). *)
From Verif Require Import Base HashVec HashVecProofs Nomial NomialSem NomialProofs.
From Coq Require Import Permutation.
Open Scope R_scope.

(** ** C04 *)
Lemma canonical_dget (h : hmap R) : NoDup (dkeys h) ->
  (forall e c, dget h e = Some c -> exp_canon e /\ c <> 0) -> canonical h.
Proof.
  intros Hn Hd. split; auto. intros e c Hin. apply Hd. apply In_dget; auto.
Qed.

Lemma canonical_inv (h : hmap R) e c : canonical h -> dget h e = Some c -> exp_canon e /\ c <> 0.
Proof. intros [_ Hc] E. apply Hc. apply dget_In; auto. Qed.

Lemma exp_canon_singleton x : exp_canon {[x := 1]}.
Proof.
  intros k y. rewrite lookup_singleton_Some. intros [_ <-]. lra.
Qed.

Lemma canonical_var x : canonical (var_hmap x).
Proof.
  split; [apply NoDup_singleton|]. intros e c [[= <- <-]|[]].
  split; [apply exp_canon_singleton|]. cbn. lra.
Qed.

Lemma canonical_num (c : R) : c <> 0 -> canonical (num_hmap c).
Proof.
  intros Hc. split; [apply NoDup_singleton|]. intros e c' [[= <- <-]|[]].
  split; auto. apply exp_canon_empty.
Qed.

Lemma canonical_add (a b : hmap R) : canonical a -> canonical b -> canonical (hv_add a b).
Proof.
  intros Ha Hb. apply canonical_dget.
  - apply NoDup_hv_add, Ha.
  - intros e c. rewrite dget_hv_add by (apply Ha || apply Hb).
    destruct (dget a e) as [x|] eqn:E1, (dget b e) as [y|] eqn:E2; cbn [combine]; try discriminate.
    + dcase E; [discriminate|]. intros [= <-]. split; [eapply (canonical_inv a); eauto|].
      cbn in *. lra.
    + intros [= <-]. eapply (canonical_inv a); eauto.
    + intros [= <-]. eapply (canonical_inv b); eauto.
Qed.

Lemma canonical_mul (a : hmap R) c : c <> 0 -> canonical a -> canonical (hv_mul a c).
Proof.
  intros Hc [Hn Ha]. split.
  - rewrite dkeys_hv_mul; auto.
  - intros e x Hin. unfold hv_mul in Hin. apply in_map_iff in Hin as ([e' c'] & [= <- <-] & Hin).
    destruct (Ha _ _ Hin) as [He Hc']. split; [exact He|]. cbn.
    apply Rmult_integral_contrapositive; auto.
Qed.

Lemma canonical_smul_term es cs (h : hmap R) t :
  exp_canon es -> exp_canon (fst t) -> canonical h -> canonical (smul_term es cs h t).
Proof.
  intros Hes Het Hh. destruct t as [eo co]. cbn in Het. unfold smul_term.
  dcase E; cbn in E; [dcase E2; auto|].
  - apply canonical_dget; [apply NoDup_ddel, Hh|]. intros e c Hg.
    assert (In e (dkeys (ddel h (exp_add es eo)))) as Hin by (eapply dget_In_keys; eauto).
    destruct (decide (e = exp_add es eo)) as [->|Hne].
    + rewrite dget_ddel_eq in Hg by apply Hh. discriminate.
    + rewrite dget_ddel_ne in Hg by auto. eapply canonical_inv; eauto.
  - apply canonical_dget; [apply NoDup_dset, Hh|]. intros e c.
    rewrite dget_dset. dcase Ee.
    + intros [= <-]. subst e. split; [apply exp_canon_add; auto|]. cbn.
      change (coef h (exp_add es eo) + cs * co <> 0).
      change (cs * co <> - coef h (exp_add es eo)) in E. lra.
    + intros Hg. eapply canonical_inv; eauto.
Qed.

Lemma canonical_smul_row es cs (h2 h : hmap R) : exp_canon es ->
  (forall e c, In (e, c) h2 -> exp_canon e) ->
  canonical h -> canonical (fold_left (smul_term es cs) h2 h).
Proof.
  revert h; induction h2 as [|t h2 IH]; intros h Hes H2 Hh; cbn [fold_left]; auto.
  apply IH; auto.
  - intros e c Hin. eapply H2; right; eauto.
  - apply canonical_smul_term; auto. destruct t as [e c]. eapply H2; left; eauto.
Qed.

Lemma canonical_nil : canonical [].
Proof. split; [apply NoDup_nil_2|]. intros e c []. Qed.

Lemma canonical_smul (h1 h2 : hmap R) : canonical h1 -> canonical h2 -> canonical (smul h1 h2).
Proof.
  intros [_ H1] [_ H2]. unfold smul. generalize canonical_nil.
  generalize (@nil (gmap nat R * R)) as acc.
  induction h1 as [|[e c] h1 IH]; intros acc Hacc; cbn [fold_left]; auto.
  apply IH.
  - intros; apply H1; right; auto.
  - apply canonical_smul_row; auto.
    + eapply H1; left; eauto.
    + intros e' c' Hin. eapply H2; eauto.
Qed.

Lemma canonical_mono_pow (h : hmap R) r h' : classify h = CMonomial -> canonical h ->
  mono_pow h r = Ok h' -> canonical h'.
Proof.
  intros Hm [_ Hc]. apply classify_mono in Hm as (_ & e & c & -> & Hpos).
  cbn [mono_pow]. intros [= <-]. split; [apply NoDup_singleton|].
  intros e' c' [[= <- <-]|[]]. split.
  - dcase E; [apply exp_canon_empty|]. apply exp_canon_mul; auto. eapply Hc; left; eauto.
  - cbn. rewrite Rpow_pos by auto. apply Rgt_not_eq. apply exp_pos.
Qed.

Definition value_canonical (v : value R) : Prop :=
  match v with VNum _ => True | VNom h => canonical h end.

Section Canon.
Variable se : bool.

Ltac init_inv Hv :=
  apply rmap_ok in Hv as (?h & ?Hi & ->);
  match goal with Hi : signomial_init _ _ _ = Ok _ |- _ => apply init_ok in Hi as [-> _] end;
  cbn [value_canonical].

Lemma canon_nom_add_num (h : hmap R) c v : canonical h -> nom_add_num se h c = Ok v -> value_canonical v.
Proof.
  intros Hh. unfold nom_add_num. dcase E; cbn in E; intros Hv; init_inv Hv; auto.
  apply canonical_add; auto. apply canonical_num; auto.
Qed.

Lemma canon_py_add (a b v : value R) : value_canonical a -> value_canonical b ->
  py_add se a b = Ok v -> value_canonical v.
Proof.
  destruct a as [x|h1], b as [y|h2]; unfold py_add; cbn [value_canonical]; intros Ha Hb.
  - intros [= <-]; exact I.
  - apply canon_nom_add_num; auto.
  - apply canon_nom_add_num; auto.
  - destruct h2 as [|t2 h2].
    + destruct h1 as [|t1 h1]; [discriminate|]. dcase HD; [discriminate|].
      intros Hv; init_inv Hv. apply canonical_add; auto.
    + intros Hv; init_inv Hv. apply canonical_add; auto.
Qed.

Lemma canon_py_mul (a b v : value R) : value_canonical a -> value_canonical b ->
  py_mul se a b = Ok v -> value_canonical v.
Proof.
  destruct a as [x|h1], b as [y|h2]; unfold py_mul; cbn [value_canonical]; intros Ha Hb.
  - intros [= <-]; exact I.
  - dcase E; [intros [= <-]; exact I|]. intros Hv; init_inv Hv. apply canonical_mul; auto.
  - dcase E; [intros [= <-]; exact I|]. intros Hv; init_inv Hv. apply canonical_mul; auto.
  - intros Hv; init_inv Hv. apply canonical_smul; auto.
Qed.

Lemma canon_py_neg (a v : value R) : value_canonical a -> py_neg se a = Ok v -> value_canonical v.
Proof.
  destruct a as [x|h]; unfold py_neg; intros Ha.
  - intros [= <-]; exact I.
  - intros Hv. assert (py_mul se (VNum (nopp n1)) (VNom h) = Ok v) as Hv'.
    { destruct se; [auto|discriminate]. }
    eapply canon_py_mul; [| |exact Hv']; auto. exact I.
Qed.

Lemma canon_py_sub (a b v : value R) : value_canonical a -> value_canonical b ->
  py_sub se a b = Ok v -> value_canonical v.
Proof.
  intros Ha Hb Hv. destruct (py_sub_cases _ _ _ _ Hv) as [(x & y & -> & -> & ->)|Hv']; [exact I|].
  apply rbind_ok in Hv' as (nb & Hn & Hv'). eapply canon_py_add; [exact Ha| |exact Hv'].
  eapply canon_py_neg; eauto.
Qed.

Lemma canon_pow_loop n p (h : hmap R) v : value_canonical p -> canonical h ->
  pow_loop se n p h = Ok v -> value_canonical v.
Proof.
  revert p; induction n as [|n IH]; cbn [pow_loop]; intros p Hp Hh Hv.
  - injection Hv as <-; auto.
  - apply rbind_ok in Hv as (p' & Hm & Hl). eapply IH; [|exact Hh|exact Hl].
    eapply canon_py_mul; [exact Hp| |exact Hm]. exact Hh.
Qed.

Lemma canon_py_powz (a v : value R) z : value_canonical a -> py_powz se a z = Ok v -> value_canonical v.
Proof.
  destruct a as [c|h]; unfold py_powz; intros Ha.
  - unfold num_powz. dcase E; [destruct (z <? 0)%Z; [discriminate|]|]; intros [= <-]; exact I.
  - dcase E.
    + intros Hv. apply rbind_ok in Hv as (h' & Hm & Hv). init_inv Hv.
      eapply canonical_mono_pow; [exact E| |exact Hm]. exact Ha.
    + destruct (z <? 0)%Z; [discriminate|]. destruct (z =? 0)%Z; [discriminate|].
      intros Hv. eapply canon_pow_loop; [| |exact Hv]; auto. exact I.
Qed.

Lemma canon_py_powr (a v : value R) r : value_canonical a -> py_powr se a r = Ok v -> value_canonical v.
Proof.
  destruct a as [c|h]; unfold py_powr; intros Ha.
  - unfold num_powr. destruct (nltb n0 c); [|discriminate]; intros [= <-]; exact I.
  - dcase E; [|discriminate].
    intros Hv. apply rbind_ok in Hv as (h' & Hm & Hv). init_inv Hv.
    eapply canonical_mono_pow; [exact E| |exact Hm]. exact Ha.
Qed.

Lemma canon_py_div (a b v : value R) : value_canonical a -> value_canonical b ->
  py_div se a b = Ok v -> value_canonical v.
Proof.
  intros Ha Hb.
  assert (forall h v, canonical h -> (let! inv := py_powz se (VNom h) (-1) in py_mul se a inv) = Ok v ->
    value_canonical v) as HH.
  { intros h w Hh Hw. apply rbind_ok in Hw as (inv & Hp & Hm).
    eapply canon_py_mul; [exact Ha| |exact Hm]. eapply canon_py_powz; [|exact Hp]; auto. }
  unfold py_div. destruct a as [x|h1], b as [y|h2].
  - dcase E; [discriminate|]. intros [= <-]; exact I.
  - dcase E; [|discriminate]. dcase E2.
    + destruct (py_powz se (VNom h2) (-1)); discriminate.
    + apply HH; auto.
  - dcase E; [discriminate|]. intros Hv. eapply canon_py_mul; [| |exact Hv]; [auto|exact I].
  - dcase E; [|discriminate]. apply HH; auto.
Qed.

Lemma run_canonical (e : expr R) v : run se e = Ok v -> value_canonical v.
Proof.
  revert v; induction e as [c|x|a IHa b IHb|a IHa b IHb|a IHa b IHb|a IHa b IHb|a IHa|a IHa z|a IHa r];
    cbn [run]; intros v Hv.
  - injection Hv as <-; exact I.
  - injection Hv as <-. apply canonical_var.
  - apply rbind_ok in Hv as (va & Ha & Hv). apply rbind_ok in Hv as (vb & Hb & Hv).
    eapply canon_py_add; [| |exact Hv]; auto.
  - apply rbind_ok in Hv as (va & Ha & Hv). apply rbind_ok in Hv as (vb & Hb & Hv).
    eapply canon_py_sub; [| |exact Hv]; auto.
  - apply rbind_ok in Hv as (va & Ha & Hv). apply rbind_ok in Hv as (vb & Hb & Hv).
    eapply canon_py_mul; [| |exact Hv]; auto.
  - apply rbind_ok in Hv as (va & Ha & Hv). apply rbind_ok in Hv as (vb & Hb & Hv).
    eapply canon_py_div; [| |exact Hv]; auto.
  - apply rbind_ok in Hv as (va & Ha & Hv). eapply canon_py_neg; [|exact Hv]; auto.
  - apply rbind_ok in Hv as (va & Ha & Hv). eapply canon_py_powz; [|exact Hv]; auto.
  - apply rbind_ok in Hv as (va & Ha & Hv). eapply canon_py_powr; [|exact Hv]; auto.
Qed.

End Canon.

(** ** C05 *)
Lemma classify_CMonomial (h : hmap R) :
  classify h = CMonomial <-> exists e c, h = [(e, c)] /\ 0 < c.
Proof.
  split.
  - intros Hc. apply classify_mono in Hc as [_ Hc]. exact Hc.
  - intros (e & c & -> & Hc). unfold classify.
    replace (any_nonpositive [(e, c)]) with false; [reflexivity|].
    symmetry. apply any_nonpositive_false. intros e' c' [[= <- <-]|[]]; auto.
Qed.

Lemma classify_CPosynomial (h : hmap R) :
  classify h = CPosynomial <-> all_positive h /\ length h <> 1%nat.
Proof.
  unfold classify. rewrite <- any_nonpositive_false.
  destruct (any_nonpositive h); [intuition discriminate|].
  destruct (Nat.eqb_spec (length h) 1); intuition; discriminate.
Qed.

Lemma classify_CSignomial (h : hmap R) :
  classify h = CSignomial <-> exists e c, In (e, c) h /\ c <= 0.
Proof.
  unfold classify. destruct (any_nonpositive h) eqn:E.
  - split; auto. intros _. unfold any_nonpositive in E. apply existsb_exists in E as ([e c] & Hin & Hc).
    exists e, c. split; auto. apply Rleb_true; auto.
  - apply any_nonpositive_false in E.
    split; [destruct (Nat.eqb (length h) 1); discriminate|].
    intros (e & c & Hin & Hc). specialize (E e c Hin). lra.
Qed.

Lemma init_raises (h : hmap R) :
  signomial_init false true h = Err InvalidPosynomialE <-> classify h = CSignomial.
Proof.
  unfold signomial_init, classify. destruct (any_nonpositive h); simpl; [tauto|].
  destruct (Nat.eqb (length h) 1); split; discriminate.
Qed.

Lemma eval_all_positive env (h : hmap R) : all_positive h -> h <> [] -> 0 < eval env h.
Proof.
  intros Hp Hne. destruct h as [|[e c] h]; [congruence|]. clear Hne.
  revert e c Hp; induction h as [|[e' c'] h IH]; intros e c Hp.
  - simpl. specialize (Hp e c (or_introl eq_refl)). pose proof (mono_val_pos env e).
    assert (0 < c * mono_val env e) by (apply Rmult_lt_0_compat; auto). lra.
  - cbn [eval] in *. assert (0 < c' * mono_val env e' + eval env h) as H0.
    { apply (IH e' c'). intros e2 c2 Hin. eapply Hp. right; eauto. }
    specialize (Hp e c (or_introl eq_refl)). pose proof (mono_val_pos env e).
    assert (0 < c * mono_val env e) by (apply Rmult_lt_0_compat; auto). lra.
Qed.

(** Without SignomialsEnabled every nomial produced has positive coefficients. *)
Lemma init_false_pos (h h' : hmap R) : signomial_init false true h = Ok h' -> h' = h /\ all_positive h.
Proof.
  unfold signomial_init. destruct (any_nonpositive h) eqn:E; simpl; [discriminate|].
  intros [= <-]. split; auto. apply any_nonpositive_false; auto.
Qed.

Definition posy_value (v : value R) : Prop :=
  match v with VNum _ => True | VNom h => all_positive h end.

Lemma posy_of_init (h : hmap R) v :
  rmap VNom (signomial_init false true h) = Ok v -> posy_value v.
Proof.
  intros Hv. apply rmap_ok in Hv as (h' & Hi & ->). apply init_false_pos in Hi as [-> Hp]. auto.
Qed.

Lemma posy_nom_add_num (h : hmap R) c v : nom_add_num false h c = Ok v -> posy_value v.
Proof. unfold nom_add_num. dcase E; apply posy_of_init. Qed.

Lemma posy_py_add (a b v : value R) : py_add false a b = Ok v -> posy_value v.
Proof.
  destruct a as [x|h1], b as [y|h2]; unfold py_add; try apply posy_nom_add_num.
  - intros [= <-]; exact I.
  - destruct h2 as [|t2 h2]; [|apply posy_of_init].
    destruct h1 as [|t1 h1]; [discriminate|]. dcase HD; [discriminate|]. apply posy_of_init.
Qed.

Lemma posy_py_mul (a b v : value R) : py_mul false a b = Ok v -> posy_value v.
Proof.
  destruct a as [x|h1], b as [y|h2]; unfold py_mul; try apply posy_of_init.
  - intros [= <-]; exact I.
  - dcase E; [intros [= <-]; exact I|apply posy_of_init].
  - dcase E; [intros [= <-]; exact I|apply posy_of_init].
Qed.

Lemma posy_pow_loop n p (h : hmap R) v : posy_value p ->
  pow_loop false n p h = Ok v -> posy_value v.
Proof.
  revert p; induction n as [|n IH]; cbn [pow_loop]; intros p Hp Hv.
  - injection Hv as <-; auto.
  - apply rbind_ok in Hv as (p' & Hm & Hl). eapply IH; [|exact Hl]. eapply posy_py_mul; eauto.
Qed.

Lemma posy_py_powz (a v : value R) z : py_powz false a z = Ok v -> posy_value v.
Proof.
  destruct a as [c|h]; unfold py_powz.
  - unfold num_powz. dcase E; [destruct (z <? 0)%Z; [discriminate|]|]; intros [= <-]; exact I.
  - dcase E.
    + intros Hv. apply rbind_ok in Hv as (h' & Hm & Hv). eapply posy_of_init; eauto.
    + destruct (z <? 0)%Z; [discriminate|]. destruct (z =? 0)%Z; [discriminate|].
      intros Hv. eapply posy_pow_loop; [|exact Hv]. exact I.
Qed.

Lemma posy_py_powr (a v : value R) r : py_powr false a r = Ok v -> posy_value v.
Proof.
  destruct a as [c|h]; unfold py_powr.
  - unfold num_powr. destruct (nltb n0 c); [|discriminate]; intros [= <-]; exact I.
  - dcase E; [|discriminate].
    intros Hv. apply rbind_ok in Hv as (h' & Hm & Hv). eapply posy_of_init; eauto.
Qed.

Lemma posy_py_div (a b v : value R) : py_div false a b = Ok v -> posy_value v.
Proof.
  unfold py_div. destruct a as [x|h1], b as [y|h2].
  - dcase E; [discriminate|]. intros [= <-]; exact I.
  - dcase E; [|discriminate]. intros Hv. apply rbind_ok in Hv as (inv & _ & Hv).
    revert Hv. dcase E2; [discriminate|]. apply posy_py_mul.
  - dcase E; [discriminate|]. apply posy_py_mul.
  - dcase E; [|discriminate]. intros Hv. apply rbind_ok in Hv as (inv & _ & Hv).
    eapply posy_py_mul; eauto.
Qed.

Lemma run_posy (e : expr R) v : run false e = Ok v -> posy_value v.
Proof.
  destruct e as [c|x|a b|a b|a b|a b|a|a z|a r]; cbn [run]; intros Hv.
  - injection Hv as <-; exact I.
  - injection Hv as <-. intros e c [[= <- <-]|[]]. cbn. lra.
  - apply rbind_ok in Hv as (va & Ha & Hv). apply rbind_ok in Hv as (vb & Hb & Hv).
    eapply posy_py_add; eauto.
  - apply rbind_ok in Hv as (va & Ha & Hv). apply rbind_ok in Hv as (vb & Hb & Hv).
    destruct (py_sub_cases _ _ _ _ Hv) as [(x & y & -> & -> & ->)|Hv']; [exact I|].
    apply rbind_ok in Hv' as (nb & Hn & Hv'). eapply posy_py_add; eauto.
  - apply rbind_ok in Hv as (va & Ha & Hv). apply rbind_ok in Hv as (vb & Hb & Hv).
    eapply posy_py_mul; eauto.
  - apply rbind_ok in Hv as (va & Ha & Hv). apply rbind_ok in Hv as (vb & Hb & Hv).
    eapply posy_py_div; eauto.
  - apply rbind_ok in Hv as (va & Ha & Hv). destruct va; simpl in Hv.
    + injection Hv as <-; exact I.
    + discriminate.
  - apply rbind_ok in Hv as (va & Ha & Hv). eapply posy_py_powz; eauto.
  - apply rbind_ok in Hv as (va & Ha & Hv). eapply posy_py_powr; eauto.
Qed.

(** ** C06: equality decides equality of functions *)

(** *** Sums of exponentials with distinct rates are independent *)
Definition expsum (l : list (R * R)) (t : R) : R := lsum (fun ca => fst ca * exp (snd ca * t)) l.

Lemma expsum_deriv l t :
  derivable_pt_lim (expsum l) t (expsum (map (fun ca => (fst ca * snd ca, snd ca)) l) t).
Proof.
  induction l as [|[c a] l IH].
  - unfold expsum; simpl. apply derivable_pt_lim_const.
  - unfold expsum in *. simpl.
    apply (derivable_pt_lim_plus (fun t => c * exp (a * t)) (fun t => lsum (fun ca => fst ca * exp (snd ca * t)) l));
      [|exact IH].
    replace (c * a * exp (a * t)) with (c * (exp (a * t) * a)) by ring.
    apply (derivable_pt_lim_scal (fun t => exp (a * t))).
    apply (derivable_pt_lim_comp (fun t => a * t) exp).
    + pose proof (derivable_pt_lim_scal (fun t => t) a t 1 (derivable_pt_lim_id t)) as H.
      rewrite Rmult_1_r in H. exact H.
    + apply derivable_pt_lim_exp.
Qed.

Lemma deriv_zero_fun f t d : (forall t, f t = 0) -> derivable_pt_lim f t d -> d = 0.
Proof.
  intros Hf Hd. eapply uniqueness_limite; [exact Hd|].
  intros eps Heps. exists (mkposreal 1 Rlt_0_1). intros h Hh _.
  rewrite !Hf. replace ((0 - 0) / h - 0) with 0 by (field; auto). rewrite Rabs_R0; auto.
Qed.

Lemma expsum_scale l b t : expsum (map (fun ca => (fst ca, snd ca - b)) l) t = exp (- (b * t)) * expsum l t.
Proof.
  unfold expsum. rewrite lsum_map. rewrite <- lsum_scale. apply lsum_ext.
  intros [c a] _. simpl. replace ((a - b) * t) with (a * t + - (b * t)) by ring.
  rewrite exp_plus. ring.
Qed.

Lemma expsum_indep n : forall l, length l = n -> List.NoDup (map snd l) ->
  (forall t, expsum l t = 0) -> forall c a, In (c, a) l -> c = 0.
Proof.
  induction n as [|n IH]; intros l Hl Hn Hz c a Hin.
  - destruct l; [destruct Hin|discriminate].
  - destruct l as [|[c1 a1] l]; [destruct Hin|]. simpl in Hn. inversion Hn as [|? ? Hn1 Hn2]; subst.
    simpl in Hl. injection Hl as Hl.
    set (l' := map (fun ca : R * R => (fst ca, snd ca - a1)) l).
    assert (Hz' : forall t, c1 + expsum l' t = 0).
    { intros t. unfold l'. rewrite expsum_scale. specialize (Hz t). unfold expsum in Hz at 1.
      simpl in Hz. fold (expsum l t) in Hz.
      assert (expsum l t = - (c1 * exp (a1 * t))) as -> by (unfold expsum in *; lra).
      replace (exp (- (a1 * t)) * - (c1 * exp (a1 * t)))
        with (- c1 * (exp (- (a1 * t)) * exp (a1 * t))) by ring.
      rewrite <- exp_plus. replace (- (a1 * t) + a1 * t) with 0 by ring. rewrite exp_0. ring. }
    assert (Hd : forall t, expsum (map (fun ca => (fst ca * snd ca, snd ca)) l') t = 0).
    { intros t. apply (deriv_zero_fun (fun t => c1 + expsum l' t) t); auto.
      replace (expsum (map (fun ca => (fst ca * snd ca, snd ca)) l') t)
        with (0 + expsum (map (fun ca => (fst ca * snd ca, snd ca)) l') t) by ring.
      apply (derivable_pt_lim_plus (fun _ => c1)); [apply derivable_pt_lim_const|apply expsum_deriv]. }
    assert (Hrest : forall c a, In (c, a) l -> c = 0).
    { intros c' a' Hin'. assert (c' * (a' - a1) = 0) as H0.
      { eapply (IH (map (fun ca => (fst ca * snd ca, snd ca)) l')).
        - unfold l'. rewrite !map_length. auto.
        - unfold l'. rewrite !map_map. simpl.
          assert (forall (l : list (R * R)), List.NoDup (map snd l) -> List.NoDup (map (fun x => snd x - a1) l)) as HN.
          { clear. induction l as [|[c a] l IH]; simpl; intros Hn; [constructor|].
            inversion Hn as [|? ? H1 H2]; subst. constructor; auto.
            intros Hin. apply H1. apply in_map_iff in Hin as ([c' a'] & E & Hin).
            apply in_map_iff. exists (c', a'). split; auto. simpl in *. lra. }
          apply HN; auto.
        - exact Hd.
        - unfold l'. rewrite map_map. apply in_map_iff. exists (c', a'). split; [reflexivity|auto]. }
      apply Rmult_integral in H0 as [H0|H0]; auto. exfalso. apply Hn1.
      apply in_map_iff. exists (c', a'). split; auto. simpl. lra. }
    destruct Hin as [[= <- <-]|Hin]; [|eauto].
    specialize (Hz 0). unfold expsum in Hz. simpl in Hz. rewrite Rmult_0_r, exp_0 in Hz.
    assert (lsum (fun ca : R * R => fst ca * exp (snd ca * 0)) l = 0) as H0.
    { rewrite <- (lsum_zero l). apply lsum_ext. intros [c a] Hin. rewrite (Hrest c a Hin). simpl. ring. }
    lra.
Qed.

(** *** A direction separating finitely many nonzero exponent vectors *)
Definition lin (w : nat -> R) (e : expv R) : R := esum (fun k x => x * w k) e.

Lemma lin_dot w e : dot (fun k => exp (w k)) e = lin w e.
Proof.
  unfold dot, lin. induction e as [|k x e Hk IH] using map_ind.
  - rewrite !esum_empty; auto.
  - rewrite !esum_insert by auto. rewrite IH, ln_exp. auto.
Qed.

Lemma lin_perturb w k eps e :
  lin (fun j => w j + (if decide (j = k) then eps else 0)) e = lin w e + eps * eget e k.
Proof.
  unfold lin. induction e as [|j x e Hj IH] using map_ind.
  - rewrite !esum_empty. unfold eget. rewrite lookup_empty. ring.
  - rewrite !esum_insert by auto. rewrite IH, eget_insert.
    destruct (decide (j = k)) as [->|Hne].
    + rewrite decide_True by auto. assert (eget e k = 0) as -> by (unfold eget; rewrite Hj; auto). ring.
    + rewrite decide_False by auto. ring.
Qed.

Lemma avoid_finite (bad : list R) : exists eps, ~ In eps bad.
Proof.
  assert (exists m, forall x, In x bad -> x < m) as (m & Hm).
  { induction bad as [|x bad (m & Hm)]; [exists 0; intros ? []|].
    exists (Rmax m (x + 1)). intros y [<-|Hin].
    - eapply Rlt_le_trans; [|apply Rmax_r]. lra.
    - eapply Rlt_le_trans; [|apply Rmax_l]. auto. }
  exists m. intros Hin. specialize (Hm m Hin). lra.
Qed.

Lemma separate (ds : list (expv R)) : (forall d, In d ds -> exists k, eget d k <> 0) ->
  exists w, forall d, In d ds -> lin w d <> 0.
Proof.
  induction ds as [|d ds IH]; intros Hd.
  - exists (fun _ => 0). intros ? [].
  - destruct IH as (w & Hw). { intros; apply Hd; right; auto. }
    destruct (Hd d (or_introl eq_refl)) as (k & Hk).
    destruct (avoid_finite (map (fun d => - lin w d / eget d k) (d :: ds))) as (eps & Heps).
    exists (fun j => w j + (if decide (j = k) then eps else 0)).
    intros d' Hin. rewrite lin_perturb. intros H0.
    destruct (Req_EM_T (eget d' k) 0) as [Hz|Hz].
    + destruct Hin as [<-|Hin]; [contradiction|]. apply (Hw d' Hin). rewrite Hz in H0. lra.
    + apply Heps. apply in_map_iff. exists d'. split; auto.
      apply (Rmult_eq_reg_r (eget d' k)); auto.
      unfold Rdiv. rewrite Rmult_assoc, Rinv_l, Rmult_1_r by auto. lra.
Qed.

Lemma exp_sub_nonzero a b : exp_canon a -> exp_canon b -> a <> b -> exists k, eget (exp_sub a b) k <> 0.
Proof.
  intros Ha Hb Hne.
  assert (~ forall k, In k (cover2 a b) -> eget (exp_sub a b) k = 0) as Hn.
  { intros Hall. apply Hne. apply exp_canon_ext; auto. intros k.
    destruct (in_dec Nat.eq_dec k (cover2 a b)) as [Hin|Hin].
    - specialize (Hall k Hin). rewrite eget_sub in Hall. lra.
    - unfold eget. destruct (a !! k) eqn:E1; [exfalso; apply Hin; eapply cover2_l; eauto|].
      destruct (b !! k) eqn:E2; [exfalso; apply Hin; eapply cover2_r; eauto|]. auto. }
  induction (cover2 a b) as [|k ks IH].
  - exfalso. apply Hn. intros ? [].
  - destruct (Req_EM_T (eget (exp_sub a b) k) 0) as [E|E]; [|eauto].
    apply IH. intros Hall. apply Hn. intros j [<-|Hin]; auto.
Qed.

Lemma lin_sub w a b : lin w (exp_sub a b) = lin w a - lin w b.
Proof.
  rewrite <- !lin_dot. unfold exp_sub. rewrite dot_add. unfold exp_neg. rewrite dot_mul. cbn. ring.
Qed.

Lemma eval_scaled w t h : eval (fun k => exp (t * w k)) h
  = expsum (map (fun p => (snd p, lin w (fst p))) h) t.
Proof.
  rewrite eval_lsum. unfold expsum. rewrite lsum_map. apply lsum_ext. intros [e c] _. simpl.
  rewrite mono_val_exp. f_equal. f_equal.
  rewrite (lin_dot (fun k => t * w k)). unfold lin.
  induction e as [|k x e Hk IH] using map_ind.
  - rewrite !esum_empty; ring.
  - rewrite !esum_insert by auto. rewrite IH. ring.
Qed.

Lemma zero_nomial (h : hmap R) : canonical h ->
  (forall env, positive_point env -> eval env h = 0) -> h = [].
Proof.
  intros [Hn Hc] Hz.
  set (ds := flat_map (fun p => flat_map (fun q =>
        if decide (fst p = fst q) then [] else [exp_sub (fst p) (fst q)]) h) h).
  destruct (separate ds) as (w & Hw).
  { intros d Hd. unfold ds in Hd. apply in_flat_map in Hd as ([e1 c1] & H1 & Hd).
    apply in_flat_map in Hd as ([e2 c2] & H2 & Hd). simpl in Hd. revert Hd.
    destruct (decide (e1 = e2)) as [E|E]; [intros []|]. intros [<-|[]].
    apply exp_sub_nonzero; auto; [eapply (Hc e1 c1)|eapply (Hc e2 c2)]; auto. }
  assert (Hsep : forall e1 c1 e2 c2, In (e1, c1) h -> In (e2, c2) h -> e1 <> e2 -> lin w e1 <> lin w e2).
  { intros e1 c1 e2 c2 H1 H2 Hne E. apply (Hw (exp_sub e1 e2)).
    - unfold ds. apply in_flat_map. exists (e1, c1). split; auto.
      apply in_flat_map. exists (e2, c2). split; auto. simpl. rewrite decide_False by auto. left; auto.
    - rewrite lin_sub. lra. }
  assert (Hnd : List.NoDup (map snd (map (fun p : expv R * R => (snd p, lin w (fst p))) h))).
  { rewrite map_map. simpl. clear Hz Hw ds. apply NoDup_ListNoDup in Hn. unfold dkeys in Hn.
    induction h as [|[e c] h IH]; simpl; [constructor|]. simpl in Hn. inversion Hn as [|? ? Hx Hn']; subst.
    constructor.
    - intros Hin. apply in_map_iff in Hin as ([e' c'] & E & Hin). simpl in E.
      assert (e <> e') as Hne. { intros ->. apply Hx. apply in_map_iff. exists (e', c'); auto. }
      eapply (Hsep e c e' c'); eauto; [left; auto|right; auto].
    - apply IH; auto.
      + intros; apply Hc; right; auto.
      + intros e1 c1 e2 c2 H1 H2. eapply Hsep; right; eauto. }
  destruct h as [|[e c] h]; auto. exfalso.
  destruct (Hc e c (or_introl eq_refl)) as [_ Hne]. apply Hne.
  eapply (expsum_indep _ _ eq_refl Hnd).
  - intros t. rewrite <- eval_scaled. apply Hz. intros k. apply exp_pos.
  - left. reflexivity.
Qed.

Lemma canonical_sub (a b : hmap R) : canonical a -> canonical b -> canonical (hv_sub a b).
Proof.
  intros Ha Hb. unfold hv_sub, hv_neg. apply canonical_add; auto. apply canonical_mul; auto. cbn; lra.
Qed.

Lemma hmap_eqb_equiv (h1 h2 : hmap R) : NoDup (dkeys h1) -> NoDup (dkeys h2) ->
  hmap_eqb h1 h2 = true <-> dict_equiv h1 h2.
Proof.
  intros H1 H2. unfold hmap_eqb. rewrite andb_true_iff, forallb_forall. rewrite Nat.eqb_eq.
  assert (Hsub : (forall x, In x h1 -> match dget h2 (fst x) with
      | Some c => bool_decide (c = snd x) | None => false end = true) <->
      (forall k v, dget h1 k = Some v -> dget h2 k = Some v)).
  { split.
    - intros Hall k v Hg. specialize (Hall (k, v) (dget_In _ _ _ Hg)). simpl in Hall.
      destruct (dget h2 k); [|discriminate]. apply bool_decide_eq_true in Hall. congruence.
    - intros Hall [k v] Hin. simpl. rewrite (Hall k v (In_dget _ _ _ H1 Hin)). apply bool_decide_eq_true; auto. }
  rewrite Hsub. split.
  - intros [Hl Hi] k. destruct (dget h1 k) as [v|] eqn:E; [symmetry; auto|].
    destruct (dget h2 k) as [v|] eqn:E2; auto. exfalso.
    apply dget_None in E.
    assert (incl (dkeys h1) (dkeys h2)) as Hincl.
    { intros x Hx. apply dmem_In in Hx. unfold dmem in Hx. destruct (dget h1 x) eqn:Ex; [|discriminate].
      eapply dget_In_keys. apply Hi; eauto. }
    apply E. eapply (NoDup_length_incl (l:=dkeys h1)); [apply NoDup_ListNoDup; auto| |exact Hincl|].
    + unfold dkeys. rewrite !map_length. lia.
    + eapply dget_In_keys; eauto.
  - intros He. split; [|intros k v Hg; rewrite <- He; auto].
    apply Permutation_length. apply dict_equiv_perm; auto.
Qed.

Lemma eq_decides (h1 h2 : hmap R) : canonical h1 -> canonical h2 ->
  hmap_eqb h1 h2 = true <-> (forall env, positive_point env -> eval env h1 = eval env h2).
Proof.
  intros Hc1 Hc2. rewrite hmap_eqb_equiv by (apply Hc1 || apply Hc2). split.
  - intros He env _. apply eval_perm. apply dict_equiv_perm; auto; [apply Hc1|apply Hc2].
  - intros Hev.
    assert (hv_sub h1 h2 = []) as Hz.
    { apply zero_nomial; [apply canonical_sub; auto|]. intros env Hp. unfold hv_sub, hv_neg.
      rewrite eval_hv_add, eval_hv_mul, (Hev env Hp). cbn. ring. }
    intros e. assert (dget (hv_sub h1 h2) e = None) as Hg by (rewrite Hz; auto).
    unfold hv_sub in Hg. rewrite dget_hv_add in Hg; [|apply Hc1|].
    2:{ unfold hv_neg. rewrite dkeys_hv_mul. apply Hc2. }
    unfold hv_neg in Hg. unfold hv_mul in Hg. rewrite (dget_map_val (fun v => nmul v (nopp n1))) in Hg.
    destruct (dget h1 e) as [x|], (dget h2 e) as [y|]; cbn in Hg; try discriminate; auto.
    revert Hg. dcase E; [|discriminate]. intros _. f_equal. cbn in E. lra.
Qed.

Lemma eq_num_decides (h : hmap R) c : canonical h -> c <> 0 ->
  nomial_eq_num h c = true <-> (forall env, positive_point env -> eval env h = c).
Proof.
  intros Hc Hne. assert (nomial_eq_num h c = true <-> hmap_eqb h (num_hmap c) = true) as ->.
  { unfold nomial_eq_num, hmap_eqb, num_hmap. destruct h as [|[e x] [|t h]]; cbn [length Nat.eqb andb].
    - split; discriminate.
    - cbn [forallb fst snd dget]. rewrite andb_true_r.
      destruct (decide (e = e_empty)) as [->|Hn].
      + rewrite bool_decide_true by auto. cbn [andb]. rewrite !bool_decide_eq_true. split; congruence.
      + rewrite bool_decide_false by auto. cbn. split; discriminate.
    - split; discriminate. }
  rewrite eq_decides by (auto; apply canonical_num; auto).
  assert (forall env, eval env (num_hmap c) = c) as E.
  { intros env. unfold num_hmap. cbn [eval]. rewrite mono_val_empty. ring. }
  split; intros H env Hp; specialize (H env Hp); rewrite E in *; auto.
Qed.

(** ** Posynomial arithmetic never raises *)
Lemma all_positive_cons e c (h : hmap R) : all_positive ((e, c) :: h) <-> 0 < c /\ all_positive h.
Proof.
  unfold all_positive. split.
  - intros H. split; [eapply H; left; eauto|]. intros; eapply H; right; eauto.
  - intros [Hc H] e' c' [[= <- <-]|Hin]; eauto.
Qed.

Lemma all_positive_dset (h : hmap R) e c : all_positive h -> 0 < c -> all_positive (dset h e c).
Proof.
  induction h as [|[e' c'] h IH]; cbn [dset]; intros Hh Hc.
  - apply all_positive_cons; auto.
  - apply all_positive_cons in Hh as [H1 H2]. dcase E; apply all_positive_cons; auto.
Qed.

Lemma dset_nonempty (h : hmap R) e c : dset h e c <> [].
Proof. destruct h as [|[e' c'] h]; cbn [dset]; [discriminate|]. dcase E; discriminate. Qed.

Lemma all_positive_get (h : hmap R) e c : all_positive h -> dget h e = Some c -> 0 < c.
Proof. intros Hp Hg. apply dget_In in Hg. eauto. Qed.

Lemma add_item_pos (h : hmap R) t : all_positive h -> 0 < snd t ->
  all_positive (hv_add_item h t) /\ hv_add_item h t <> [].
Proof.
  destruct t as [e c]. cbn [snd]. intros Hh Hc. unfold hv_add_item.
  destruct (dget h e) as [s|] eqn:E.
  - pose proof (all_positive_get _ _ _ Hh E). dcase D; cbn in D; [lra|].
    split; [|apply dset_nonempty]. apply all_positive_dset; auto. cbn. lra.
  - split; [|apply dset_nonempty]. apply all_positive_dset; auto.
Qed.

Lemma hv_add_pos (a b : hmap R) : all_positive a -> a <> [] -> all_positive b ->
  all_positive (hv_add a b) /\ hv_add a b <> [].
Proof.
  revert a; induction b as [|[e c] b IH]; intros a Ha Hne Hb; [auto|].
  apply all_positive_cons in Hb as [Hc Hb]. cbn [hv_add fold_left].
  change (fold_left hv_add_item b (hv_add_item a (e, c))) with (hv_add (hv_add_item a (e, c)) b).
  destruct (add_item_pos a (e, c) Ha Hc). apply IH; auto.
Qed.

Lemma smul_term_pos es cs (h : hmap R) t : 0 < cs -> 0 < snd t -> all_positive h ->
  all_positive (smul_term es cs h t) /\ smul_term es cs h t <> [].
Proof.
  destruct t as [eo co]. cbn [snd]. intros H1 H2 Hh. unfold smul_term.
  assert (0 < cs * co) by (apply Rmult_lt_0_compat; auto).
  assert (0 <= match dget h (exp_add es eo) with Some a => a | None => n0 end).
  { destruct (dget h (exp_add es eo)) eqn:E; [|cbn; lra]. pose proof (all_positive_get _ _ _ Hh E). lra. }
  dcase D; cbn in D, H0; [exfalso; lra|]. split; [|apply dset_nonempty].
  apply all_positive_dset; auto. cbn. lra.
Qed.

Lemma smul_row_pos es cs (h2 h : hmap R) : 0 < cs -> all_positive h2 -> all_positive h ->
  h <> [] \/ h2 <> [] ->
  all_positive (fold_left (smul_term es cs) h2 h) /\ fold_left (smul_term es cs) h2 h <> [].
Proof.
  revert h; induction h2 as [|[e c] h2 IH]; intros h Hc H2 Hh Hne; cbn [fold_left].
  - destruct Hne; [auto|congruence].
  - apply all_positive_cons in H2 as [Hx H2].
    destruct (smul_term_pos es cs h (e, c) Hc Hx Hh). apply IH; auto.
Qed.

Lemma smul_pos (h1 h2 : hmap R) : all_positive h1 -> all_positive h2 -> h1 <> [] -> h2 <> [] ->
  all_positive (smul h1 h2) /\ smul h1 h2 <> [].
Proof.
  intros H1 H2 N1 N2. unfold smul.
  assert (forall h1 acc, all_positive h1 -> all_positive acc -> h1 <> [] \/ acc <> [] ->
    all_positive (fold_left (fun h s => fold_left (smul_term (fst s) (snd s)) h2 h) h1 acc) /\
    fold_left (fun h s => fold_left (smul_term (fst s) (snd s)) h2 h) h1 acc <> []) as HH.
  { clear h1 H1 N1. induction h1 as [|[e c] h1 IH]; intros acc Hh Ha Hn; cbn [fold_left fst snd].
    - destruct Hn; [congruence|auto].
    - apply all_positive_cons in Hh as [Hc Hh].
      destruct (smul_row_pos e c h2 acc Hc H2 Ha (or_intror N2)). apply IH; auto. }
  apply HH; auto. intros ? ? [].
Qed.

Lemma hv_mul_pos (h : hmap R) c : 0 < c -> all_positive h -> h <> [] ->
  all_positive (hv_mul h c) /\ hv_mul h c <> [].
Proof.
  intros Hc Hh Hn. split.
  - intros e x Hin. unfold hv_mul in Hin. apply in_map_iff in Hin as ([e' c'] & [= <- <-] & Hin).
    cbn. apply Rmult_lt_0_compat; eauto.
  - destruct h; [congruence|]. discriminate.
Qed.

(** A strictly positive Python value. *)
Definition pos_value (v : value R) : Prop :=
  match v with VNum c => 0 < c | VNom h => all_positive h /\ h <> [] end.

Lemma init_pos (h : hmap R) : all_positive h -> signomial_init false true h = Ok h.
Proof.
  intros Hp. unfold signomial_init. apply any_nonpositive_false in Hp. rewrite Hp. auto.
Qed.

Lemma py_add_total a b : pos_value a -> pos_value b ->
  exists v, py_add false a b = Ok v /\ pos_value v.
Proof.
  assert (forall h c, all_positive h /\ h <> [] -> 0 < c ->
    exists v, nom_add_num false h c = Ok v /\ pos_value v) as HN.
  { intros h c [Hh Hn] Hc. unfold nom_add_num. dcase E; cbn in E; [lra|].
    assert (all_positive (num_hmap c)) as Hp by (intros e x [[= <- <-]|[]]; auto).
    destruct (hv_add_pos h (num_hmap c) Hh Hn Hp) as [P N]. rewrite init_pos by auto.
    eexists; split; [reflexivity|]. split; auto. }
  destruct a as [x|h1], b as [y|h2]; cbn [pos_value]; intros Ha Hb; cbn [py_add]; auto.
  - eexists; split; [reflexivity|]. cbn. lra.
  - destruct h2 as [|t2 h2]; [destruct Hb; congruence|].
    destruct (hv_add_pos h1 (t2 :: h2)) as [P N]; try tauto. rewrite init_pos by auto.
    eexists; split; [reflexivity|]. split; auto.
Qed.

Lemma py_mul_total a b : pos_value a -> pos_value b ->
  exists v, py_mul false a b = Ok v /\ pos_value v.
Proof.
  destruct a as [x|h1], b as [y|h2]; cbn [pos_value]; intros Ha Hb; cbn [py_mul].
  - eexists; split; [reflexivity|]. cbn. apply Rmult_lt_0_compat; auto.
  - dcase E; cbn in E; [lra|]. destruct (hv_mul_pos h2 x Ha) as [P N]; try tauto.
    rewrite init_pos by auto. eexists; split; [reflexivity|]. split; auto.
  - dcase E; cbn in E; [lra|]. destruct (hv_mul_pos h1 y Hb) as [P N]; try tauto.
    rewrite init_pos by auto. eexists; split; [reflexivity|]. split; auto.
  - destruct (smul_pos h1 h2) as [P N]; try tauto. rewrite init_pos by auto.
    eexists; split; [reflexivity|]. split; auto.
Qed.

Lemma pow_loop_total n p (h : hmap R) : pos_value p -> all_positive h -> h <> [] ->
  exists v, pow_loop false n p h = Ok v /\ pos_value v.
Proof.
  revert p; induction n as [|n IH]; intros p Hp Hh Hn; cbn [pow_loop]; [eauto|].
  destruct (py_mul_total p (VNom h)) as (v & -> & Hv); auto. { split; auto. }
  cbn [rbind]. auto.
Qed.

Lemma run_total (e : expr R) : posy_expr e -> exists v, run false e = Ok v /\ pos_value v.
Proof.
  induction e as [c|x|a IHa b IHb|a IHa b IHb|a IHa b IHb|a IHa b IHb|a IHa|a IHa z|a IHa r];
    cbn [posy_expr run]; try tauto.
  - eauto.
  - intros _. eexists; split; [reflexivity|]. split; [|discriminate].
    intros e c [[= <- <-]|[]]. cbn. lra.
  - intros [H1 H2]. destruct (IHa H1) as (va & -> & Ha). destruct (IHb H2) as (vb & -> & Hb).
    cbn [rbind]. apply py_add_total; auto.
  - intros [H1 H2]. destruct (IHa H1) as (va & -> & Ha). destruct (IHb H2) as (vb & -> & Hb).
    cbn [rbind]. apply py_mul_total; auto.
  - intros [H1 Hz]. destruct (IHa H1) as (va & -> & Ha). cbn [rbind].
    destruct va as [c|h]; cbn [pos_value] in Ha; unfold py_powz.
    + unfold num_powz. dcase E; cbn in E; [lra|]. eexists; split; [reflexivity|]. cbn.
      rewrite Rpow_pos by auto. apply exp_pos.
    + destruct Ha as [Hp Hn]. dcase E.
      * apply classify_CMonomial in E as (e & c & -> & Hc). cbn [mono_pow rbind].
        rewrite init_pos.
        -- eexists; split; [reflexivity|]. split; [|discriminate].
           intros e' c' [[= <- <-]|[]]. cbn. rewrite Rpow_pos by auto. apply exp_pos.
        -- intros e' c' [[= <- <-]|[]]. cbn. rewrite Rpow_pos by auto. apply exp_pos.
      * destruct (Z.ltb_spec z 0); [lia|]. destruct (Z.eqb_spec z 0); [lia|].
        apply pow_loop_total; auto. cbn. lra.
Qed.
