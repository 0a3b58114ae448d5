(** Derivatives, the posynomial split, chopping (C07, C08), and the bridge
    between exponent vectors as finite maps and HashVector's loop. *)
From Verif Require Import Base HashVec HashVecSem HashVecProofs Nomial NomialSem NomialProofs CanonProofs.
From Coq Require Import Permutation.
Open Scope R_scope.

(** ** The finite map of HashVector.__add__'s result is [exp_add] of the finite
    maps of its arguments. *)
Lemma lookup_list_to_map_dget (d : list (nat * R)) k :
  NoDup (dkeys d) -> (list_to_map d : expv R) !! k = dget d k.
Proof.
  induction d as [|[a b] d IH]; intros Hn.
  - apply lookup_empty.
  - inversion Hn as [|x l Hx Hn']; subst. simpl. destruct (decide (k = a)) as [->|Hne].
    + rewrite lookup_insert; auto.
    + rewrite lookup_insert_ne by auto. auto.
Qed.

Lemma list_to_map_hv_add (a b : hv nat R) : NoDup (dkeys a) -> NoDup (dkeys b) ->
  (list_to_map (hv_add a b) : expv R) = exp_add (list_to_map a) (list_to_map b).
Proof.
  intros Ha Hb. apply map_eq. intros k. rewrite lookup_exp_add.
  rewrite !lookup_list_to_map_dget by (auto; apply NoDup_hv_add; auto).
  apply dget_hv_add; auto.
Qed.

Lemma list_to_map_hv_mul (a : hv nat R) c : NoDup (dkeys a) ->
  (list_to_map (hv_mul a c) : expv R) = exp_mul (list_to_map a) c.
Proof.
  intros Ha. apply map_eq. intros k. unfold exp_mul. rewrite lookup_fmap.
  rewrite !lookup_list_to_map_dget by (auto; rewrite ?dkeys_hv_mul; auto).
  unfold hv_mul. rewrite (dget_map_val (fun v => nmul v c)). destruct (dget a k); auto.
Qed.

(** ** C07 *)
Lemma mono_val_insert env k a e : e !! k = None ->
  mono_val env (<[k := a]> e) = Rpower (env k) a * mono_val env e.
Proof.
  intros Hk. unfold mono_val. rewrite map_fold_insert_L; auto. intros; lra.
Qed.

Lemma mono_val_upd_absent env x t e : e !! x = None -> mono_val (upd env x t) e = mono_val env e.
Proof.
  induction e as [|k a e Hk IH] using map_ind; intros Hx.
  - unfold mono_val. rewrite !map_fold_empty; auto.
  - destruct (decide (k = x)) as [->|Hne].
    + rewrite lookup_insert in Hx. discriminate.
    + rewrite lookup_insert_ne in Hx by auto. rewrite !mono_val_insert by auto. rewrite IH by auto.
      unfold upd. rewrite decide_False by auto. auto.
Qed.

Lemma mono_val_upd env x t e p : e !! x = Some p ->
  mono_val (upd env x t) e = Rpower t p * mono_val env (delete x e).
Proof.
  intros Hx. rewrite <- (insert_delete e x p Hx) at 1.
  rewrite mono_val_insert by apply lookup_delete.
  rewrite mono_val_upd_absent by apply lookup_delete.
  unfold upd. rewrite decide_True by auto. auto.
Qed.

Lemma mono_val_delete env x e p : e !! x = Some p ->
  mono_val env e = Rpower (env x) p * mono_val env (delete x e).
Proof.
  intros Hx. rewrite <- (insert_delete e x p Hx) at 1. apply mono_val_insert, lookup_delete.
Qed.

Lemma mono_deriv env x e : 0 < env x ->
  derivable_pt_lim (fun t => mono_val (upd env x t) e) (env x)
    (match e !! x with
     | Some p => p * mono_val env (if decide (p = 1) then delete x e else <[x := p - 1]> e)
     | None => 0 end).
Proof.
  intros Hx. destruct (e !! x) as [p|] eqn:E.
  - assert (mono_val env (if decide (p = 1) then delete x e else <[x := p - 1]> e)
      = Rpower (env x) (p - 1) * mono_val env (delete x e)) as ->.
    { destruct (decide (p = 1)) as [->|Hne].
      - replace (1 - 1) with 0 by lra. rewrite Rpower_O by auto. lra.
      - rewrite <- (insert_delete_insert e). rewrite mono_val_insert by apply lookup_delete. auto. }
    assert (derivable_pt_lim (fun t => mono_val env (delete x e) * Rpower t p) (env x)
      (mono_val env (delete x e) * (p * Rpower (env x) (p - 1)))) as Hd.
    { apply (derivable_pt_lim_scal (fun t => Rpower t p)). apply derivable_pt_lim_power; auto. }
    replace (p * (Rpower (env x) (p - 1) * mono_val env (delete x e)))
      with (mono_val env (delete x e) * (p * Rpower (env x) (p - 1))) by ring.
    eapply derivable_pt_lim_ext; [|exact Hd].
    intros t. rewrite (mono_val_upd env x t e p E). ring.
  - eapply (derivable_pt_lim_ext (fun _ => mono_val env e)); [|apply derivable_pt_lim_const].
    intros t. symmetry. apply mono_val_upd_absent; auto.
Qed.

(** The exponent of the differentiated term. *)
Definition dexp (x : nat) (e : expv R) (p : R) : expv R :=
  if decide (p = 1) then delete x e else <[x := p - 1]> e.

Lemma dexp_inj x e1 e2 p1 p2 : e1 !! x = Some p1 -> e2 !! x = Some p2 ->
  dexp x e1 p1 = dexp x e2 p2 -> e1 = e2.
Proof.
  intros H1 H2 E. unfold dexp in E. apply map_eq. intros k.
  assert (forall k, dexp x e1 p1 !! k = dexp x e2 p2 !! k) as Ek by (intros; unfold dexp; rewrite E; auto).
  unfold dexp in Ek. clear E. destruct (decide (k = x)) as [->|Hk].
  - specialize (Ek x). rewrite H1, H2. f_equal.
    destruct (decide (p1 = 1)) as [E1|E1], (decide (p2 = 1)) as [E2|E2]; subst; auto.
    + rewrite lookup_delete, lookup_insert in Ek. discriminate.
    + rewrite lookup_delete, lookup_insert in Ek. discriminate.
    + rewrite !lookup_insert in Ek. injection Ek as Ek. lra.
  - specialize (Ek k). destruct (decide (p1 = 1)), (decide (p2 = 1));
      rewrite ?lookup_delete_ne, ?lookup_insert_ne in Ek by auto; auto.
Qed.

Lemma eval_nm_diff_gen env x (h out : hmap R) : NoDup (dkeys h) ->
  (forall e p, In e (dkeys h) -> e !! x = Some p -> ~ In (dexp x e p) (dkeys out)) ->
  eval env (fold_left (fun out t =>
    let '(e, c) := t in
    match e !! x with
    | Some p =>
        let c' := nmul c p in
        let e' := if decide (p = n1) then delete x e else <[x := nsub p n1]> e in
        dset out e' c'
    | None => out
    end) h out)
  = eval env out + lsum (fun t => match fst t !! x with
      | Some p => snd t * (p * mono_val env (dexp x (fst t) p)) | None => 0 end) h.
Proof.
  revert out; induction h as [|[e c] h IH]; intros out Hn Hout; cbn [fold_left lsum fst snd]; [lra|].
  inversion Hn as [|? ? Hx Hn']; subst. rewrite IH; auto.
  - destruct (e !! x) as [p|] eqn:E; [|lra].
    change (if decide (p = n1) then delete x e else <[x := nsub p n1]> e) with (dexp x e p).
    rewrite eval_dset. unfold coef.
    assert (dget out (dexp x e p) = None) as ->. { apply dget_None. apply Hout; auto. left; auto. }
    cbn. ring.
  - intros e' p' Hin E'. destruct (e !! x) as [p|] eqn:E.
    + cbv zeta. change (if decide (p = n1) then delete x e else <[x := nsub p n1]> e) with (dexp x e p).
      rewrite dkeys_dset_In. intros [Heq|Hin'].
      * apply Hx. apply elem_of_list_In. simpl. rewrite <- (dexp_inj x e' e p' p); auto.
      * apply (Hout e' p'); auto. right; auto.
    + apply Hout; auto. right; auto.
Qed.

Lemma derivable_lsum {A} (f : A -> R -> R) (d : A -> R) l x :
  (forall a, In a l -> derivable_pt_lim (f a) x (d a)) ->
  derivable_pt_lim (fun t => lsum (fun a => f a t) l) x (lsum d l).
Proof.
  induction l as [|a l IH]; intros Hd; simpl.
  - apply derivable_pt_lim_const.
  - apply (derivable_pt_lim_plus (f a) (fun t => lsum (fun a => f a t) l)); auto.
    + apply Hd; left; auto.
    + apply IH. intros; apply Hd; right; auto.
Qed.

Lemma in_vks_false (h : hmap R) x : in_vks h x = false ->
  forall e c, In (e, c) h -> e !! x = None.
Proof.
  unfold in_vks. intros Hf e c Hin. destruct (e !! x) as [p|] eqn:E; auto. exfalso.
  rewrite <- not_true_iff_false in Hf. apply Hf. apply existsb_exists. exists (e, c). split; auto.
  simpl. rewrite E. auto.
Qed.

Lemma diff_correct env x (h : hmap R) : NoDup (dkeys h) -> 0 < env x ->
  derivable_pt_lim (fun t => eval (upd env x t) h) (env x) (eval env (sig_diff h x)).
Proof.
  intros Hn Hx. unfold sig_diff.
  assert (derivable_pt_lim (fun t => eval (upd env x t) h) (env x)
    (lsum (fun t => match fst t !! x with
      | Some p => snd t * (p * mono_val env (dexp x (fst t) p)) | None => 0 end) h)) as Hd.
  { eapply derivable_pt_lim_ext; [intros t; symmetry; apply eval_lsum|].
    apply (derivable_lsum (fun p t => snd p * mono_val (upd env x t) (fst p))).
    intros [e c] _. simpl.
    pose proof (derivable_pt_lim_scal _ c _ _ (mono_deriv env x e Hx)) as H.
    destruct (e !! x) as [p|]; [exact H|]. rewrite Rmult_0_r in H. exact H. }
  destruct (in_vks h x) eqn:Ev.
  - unfold nm_diff. rewrite eval_nm_diff_gen by auto. simpl eval. rewrite Rplus_0_l. exact Hd.
  - unfold num_hmap. cbn [eval]. rewrite mono_val_empty. cbn [n0 R_num].
    replace (0 * 1 + 0) with 0 by ring.
    replace 0 with (lsum (fun t : expv R * R => match fst t !! x with
      | Some p => snd t * (p * mono_val env (dexp x (fst t) p)) | None => 0 end) h); [exact Hd|].
    transitivity (lsum (fun _ : expv R * R => 0) h); [|apply lsum_zero].
    apply lsum_ext. intros [e c] Hin. simpl. rewrite (in_vks_false h x Ev e c Hin). auto.
Qed.

(** ** C08 *)
Lemma posy_negy_gen (h py ny : hmap R) : NoDup (dkeys h) ->
  (forall e, In e (dkeys h) -> ~ In e (dkeys py) /\ ~ In e (dkeys ny)) ->
  fold_left (fun '(py, ny) t =>
    let '(e, c) := t in
    if nltb n0 c then (dset py e c, ny)
    else if nltb c n0 then (py, dset ny e (nopp c))
    else (py, ny)) h (py, ny)
  = (py ++ List.filter (fun t => Rltb 0 (snd t)) h,
     ny ++ map (fun t => (fst t, - snd t)) (List.filter (fun t => Rltb (snd t) 0) h)).
Proof.
  revert py ny; induction h as [|[e c] h IH]; intros py ny Hn Hd.
  - simpl. rewrite !app_nil_r. auto.
  - inversion Hn as [|? ? Hx Hn']; subst. cbn [fold_left List.filter snd].
    destruct (Hd e (or_introl eq_refl)) as [Hp Hq].
    change (nltb n0 c) with (Rltb 0 c). change (nltb c n0) with (Rltb c 0).
    destruct (Rltb 0 c) eqn:E1.
    + assert (Rltb c 0 = false) as E2 by (apply Rltb_false; apply Rltb_true in E1; lra).
      rewrite IH; auto.
      * rewrite E2, dset_absent by auto. rewrite <- app_assoc. auto.
      * intros e' Hin. rewrite dkeys_dset_In. destruct (Hd e' (or_intror Hin)) as [A B]. split; auto.
        intros [->|]; auto. apply Hx. apply elem_of_list_In; auto.
    + destruct (Rltb c 0) eqn:E2.
      * rewrite IH; auto.
        -- cbn [nopp R_num]. rewrite dset_absent by auto. rewrite <- app_assoc. auto.
        -- intros e' Hin. rewrite dkeys_dset_In. destruct (Hd e' (or_intror Hin)) as [A B]. split; auto.
           intros [->|]; auto. apply Hx. apply elem_of_list_In; auto.
      * apply IH; auto. intros e' Hin. apply Hd. right; auto.
Qed.

Lemma posy_negy_spec (h : hmap R) : NoDup (dkeys h) ->
  posy_negy h = (List.filter (fun t => Rltb 0 (snd t)) h,
     map (fun t => (fst t, - snd t)) (List.filter (fun t => Rltb (snd t) 0) h)).
Proof. intros Hn. unfold posy_negy. rewrite posy_negy_gen; auto. Qed.

Lemma eval_posy_negy env (h : hmap R) : NoDup (dkeys h) ->
  eval env h = eval env (fst (posy_negy h)) - eval env (snd (posy_negy h)).
Proof.
  intros Hn. rewrite posy_negy_spec by auto. cbn [fst snd]. clear Hn.
  induction h as [|[e c] h IH]; cbn [eval List.filter snd map]; [simpl; lra|]. rewrite IH. clear IH.
  destruct (Rltb 0 c) eqn:E1, (Rltb c 0) eqn:E2; cbn [eval map fst snd];
    rewrite ?Rltb_true, ?Rltb_false in *; try lra.
  assert (c = 0) by lra. subst. lra.
Qed.

Lemma posy_negy_posy (h : hmap R) e c : NoDup (dkeys h) ->
  In (e, c) (fst (posy_negy h)) <-> In (e, c) h /\ 0 < c.
Proof.
  intros Hn. rewrite posy_negy_spec by auto. cbn [fst]. rewrite filter_In. cbn [snd].
  rewrite Rltb_true. tauto.
Qed.

Lemma posy_negy_negy (h : hmap R) e c : NoDup (dkeys h) ->
  In (e, c) (snd (posy_negy h)) <-> In (e, - c) h /\ 0 < c.
Proof.
  intros Hn. rewrite posy_negy_spec by auto. cbn [snd]. rewrite in_map_iff. split.
  - intros ([e' c'] & [= <- <-] & Hin). apply filter_In in Hin as [Hin Hc]. cbn in *.
    apply Rltb_true in Hc. rewrite Ropp_involutive. split; auto; lra.
  - intros [Hin Hc]. exists (e, - c). split; [cbn; f_equal; lra|]. apply filter_In. split; auto.
    apply Rltb_true. cbn. lra.
Qed.

Lemma NoDup_dkeys_filter (h : hmap R) f : NoDup (dkeys h) -> NoDup (dkeys (List.filter f h)).
Proof.
  induction h as [|[e c] h IH]; intros Hn; auto. inversion Hn as [|? ? Hx Hn']; subst. simpl.
  destruct (f (e, c)); auto. constructor; auto. intros Hin. apply Hx.
  apply elem_of_list_In in Hin. apply elem_of_list_In. apply in_map_iff in Hin as ([e' c'] & E & Hin).
  apply filter_In in Hin as [Hin _]. apply in_map_iff. exists (e', c'); auto.
Qed.

Lemma posy_negy_NoDup (h : hmap R) : NoDup (dkeys h) ->
  NoDup (dkeys (fst (posy_negy h))) /\ NoDup (dkeys (snd (posy_negy h))).
Proof.
  intros Hn. rewrite posy_negy_spec by auto. cbn [fst snd]. split; [apply NoDup_dkeys_filter; auto|].
  unfold dkeys at 1. rewrite map_map. cbn [fst]. apply (NoDup_dkeys_filter h); auto.
Qed.

Lemma chop_ok se (h : hmap R) l : chop se h = Ok l -> l = map (fun t => [t]) h.
Proof.
  revert l; induction h as [|t h IH]; intros l; simpl.
  - intros [= <-]; auto.
  - intros Hc. apply rbind_ok in Hc as (l' & Hl & Hc). apply rbind_ok in Hc as (m & Hm & Hc).
    injection Hc as <-. apply init_ok in Hm as [-> _]. f_equal. apply IH; auto.
Qed.

Lemma chop_total se (h : hmap R) : se = true \/ all_positive h -> exists l, chop se h = Ok l.
Proof.
  induction h as [|[e c] h IH]; intros Hs; simpl; [eauto|].
  destruct IH as (l & Hl). { destruct Hs as [Hs|Hs]; auto. right. intros e' c' Hin. eapply Hs; right; eauto. }
  change (fold_right _ _ h) with (chop se h). rewrite Hl. cbn [rbind].
  exists ([(e, c)] :: l). unfold signomial_init. destruct Hs as [->|Hs].
  - destruct (any_nonpositive [(e, c)]); auto.
  - assert (any_nonpositive [(e, c)] = false) as ->; auto.
    apply any_nonpositive_false. intros e' c' [[= <- <-]|[]]. eapply Hs; left; eauto.
Qed.

Lemma eval_chop env se (h : hmap R) l : chop se h = Ok l ->
  eval env h = lsum (eval env) l /\ length l = length h /\
  forall m, In m l -> exists e c, m = [(e, c)] /\ In (e, c) h.
Proof.
  intros Hc. apply chop_ok in Hc as ->. split; [|split].
  - rewrite lsum_map, eval_lsum. apply lsum_ext. intros [e c] _. simpl. lra.
  - apply map_length.
  - intros m Hin. apply in_map_iff in Hin as ([e c] & <- & Hin). eauto.
Qed.

(** ** Statements in the form used by PropsAlgebra.v *)
Lemma div_spec {K} `{EqDecision K} (a : hv K R) c :
  (hv_div a 0 = Err ZeroDivisionE) /\
  (0 < c -> exists d, hv_div a c = Ok d /\ forall k, at0 d k = at0 a k / c).
Proof.
  split.
  - unfold hv_div. dcase E; auto. exfalso. apply E. reflexivity.
  - intros Hc. assert (exists d, hv_div a c = Ok d) as (d & Hd).
    { unfold hv_div. dcase E; [cbn in E; lra|]. eauto. }
    exists d. split; auto. intros k. eapply at_div; eauto.
Qed.

Section Hash.
Context {K V : Type} `{EqDecision K} `{Num V}.
Variable ihash : K * V -> Z.

Lemma hash_recomputed (d : hv K V) ops o' : hv_run ihash (HV d None) ops = Ok o' ->
  snd (hv_hash ihash o') = hash_items ihash (hv_items o').
Proof.
  intros Hr. assert (coherent ihash o') as Hc.
  { eapply run_coherent; [|exact Hr]. intros h. discriminate. }
  unfold hv_hash. destruct (hv_hashvalue o') eqn:E; simpl; auto.
Qed.

Lemma hash_equal (d1 d2 : hv K V) ops1 ops2 o1 o2 :
  NoDup (dkeys d1) -> NoDup (dkeys d2) ->
  hv_run ihash (HV d1 None) ops1 = Ok o1 -> hv_run ihash (HV d2 None) ops2 = Ok o2 ->
  dict_equiv (hv_items o1) (hv_items o2) ->
  snd (hv_hash ihash o1) = snd (hv_hash ihash o2).
Proof.
  intros H1 H2 R1 R2. eapply hash_after_run; [| |  | |exact R1|exact R2]; auto; intros h; discriminate.
Qed.
End Hash.

Lemma run_total_ok (e : expr R) : posy_expr e -> exists v, run false e = Ok v.
Proof. intros He. destruct (run_total e He) as (v & Hv & _). eauto. Qed.

Lemma run_canonical_spelled (se : bool) (e : expr R) (h : hmap R) :
  run se e = Ok (VNom h) ->
  NoDup (dkeys h) /\
  (forall ex c, In (ex, c) h -> c <> 0 /\ forall k x, ex !! k = Some x -> x <> 0).
Proof.
  intros Hr. destruct (run_canonical _ _ _ Hr) as [Hn Hc]. split; auto.
  intros ex c Hin. destruct (Hc _ _ Hin). split; auto.
Qed.

Lemma square_returns : exists h,
  run false (EMul (EAdd (EVar 0) (EVar 1)) (EAdd (EVar 0) (EVar 1)) : expr R) = Ok (VNom h).
Proof.
  destruct (run_total (EMul (EAdd (EVar 0) (EVar 1)) (EAdd (EVar 0) (EVar 1)))) as (v & Hv & _).
  { simpl; tauto. }
  destruct v as [c|h]; [|eauto]. exfalso.
  cbn [run rbind] in Hv. destruct (py_add_total (VNom (var_hmap 0)) (VNom (var_hmap 1))) as (a & Ea & Ha).
  1,2: split; [intros e x [[= <- <-]|[]]; cbn; lra|discriminate].
  assert (exists ha, a = VNom ha) as (ha & ->).
  { unfold py_add, var_hmap in Ea. apply rmap_ok in Ea as (ha & _ & ->). eauto. }
  rewrite Ea in Hv. cbn [rbind py_mul] in Hv. apply rmap_ok in Hv as (hb & _ & Hv). discriminate.
Qed.

Lemma init_gate (h : hmap R) :
  (signomial_init false true h = Err InvalidPosynomialE <-> exists e c, In (e, c) h /\ c <= 0) /\
  signomial_init true true h = Ok h.
Proof.
  split.
  - rewrite init_raises. apply classify_CSignomial.
  - unfold signomial_init. rewrite andb_false_r. auto.
Qed.

Lemma run_posy_spelled (e : expr R) (h : hmap R) (env : point) :
  positive_point env -> run false e = Ok (VNom h) ->
  (forall ex c, In (ex, c) h -> 0 < c) /\ 0 <= eval env h /\ (h <> [] -> 0 < eval env h).
Proof.
  intros _ Hr. pose proof (run_posy _ _ Hr) as Hp. cbn in Hp. split; [exact Hp|]. split.
  - destruct h as [|t h]; [simpl; lra|]. left. apply eval_all_positive; [auto|discriminate].
  - intros Hne. apply eval_all_positive; auto.
Qed.

Lemma run_total_positive (e : expr R) (env : point) :
  positive_point env -> posy_expr e -> exists v, run false e = Ok v /\ 0 < val env v.
Proof.
  intros _ He. destruct (run_total e He) as (v & Hv & Hp). exists v. split; auto.
  destruct v as [c|h]; cbn in *; auto. apply eval_all_positive; tauto.
Qed.

Lemma eq_decides_expr (se : bool) (e1 e2 : expr R) (h1 h2 : hmap R) :
  run se e1 = Ok (VNom h1) -> run se e2 = Ok (VNom h2) ->
  hmap_eqb h1 h2 = true <->
  (forall env, positive_point env -> denote env e1 = denote env e2).
Proof.
  intros H1 H2. rewrite eq_decides.
  - split; intros HE env Hp; specialize (HE env Hp);
      pose proof (run_denote se env Hp _ _ H1) as D1; pose proof (run_denote se env Hp _ _ H2) as D2;
      cbn [val] in *; congruence.
  - apply (run_canonical _ _ _ H1).
  - apply (run_canonical _ _ _ H2).
Qed.

Lemma canonical_sample : canonical [({[0%nat := 2]}, 3); (∅, 1)].
Proof.
  split.
  - apply NoDup_ListNoDup. constructor.
    + intros [E|[]]. assert ((∅ : expv R) !! 0%nat = Some 2) as H by (cbn in E; rewrite E; apply lookup_singleton).
      rewrite lookup_empty in H. discriminate.
    + constructor; [intros []|constructor].
  - intros e c [[= <- <-]|[[= <- <-]|[]]].
    + split; [|lra]. intros k x. rewrite lookup_singleton_Some. intros [_ <-]. lra.
    + split; [|lra]. apply exp_canon_empty.
Qed.

Lemma diff_correct_expr (se : bool) (e : expr R) (h : hmap R) (x : nat) (env : point) :
  positive_point env -> run se e = Ok (VNom h) ->
  derivable_pt_lim (fun t => eval (upd env x t) h) (env x) (eval env (sig_diff h x)).
Proof.
  intros Hp Hr. apply diff_correct; [|apply Hp]. apply (run_canonical _ _ _ Hr).
Qed.

Lemma diff_absent (h : hmap R) x :
  (forall e c, In (e, c) h -> e !! x = None) -> sig_diff h x = [(∅, 0)].
Proof.
  intros Ha. unfold sig_diff. assert (in_vks h x = false) as ->; auto.
  unfold in_vks. apply not_true_iff_false. intros Hx. apply existsb_exists in Hx as ([e c] & Hin & Hx).
  cbn in Hx. rewrite (Ha e c Hin) in Hx. discriminate.
Qed.

Lemma posy_negy_correct (h P N : hmap R) :
  NoDup (dkeys h) -> posy_negy h = (P, N) ->
  (forall env, eval env h = eval env P - eval env N) /\
  (forall e c, In (e, c) P <-> In (e, c) h /\ 0 < c) /\
  (forall e c, In (e, c) N <-> In (e, - c) h /\ 0 < c) /\
  (forall e, In e (dkeys P) -> ~ In e (dkeys N)) /\
  NoDup (dkeys P) /\ NoDup (dkeys N).
Proof.
  intros Hn E. assert (P = fst (posy_negy h)) as -> by (rewrite E; auto).
  assert (N = snd (posy_negy h)) as -> by (rewrite E; auto). split; [|split; [|split; [|split]]].
  - intros; apply eval_posy_negy; auto.
  - intros; apply posy_negy_posy; auto.
  - intros; apply posy_negy_negy; auto.
  - intros e H1 H2. apply in_map_iff in H1 as ([e1 c1] & <- & H1). apply in_map_iff in H2 as ([e2 c2] & E2 & H2).
    cbn in E2. subst. apply posy_negy_posy in H1 as [H1 P1]; auto. apply posy_negy_negy in H2 as [H2 P2]; auto.
    cbn [fst] in *. apply (In_dget h) in H1, H2; auto. rewrite H1 in H2. injection H2 as H2. lra.
  - apply posy_negy_NoDup; auto.
Qed.

Lemma chop_correct (se : bool) (h : hmap R) (ms : list (hmap R)) :
  chop se h = Ok ms ->
  (forall env, eval env h = lsum (eval env) ms) /\ length ms = length h /\
  (forall m, In m ms -> exists e c, m = [(e, c)] /\ In (e, c) h).
Proof.
  intros Hc. split; [|split].
  - intros env. eapply eval_chop; eauto.
  - eapply (eval_chop (fun _ => 1)); eauto.
  - eapply (eval_chop (fun _ => 1)); eauto.
Qed.
