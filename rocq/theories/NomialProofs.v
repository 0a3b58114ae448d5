(** Lemmas about nomial arithmetic over the reals. *)
From Verif Require Import Base HashVec HashVecProofs Nomial NomialSem.
From Coq Require Import Permutation.
Open Scope R_scope.

(** ** Numbers *)
Lemma Rltb_true a b : Rltb a b = true <-> a < b.
Proof. unfold Rltb; destruct (Rlt_dec a b); split; auto; discriminate. Qed.
Lemma Rltb_false a b : Rltb a b = false <-> b <= a.
Proof. unfold Rltb; destruct (Rlt_dec a b); split; try discriminate; intros; auto; lra. Qed.
Lemma Rleb_true a b : Rleb a b = true <-> a <= b.
Proof. unfold Rleb; destruct (Rle_dec a b); split; auto; discriminate. Qed.
Lemma Rleb_false a b : Rleb a b = false <-> b < a.
Proof. unfold Rleb; destruct (Rle_dec a b); split; try discriminate; intros; auto; lra. Qed.

Lemma Int_part_IZR z : Int_part (IZR z) = z.
Proof.
  unfold Int_part. rewrite <- (tech_up (IZR z) (z + 1)); [lia| |]; rewrite plus_IZR; lra.
Qed.

Lemma Rpow_pos b e : 0 < b -> Rpow b e = Rpower b e.
Proof. intros; unfold Rpow; destruct (Rlt_dec 0 b); auto; lra. Qed.

Lemma Rpow_IZR b z : (b <> 0 \/ (0 <= z)%Z) -> Rpow b (IZR z) = powerRZ b z.
Proof.
  intros Hb. unfold Rpow. destruct (Rlt_dec 0 b).
  - symmetry. apply powerRZ_Rpower; auto.
  - destruct (Req_EM_T b 0) as [->|Hb0].
    + destruct Hb as [Hb|Hz]; [lra|].
      destruct (Req_EM_T (IZR z) 0) as [E|E].
      * apply eq_IZR in E; subst. reflexivity.
      * destruct z as [|p|p]; [exfalso; apply E; reflexivity| |lia].
        simpl. symmetry. apply pow_i. lia.
    + rewrite Int_part_IZR. destruct (Req_EM_T (IZR z) (IZR z)); auto. lra.
Qed.

(** ** Sums over exponent vectors *)
Definition esum (f : nat -> R -> R) (e : expv R) : R :=
  map_fold (fun k x acc => f k x + acc) 0 e.

Lemma esum_empty f : esum f ∅ = 0.
Proof. unfold esum. apply map_fold_empty. Qed.

Lemma esum_insert f k x e : e !! k = None ->
  esum f (<[k := x]> e) = f k x + esum f e.
Proof.
  intros Hk. unfold esum. rewrite map_fold_insert_L; auto.
  intros. lra.
Qed.

Lemma eget_insert e k x j : eget (<[k := x]> e) j = if decide (j = k) then x else eget e j.
Proof.
  unfold eget. destruct (decide (j = k)) as [->|Hne].
  - rewrite lookup_insert; auto.
  - rewrite lookup_insert_ne; auto.
Qed.

Lemma lsum_ext {A} (f g : A -> R) l : (forall a, In a l -> f a = g a) -> lsum f l = lsum g l.
Proof. induction l as [|a l IH]; simpl; intros Hf; auto. rewrite Hf, IH; auto. Qed.

Lemma lsum_plus {A} (f g : A -> R) l : lsum (fun a => f a + g a) l = lsum f l + lsum g l.
Proof. induction l as [|a l IH]; simpl; [lra|]. rewrite IH. lra. Qed.

Lemma lsum_scale {A} (f : A -> R) c l : lsum (fun a => c * f a) l = c * lsum f l.
Proof. induction l as [|a l IH]; simpl; [lra|]. rewrite IH. lra. Qed.

Lemma lsum_zero {A} (l : list A) : lsum (fun _ => 0) l = 0.
Proof. induction l as [|a l IH]; simpl; [lra|]. rewrite IH. lra. Qed.

Lemma lsum_app {A} (f : A -> R) l l' : lsum f (l ++ l') = lsum f l + lsum f l'.
Proof. induction l as [|a l IH]; simpl; [lra|]. rewrite IH. lra. Qed.

Lemma lsum_perm {A} (f : A -> R) l l' : Permutation l l' -> lsum f l = lsum f l'.
Proof. induction 1; simpl; lra. Qed.

Lemma lsum_map {A B} (f : B -> R) (g : A -> B) l : lsum f (map g l) = lsum (fun a => f (g a)) l.
Proof. induction l as [|a l IH]; simpl; [lra|]. rewrite IH. lra. Qed.

Lemma lsum_nonneg {A} (f : A -> R) l : (forall a, In a l -> 0 <= f a) -> 0 <= lsum f l.
Proof.
  induction l as [|a l IH]; simpl; intros Hf; [lra|].
  pose proof (Hf a (or_introl eq_refl)). assert (0 <= lsum f l) by auto. lra.
Qed.

Lemma lsum_le {A} (f g : A -> R) l : (forall a, In a l -> f a <= g a) -> lsum f l <= lsum g l.
Proof.
  induction l as [|a l IH]; simpl; intros Hf; [lra|].
  pose proof (Hf a (or_introl eq_refl)). assert (lsum f l <= lsum g l) by auto. lra.
Qed.

Lemma lsum_update {A} `{EqDecision A} (f : A -> R) (k : A) (y : R) (l : list A) :
  List.NoDup l -> In k l ->
  lsum (fun j => if decide (j = k) then y else f j) l = lsum f l - f k + y.
Proof.
  induction l as [|a l IH]; simpl; intros Hnd Hin; [tauto|].
  inversion Hnd as [|x l' Hx Hnd' E]; subst.
  destruct (decide (a = k)) as [->|Hne].
  - rewrite (lsum_ext _ f); [lra|]. intros j Hj.
    rewrite decide_False; auto. intros ->; auto.
  - destruct Hin as [->|Hin]; [congruence|]. rewrite IH by auto. lra.
Qed.

Lemma esum_cover f e ks : (forall k, f k 0 = 0) -> List.NoDup ks ->
  (forall k x, e !! k = Some x -> In k ks) ->
  esum f e = lsum (fun k => f k (eget e k)) ks.
Proof.
  intros Hf Hnd. induction e as [|k x e Hk IH] using map_ind; intros Hc.
  - rewrite esum_empty. rewrite (lsum_ext _ (fun _ => 0)).
    + symmetry; apply lsum_zero.
    + intros j _. unfold eget. rewrite lookup_empty. apply Hf.
  - rewrite esum_insert by auto. rewrite IH.
    + rewrite (lsum_ext (fun j => f j (eget (<[k:=x]> e) j))
        (fun j => if decide (j = k) then f k x else f j (eget e j))).
      * rewrite (lsum_update (fun j => f j (eget e j))); auto.
        -- unfold eget at 3. rewrite Hk, Hf. lra.
        -- apply (Hc k x). apply lookup_insert.
      * intros j _. rewrite eget_insert. destruct (decide (j = k)) as [->|]; auto.
    + intros j y Hj. apply (Hc j y). rewrite lookup_insert_ne; auto. congruence.
Qed.

(** A common list of keys for finitely many vectors. *)
Definition keys_of (e : expv R) : list nat := elements (dom e).

Lemma keys_of_NoDup e : List.NoDup (keys_of e).
Proof. apply NoDup_ListNoDup. try unfold keys_of; try unfold cover2. apply NoDup_elements. Qed.

Definition cover2 (a b : expv R) : list nat := elements (dom a ∪ dom b).

Lemma cover2_NoDup a b : List.NoDup (cover2 a b).
Proof. apply NoDup_ListNoDup. try unfold keys_of; try unfold cover2. apply NoDup_elements. Qed.

Lemma cover2_l a b k x : a !! k = Some x -> In k (cover2 a b).
Proof.
  intros Hk. apply elem_of_list_In. apply elem_of_elements.
  apply elem_of_union_l. apply elem_of_dom. eauto.
Qed.
Lemma cover2_r a b k x : b !! k = Some x -> In k (cover2 a b).
Proof.
  intros Hk. apply elem_of_list_In. apply elem_of_elements.
  apply elem_of_union_r. apply elem_of_dom. eauto.
Qed.

(** ** Exponent arithmetic *)
Lemma lookup_exp_add (a b : expv R) k :
  exp_add a b !! k = combine (a !! k) (b !! k).
Proof.
  unfold exp_add. rewrite lookup_union_with.
  destruct (a !! k), (b !! k); reflexivity.
Qed.

Lemma eget_add a b k : eget (exp_add a b) k = eget a k + eget b k.
Proof.
  unfold eget. rewrite lookup_exp_add.
  destruct (a !! k) as [x|], (b !! k) as [y|]; simpl; try lra.
  dcase E; cbn in *; lra.
Qed.

Lemma eget_mul a c k : eget (exp_mul a c) k = eget a k * c.
Proof.
  unfold eget, exp_mul. rewrite lookup_fmap. destruct (a !! k); simpl; cbn; lra.
Qed.

Lemma eget_neg a k : eget (exp_neg a) k = - eget a k.
Proof. unfold exp_neg. rewrite eget_mul. cbn. lra. Qed.

Lemma eget_sub a b k : eget (exp_sub a b) k = eget a k - eget b k.
Proof. unfold exp_sub. rewrite eget_add, eget_neg. lra. Qed.

Lemma eget_empty k : eget e_empty k = 0.
Proof. unfold eget, e_empty. rewrite lookup_empty; auto. Qed.

Lemma exp_canon_add a b : exp_canon a -> exp_canon b -> exp_canon (exp_add a b).
Proof.
  intros Ha Hb k x. rewrite lookup_exp_add.
  destruct (a !! k) as [u|] eqn:Ea, (b !! k) as [v|] eqn:Eb; simpl; try discriminate.
  - dcase E; [discriminate|]. intros [= <-]. cbn in *. lra.
  - intros [= <-]. eapply Ha; eauto.
  - intros [= <-]. eapply Hb; eauto.
Qed.

Lemma exp_canon_mul a c : c <> 0 -> exp_canon a -> exp_canon (exp_mul a c).
Proof.
  intros Hc Ha k x. unfold exp_mul. rewrite lookup_fmap.
  destruct (a !! k) eqn:E; simpl; [|discriminate]. intros [= <-]. cbn.
  apply Rmult_integral_contrapositive; split; auto. eapply Ha; eauto.
Qed.

Lemma exp_canon_empty : exp_canon e_empty.
Proof. intros k x. unfold e_empty. rewrite lookup_empty. discriminate. Qed.

Lemma exp_canon_neg a : exp_canon a -> exp_canon (exp_neg a).
Proof. apply exp_canon_mul. cbn. lra. Qed.

(** Canonical exponent vectors are determined by their reading. *)
Lemma exp_canon_ext a b : exp_canon a -> exp_canon b ->
  (forall k, eget a k = eget b k) -> a = b.
Proof.
  intros Ha Hb He. apply map_eq. intros k. specialize (He k). unfold eget in He.
  destruct (a !! k) as [x|] eqn:Ea, (b !! k) as [y|] eqn:Eb; auto; subst; auto.
  - exfalso. eapply Ha; eauto.
  - exfalso. eapply Hb; eauto.
Qed.

(** ** Values of monomials *)
Definition dot (env : point) (e : expv R) : R := esum (fun k x => x * ln (env k)) e.

Lemma mono_val_exp env e : mono_val env e = exp (dot env e).
Proof.
  induction e as [|k x e Hk IH] using map_ind.
  - unfold mono_val, dot. rewrite map_fold_empty, esum_empty, exp_0. auto.
  - unfold dot in *. rewrite esum_insert by auto.
    rewrite exp_plus, <- IH. unfold mono_val.
    rewrite map_fold_insert_L; auto. intros. ring.
Qed.

Lemma mono_val_pos env e : 0 < mono_val env e.
Proof. rewrite mono_val_exp. apply exp_pos. Qed.

Lemma dot_ks env e ks : List.NoDup ks -> (forall k x, e !! k = Some x -> In k ks) ->
  dot env e = lsum (fun k => eget e k * ln (env k)) ks.
Proof. intros. unfold dot. apply esum_cover; auto. intros; lra. Qed.

Lemma dot_add env a b : dot env (exp_add a b) = dot env a + dot env b.
Proof.
  assert (Hc : forall k x, exp_add a b !! k = Some x -> In k (cover2 a b)).
  { intros k x. rewrite lookup_exp_add.
    destruct (a !! k) eqn:Ea; [intros _; eapply cover2_l; eauto|].
    destruct (b !! k) eqn:Eb; [intros _; eapply cover2_r; eauto|]. discriminate. }
  rewrite (dot_ks env (exp_add a b) (cover2 a b)) by (auto using cover2_NoDup).
  rewrite (dot_ks env a (cover2 a b)) by (auto using cover2_NoDup; apply cover2_l).
  rewrite (dot_ks env b (cover2 a b)) by (auto using cover2_NoDup; apply cover2_r).
  rewrite <- lsum_plus. apply lsum_ext. intros k _. rewrite eget_add. lra.
Qed.

Lemma dot_mul env a c : dot env (exp_mul a c) = c * dot env a.
Proof.
  assert (Hc : forall k x, exp_mul a c !! k = Some x -> In k (cover2 a a)).
  { intros k x. unfold exp_mul. rewrite lookup_fmap.
    destruct (a !! k) eqn:Ea; [intros _; eapply cover2_l; eauto|]. discriminate. }
  rewrite (dot_ks env (exp_mul a c) (cover2 a a)) by (auto using cover2_NoDup).
  rewrite (dot_ks env a (cover2 a a)) by (auto using cover2_NoDup; apply cover2_l).
  rewrite <- lsum_scale. apply lsum_ext. intros k _. rewrite eget_mul. lra.
Qed.

Lemma mono_val_add env a b : mono_val env (exp_add a b) = mono_val env a * mono_val env b.
Proof. rewrite !mono_val_exp, dot_add, exp_plus. auto. Qed.

Lemma mono_val_mul env a c : mono_val env (exp_mul a c) = Rpower (mono_val env a) c.
Proof. rewrite !mono_val_exp, dot_mul. unfold Rpower. rewrite ln_exp. auto. Qed.

Lemma mono_val_neg env a : mono_val env (exp_neg a) = / mono_val env a.
Proof. rewrite !mono_val_exp. unfold exp_neg. rewrite dot_mul. cbn.
  replace (- (1) * dot env a) with (- dot env a) by lra. apply exp_Ropp. Qed.

Lemma mono_val_sub env a b : mono_val env (exp_sub a b) = mono_val env a / mono_val env b.
Proof. unfold exp_sub. rewrite mono_val_add, mono_val_neg. auto. Qed.

Lemma mono_val_empty env : mono_val env e_empty = 1.
Proof. unfold mono_val, e_empty. apply map_fold_empty. Qed.

Lemma mono_val_singleton env x : 0 < env x -> mono_val env {[x := 1]} = env x.
Proof.
  intros Hx. unfold mono_val. unfold singletonM, map_singleton.
  rewrite map_fold_insert_L.
  - rewrite map_fold_empty. rewrite Rpower_1; auto. lra.
  - intros. ring.
  - apply lookup_empty.
Qed.

(** ** Evaluation of dicts *)
Lemma eval_lsum env h : eval env h = lsum (fun t => snd t * mono_val env (fst t)) h.
Proof. induction h as [|[e c] h IH]; simpl; auto. rewrite IH; auto. Qed.

Lemma eval_app env h h' : eval env (h ++ h') = eval env h + eval env h'.
Proof. rewrite !eval_lsum. apply lsum_app. Qed.

Lemma eval_perm env h h' : Permutation h h' -> eval env h = eval env h'.
Proof. rewrite !eval_lsum. apply lsum_perm. Qed.

Definition coef (h : hmap R) (e : expv R) : R :=
  match dget h e with Some c => c | None => 0 end.

Lemma eval_dset env h e c :
  eval env (dset h e c) = eval env h + (c - coef h e) * mono_val env e.
Proof.
  unfold coef. induction h as [|[e' c'] h IH]; simpl; [lra|].
  destruct (decide (e = e')) as [->|Hne]; simpl; [lra|].
  rewrite IH. lra.
Qed.

Lemma eval_ddel env h e : eval env (ddel h e) = eval env h - coef h e * mono_val env e.
Proof.
  unfold coef. induction h as [|[e' c'] h IH]; simpl; [lra|].
  destruct (decide (e = e')) as [->|Hne]; simpl; [lra|].
  rewrite IH. lra.
Qed.

Lemma eval_add_item env h t : eval env (hv_add_item h t) = eval env h + snd t * mono_val env (fst t).
Proof.
  destruct t as [e c]. unfold hv_add_item. simpl.
  destruct (dget h e) as [s|] eqn:E.
  - dcase Ec.
    + rewrite eval_ddel. unfold coef. rewrite E. cbn in Ec. rewrite Ec. lra.
    + rewrite eval_dset. unfold coef. rewrite E. cbn. lra.
  - rewrite eval_dset. unfold coef. rewrite E. lra.
Qed.

Lemma eval_hv_add env a b : eval env (hv_add a b) = eval env a + eval env b.
Proof.
  revert a; induction b as [|t b IH]; intros a; simpl; [lra|].
  change (fold_left hv_add_item b (hv_add_item a t)) with (hv_add (hv_add_item a t) b).
  rewrite IH, eval_add_item. destruct t; simpl. lra.
Qed.

Lemma eval_hv_mul env a c : eval env (hv_mul a c) = c * eval env a.
Proof.
  induction a as [|[e x] a IH]; simpl; [lra|]. rewrite IH. cbn. lra.
Qed.

Lemma eval_smul_term env es cs h t :
  eval env (smul_term es cs h t) = eval env h + (cs * mono_val env es) * (snd t * mono_val env (fst t)).
Proof.
  destruct t as [eo co]. unfold smul_term. simpl.
  set (e := exp_add es eo).
  assert (Hm : mono_val env e = mono_val env es * mono_val env eo) by apply mono_val_add.
  change (match dget h e with Some a => a | None => 0 end) with (coef h e).
  dcase E; cbn in E.
  - dcase E2; cbn in E2.
    + assert (cs * co = 0) by lra.
      replace (cs * mono_val env es * (co * mono_val env eo))
        with ((cs * co) * (mono_val env es * mono_val env eo)) by ring.
      rewrite H. lra.
    + rewrite eval_ddel, Hm.
      replace (cs * mono_val env es * (co * mono_val env eo))
        with ((cs * co) * (mono_val env es * mono_val env eo)) by ring.
      rewrite E. lra.
  - rewrite eval_dset, Hm. cbn. ring.
Qed.

Lemma eval_smul_row env es cs h2 h :
  eval env (fold_left (smul_term es cs) h2 h) = eval env h + (cs * mono_val env es) * eval env h2.
Proof.
  revert h; induction h2 as [|t h2 IH]; intros h; simpl; [lra|].
  rewrite IH, eval_smul_term. destruct t; simpl. lra.
Qed.

Lemma eval_smul env h1 h2 : eval env (smul h1 h2) = eval env h1 * eval env h2.
Proof.
  unfold smul.
  assert (forall acc, eval env (fold_left (fun h s => fold_left (smul_term (fst s) (snd s)) h2 h) h1 acc)
    = eval env acc + eval env h1 * eval env h2) as HH.
  { induction h1 as [|[e c] h1 IH]; intros acc; cbn [fold_left eval fst snd].
    - lra.
    - rewrite IH, eval_smul_row. lra. }
  rewrite HH. simpl. lra.
Qed.

Lemma eval_mono_pow env h r h' : any_nonpositive h = false ->
  mono_pow h r = Ok h' -> eval env h' = Rpower (eval env h) r /\ 0 < eval env h.
Proof.
  unfold mono_pow. destruct h as [|[e c] [|? ?]]; try discriminate.
  intros Hp [= <-]. simpl in Hp. rewrite orb_false_r in Hp. apply Rleb_false in Hp.
  cbn in Hp.
  assert (0 < eval env [(e, c)]) as Hpos.
  { simpl. pose proof (mono_val_pos env e). assert (0 < c * mono_val env e) by (apply Rmult_lt_0_compat; auto). lra. }
  split; auto.
  dcase E; cbn in E.
  - subst r. cbn [eval]. rewrite mono_val_empty. cbn. rewrite Rpow_pos by auto.
    rewrite !Rpower_O by (auto; cbn in Hpos; lra). lra.
  - cbn [eval]. cbn. rewrite Rpow_pos by auto. rewrite mono_val_mul.
    rewrite Rplus_0_r. rewrite Rpower_mult_distr by (auto using mono_val_pos).
    f_equal. lra.
Qed.

(** ** Results of [Signomial.__init__] *)
Lemma init_ok se rp (h : hmap R) h' : signomial_init se rp h = Ok h' ->
  h' = h /\ (any_nonpositive h = true -> rp = true -> se = true).
Proof.
  unfold signomial_init. destruct (any_nonpositive h), rp, se; simpl; intros [= <-]; auto.
Qed.

Lemma rmap_ok {A B} (f : A -> B) x b : rmap f x = Ok b -> exists a, x = Ok a /\ b = f a.
Proof. destruct x; simpl; [intros [= <-]; eauto | discriminate]. Qed.

Lemma rbind_ok {A B} (x : res A) (f : A -> res B) b : rbind x f = Ok b -> exists a, x = Ok a /\ f a = Ok b.
Proof. destruct x; simpl; [eauto | discriminate]. Qed.

Lemma classify_mono (h : hmap R) : classify h = CMonomial ->
  any_nonpositive h = false /\ exists e c, h = [(e, c)] /\ 0 < c.
Proof.
  unfold classify. destruct (any_nonpositive h) eqn:E; [discriminate|].
  destruct h as [|[e c] [|? ?]]; simpl; try discriminate. intros _.
  split; auto. exists e, c. split; auto. simpl in E. rewrite orb_false_r in E.
  apply Rleb_false in E. auto.
Qed.

Lemma any_nonpositive_false (h : hmap R) : any_nonpositive h = false <-> all_positive h.
Proof.
  unfold any_nonpositive, all_positive. induction h as [|[e c] h IH]; simpl.
  - split; auto. intros _ e c [].
  - rewrite orb_false_iff, IH. unfold nleb; cbn. rewrite Rleb_false. split.
    + intros [Hc Hh] e' c' [[= <- <-]|Hin]; eauto.
    + intros Hall. split; [apply (Hall e); auto | intros; eapply Hall; eauto].
Qed.

Lemma py_sub_cases se (a b v : value R) : py_sub se a b = Ok v ->
  (exists x y, a = VNum x /\ b = VNum y /\ v = VNum (x - y)) \/
  (let! nb := py_neg se b in py_add se a nb) = Ok v.
Proof.
  destruct a as [x|h1], b as [y|h2]; cbn [py_sub].
  - intros [= <-]. left. exists x, y. auto.
  - destruct se; [auto|discriminate].
  - destruct se; [auto|discriminate].
  - destruct se; [auto|discriminate].
Qed.

(** ** C03: operators act as real arithmetic *)
Section Denote.
Variable se : bool.
Variable env : point.
Hypothesis Henv : positive_point env.

Lemma val_nom_add_num h c v : nom_add_num se h c = Ok v -> val env v = eval env h + c.
Proof.
  unfold nom_add_num. dcase E; cbn in E; intros Hv;
    apply rmap_ok in Hv as (h' & Hi & ->); apply init_ok in Hi as [-> _]; cbn [val].
  - lra.
  - rewrite eval_hv_add. unfold num_hmap. simpl. rewrite mono_val_empty. lra.
Qed.

Lemma val_py_add a b v : py_add se a b = Ok v -> val env v = val env a + val env b.
Proof.
  destruct a as [x|h1], b as [y|h2]; unfold py_add; cbn [val].
  - intros [= <-]; reflexivity.
  - intros Hv. apply val_nom_add_num in Hv. lra.
  - intros Hv. apply val_nom_add_num in Hv. lra.
  - destruct h2 as [|t2 h2].
    + destruct h1 as [|t1 h1]; [discriminate|].
      dcase HD; [discriminate|]. intros Hv.
      apply rmap_ok in Hv as (h' & Hi & ->); apply init_ok in Hi as [-> _]; cbn [val].
      rewrite eval_hv_add. cbn [eval]. lra.
    + intros Hv. apply rmap_ok in Hv as (h' & Hi & ->); apply init_ok in Hi as [-> _]; cbn [val].
      apply eval_hv_add.
Qed.

Lemma val_py_mul a b v : py_mul se a b = Ok v -> val env v = val env a * val env b.
Proof.
  destruct a as [x|h1], b as [y|h2]; unfold py_mul; cbn [val].
  - intros [= <-]; reflexivity.
  - dcase E; cbn in E.
    + intros [= <-]. cbn. rewrite E. lra.
    + intros Hv. apply rmap_ok in Hv as (h' & Hi & ->); apply init_ok in Hi as [-> _]; cbn [val].
      apply eval_hv_mul.
  - dcase E; cbn in E.
    + intros [= <-]. cbn. rewrite E. lra.
    + intros Hv. apply rmap_ok in Hv as (h' & Hi & ->); apply init_ok in Hi as [-> _]; cbn [val].
      rewrite eval_hv_mul. lra.
  - intros Hv. apply rmap_ok in Hv as (h' & Hi & ->); apply init_ok in Hi as [-> _]; cbn [val].
    apply eval_smul.
Qed.

Lemma val_py_neg a v : py_neg se a = Ok v -> val env v = - val env a.
Proof.
  destruct a as [x|h]; unfold py_neg.
  - intros [= <-]; reflexivity.
  - destruct se eqn:Ese; [|discriminate]. rewrite <- Ese. intros Hv. apply val_py_mul in Hv. cbn in *. lra.
Qed.

Lemma val_py_sub a b v : py_sub se a b = Ok v -> val env v = val env a - val env b.
Proof.
  assert (forall v, (let! nb := py_neg se b in py_add se a nb) = Ok v ->
    val env v = val env a - val env b) as HH.
  { intros w Hw. apply rbind_ok in Hw as (nb & Hn & Ha).
    apply val_py_neg in Hn. apply val_py_add in Ha. lra. }
  intros Hv. destruct (py_sub_cases _ _ _ _ Hv) as [(x & y & -> & -> & ->)|Hv']; auto.
Qed.

Lemma val_pow_loop n p h v : pow_loop se n p h = Ok v -> val env v = val env p * eval env h ^ n.
Proof.
  revert p; induction n as [|n IH]; simpl; intros p Hv.
  - injection Hv as <-. lra.
  - apply rbind_ok in Hv as (p' & Hp & Hl). apply IH in Hl. apply val_py_mul in Hp.
    cbn in Hp. rewrite Hl, Hp. ring.
Qed.

Lemma val_py_powz a z v : py_powz se a z = Ok v -> val env v = powerRZ (val env a) z.
Proof.
  destruct a as [c|h]; unfold py_powz.
  - unfold num_powz. dcase E; cbn in E.
    + destruct (z <? 0)%Z eqn:Ez; [discriminate|]. intros [= <-]. cbn [val].
      apply Rpow_IZR. right. apply Z.ltb_ge; auto.
    + intros [= <-]. cbn [val]. apply Rpow_IZR. left; auto.
  - dcase E.
    + intros Hv. apply rbind_ok in Hv as (h' & Hm & Hi).
      apply rmap_ok in Hi as (h'' & Hi & ->); apply init_ok in Hi as [-> _].
      apply classify_mono in E as [Hn _]. eapply eval_mono_pow in Hm as [Hm Hpos]; eauto.
      cbn [val]. rewrite Hm. symmetry. apply powerRZ_Rpower; eauto.
    + destruct (z <? 0)%Z eqn:Ez; [discriminate|].
      destruct (z =? 0)%Z eqn:Ez0; [discriminate|].
      intros Hv. apply val_pow_loop in Hv. cbn in *. rewrite Hv.
      apply Z.ltb_ge in Ez. apply Z.eqb_neq in Ez0.
      destruct z as [|p|p]; try lia. simpl. rewrite Rmult_1_l. reflexivity.
Qed.

Lemma val_py_powr a r v : py_powr se a r = Ok v -> val env v = Rpower (val env a) r.
Proof.
  destruct a as [c|h]; unfold py_powr.
  - unfold num_powr. cbn. destruct (Rltb 0 c) eqn:E; [|discriminate].
    apply Rltb_true in E. intros [= <-]. cbn. apply Rpow_pos; auto.
  - dcase E; [|discriminate].
    intros Hv. apply rbind_ok in Hv as (h' & Hm & Hi).
    apply rmap_ok in Hi as (h'' & Hi & ->); apply init_ok in Hi as [-> _].
    apply classify_mono in E as [Hn _]. eapply eval_mono_pow in Hm as [Hm Hpos]; eauto.
Qed.

Lemma val_py_div a b v : py_div se a b = Ok v -> val env v = val env a / val env b.
Proof.
  assert (forall h v, (let! inv := py_powz se (VNom h) (-1) in py_mul se a inv) = Ok v ->
    val env v = val env a / eval env h) as HH.
  { intros h w Hw. apply rbind_ok in Hw as (inv & Hp & Hm).
    apply val_py_powz in Hp. apply val_py_mul in Hm. rewrite Hm, Hp.
    cbn [val]. unfold Rdiv. f_equal. simpl. f_equal. ring. }
  unfold py_div. destruct a as [x|h1], b as [y|h2]; cbn [val].
  - dcase HD; [discriminate|]. intros [= <-]. reflexivity.
  - dcase HD; [|discriminate].
    dcase E.
    + destruct (py_powz se (VNom h2) (-1)); discriminate.
    + apply HH.
  - dcase E; [discriminate|]. cbn in E. intros Hv.
    apply val_py_mul in Hv. rewrite Hv. cbn [val]. unfold Rdiv. f_equal.
    cbn. replace (- (1)) with (IZR (-1)) by (simpl; lra). rewrite Rpow_IZR by auto.
    simpl. f_equal. ring.
  - dcase HD; [|discriminate]. apply HH.
Qed.

Lemma run_denote e v : run se e = Ok v -> val env v = denote env e.
Proof.
  revert v; induction e as [c|x|a IHa b IHb|a IHa b IHb|a IHa b IHb|a IHa b IHb|a IHa|a IHa z|a IHa r];
    cbn [run denote]; intros v Hv.
  - injection Hv as <-; reflexivity.
  - injection Hv as <-. cbn. rewrite mono_val_singleton by apply Henv. lra.
  - apply rbind_ok in Hv as (va & Ha & Hv). apply rbind_ok in Hv as (vb & Hb & Hv).
    rewrite <- (IHa _ Ha), <- (IHb _ Hb). apply val_py_add; auto.
  - apply rbind_ok in Hv as (va & Ha & Hv). apply rbind_ok in Hv as (vb & Hb & Hv).
    rewrite <- (IHa _ Ha), <- (IHb _ Hb). apply val_py_sub; auto.
  - apply rbind_ok in Hv as (va & Ha & Hv). apply rbind_ok in Hv as (vb & Hb & Hv).
    rewrite <- (IHa _ Ha), <- (IHb _ Hb). apply val_py_mul; auto.
  - apply rbind_ok in Hv as (va & Ha & Hv). apply rbind_ok in Hv as (vb & Hb & Hv).
    rewrite <- (IHa _ Ha), <- (IHb _ Hb). apply val_py_div; auto.
  - apply rbind_ok in Hv as (va & Ha & Hv). rewrite <- (IHa _ Ha). apply val_py_neg; auto.
  - apply rbind_ok in Hv as (va & Ha & Hv). rewrite <- (IHa _ Ha). apply val_py_powz; auto.
  - apply rbind_ok in Hv as (va & Ha & Hv). rewrite <- (IHa _ Ha). apply val_py_powr; auto.
Qed.

End Denote.
