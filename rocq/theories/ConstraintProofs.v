(** Proofs about constraints (C18-C23). *)
From Verif Require Import Base HashVec HashVecProofs Nomial NomialSem NomialProofs CanonProofs DiffProofs
  Sub SubSem SubProofs SubExtra Mono MonoProofs Constraint ConstraintSem.
From Coq Require FunctionalExtensionality.
Open Scope R_scope.

(** ** The renaming loop *)
Lemma exp_sub_inj (a b m : expv R) : exp_canon a -> exp_canon b -> exp_sub a m = exp_sub b m -> a = b.
Proof.
  intros Ha Hb E. apply exp_canon_ext; auto. intros k.
  assert (eget (exp_sub a m) k = eget (exp_sub b m) k) as Hk by congruence.
  rewrite !eget_sub in Hk. lra.
Qed.

Lemma dset_absent_app {V} (d : list (expv R * V)) k v : ~ In k (dkeys d) -> dset d k v = d ++ [(k, v)].
Proof.
  induction d as [|[k' v'] d IH]; intros Hk; cbn [dset app]; auto.
  rewrite decide_False by (intros ->; apply Hk; left; auto). rewrite IH; auto.
  intros Hin; apply Hk; right; auto.
Qed.

Definition divterm (m_exp : expv R) (m_c : R) (t : expv R * R) : expv R * R :=
  (exp_sub (fst t) m_exp, snd t / m_c).

Lemma rename_loop_ok m_exp m_c (p : hmap R) : canonical p -> no_clash p m_exp ->
  rename_loop m_exp m_c p (dkeys p) = Ok (map (divterm m_exp m_c) p).
Proof.
  intros [Hn Hc] Hcl.
  assert (G : forall rest pre, p = pre ++ rest ->
    rename_loop m_exp m_c (rest ++ map (divterm m_exp m_c) pre) (dkeys rest) = Ok (map (divterm m_exp m_c) p)).
  { induction rest as [|[e c] rest IH]; intros pre Hp; cbn [dkeys map rename_loop fst].
    - rewrite Hp, app_nil_r. reflexivity.
    - unfold rename_step. cbn [app dget]. rewrite decide_True by auto. cbn [ddel].
      rewrite decide_True by auto. cbn [rbind].
      assert (Hfresh : ~ In (exp_sub e m_exp) (dkeys (rest ++ map (divterm m_exp m_c) pre))).
      { unfold dkeys. rewrite map_app, in_app_iff. intros [Hin|Hin].
        - apply in_map_iff in Hin as ([e' c'] & E & Hin). cbn in E.
          apply lookup_In in Hin as (j & Hj).
          apply (Hcl (length pre) (length pre + S j)%nat e c e' c'); auto; [lia| |].
          + rewrite Hp. apply list_lookup_middle. reflexivity.
          + rewrite Hp. transitivity (((e, c) :: rest) !! S j); [|exact Hj].
            transitivity (((e, c) :: rest) !! (length pre + S j - length pre)%nat); [|f_equal; lia]. apply lookup_app_r. lia.
        - rewrite map_map in Hin. apply in_map_iff in Hin as ([e' c'] & E & Hin). cbn in E.
          assert (e' = e) as ->.
          { eapply exp_sub_inj; eauto.
            - apply (Hc e' c'). rewrite Hp. apply in_or_app; auto.
            - apply (Hc e c). rewrite Hp. apply in_or_app; right; left; auto. }
          rewrite Hp in Hn. unfold dkeys in Hn. rewrite map_app in Hn. apply NoDup_app in Hn as (_ & Hd & _).
          apply (Hd e).
          + apply elem_of_list_In, in_map_iff. exists (e, c'); auto.
          + cbn. left. }
      rewrite dset_absent_app by exact Hfresh.
      rewrite <- app_assoc. change [(exp_sub e m_exp, ndiv c m_c)] with (map (divterm m_exp m_c) [(e, c)]).
      rewrite <- map_app. apply IH. rewrite <- app_assoc. exact Hp. }
  specialize (G p [] eq_refl). cbn [map] in G. rewrite app_nil_r in G. exact G.
Qed.

Lemma eval_divterm env m_exp m_c (p : hmap R) : m_c <> 0 ->
  eval env (map (divterm m_exp m_c) p) = eval env p / (m_c * mono_val env m_exp).
Proof.
  intros Hm. pose proof (mono_val_pos env m_exp).
  induction p as [|[e c] p IH]; cbn [map divterm eval fst snd]; [field; lra|].
  rewrite IH, mono_val_sub. field. lra.
Qed.

Lemma divterm_NoDup m_exp m_c (p : hmap R) : canonical p -> NoDup (dkeys (map (divterm m_exp m_c) p)).
Proof.
  intros [Hn Hc]. unfold dkeys. rewrite map_map. cbn [divterm fst].
  induction p as [|[e c] p IH]; cbn [map]; [constructor|]. inversion Hn as [|? ? Hx Hn']; subst.
  constructor.
  - intros Hin. apply elem_of_list_In, in_map_iff in Hin as ([e' c'] & E & Hin). cbn [fst] in E.
    apply Hx. apply elem_of_list_In. assert (e' = e) as <-.
    { eapply exp_sub_inj; eauto; [apply (Hc e' c'); right; auto|apply (Hc e c); left; auto]. }
    apply in_map_iff. exists (e', c'); auto.
  - apply IH; auto. intros e' c' Hin. apply Hc. right; auto.
Qed.

Lemma divterm_positive m_exp m_c (p : hmap R) : 0 < m_c -> all_positive p -> all_positive (map (divterm m_exp m_c) p).
Proof.
  intros Hm Hp e c Hin. apply in_map_iff in Hin as ([e' c'] & [= <- <-] & Hin).
  apply Rdiv_lt_0_compat; auto. eapply Hp; eauto.
Qed.

(** ** Simplification *)
Lemma Rpow_inv x : x <> 0 -> Rpow x (-1) = / x.
Proof.
  intros Hx. change (-1) with (IZR (-1)). rewrite Rpow_IZR by auto. simpl. f_equal. ring.
Qed.

Lemma feastol_tol : @feastol R _ = tolerance.
Proof. unfold feastol, tolerance, ndiv. cbn. lra. Qed.

Lemma eval_map_scale env (h : hmap R) c : eval env (hv_mul h c) = c * eval env h.
Proof. apply eval_hv_mul. Qed.

Lemma dget_hv_mul (h : hmap R) c e : dget (hv_mul h c) e = option_map (fun x => x * c) (dget h e).
Proof.
  induction h as [|[e' c'] h IH]; cbn; auto. destruct (decide (e = e')); auto.
Qed.

(** What a successful simplification means, at every point. *)
Lemma simplify_some env (h h' : hmap R) : NoDup (dkeys h) -> simplify h = Ok (Some h') ->
  (dget h e_empty = None /\ h' = h) \/
  (exists c, dget h e_empty = Some c /\ 1 - c <> 0 /\ - tolerance <= 1 - c /\ (1 < length h)%nat /\
     h' = ddel (hv_mul h (/ (1 - c))) e_empty /\ eval env h' = (eval env h - c) / (1 - c)).
Proof.
  intros Hn. unfold simplify. destruct (dget h e_empty) as [c|] eqn:Ec; [|intros [= <-]; auto].
  cbn [nsub nadd nopp n1 n0 R_num nleb nltb]. rewrite feastol_tol.
  change (1 + - c) with (1 - c).
  destruct (Rleb (- tolerance) (1 - c) && Nat.eqb (length h) 1) eqn:E1; [discriminate|].
  destruct (Rltb (1 - c) (- tolerance)) eqn:E2; [discriminate|].
  unfold hv_div. dcase D; [discriminate|]. cbn [rbind n0 n1 R_num nopp npow] in *. intros [= <-].
  rewrite Rpow_inv by exact D. right. exists c.
  assert (Ht : - tolerance <= 1 - c). { unfold Rltb in E2. destruct (Rlt_dec _ _); [discriminate|lra]. }
  split; [auto|]. split; [exact D|]. split; [exact Ht|]. split.
  { destruct h as [|t [|t' h]]; cbn [length].
    - discriminate.
    - exfalso. cbn [length Nat.eqb] in E1. rewrite andb_true_r in E1. unfold Rleb in E1.
      destruct (Rle_dec _ _); [discriminate|contradiction].
    - lia. }
  split; [reflexivity|]. rewrite eval_ddel, eval_hv_mul. unfold coef.
  rewrite dget_hv_mul, Ec. cbn [option_map]. rewrite mono_val_empty. field. exact D.
Qed.

Lemma simplify_none env (h : hmap R) : simplify h = Ok None ->
  exists c, h = [(e_empty, c)] /\ c <= 1 + tolerance /\ eval env h = c.
Proof.
  unfold simplify. destruct (dget h e_empty) as [c|] eqn:Ec; [|discriminate].
  cbn [nsub nadd nopp n1 n0 R_num nleb nltb]. rewrite feastol_tol.
  destruct (Rleb (- tolerance) (1 + - c) && Nat.eqb (length h) 1) eqn:E1.
  - intros _. apply andb_prop in E1 as [E1 E2]. apply Nat.eqb_eq in E2.
    destruct h as [|[e c'] [|]]; cbn in E2; try lia. cbn [dget] in Ec.
    destruct (decide (e_empty = e)) as [<-|]; [|discriminate]. injection Ec as ->.
    exists c. split; auto. unfold Rleb in E1. destruct (Rle_dec _ _); [|discriminate].
    split; [lra|]. cbn [eval]. rewrite mono_val_empty. lra.
  - destruct (Rltb _ _); [discriminate|]. destruct (hv_div _ _); discriminate.
Qed.

Lemma simplify_err (h : hmap R) x : simplify h = Err x ->
  exists c, dget h e_empty = Some c /\
    ((x = PrimalInfeasibleE /\ 1 + tolerance < c) \/
     (x = ZeroDivisionE /\ c = 1 /\ length h <> 1%nat)).
Proof.
  unfold simplify. destruct (dget h e_empty) as [c|] eqn:Ec; [|discriminate].
  cbn [nsub nadd nopp n1 n0 R_num nleb nltb]. rewrite feastol_tol.
  destruct (Rleb (- tolerance) (1 + - c) && Nat.eqb (length h) 1) eqn:E1; [discriminate|].
  destruct (Rltb (1 + - c) (- tolerance)) eqn:E2.
  - intros [= <-]. exists c. split; auto. left. split; auto. unfold Rltb in E2. destruct (Rlt_dec _ _); [lra|discriminate].
  - unfold hv_div. dcase D; [|discriminate]. cbn [rbind n0 R_num] in *. intros [= <-].
    exists c. split; auto. right. split; auto. split; [lra|].
    intros El. rewrite El in E1. unfold Rltb in E2. destruct (Rlt_dec _ _); [discriminate|].
    unfold Rleb in E1. destruct (Rle_dec _ _); [discriminate|]. lra.
Qed.

(** A positive posynomial exceeds its constant term, strictly if it has others. *)
Lemma eval_ge_const env (h : hmap R) c : NoDup (dkeys h) -> all_positive h -> dget h e_empty = Some c ->
  c <= eval env h /\ (length h <> 1%nat -> c < eval env h).
Proof.
  intros Hn Hp Hd.
  assert (E : eval env h = eval env (ddel h e_empty) + c).
  { rewrite eval_ddel. unfold coef. rewrite Hd, mono_val_empty. lra. }
  assert (P : all_positive (ddel h e_empty)) by (intros e x Hin; apply In_ddel in Hin; eauto).
  destruct (decide (ddel h e_empty = [])) as [Hz|Hz].
  - rewrite E, Hz. cbn [eval]. split; [lra|]. intros Hl. exfalso. apply Hl.
    destruct h as [|[e x] h]; [discriminate|]. cbn [ddel dget] in *.
    destruct (decide (e_empty = e)); [|discriminate]. cbn [length]. rewrite (f_equal length Hz). auto.
  - pose proof (eval_all_positive env _ P Hz). rewrite E. split; [lra|intros; lra].
Qed.

Lemma any_nonpositive_true (h : hmap R) : any_nonpositive h = true -> exists e c, In (e, c) h /\ c <= 0.
Proof.
  unfold any_nonpositive. intros Hx. apply existsb_exists in Hx as ([e c] & Hin & Hc). exists e, c. split; auto.
  cbn in Hc. unfold Rleb in Hc. destruct (Rle_dec c 0); [auto|discriminate].
Qed.

(** Simplifying a posynomial [<= 1]: the outcomes. *)
Lemma simplify_posy (h : hmap R) : NoDup (dkeys h) -> all_positive h -> h <> [] ->
  match simplify h with
  | Ok (Some h') =>
      h' <> [] /\ NoDup (dkeys h') /\
      ((all_positive h' /\ forall env, eval env h' <= 1 <-> eval env h <= 1) \/
       ((exists e c, In (e, c) h' /\ c <= 0) /\ forall env, 1 < eval env h))
  | Ok None => exists c, h = [(e_empty, c)] /\ c <= 1 + tolerance
  | Err x => forall env, 1 < eval env h
  end.
Proof.
  intros Hn Hp Hne. destruct (simplify h) as [[h'|]|x] eqn:E.
  - destruct (simplify_some (fun _ => 1) h h' Hn E) as [[_ ->]|(c & Hd & Hc & Ht & Hl & Hh & _)].
    + split; [exact Hne|]. split; [exact Hn|]. left. split; [exact Hp|tauto].
    + assert (Hev : forall env, eval env h' = (eval env h - c) / (1 - c)).
      { intros env. destruct (simplify_some env h h' Hn E) as [[Hno _]|(c' & Hd' & _ & _ & _ & _ & Hev)]; [congruence|].
        assert (c' = c) as -> by congruence. exact Hev. }
      assert (Hne' : ddel h e_empty <> []).
      { intros Hz. destruct h as [|[e x] h]; [discriminate|]. cbn [ddel dget] in *.
        destruct (decide (e_empty = e)); [subst; cbn in Hl; lia|discriminate]. }
      assert (Hdd : forall (g : hmap R) k, ddel (hv_mul g k) e_empty = hv_mul (ddel g e_empty) k).
      { intros g k. unfold hv_mul. induction g as [|[e x] g IH]; cbn [map ddel fst snd]; auto.
        destruct (decide (e_empty = e)); auto. cbn [map]. f_equal. exact IH. }
      rewrite Hdd in Hh.
      split; [rewrite Hh; destruct (ddel h e_empty); [congruence|discriminate]|].
      split; [rewrite Hh, dkeys_hv_mul; apply NoDup_ddel; auto|].
      destruct (Rlt_le_dec c 1) as [Hlt|Hge].
      * left. split.
        -- intros e x Hin. rewrite Hh in Hin. apply in_map_iff in Hin as ([e' x'] & [= <- <-] & Hin).
           apply In_ddel in Hin. apply Rmult_lt_0_compat; [eapply Hp; eauto|]. apply Rinv_0_lt_compat; lra.
        -- intros env. rewrite Hev. split; intros Hle.
           ++ apply (Rmult_le_compat_r (1 - c)) in Hle; [|lra]. unfold Rdiv in Hle.
              rewrite Rmult_assoc, Rinv_l in Hle by lra. lra.
           ++ apply (Rmult_le_reg_r (1 - c)); [lra|]. unfold Rdiv. rewrite Rmult_assoc, Rinv_l by lra. lra.
      * right. split.
        -- destruct (ddel h e_empty) as [|[e x] l] eqn:El; [congruence|].
           exists e, (x * / (1 - c)). split; [rewrite Hh; left; auto|].
           assert (0 < x). { apply (Hp e). apply (In_ddel h e_empty). rewrite El. left; auto. }
           assert (/ (1 - c) < 0) by (apply Rinv_lt_0_compat; lra).
           apply Ropp_le_cancel. rewrite Ropp_0, Ropp_mult_distr_r. apply Rmult_le_pos; lra.
        -- intros env. destruct (eval_ge_const env h c Hn Hp Hd) as [_ Hs]. specialize (Hs ltac:(lia)). lra.
  - destruct (simplify_none (fun _ => 1) h E) as (c & Hh & Hc & _). eauto.
  - intros env. destruct (simplify_err h x E) as (c & Hd & [[_ Hc]|(_ & -> & Hl)]).
    + destruct (eval_ge_const env h c Hn Hp Hd) as [Hs _]. unfold tolerance in *. lra.
    + destruct (eval_ge_const env h 1 Hn Hp Hd) as [_ Hs]. auto.
Qed.

(** ** _gen_unsubbed *)
Lemma canonical_divterm m_exp m_c (p : hmap R) : canonical p -> exp_canon m_exp -> m_c <> 0 ->
  canonical (map (divterm m_exp m_c) p).
Proof.
  intros Hc Hm Hmc. split; [apply divterm_NoDup; auto|]. destruct Hc as [Hn Hc].
  intros e c Hin. apply in_map_iff in Hin as ([e' c'] & [= <- <-] & Hin). destruct (Hc _ _ Hin) as [He Hz].
  split.
  - unfold exp_sub. apply exp_canon_add; auto. apply exp_canon_neg; auto.
  - cbn [fst snd]. unfold Rdiv. apply Rmult_integral_contrapositive_currified; auto. apply Rinv_neq_0_compat; auto.
Qed.

Lemma canonical_ddel (h : hmap R) e : canonical h -> canonical (ddel h e).
Proof. intros [Hn Hc]. split; [apply NoDup_ddel; auto|]. intros e' c' Hin. apply In_ddel in Hin. eauto. Qed.

Lemma simplify_canonical (h h' : hmap R) : canonical h -> simplify h = Ok (Some h') -> canonical h'.
Proof.
  intros Hc E. destruct (simplify_some (fun _ => 1) h h' (proj1 Hc) E) as [[_ ->]|(c & _ & D & _ & _ & -> & _)]; auto.
  apply canonical_ddel. apply canonical_mul; auto. apply Rinv_neq_0_compat; auto.
Qed.

Lemma dget_ddel_eq (d : hmap R) k : NoDup (dkeys d) -> dget (ddel d k) k = None.
Proof.
  intros Hn. destruct (dget (ddel d k) k) eqn:E; auto. exfalso. apply dget_In in E.
  assert (In k (dkeys (ddel d k))) as Hin by (apply in_map_iff; eexists; split; [|exact E]; auto).
  apply dkeys_ddel_In_NoDup in Hin; auto. tauto.
Qed.

Lemma simplify_no_const (h h' : hmap R) : NoDup (dkeys h) -> simplify h = Ok (Some h') -> dget h' e_empty = None.
Proof.
  intros Hn E. destruct (simplify_some (fun _ => 1) h h' Hn E) as [[Hno ->]|(c & _ & _ & _ & _ & -> & _)]; auto.
  apply dget_ddel_eq. rewrite dkeys_hv_mul. auto.
Qed.

(** The outcomes of turning [p <= m] into a posynomial [<= 1]. *)
Lemma gen_unsubbed_cases se (p m : hmap R) : is_posy p -> is_mono m ->
  (forall e c, m = [(e, c)] -> no_clash p e) ->
  match gen_unsubbed se p m with
  | Ok [] => exists c, c <= 1 + tolerance /\ forall env, eval env p = c * eval env m
  | Ok [u] => u <> [] /\ canonical u /\ dget u e_empty = None /\
      ((all_positive u /\ (forall env, eval env u <= 1 <-> eval env p <= eval env m) /\
        exists a, 0 <= a < 1 /\ forall env, eval env p = (a + (1 - a) * eval env u) * eval env m) \/
       (se = true /\ (exists e c, In (e, c) u /\ c <= 0) /\ forall env, eval env m < eval env p))
  | Ok _ => False
  | Err _ => forall env, eval env m < eval env p
  end.
Proof.
  intros (Hp & Hpos & Hne) (e & c & -> & He & Hc) Hcl. specialize (Hcl e c eq_refl).
  unfold gen_unsubbed. rewrite rename_loop_ok by auto. cbn [rbind].
  set (h := map (divterm e c) p).
  assert (Hev : forall env, eval env h = eval env p / (c * mono_val env e))
    by (intros env; apply eval_divterm; lra).
  assert (Hm : forall env, eval env [(e, c)] = c * mono_val env e) by (intros env; cbn [eval]; lra).
  assert (Hmp : forall env, 0 < c * mono_val env e)
    by (intros env; apply Rmult_lt_0_compat; auto; apply mono_val_pos).
  assert (Hlt : forall env, 1 < eval env h -> eval env [(e, c)] < eval env p).
  { intros env Hx. rewrite Hm. rewrite Hev in Hx. specialize (Hmp env).
    apply (Rmult_lt_compat_r _ _ _ Hmp) in Hx. unfold Rdiv in Hx. rewrite Rmult_assoc, Rinv_l in Hx by lra. lra. }
  assert (Hhn : h <> []) by (unfold h; destruct p; [congruence|discriminate]).
  assert (Hcan : canonical h) by (apply canonical_divterm; auto; lra).
  pose proof (simplify_posy h (proj1 Hcan) (divterm_positive e c p Hc Hpos) Hhn) as HS.
  destruct (simplify h) as [[h'|]|x] eqn:ES; cbn [rbind].
  - destruct HS as (Hne' & Hn' & HS). destruct h' as [|t l]; [congruence|].
    pose proof (simplify_canonical _ _ Hcan ES) as Hcan'.
    pose proof (simplify_no_const _ _ (proj1 Hcan) ES) as Hnc.
    unfold signomial_init.
    destruct HS as [[Hap Heq]|[Hbad Hinf]].
    + replace (any_nonpositive (t :: l)) with false
        by (symmetry; apply any_nonpositive_false; exact Hap).
      cbn [andb]. cbn [rbind]. split; [discriminate|]. split; [exact Hcan'|]. split; [exact Hnc|]. left. split; [exact Hap|]. split.
      * intros env. rewrite Heq, Hev, Hm. specialize (Hmp env). split; intros Hx.
        -- apply (Rmult_le_compat_r (c * mono_val env e)) in Hx; [|lra].
           unfold Rdiv in Hx. rewrite Rmult_assoc, Rinv_l in Hx by lra. lra.
        -- apply (Rmult_le_reg_r (c * mono_val env e)); [lra|]. unfold Rdiv.
           rewrite Rmult_assoc, Rinv_l by lra. lra.
      * assert (Hph : forall env, eval env p = eval env h * (c * mono_val env e)).
        { intros env. rewrite Hev. field. specialize (Hmp env). pose proof (mono_val_pos env e). lra. }
        destruct (dget h e_empty) as [k|] eqn:Ek.
        -- assert (0 < k) by (eapply (divterm_positive e c p Hc Hpos); apply dget_In; exact Ek).
           assert (Hu : forall env, 1 - k <> 0 /\ eval env (t :: l) = (eval env h - k) / (1 - k)).
           { intros env. destruct (simplify_some env h _ (proj1 Hcan) ES) as [[Hno _]|(k' & Hk & Hk0 & _ & _ & _ & Hke)];
               [congruence|]. assert (k' = k) as -> by congruence. auto. }
           assert (k < 1).
           { apply Rnot_le_lt. intros Hk1. destruct (Hu (fun _ => 1)) as [K0 K1].
             pose proof (eval_all_positive (fun _ => 1) (t :: l) Hap ltac:(discriminate)) as Hpp. rewrite K1 in Hpp.
             assert (/ (1 - k) < 0) by (apply Rinv_lt_0_compat; lra).
             destruct (eval_ge_const (fun _ => 1) h k (proj1 Hcan) (divterm_positive e c p Hc Hpos) Ek) as [G _].
             unfold Rdiv in Hpp. nra. }
           exists k. split; [lra|]. intros env. destruct (Hu env) as [K0 ->]. rewrite Hph, Hm. field. lra.
        -- exists 0. split; [lra|]. intros env.
           destruct (simplify_some env h _ (proj1 Hcan) ES) as [[_ <-]|(k' & Hk & _)]; [|congruence].
           rewrite Hph, Hm. ring.
    + destruct (any_nonpositive (t :: l)) eqn:EA.
      * destruct se; cbn [andb negb rbind].
        -- split; [discriminate|]. split; [exact Hcan'|]. split; [exact Hnc|]. right. split; [reflexivity|]. auto.
        -- intros env. auto.
      * cbn [andb]. cbn [rbind]. exfalso. apply any_nonpositive_false in EA.
        destruct Hbad as (e' & c' & Hin & Hle). specialize (EA _ _ Hin). lra.
  - destruct HS as (k & Hk & Hle). exists k. split; auto. intros env.
    specialize (Hev env). rewrite Hk in Hev. cbn [eval] in Hev. rewrite mono_val_empty in Hev.
    specialize (Hmp env). rewrite Hm. replace k with (k * 1 + 0) by lra. rewrite Hev. field.
    split; [pose proof (mono_val_pos env e); lra|lra].
  - intros env. auto.
Qed.

(** ** Substituting into the posynomials [<= 1] *)
Lemma sub_posy inf (u : hmap R) fixed sched : canonical u -> all_positive u -> u <> [] ->
  (forall k v, fixed !! k = Some v -> 0 < v) -> valid_schedule fixed u sched ->
  exists st, nm_sub inf fixed u sched = Ok st /\ canonical (s_cp st) /\ all_positive (s_cp st) /\ s_cp st <> [] /\
    (forall e k v, In e (dkeys (s_cp st)) -> fixed !! k = Some v -> e !! k = None) /\
    forall env, positive_point env -> eval env (s_cp st) = eval (override env fixed) u.
Proof.
  intros Hc Hp Hne Hf Hv. pose proof (positive_defined fixed u Hf) as Hpd.
  destruct (sub_main inf u fixed (proj1 Hc) Hpd sched Hv) as (st & E & Hg & Hk & Hev).
  pose proof (positive_nonzero inf u fixed sched st Hc Hp Hf Hv E) as Hnz.
  assert (Hcan : canonical (s_cp st)).
  { destruct (sub_canonical inf u fixed sched st Hc Hpd Hv E) as [|Hz]; auto. exfalso.
    apply (Hnz e_empty 0); auto. rewrite Hz. left; auto. }
  exists st. split; auto. split; auto. split.
  - intros e c Hin. pose proof (Hnz e c Hin) as Hc0.
    assert (Hcf : coef (s_cp st) e = c).
    { unfold coef. rewrite (In_dget (s_cp st) e c (proj1 Hcan) Hin). auto. }
    rewrite (final_coef inf u fixed (proj1 Hc) Hpd sched st e Hv E) in Hcf.
    assert (0 <= c); [|lra]. rewrite <- Hcf. apply lsum_nonneg. intros [o co] Hin'. cbn [fst snd].
    destruct (decide _); [|lra]. left. apply Rmult_lt_0_compat; [eapply Hp; eauto|].
    rewrite subval_mono_valp. rewrite mono_valp_pos; [apply mono_val_pos|].
    apply override_positive; auto. intros ?; lra.
  - split; [eapply passes_nonempty; [|exact E]; exact Hne|]. split; auto.
    intros env He. rewrite <- (evalp_pos env) by auto. rewrite Hev. apply evalp_pos. apply override_positive; auto.
Qed.

Lemma lsum_pos_In {A} (f : A -> R) l x : (forall y, In y l -> 0 <= f y) -> In x l -> 0 < f x -> 0 < lsum f l.
Proof.
  induction l as [|y l IH]; intros Hn Hin Hx; [destruct Hin|]. cbn [lsum].
  assert (0 <= lsum f l) by (apply lsum_nonneg; intros; apply Hn; right; auto).
  pose proof (Hn y (or_introl eq_refl)). destruct Hin as [->|Hin]; [lra|].
  assert (0 < lsum f l) by (apply IH; auto; intros; apply Hn; right; auto). lra.
Qed.

(** No term is lost from a posynomial. *)
Lemma sub_posy_key inf (u : hmap R) fixed sched st : canonical u -> all_positive u ->
  (forall k v, fixed !! k = Some v -> 0 < v) -> valid_schedule fixed u sched ->
  nm_sub inf fixed u sched = Ok st -> forall o c, In (o, c) u -> In (surviving fixed o) (dkeys (s_cp st)).
Proof.
  intros Hc Hp Hf Hv E o c Hin. pose proof (positive_defined fixed u Hf) as Hpd.
  assert (P : forall o c, In (o, c) u -> 0 < c * subval fixed o).
  { intros o' c' Hin'. apply Rmult_lt_0_compat; [eapply Hp; eauto|]. rewrite subval_mono_valp, mono_valp_pos.
    - apply mono_val_pos.
    - apply override_positive; auto. intros ?; lra. }
  assert (0 < coef (s_cp st) (surviving fixed o)) as Hpos.
  { rewrite (final_coef inf u fixed (proj1 Hc) Hpd sched st _ Hv E).
    apply (lsum_pos_In _ u (o, c)); auto.
    - intros [o' c'] Hin'. cbn [fst snd]. destruct (decide _); [|lra]. left. auto.
    - cbn [fst snd]. rewrite decide_True by auto. auto. }
  unfold coef in Hpos. destruct (dget (s_cp st) (surviving fixed o)) as [x|] eqn:Eg.
  - apply dget_In in Eg. apply in_map_iff. exists (surviving fixed o, x). auto.
  - lra.
Qed.

Section Subbed.
Variable inf : R.
Variable pick : hmap R -> schedule.
Variable fixed : gmap nat R.
Hypothesis Hf : forall k v, fixed !! k = Some v -> 0 < v.
Hypothesis Hpick : forall h, valid_schedule fixed h (pick h).

Lemma as_hmapslt1_cons st u rest : as_hmapslt1 inf pick fixed st (u :: rest) =
  match as_hmapslt1 inf pick fixed st [u] with
  | Err x => Err x
  | Ok (st1, l1) => match as_hmapslt1 inf pick fixed st1 rest with
                    | Err x => Err x
                    | Ok (st2, l2) => Ok (st2, l1 ++ l2) end
  end.
Proof.
  cbn [as_hmapslt1]. destruct (nm_sub inf fixed u (pick u)) as [s|x]; cbn [rbind]; auto.
  destruct (simplify (s_cp s)) as [[h|]|x]; cbn [rbind]; auto.
  - destruct (any_nonpositive h); auto. cbn [rbind fst snd].
    destruct (as_hmapslt1 inf pick fixed _ rest) as [[st2 l2]|x]; cbn [rbind]; auto.
  - destruct (as_hmapslt1 inf pick fixed _ rest) as [[st2 l2]|x]; cbn [rbind]; auto.
Qed.

Lemma in_dec_var (u : hmap R) : (exists k, in_vks u k = true /\ fixed !! k = None) \/
  forall k, in_vks u k = true -> fixed !! k <> None.
Proof.
  destruct (Classical_Prop.classic (exists k, in_vks u k = true /\ fixed !! k = None)) as [|Hn]; auto.
  right. intros k Hk Hfk. apply Hn. eauto.
Qed.

Lemma as_hmapslt1_one st (u : hmap R) : canonical u -> all_positive u -> u <> [] ->
  match as_hmapslt1 inf pick fixed st [u] with
  | Ok (_, []) => (exists c, c <= 1 + tolerance /\ forall env, positive_point env -> eval (override env fixed) u = c) /\
      forall k, in_vks u k = true -> fixed !! k <> None
  | Ok (_, [v]) => is_posy v /\ (forall k, in_vks v k = true -> fixed !! k = None) /\
      (exists k, in_vks u k = true /\ fixed !! k = None) /\
      forall env, positive_point env -> (eval env v <= 1 <-> eval (override env fixed) u <= 1)
  | Ok _ => False
  | Err _ => forall env, positive_point env -> 1 < eval (override env fixed) u
  end.
Proof.
  intros Hc Hp Hne. destruct (sub_posy inf u fixed (pick u) Hc Hp Hne Hf (Hpick u))
    as (s & Es & Sc & Sp & Sn & Sk & Sev).
  cbn [as_hmapslt1]. rewrite Es. cbn [rbind].
  pose proof (simplify_posy (s_cp s) (proj1 Sc) Sp Sn) as HS.
  destruct (simplify (s_cp s)) as [[h|]|x] eqn:E; cbn [rbind].
  - destruct HS as (Hn & _ & [[Hap Heq]|[Hbad Hinf]]).
    + replace (any_nonpositive h) with false by (symmetry; apply any_nonpositive_false; exact Hap).
      cbn [rbind snd]. split.
      * split; [eapply simplify_canonical; eauto|auto].
      * split.
        -- intros k Hk. apply in_vks_true in Hk as (e & c & Hin & Hek).
           destruct (fixed !! k) eqn:Efk; auto. exfalso. apply Hek. eapply Sk; eauto.
           destruct (simplify_some (fun _ => 1) _ _ (proj1 Sc) E) as [[_ ->]|(c0 & _ & _ & _ & _ & -> & _)].
           ++ apply in_map_iff. exists (e, c). auto.
           ++ apply In_ddel in Hin. rewrite <- (dkeys_hv_mul _ (/ (1 - c0))). apply in_map_iff. exists (e, c). auto.
        -- split; [|intros env He; rewrite Heq, Sev by auto; tauto].
           destruct (in_dec_var u) as [|Hall]; auto. exfalso.
           destruct (sub_constant inf u fixed (pick u) (proj1 Hc) Hne Hf) as (s' & Es' & Hs'); [|auto|].
           { intros k Hk. apply Hall. apply in_vks_true. auto. }
           assert (s' = s) as -> by congruence. unfold simplify in E. rewrite Hs' in E. cbn [dget] in E.
           rewrite decide_True in E by auto. cbn [length Nat.eqb] in E. rewrite andb_true_r in E.
           cbn [nsub nadd nopp n1 n0 R_num nleb nltb] in E. unfold Rleb, Rltb in E.
           destruct (Rle_dec _ _); [discriminate|]. destruct (Rlt_dec _ _); [discriminate|]. lra.
    + destruct (any_nonpositive h) eqn:EA.
      * intros env He. rewrite <- Sev by auto. auto.
      * exfalso. apply any_nonpositive_false in EA. destruct Hbad as (e' & c' & Hin & Hle).
        specialize (EA _ _ Hin). lra.
  - destruct HS as (c & Hs & Hle). split.
    + exists c. split; auto. intros env He. rewrite <- Sev by auto.
      rewrite Hs. cbn [eval]. rewrite mono_val_empty. lra.
    + intros k Hk Hfk. apply in_vks_true in Hk as (o & co & Hin & Ho).
      assert (Hsv : surviving fixed o = e_empty).
      { pose proof (sub_posy_key inf u fixed (pick u) s Hc Hp Hf (Hpick u) Es o co Hin) as Hk.
        rewrite Hs in Hk. destruct Hk as [<-|[]]. auto. }
      apply Ho. apply (f_equal (fun e : expv R => e !! k)) in Hsv. unfold e_empty in Hsv. rewrite lookup_empty in Hsv.
      unfold surviving in Hsv. apply lookup_difference_None in Hsv as [Hsv|[? Hsv]]; [auto|congruence].
  - intros env He. rewrite <- Sev by auto. auto.
Qed.

(** ** Posynomial inequality, from sides to solver form *)
Lemma posy_ineq_correct st (left right : hmap R) op : op <> OpEq ->
  is_posy (lesser left op right) -> is_mono (greater left op right) ->
  (forall e c, greater left op right = [(e, c)] -> no_clash (lesser left op right) e) ->
  match posy_ineq false left op right with
  | Err _ => forall env, ~ holds env left op right
  | Ok us =>
      match as_hmapslt1 inf pick fixed st us with
      | Err _ => forall env, positive_point env -> ~ holds (override env fixed) left op right
      | Ok (_, out) =>
          (forall v, In v out -> is_posy v /\ forall k, in_vks v k = true -> fixed !! k = None) /\
          (forall env, positive_point env -> holds (override env fixed) left op right -> sat env out) /\
          ((forall env, positive_point env -> sat env out -> holds (override env fixed) left op right) \/
           (out = [] /\ exists c, forall env, positive_point env ->
              eval (override env fixed) (lesser left op right) = c * eval (override env fixed) (greater left op right) /\
              c <= 1 + tolerance))
      end
  end.
Proof.
  intros Hop Hp Hm Hcl.
  assert (Hpi : posy_ineq false left op right = gen_unsubbed false (lesser left op right) (greater left op right))
    by (destruct op; [reflexivity|reflexivity|congruence]).
  assert (Hh : forall env, holds env left op right <-> eval env (lesser left op right) <= eval env (greater left op right))
    by (intros env; destruct op; cbn; [tauto|tauto|congruence]).
  rewrite Hpi. pose proof (gen_unsubbed_cases false _ _ Hp Hm Hcl) as HG.
  set (p := lesser left op right) in *. set (m := greater left op right) in *.
  destruct (gen_unsubbed false p m) as [[|u [|u2 us]]|x].
  - destruct HG as (c & Hc & He). cbn [as_hmapslt1]. split; [intros v []|]. split; [intros env Henv _ v []|].
    right. split; auto. exists c. intros env _. auto.
  - destruct HG as (Hun & Huc & _ & [(Hup & Heq & a & Ha & Htol)|(? & _)]); [|congruence].
    pose proof (as_hmapslt1_one st u Huc Hup Hun) as HO.
    destruct (as_hmapslt1 inf pick fixed st [u]) as [[st' [|v [|v2 vs]]]|x].
    + destruct HO as ((c & Hc & He) & _). split; [intros v []|]. split; [intros env Henv _ v []|].
      destruct (Rle_dec c 1) as [Hle|Hgt].
      * left. intros env Henv _. apply Hh. apply Heq. rewrite He; auto.
      * assert (P1 : positive_point (fun _ => 1)) by (intros ?; lra).
        right. split; auto. exists (a + (1 - a) * c). intros env Henv. rewrite Htol, He by auto.
        split; [reflexivity|]. unfold tolerance in *. nra.
    + destruct HO as (Hv & Hvk & _ & Hev). split; [intros w [<-|[]]; auto|]. split.
      * intros env Henv Hho w [<-|[]]. apply Hev; auto. apply Heq. apply Hh. auto.
      * left. intros env Henv Hs. apply Hh. apply Heq. apply Hev; auto. apply Hs. left; auto.
    + contradiction.
    + intros env Henv Hho. apply Hh in Hho. apply Heq in Hho. specialize (HO env Henv). lra.
  - contradiction.
  - intros env Hho. apply Hh in Hho. specialize (HG env). lra.
Qed.

(** ** Constants *)
Lemma as_hmapslt1_constant st (u : hmap R) : canonical u -> u <> [] ->
  (forall k, in_vks u k = true -> fixed !! k <> None) ->
  let value := eval (override (fun _ => 1) fixed) u in
  (value <= 1 + tolerance -> exists st', as_hmapslt1 inf pick fixed st [u] = Ok (st', [])) /\
  (1 + tolerance < value -> as_hmapslt1 inf pick fixed st [u] = Err PrimalInfeasibleE).
Proof.
  intros Hc Hne Hall value.
  destruct (sub_constant inf u fixed (pick u) (proj1 Hc) Hne Hf) as (s & Es & Hs); [|auto|].
  { intros k Hk. apply Hall. apply in_vks_true. auto. }
  cbn [as_hmapslt1]. rewrite Es. cbn [rbind]. rewrite Hs. fold value.
  unfold simplify. cbn [dget]. rewrite decide_True by auto. cbn [length Nat.eqb]. rewrite andb_true_r.
  cbn [nsub nadd nopp n1 n0 R_num nleb nltb]. rewrite feastol_tol. unfold Rleb, Rltb. split; intros Hv.
  - destruct (Rle_dec _ _); [|lra]. cbn [rbind]. eauto.
  - destruct (Rle_dec _ _); [lra|]. destruct (Rlt_dec _ _); [|lra]. reflexivity.
Qed.

(** ** Monomial equality *)
Lemma gen_mono se el cl er cr : exp_canon el -> exp_canon er -> 0 < cl -> 0 < cr ->
  gen_unsubbed (T := R) se [(el, cl)] [(er, cr)] =
  if decide (el = er) then (if Rle_dec (cl / cr) (1 + tolerance) then Ok [] else Err PrimalInfeasibleE)
  else Ok [[(exp_sub el er, cl / cr)]].
Proof.
  intros Hel Her Hl Hr. unfold gen_unsubbed.
  assert (Hcan : canonical [(el, cl)]).
  { split; [apply NoDup_singleton|]. intros e c [[= <- <-]|[]]. split; [auto|lra]. }
  assert (Hncl : no_clash [(el, cl)] er).
  { intros i j ei ci ej cj Hij Hi Hj. exfalso. apply lookup_lt_Some in Hj. cbn in Hj. lia. }
  rewrite (rename_loop_ok er cr [(el, cl)] Hcan Hncl). cbn [rbind map]. unfold divterm. cbn [fst snd].
  unfold simplify. cbn [dget].
  assert (Hq : 0 < cl / cr) by (apply Rdiv_lt_0_compat; auto).
  destruct (decide (e_empty = exp_sub el er)) as [He|He].
  - assert (el = er) as ->.
    { apply exp_canon_ext; auto. intros k. apply (f_equal (fun e => eget e k)) in He.
      rewrite eget_sub, eget_empty in He. lra. }
    rewrite decide_True by auto. cbn [length Nat.eqb]. rewrite andb_true_r.
    cbn [nsub nadd nopp n1 n0 R_num nleb nltb]. rewrite feastol_tol. unfold Rleb, Rltb.
    destruct (Rle_dec (cl / cr) _); destruct (Rle_dec (- tolerance) _); try lra; auto.
    destruct (Rlt_dec _ _); [auto|lra].
  - rewrite decide_False.
    2:{ intros ->. apply He. symmetry. apply map_eq. intros k. unfold e_empty. rewrite lookup_empty.
        assert (eget (exp_sub er er) k = 0) as Hz by (rewrite eget_sub; lra).
        destruct (exp_sub er er !! k) as [x|] eqn:E; auto. exfalso.
        assert (x <> 0).
        { eapply (exp_canon_add er (exp_neg er)); eauto. apply exp_canon_neg; auto. }
        unfold eget in Hz. rewrite E in Hz. auto. }
    cbn [rbind]. unfold signomial_init.
    replace (any_nonpositive [(exp_sub el er, cl / cr)]) with false.
    + reflexivity.
    + symmetry. apply any_nonpositive_false. intros e c [[= <- <-]|[]]. auto.
Qed.

Lemma exp_canon_sub a b : exp_canon a -> exp_canon b -> exp_canon (exp_sub a b).
Proof. intros Ha Hb. apply exp_canon_add; auto. apply exp_canon_neg; auto. Qed.

Lemma in_eget (e : expv R) k : exp_canon e -> e !! k <> None <-> eget e k <> 0.
Proof.
  intros He. unfold eget. destruct (e !! k) as [x|] eqn:E.
  - split; [intros _; eapply He; eauto|discriminate].
  - split; [congruence|lra].
Qed.

Lemma meq_correct st se (left right : hmap R) : is_mono left -> is_mono right ->
  match meq_unsubbed se left right with
  | Err _ => forall env, ~ holds env left OpEq right
  | Ok us =>
      match as_hmapslt1 inf pick fixed st us with
      | Err _ => forall env, positive_point env -> ~ holds (override env fixed) left OpEq right
      | Ok (_, out) =>
          (forall v, In v out -> is_posy v /\ forall k, in_vks v k = true -> fixed !! k = None) /\
          (forall env, positive_point env -> holds (override env fixed) left OpEq right -> sat env out) /\
          ((length out = 2%nat /\
            forall env, positive_point env -> sat env out -> holds (override env fixed) left OpEq right) \/
           (out = [] /\ exists c, c <= 1 + tolerance /\ / c <= 1 + tolerance /\ forall env, positive_point env ->
              eval (override env fixed) left = c * eval (override env fixed) right))
      end
  end.
Proof.
  intros (el & cl & -> & Hel & Hl) (er & cr & -> & Her & Hr). unfold meq_unsubbed.
  rewrite !gen_mono by auto.
  assert (Hinv : cr / cl = / (cl / cr)) by (field; lra).
  assert (Hq : 0 < cl / cr) by (apply Rdiv_lt_0_compat; auto).
  assert (Hev : forall env e c, eval env [(e, c)] = c * mono_val env e) by (intros; cbn [eval]; lra).
  unfold holds.
  destruct (decide (el = er)) as [<-|Hne].
  - rewrite (decide_True (P := el = el)) by auto.
    assert (K : forall env, eval env [(el, cl)] = (cl / cr) * eval env [(el, cr)]).
    { intros env. rewrite !Hev. field. lra. }
    assert (K1 : forall env, eval env [(el, cl)] = eval env [(el, cr)] -> cl / cr = 1).
    { intros env Hx. rewrite !Hev in Hx. apply Rmult_eq_reg_r in Hx; [|pose proof (mono_val_pos env el); lra].
      rewrite Hx. field. lra. }
    destruct (Rle_dec (cl / cr) (1 + tolerance)) as [H1|H1]; cbn [rbind].
    + destruct (Rle_dec (cr / cl) (1 + tolerance)) as [H2|H2]; cbn [rbind app as_hmapslt1].
      * split; [intros v []|]. split; [intros env _ _ v []|]. right. split; auto.
        exists (cl / cr). rewrite <- Hinv. auto.
      * intros env Hx. apply K1 in Hx. rewrite Hinv, Hx, Rinv_1 in H2. unfold tolerance in H2. lra.
    + intros env Hx. apply K1 in Hx. rewrite Hx in H1. unfold tolerance in H1. lra.
  - rewrite (decide_False (P := er = el)) by auto. cbn [rbind app].
    set (u1 := [(exp_sub el er, cl / cr)] : hmap R). set (u2 := [(exp_sub er el, cr / cl)] : hmap R).
    change (as_hmapslt1 inf pick fixed st _) with (as_hmapslt1 inf pick fixed st (@cons (hmap R) u1 (@cons (hmap R) u2 nil))).
    assert (E1 : forall env, eval env u1 = eval env [(el, cl)] / eval env [(er, cr)]).
    { intros env. unfold u1. rewrite !Hev, mono_val_sub. pose proof (mono_val_pos env er). field. lra. }
    assert (E2 : forall env, eval env u2 = eval env [(er, cr)] / eval env [(el, cl)]).
    { intros env. unfold u2. rewrite !Hev, mono_val_sub. pose proof (mono_val_pos env el). field. lra. }
    assert (Lp : forall env, 0 < eval env [(el, cl)])
      by (intros; rewrite Hev; apply Rmult_lt_0_compat; auto; apply mono_val_pos).
    assert (Rp : forall env, 0 < eval env [(er, cr)])
      by (intros; rewrite Hev; apply Rmult_lt_0_compat; auto; apply mono_val_pos).
    assert (Hiff : forall a b, 0 < a -> 0 < b -> (a / b <= 1 <-> a <= b)).
    { intros a b Ha Hb. split; intros Hx.
      - apply (Rmult_le_compat_r b) in Hx; [|lra]. unfold Rdiv in Hx. rewrite Rmult_assoc, Rinv_l in Hx by lra. lra.
      - apply (Rmult_le_reg_r b); [lra|]. unfold Rdiv. rewrite Rmult_assoc, Rinv_l by lra. lra. }
    assert (C1 : canonical u1).
    { split; [apply NoDup_singleton|]. intros e c [[= <- <-]|[]]. split; [apply exp_canon_sub; auto|lra]. }
    assert (C2 : canonical u2).
    { split; [apply NoDup_singleton|]. intros e c [[= <- <-]|[]]. split; [apply exp_canon_sub; auto|].
      rewrite Hinv. apply Rinv_neq_0_compat. lra. }
    assert (P1 : all_positive u1) by (intros e c [[= <- <-]|[]]; auto).
    assert (P2 : all_positive u2).
    { intros e c [[= <- <-]|[]]. rewrite Hinv. apply Rinv_0_lt_compat. auto. }
    assert (V : forall k, in_vks u1 k = true <-> in_vks u2 k = true).
    { intros k. rewrite !in_vks_true. unfold var_of, u1, u2. split; intros (e & c & [[= <- <-]|[]] & Hk).
      - exists (exp_sub er el), (cr / cl). split; [left; auto|]. revert Hk. rewrite !in_eget by (apply exp_canon_sub; auto).
        rewrite !eget_sub. lra.
      - exists (exp_sub el er), (cl / cr). split; [left; auto|]. revert Hk. rewrite !in_eget by (apply exp_canon_sub; auto).
        rewrite !eget_sub. lra. }
    rewrite as_hmapslt1_cons.
    pose proof (as_hmapslt1_one st u1 C1 P1 ltac:(discriminate)) as O1.
    destruct (as_hmapslt1 inf pick fixed st [u1]) as [[st1 [|v1 [|]]]|x]; [| |contradiction|].
    + destruct O1 as ((c1 & Hc1 & He1) & Hall1).
      pose proof (as_hmapslt1_one st1 u2 C2 P2 ltac:(discriminate)) as O2.
      destruct (as_hmapslt1 inf pick fixed st1 [u2]) as [[st2 [|v2 [|]]]|x]; [| |contradiction|].
      * destruct O2 as ((c2 & Hc2 & He2) & Hall2). cbn [app]. split; [intros v []|]. split; [intros env _ _ v []|].
        right. split; auto. exists c1.
        assert (Pt : positive_point (fun _ : nat => 1)) by (intros ?; lra).
        assert (c2 = / c1) as Hcc.
        { rewrite <- (He1 _ Pt), <- (He2 _ Pt), E1, E2.
          pose proof (Lp (override (fun _ => 1) fixed)). pose proof (Rp (override (fun _ => 1) fixed)). field. lra. }
        split; auto. split; [rewrite <- Hcc; auto|]. intros env Henv. rewrite <- (He1 env Henv), E1.
        pose proof (Rp (override env fixed)). field. lra.
      * destruct O2 as (_ & _ & (k & Hk & Hfk) & _). exfalso. apply V in Hk. apply (Hall1 k Hk Hfk).
      * intros env Henv Hx. specialize (O2 env Henv). rewrite E2, Hx in O2.
        pose proof (Rp (override env fixed)). unfold Rdiv in O2. rewrite Rinv_r in O2 by lra. lra.
    + destruct O1 as (Hv1 & Hk1 & (k & Hk & Hfk) & Hev1).
      pose proof (as_hmapslt1_one st1 u2 C2 P2 ltac:(discriminate)) as O2.
      destruct (as_hmapslt1 inf pick fixed st1 [u2]) as [[st2 [|v2 [|]]]|x]; [| |contradiction|].
      * destruct O2 as (_ & Hall). exfalso. apply V in Hk. apply (Hall k Hk Hfk).
      * destruct O2 as (Hv2 & Hk2 & _ & Hev2). cbn [app]. split; [intros v [<-|[<-|[]]]; auto|].
        assert (Heq : forall env, positive_point env -> (sat env [v1; v2] <->
          eval (override env fixed) [(el, cl)] = eval (override env fixed) [(er, cr)])).
        { intros env Henv. pose proof (Lp (override env fixed)). pose proof (Rp (override env fixed)).
          specialize (Hev1 env Henv). specialize (Hev2 env Henv). rewrite E1, Hiff in Hev1 by auto.
          rewrite E2, Hiff in Hev2 by auto. split.
          - intros Hs. apply Rle_antisym; [apply Hev1|apply Hev2]; apply Hs; [left|right; left]; auto.
          - intros Hx v [<-|[<-|[]]]; [apply Hev1|apply Hev2]; lra. }
        split; [intros env Henv Hx; apply Heq; auto|]. left. split; auto. intros env Henv Hs. apply Heq; auto.
      * intros env Henv Hx. specialize (O2 env Henv). rewrite E2, Hx in O2.
        pose proof (Rp (override env fixed)). unfold Rdiv in O2. rewrite Rinv_r in O2 by lra. lra.
    + intros env Henv Hx. specialize (O1 env Henv). rewrite E1, Hx in O1.
      pose proof (Rp (override env fixed)). unfold Rdiv in O1. rewrite Rinv_r in O1 by lra. lra.
Qed.

(** ** Signomial inequality *)
Lemma override_idem env : override (override env fixed) fixed = override env fixed.
Proof. apply FunctionalExtensionality.functional_extensionality. intros k. unfold override. destruct (fixed !! k); auto. Qed.

Lemma sub_nothing (u : hmap R) : (forall k, in_vks u k = true -> fixed !! k = None) ->
  nm_sub inf fixed u (pick u) = Ok (sub_init u).
Proof.
  intros Hk. unfold nm_sub. destruct (pick u) as [|[vk idxs] s] eqn:E; [reflexivity|].
  exfalso. destruct (Hpick u) as (_ & H2 & _). rewrite E in H2.
  destruct (proj1 (H2 vk)) as (Hfx & e & c & Hin & He); [left; auto|].
  assert (in_vks u vk = true) as Hv by (apply in_vks_true; exists e, c; auto). apply Hk in Hv. destruct Hfx as [? Hfx]. congruence.
Qed.

Lemma sub_any (h : hmap R) : canonical h ->
  exists st, nm_sub inf fixed h (pick h) = Ok st /\ (canonical (s_cp st) \/ s_cp st = zero_hmap) /\
    (forall e k v, In e (dkeys (s_cp st)) -> fixed !! k = Some v -> e !! k = None) /\
    forall env, positive_point env -> eval env (s_cp st) = eval (override env fixed) h.
Proof.
  intros Hc. pose proof (positive_defined fixed h Hf) as Hpd.
  destruct (sub_main inf h fixed (proj1 Hc) Hpd (pick h) (Hpick h)) as (st & E & _ & Hk & Hev).
  exists st. split; auto. split; [eapply sub_canonical; eauto|]. split; auto.
  intros env He. rewrite <- (evalp_pos env) by auto. rewrite Hev. apply evalp_pos. apply override_positive; auto.
Qed.

Lemma gen_unsubbed_vars se (p m u : hmap R) k : canonical p -> is_mono m ->
  (forall e c, m = [(e, c)] -> no_clash p e) -> gen_unsubbed se p m = Ok [u] ->
  in_vks u k = true -> in_vks p k = true \/ in_vks m k = true.
Proof.
  intros Hp (e & c & -> & He & Hc) Hcl Hg Hk. unfold gen_unsubbed in Hg.
  rewrite rename_loop_ok in Hg by eauto. cbn [rbind] in Hg.
  apply rbind_ok in Hg as (o & Eo & Hg). destruct o as [[|t l]|]; try discriminate.
  apply rbind_ok in Hg as (w & Hw & [= ->]). apply init_ok in Hw as [-> _].
  set (h := map (divterm e c) p) in *.
  assert (Hn : NoDup (dkeys h)) by (apply divterm_NoDup; auto).
  assert (Hk' : in_vks h k = true).
  { apply in_vks_true in Hk as (e' & c' & Hin & Hek). apply in_vks_true.
    destruct (simplify_some (fun _ => 1) h _ Hn Eo) as [[_ <-]|(c0 & _ & _ & _ & _ & Hh & _)]; [exists e', c'; auto|].
    rewrite Hh in Hin. apply In_ddel in Hin. apply in_map_iff in Hin as ([e2 c2] & [= <- <-] & Hin).
    exists e2, c2. auto. }
  apply in_vks_true in Hk' as (e' & c' & Hin & Hek). apply in_map_iff in Hin as ([e2 c2] & [= <- <-] & Hin).
  cbn [fst] in Hek. rewrite !in_vks_true. unfold var_of.
  destruct (e2 !! k) eqn:E2; [left; exists e2, c2; split; auto; congruence|].
  destruct (e !! k) eqn:E; [right; exists e, c; split; [left; auto|congruence]|].
  exfalso. apply Hek. unfold exp_sub, exp_neg, exp_mul. rewrite lookup_exp_add, lookup_fmap, E2, E. reflexivity.
Qed.

Lemma sig_correct se (siglt0 : hmap R) : canonical siglt0 ->
  (forall st e c, nm_sub inf fixed siglt0 (pick siglt0) = Ok st ->
     snd (posy_negy (s_cp st)) = [(e, c)] -> no_clash (fst (posy_negy (s_cp st))) e) ->
  match sig_as_hmapslt1 inf pick se fixed siglt0 with
  | Err x => x = InvalidGPConstraintE \/
      forall env, positive_point env -> 0 < eval (override env fixed) siglt0
  | Ok out =>
      (forall v, In v out -> is_posy v /\ forall k, in_vks v k = true -> fixed !! k = None) /\
      (forall env, positive_point env -> eval (override env fixed) siglt0 <= 0 -> sat env out) /\
      ((forall env, positive_point env -> sat env out -> eval (override env fixed) siglt0 <= 0) \/
       (out = [] /\ exists (p m : hmap R) c, c <= 1 + tolerance /\ forall env, positive_point env ->
          eval (override env fixed) siglt0 = eval env p - eval env m /\ 0 < eval env m /\ eval env p = c * eval env m))
  end.
Proof.
  intros Hc Hcl. unfold sig_as_hmapslt1.
  destruct (sub_any siglt0 Hc) as (st & E & Hcan & Hk & Hev). rewrite E. cbn [rbind].
  specialize (Hcl st).
  assert (Hnd : NoDup (dkeys (s_cp st))) by (destruct Hcan as [[]| ->]; [auto|apply NoDup_singleton]).
  destruct (posy_negy (s_cp st)) as [P N] eqn:EPN. cbn [fst snd] in Hcl.
  destruct (posy_negy_correct (s_cp st) P N Hnd EPN) as (Hval & HP & HN & Hrest).
  assert (HPp : all_positive P) by (intros e c Hin; apply HP in Hin; tauto).
  assert (HNp : all_positive N) by (intros e c Hin; apply HN in Hin; tauto).
  assert (Hs : forall env, positive_point env -> eval (override env fixed) siglt0 = eval env P - eval env N)
    by (intros env He; rewrite <- Hev by auto; auto).
  destruct (posy_negy_NoDup (s_cp st) Hnd) as [NP NN]. rewrite EPN in NP, NN. cbn [fst snd] in NP, NN.
  assert (HPv : forall k, in_vks P k = true -> fixed !! k = None).
  { intros k Hin. apply in_vks_true in Hin as (e & c & Hin & Hek). apply HP in Hin as [Hin _].
    destruct (fixed !! k) eqn:Ef; auto. exfalso. apply Hek. eapply Hk; eauto. apply in_map_iff. exists (e, c); auto. }
  assert (HNv : forall k, in_vks N k = true -> fixed !! k = None).
  { intros k Hin. apply in_vks_true in Hin as (e & c & Hin & Hek). apply HN in Hin as [Hin _].
    destruct (fixed !! k) eqn:Ef; auto. exfalso. apply Hek. eapply Hk; eauto. apply in_map_iff. exists (e, - c); auto. }
  destruct P as [|tp P'].
  { split; [intros v []|]. split; [intros env _ _ v []|]. left. intros env He _. rewrite Hs by auto. cbn [eval].
    destruct N; [cbn; lra|]. pose proof (eval_all_positive env _ HNp ltac:(discriminate)). lra. }
  destruct N as [|[ne nc] [|]].
  { right. intros env He. rewrite Hs by auto. cbn [eval].
    pose proof (eval_all_positive env _ HPp ltac:(discriminate)). cbn [eval] in *. lra. }
  2:{ left. auto. }
  set (P := tp :: P') in *. set (N := [(ne, nc)] : hmap R) in *.
  assert (Hcs : canonical (s_cp st)).
  { destruct Hcan as [|Hz]; auto. exfalso. destruct tp as [e c].
    destruct (proj1 (HP e c) (or_introl eq_refl)) as [Hin Hpos]. rewrite Hz in Hin.
    destruct Hin as [[= <- <-]|[]]. lra. }
  assert (CP : is_posy P).
  { split; [split; auto|split; auto; discriminate]. intros e c Hin. apply HP in Hin as [Hin _]. apply Hcs. auto. }
  assert (CN : is_mono N).
  { exists ne, nc. split; auto. destruct (proj1 (HN ne nc) (or_introl eq_refl)) as [Hin Hpos]. split; auto.
    apply (proj2 Hcs _ _ Hin). }
  assert (Hcl' : forall e c, N = [(e, c)] -> no_clash P e) by (intros e c Hx; apply (Hcl e c); auto).
  assert (Hnot : forall env, eval env N < eval env P -> positive_point env -> 0 < eval (override env fixed) siglt0)
    by (intros env Hx He; rewrite Hs by auto; lra).
  assert (Hov : forall env, positive_point env -> positive_point (override env fixed))
    by (intros env He; apply override_positive; auto).
  pose proof (gen_unsubbed_cases se P N CP CN Hcl') as HG.
  pose proof (fun u k => gen_unsubbed_vars se P N u k (proj1 CP) CN Hcl') as HV.
  destruct (gen_unsubbed se P N) as [[|u [|u2 us]]|x]; cbn [rbind].
  - destruct HG as (c & Hle & He). cbn [as_hmapslt1 rbind snd].
    split; [intros v []|]. split; [intros env _ _ v []|]. right. split; auto. exists P, N, c. split; auto.
    intros env Henv. split; [auto|]. split; auto. apply eval_all_positive; [auto|discriminate].
  - assert (Huk : forall k, in_vks u k = true -> fixed !! k = None).
    { intros k Hin. destruct (HV u k eq_refl Hin) as [Hx|Hx]; auto. }
    destruct HG as (Hun & Huc & Hunc & [(Hup & Heq & a & Ha & Htol)|(_ & Hbad & Hinf)]).
    + pose proof (as_hmapslt1_one (CS None None) u Huc Hup Hun) as HO.
      destruct (as_hmapslt1 inf pick fixed (CS None None) [u]) as [[st' [|v [|v2 vs]]]|x]; cbn [rbind snd].
      * destruct HO as (_ & Hall). exfalso.
        destruct u as [|[e c] u]; [congruence|].
        assert (e = e_empty) as ->.
        { apply map_eq. intros k. unfold e_empty. rewrite lookup_empty. destruct (e !! k) eqn:Ek; auto. exfalso.
          assert (in_vks ((e, c) :: u) k = true) as Hin.
          { apply in_vks_true. exists e, c. split; [left; auto|congruence]. }
          apply (Hall k Hin). apply Huk. auto. }
        cbn [dget] in Hunc. rewrite decide_True in Hunc by auto. discriminate.
      * destruct HO as (Hv & Hvk & _ & Hve). split; [intros w [<-|[]]; auto|].
        assert (Heqv : forall env, positive_point env -> (eval env v <= 1 <-> eval (override env fixed) siglt0 <= 0)).
        { intros env He. rewrite Hve by auto. rewrite Heq.
          specialize (Hs (override env fixed) (Hov env He)). rewrite override_idem in Hs. rewrite Hs. lra. }
        split; [intros env He Hx w [<-|[]]; apply Heqv; auto|]. left. intros env He Hx. apply Heqv; auto. apply Hx. left; auto.
      * contradiction.
      * right. intros env He. specialize (HO env He).
        specialize (Hs (override env fixed) (Hov env He)). rewrite override_idem in Hs. rewrite Hs.
        assert (~ eval (override env fixed) P <= eval (override env fixed) N) by (rewrite <- Heq; lra). lra.
    + cbn [as_hmapslt1]. rewrite (sub_nothing u Huk). cbn [rbind sub_init s_cp]. unfold simplify. rewrite Hunc. cbn [rbind].
      destruct (any_nonpositive u) eqn:EA; [left; auto|]. exfalso. apply any_nonpositive_false in EA.
      destruct Hbad as (e' & c' & Hin & Hle). specialize (EA _ _ Hin). lra.
  - contradiction.
  - right. intros env He. apply Hnot; auto.
Qed.
End Subbed.

(** The two sides of a signomial inequality. *)
Lemma sig_ineq_correct se (left right siglt0 : hmap R) op : canonical left -> canonical right ->
  sig_ineq se left op right = Ok siglt0 ->
  canonical siglt0 /\ forall env, positive_point env -> (eval env siglt0 <= 0 <-> holds env left op right).
Proof.
  intros Hl Hr. unfold sig_ineq. destruct (negb se); [discriminate|].
  assert (G : forall a b : hmap R, canonical a -> canonical b ->
    match py_sub se (VNom a) (VNom b) with
    | Ok (VNom h) => Ok h | Ok (VNum c) => Ok (num_hmap c) | Err e => Err e end = Ok siglt0 ->
    canonical siglt0 /\ forall env, positive_point env -> eval env siglt0 = eval env a - eval env b).
  { intros a b Ha Hb Hx. destruct (py_sub se (VNom a) (VNom b)) as [[c|h]|x] eqn:E; [| |discriminate].
    - exfalso. destruct (py_sub_cases _ _ _ _ E) as [(x & y & ? & _)|Hv]; [discriminate|].
      apply rbind_ok in Hv as (nb & Hn & Hv). unfold py_neg in Hn. destruct se; [|discriminate].
      unfold py_mul in Hn. destruct (decide _) as [D|D] in Hn; [cbn in D; lra|].
      apply rmap_ok in Hn as (h' & _ & ->). unfold py_add in Hv.
      destruct h' as [|]; [destruct a as [|]|]; try discriminate.
      + destruct (decide _); [discriminate|]. apply rmap_ok in Hv as (? & _ & ?). discriminate.
      + apply rmap_ok in Hv as (? & _ & ?). discriminate.
    - injection Hx as ->. split; [eapply (canon_py_sub se (VNom a) (VNom b) (VNom siglt0)); eauto|].
      intros env He. eapply (val_py_sub se env (VNom a) (VNom b) (VNom siglt0)); eauto. }
  destruct op; [| |discriminate]; intros Hx.
  - destruct (G left right Hl Hr Hx) as [C V]. split; auto. intros env He. rewrite (V env He). cbn. lra.
  - destruct (G right left Hr Hl Hx) as [C V]. split; auto. intros env He. rewrite (V env He). cbn. lra.
Qed.

(** ** The approximation of a signomial inequality *)
Lemma eval_agree env env' (h : hmap R) : (forall k, in_vks h k = true -> env k = env' k) -> eval env h = eval env' h.
Proof.
  induction h as [|[e c] h IH]; intros Hk; cbn [eval]; auto. f_equal.
  - f_equal. unfold mono_val. assert (Hk' : forall k, e !! k <> None -> env k = env' k).
    { intros k Hx. apply Hk. apply in_vks_true. exists e, c. split; [left; auto|auto]. }
    clear - Hk'. induction e as [|k a e Hn IH] using map_ind; [rewrite !map_fold_empty; auto|].
    rewrite !map_fold_insert_L by (auto; intros; lra). rewrite IH.
    + rewrite Hk' by (rewrite lookup_insert; discriminate). auto.
    + intros j Hj. apply Hk'. destruct (decide (k = j)) as [->|]; [congruence|]. rewrite lookup_insert_ne; auto.
  - apply IH. intros k Hx. apply Hk. apply in_vks_true in Hx as (e' & c' & Hin & Hx). apply in_vks_true.
    exists e', c'. split; [right; auto|auto].
Qed.

Lemma x0_of_lookup (guess : gmap nat R) vks k : NoDup vks ->
  x0_of guess vks !! k = if in_dec Nat.eq_dec k vks then Some (default 1 (guess !! k)) else None.
Proof.
  intros Hn. unfold x0_of. destruct (in_dec Nat.eq_dec k vks) as [Hin|Hin].
  - apply elem_of_list_to_map_1.
    + rewrite <- list_fmap_compose. change (NoDup (map (fun x => x) vks)). rewrite map_id. auto.
    + apply elem_of_list_In. apply in_map_iff. exists k. split; auto.
  - apply not_elem_of_list_to_map_1. intros Hk. apply Hin. apply elem_of_list_In in Hk.
    apply in_map_iff in Hk as ([k' v] & <- & Hk). apply in_map_iff in Hk as (k2 & [= <- _] & Hk). auto.
Qed.

Lemma gpconstr_correct inf pick0 se (guess : gmap nat R) (siglt0 P N : hmap R) vks :
  canonical siglt0 -> posy_negy siglt0 = (P, N) -> P <> [] -> N <> [] ->
  (forall k v, guess !! k = Some v -> 0 < v) ->
  NoDup vks -> (forall k, In k vks <-> in_vks N k = true) ->
  (forall x0 h, valid_schedule x0 h (pick0 x0 h)) ->
  exists me mc, mono_approx inf (x0_of guess vks) (pick0 (x0_of guess vks)) se N vks = Ok [(me, mc)] /\
  (no_clash P me ->
   let x0 := override (fun _ => 1) guess in
   match as_gpconstr inf pick0 se guess siglt0 vks with
   | Err _ => forall env, positive_point env -> (forall k, In k vks -> env k = x0 k) -> 0 < eval env siglt0
   | Ok l =>
       (forall u, In u l -> all_positive u) ->
       ((forall env, positive_point env -> sat env l -> eval env siglt0 <= 0) \/
        (l = [] /\ exists c, c <= 1 + tolerance /\ forall env, eval env P = c * eval env [(me, mc)])) /\
       (forall env, positive_point env -> (forall k, In k vks -> env k = x0 k) ->
          eval env siglt0 <= 0 -> sat env l)
   end).
Proof.
  intros Hc EPN HP0 HN0 Hg Hnv Hvk Hpk.
  destruct (posy_negy_correct siglt0 P N (proj1 Hc) EPN) as (Hval & HP & HN & _ & NP & NN).
  assert (HPp : all_positive P) by (intros e c Hin; apply HP in Hin; tauto).
  assert (HNp : all_positive N) by (intros e c Hin; apply HN in Hin; tauto).
  assert (CN : canonical N).
  { split; auto. intros e c Hin. apply HN in Hin as [Hin Hcp]. split; [|lra]. apply (proj2 Hc _ _ Hin). }
  set (x := x0_of guess vks).
  assert (Hx1 : forall k v, x !! k = Some v -> 0 < v).
  { intros k v Hk. unfold x in Hk. rewrite x0_of_lookup in Hk by auto.
    destruct (in_dec _ _ _); [|discriminate]. injection Hk as <-. destruct (guess !! k) eqn:Eg; cbn; [eauto|lra]. }
  assert (Hx2 : forall k, in_vks N k = true -> x !! k <> None).
  { intros k Hk. unfold x. rewrite x0_of_lookup by auto. destruct (in_dec _ _ _) as [|Hn]; [discriminate|].
    exfalso. apply Hn, Hvk. auto. }
  assert (Hpos : 0 < eval (override (fun _ => 1) x) N) by (apply eval_all_positive; auto).
  destruct (mono_approx_total inf x (pick0 x) se N vks CN HN0 Hx1 Hx2 (Hpk x) Hnv Hvk ltac:(lra) (or_introl Hpos))
    as (me & mc & EM & Hme).
  exists me, mc. split; auto. intros Hcl x0.
  pose proof (mono_approx_lower inf x (pick0 x) se N vks _ CN HN0 HNp Hx1 Hx2 (Hpk x) Hnv Hvk EM) as Hlow.
  destruct (mono_approx_tangent inf x (pick0 x) se N vks _ CN HN0 Hx1 Hx2 (Hpk x) Hnv Hvk ltac:(lra) EM) as [Htan _].
  assert (CP : is_posy P).
  { split; [split; auto|split; auto]. intros e c Hin. apply HP in Hin as [Hin _]. apply Hc. auto. }
  assert (CM : is_mono [(me, mc)]).
  { exists me, mc. split; auto. split; auto.
    assert (P1 : positive_point (fun _ : nat => 1)) by (intros ?; lra).
    specialize (Hlow _ P1). cbn [eval] in Hlow. pose proof (mono_val_pos (fun _ => 1) me).
    destruct Hlow as [Hl _]. apply Rnot_le_lt. intros Hle. nra. }
  assert (Hev : forall env (h : hmap R), (forall k, in_vks h k = true -> In k vks) ->
    (forall k, In k vks -> env k = x0 k) -> eval env h = eval (override (fun _ => 1) x) h).
  { intros env h Hh Hk. apply eval_agree. intros k Hin. unfold x0 in Hk. specialize (Hh k Hin).
    rewrite Hk by auto. unfold override, x. rewrite x0_of_lookup by auto.
    destruct (in_dec _ _ _); [|contradiction]. destruct (guess !! k); auto. }
  assert (HMv : forall k, in_vks [(me, mc)] k = true -> In k vks).
  { intros k Hk. apply Hvk.
    exact (mono_approx_vars inf x (pick0 x) se N vks _ CN HN0 Hx1 Hx2 (Hpk x) Hnv Hvk ltac:(lra) (or_introl Hpos) EM k Hk). }
  assert (Hat : forall env, (forall k, In k vks -> env k = x0 k) -> eval env [(me, mc)] = eval env N).
  { intros env Hk. rewrite !(Hev env) by (auto; intros k Hin; apply Hvk; auto). exact Htan. }
  unfold as_gpconstr. rewrite EPN. destruct N as [|tn N']; [congruence|].
  fold x. rewrite EM. cbn [rbind]. destruct P as [|tp P']; [congruence|]. cbn [rbind posy_ineq].
  assert (Hcl' : forall e c, [(me, mc)] = [(e, c)] -> no_clash (tp :: P') e) by (intros e c [= <- <-]; auto).
  pose proof (gen_unsubbed_cases se (tp :: P') [(me, mc)] CP CM Hcl') as HG.
  destruct (gen_unsubbed se (tp :: P') [(me, mc)]) as [[|u [|u2 us]]|e].
  - intros _. destruct HG as (c & Hle & He). split; [right; eauto|]. intros env _ _ _ v [].
  - intros Hap. specialize (Hap u (or_introl eq_refl)).
    destruct HG as (Hun & Huc & Hunc & [(Hup & Heq & a & Ha & Htol)|(_ & Hbad & Hinf)]).
    + split.
      * left. intros env He Hs. rewrite Hval. specialize (Hs u (or_introl eq_refl)). apply Heq in Hs.
        specialize (Hlow env He). lra.
      * intros env He Hk Hle v [<-|[]]. apply Heq. rewrite Hat by auto. rewrite Hval in Hle. lra.
    + exfalso. destruct Hbad as (e' & c' & Hin & Hle). specialize (Hap _ _ Hin). lra.
  - contradiction.
  - intros env He Hk. rewrite Hval. specialize (HG env). rewrite Hat in HG by auto. lra.
Qed.

(** ** Relaxation *)
Lemma eval_var env k : 0 < env k -> eval env (var_hmap (T := R) k) = env k.
Proof. intros Hk. unfold var_hmap. cbn [eval]. cbn [n1 R_num]. rewrite mono_val_singleton by auto. lra. Qed.

Lemma relaxed_at env rv left op right : 0 < env rv ->
  (holds_all env (relaxed rv left op right) <->
   match op with
   | OpGe => eval env right <= env rv * eval env left
   | OpLe => eval env left <= env rv * eval env right
   | OpEq => eval env left <= env rv * eval env right /\ eval env right <= env rv * eval env left
   end).
Proof.
  intros Hr. unfold holds_all, relaxed.
  assert (M : forall h, eval env (smul (var_hmap rv) h) = env rv * eval env h).
  { intros h. rewrite eval_smul, eval_var by auto. auto. }
  destruct op; cbn [In]; split.
  - intros Hx. specialize (Hx _ _ _ (or_introl eq_refl)). cbn [holds] in Hx. rewrite M in Hx. auto.
  - intros Hx a op b [[= <- <- <-]|[]]. cbn [holds]. rewrite M. auto.
  - intros Hx. specialize (Hx _ _ _ (or_introl eq_refl)). cbn [holds] in Hx. rewrite M in Hx. auto.
  - intros Hx a op b [[= <- <- <-]|[]]. cbn [holds]. rewrite M. auto.
  - intros Hx. pose proof (Hx _ _ _ (or_introl eq_refl)) as H1. pose proof (Hx _ _ _ (or_intror (or_introl eq_refl))) as H2.
    cbn [holds] in H1, H2. rewrite M in H1, H2. auto.
  - intros [H1 H2] a op b [[= <- <- <-]|[[= <- <- <-]|[]]]; cbn [holds]; rewrite M; auto.
Qed.

Lemma eval_upd_absent env k t (h : hmap R) : in_vks h k = false -> eval (upd env k t) h = eval env h.
Proof.
  intros Hk. apply eval_agree. intros j Hj. unfold upd. destruct (decide (j = k)) as [->|]; [congruence|auto].
Qed.

Lemma relaxed_one env rv left op right : env rv = 1 ->
  (holds_all env (relaxed rv left op right) <-> holds env left op right).
Proof.
  intros Hr. rewrite relaxed_at by lra. rewrite Hr. destruct op; cbn [holds]; lra.
Qed.

Lemma relaxed_mono env rv left op right r r' : positive_point env -> all_positive left -> all_positive right ->
  in_vks left rv = false -> in_vks right rv = false -> 0 < r <= r' ->
  holds_all (upd env rv r) (relaxed rv left op right) -> holds_all (upd env rv r') (relaxed rv left op right).
Proof.
  intros He Hl Hr Vl Vr Hrr.
  assert (U : forall t, upd env rv t rv = t) by (intros; unfold upd; rewrite decide_True; auto).
  rewrite !relaxed_at by (rewrite U; lra). rewrite !U, !eval_upd_absent by auto.
  assert (NN : forall h : hmap R, all_positive h -> 0 <= eval env h).
  { intros h Hh. destruct h; [cbn; lra|]. left. apply eval_all_positive; [auto|discriminate]. }
  pose proof (NN left Hl). pose proof (NN right Hr). destruct op; nra.
Qed.

(** ** Terms that clash in the renaming loop *)
Lemma clash_drops se (e1 e2 m : expv R) c1 c2 cm : e1 <> e2 -> exp_sub e1 m = e2 -> exp_sub e2 m <> e_empty ->
  0 < c1 -> 0 < cm ->
  gen_unsubbed se [(e1, c1); (e2, c2)] [(m, cm)] = Ok [[(exp_sub e2 m, c1 / cm / cm)]].
Proof.
  intros Hne H1 H2 Hc1 Hcm. unfold gen_unsubbed. cbn [dkeys map fst rename_loop]. unfold rename_step at 1. cbn [dget].
  rewrite decide_True by auto. cbn [ddel]. rewrite decide_True by auto. rewrite H1. cbn [dset].
  rewrite decide_True by auto. cbn [rbind]. unfold rename_step. cbn [dget]. rewrite decide_True by auto.
  cbn [ddel]. rewrite decide_True by auto. cbn [dset rbind]. unfold simplify. cbn [dget].
  rewrite decide_False by auto. cbn [rbind]. unfold signomial_init.
  change (ndiv (ndiv c1 cm) cm) with (c1 / cm / cm).
  replace (any_nonpositive [(exp_sub e2 m, c1 / cm / cm)]) with false; [reflexivity|].
  symmetry. apply any_nonpositive_false. intros e c [[= <- <-]|[]]. repeat apply Rdiv_lt_0_compat; auto.
Qed.

(** Positive terms come from positive terms. *)
Lemma positive_origin inf pick (fixed : gmap nat R) (h : hmap R) st :
  (forall k v, fixed !! k = Some v -> 0 < v) -> (forall h', valid_schedule fixed h' (pick h')) -> canonical h ->
  nm_sub inf fixed h (pick h) = Ok st -> forall e c, In (e, c) (fst (posy_negy (s_cp st))) ->
  exists o co, In (o, co) h /\ 0 < co /\ surviving fixed o = e.
Proof.
  intros Hf Hpk Hc E e c Hin. pose proof (positive_defined fixed h Hf) as Hpd.
  destruct (sub_main inf h fixed (proj1 Hc) Hpd (pick h) (Hpk h)) as (st' & E' & Hg & _).
  assert (st' = st) as -> by congruence. pose proof (g_nd _ _ _ Hg) as Hn.
  apply posy_negy_posy in Hin as [Hin Hpos]; auto. apply In_dget in Hin; auto.
  assert (Hcf : coef (s_cp st) e = c) by (unfold coef; rewrite Hin; auto).
  rewrite (final_coef inf h fixed (proj1 Hc) Hpd (pick h) st e (Hpk h) E) in Hcf.
  destruct (Classical_Prop.classic (exists o co, In (o, co) h /\ 0 < co /\ surviving fixed o = e)) as [|Hno]; auto.
  exfalso. assert (lsum (fun t : expv R * R => if decide (surviving fixed (fst t) = e)
       then snd t * subval fixed (fst t) else 0) h <= lsum (fun _ => 0) h); [|rewrite lsum_zero in *; lra].
  apply lsum_le. intros [o co] Ho. cbn [fst snd]. destruct (decide _); [|lra].
  assert (co <= 0) by (apply Rnot_lt_le; intros Hx; apply Hno; exists o, co; auto).
  assert (0 < subval fixed o).
  { rewrite subval_mono_valp, mono_valp_pos; [apply mono_val_pos|]. apply override_positive; auto. intros ?; lra. }
  nra.
Qed.

Lemma single_no_clash (p : hmap R) e0 m : NoDup (dkeys p) -> (forall e c, In (e, c) p -> e = e0) -> no_clash p m.
Proof.
  intros Hn He i j ei ci ej cj Hij Hi Hj. exfalso.
  assert (ei = e0) as -> by (eapply He; apply lookup_In; eauto).
  assert (ej = e0) as -> by (eapply He; apply lookup_In; eauto).
  assert (i = j); [|lia]. eapply (NoDup_lookup (dkeys p)); eauto; unfold dkeys; rewrite lookup_map.
  - unfold hmap in *. rewrite Hi. reflexivity.
  - unfold hmap in *. rewrite Hj. reflexivity.
Qed.

Lemma mono_val_ones (e : expv R) : mono_val (fun _ => 1) e = 1.
Proof.
  unfold mono_val. induction e as [|k a e Hk IH] using map_ind; [apply map_fold_empty|].
  rewrite map_fold_insert_L by (auto; intros; lra). rewrite IH. unfold Rpower. rewrite ln_1, Rmult_0_r, exp_0. lra.
Qed.
