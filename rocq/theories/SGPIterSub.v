(** What a solution of one geometric program of a sequence says about the signomials it approximates (C36). *)
From Verif Require Import Base HashVec HashVecProofs Nomial NomialSem NomialProofs CanonProofs DiffProofs Sub SubSem SubProofs SubExtra
  Mono MonoProofs Constraint ConstraintSem ConstraintProofs GPGen GPGenProofs SGP SGPSem SGPProofs ApproxProofs RebuildProofs
  SGPIterSpec SGPIterProofs.
Open Scope R_scope.

(** ** Substituting into a constraint a geometric program accepts *)
Section Sub.
Variables (inf : R) (pick : hmap R -> schedule) (fixed : gmap nat R).
Hypothesis Hf : forall k v, fixed !! k = Some v -> 0 < v.
Hypothesis Hpick : forall h, valid_schedule fixed h (pick h).

Lemma mono_val_override env e : mono_val (override env fixed) e = subval fixed e * mono_val env (surviving fixed e).
Proof.
  unfold surviving. induction e as [|k x e Hk IH] using map_ind.
  - unfold subval. replace ((∅ : expv R) ∖ fixed) with (∅ : expv R) by (symmetry; apply map_eq; intros j; rewrite lookup_difference_None, lookup_empty; auto). rewrite map_fold_empty. unfold mono_val. rewrite !map_fold_empty. ring.
  - rewrite subval_insert by auto. rewrite mono_val_insert by auto. rewrite IH. unfold override at 1. destruct (fixed !! k) as [v|] eqn:Ev.
    + assert ((<[k:=x]> e) ∖ fixed = e ∖ fixed) as ->.
      { apply map_eq. intros j. apply option_eq. intros y. rewrite !lookup_difference_Some.
        destruct (decide (j = k)) as [->|]; [split; intros [_ E]; congruence|rewrite lookup_insert_ne by auto; tauto]. }
      rewrite Rpow_pos by eauto. ring.
    + assert ((<[k:=x]> e) ∖ fixed = <[k:=x]> (e ∖ fixed)) as ->.
      { apply map_eq. intros j. apply option_eq. intros y. rewrite lookup_difference_Some.
        destruct (decide (j = k)) as [->|].
        - rewrite !lookup_insert. split; [tauto|auto].
        - rewrite !lookup_insert_ne, lookup_difference_Some by auto. tauto. }
      rewrite mono_val_insert by (apply lookup_difference_None; auto). ring.
Qed.

Lemma subval_pos e : 0 < subval fixed e.
Proof.
  rewrite subval_mono_valp, mono_valp_pos; [apply mono_val_pos|]. apply override_positive; auto. intros ?; lra.
Qed.

(** A term of the negative part after substitution is at most the negative part. *)
Lemma negative_part_shrinks (h : hmap R) st e0 c0 P N env : canonical h -> nm_sub inf fixed h (pick h) = Ok st ->
  dget (s_cp st) e0 = Some (- c0) -> posy_negy h = (P, N) -> positive_point env ->
  c0 * mono_val env e0 <= eval (override env fixed) N.
Proof.
  intros Hc Es Hd EPN He. pose proof (positive_defined fixed h Hf) as Hpd.
  assert (Hco : - c0 = coef (s_cp st) e0) by (unfold coef; rewrite Hd; auto).
  rewrite (final_coef inf h fixed (proj1 Hc) Hpd _ st e0 (Hpick h) Es) in Hco.
  rewrite posy_negy_filter in EPN by apply Hc. injection EPN as _ <-. rewrite eval_lsum, lsum_map, lsum_filter'.
  replace (c0 * mono_val env e0) with (- mono_val env e0 * (- c0)) by ring. rewrite Hco, <- lsum_scale. apply lsum_le.
  intros [e c] _. cbn [fst snd]. rewrite mono_val_override.
  pose proof (subval_pos e). pose proof (mono_val_pos env (surviving fixed e)). pose proof (mono_val_pos env e0).
  assert (0 < subval fixed e * mono_val env (surviving fixed e)) by (apply Rmult_lt_0_compat; auto).
  destruct (Rltb c 0) eqn:Ec.
  - apply Rltb_true in Ec. dcase D.
    + rewrite D. apply Req_le. ring.
    + rewrite Rmult_0_r. apply Rlt_le. nra.
  - assert (0 <= c) by (apply Rnot_lt_le; intros Hl; apply Rltb_true in Hl; congruence).
    dcase D; [|lra]. assert (0 <= c * subval fixed e) by nra. nra.
Qed.

Lemma sig_within se (h P N : hmap R) out env : canonical h ->
  (forall st e c, nm_sub inf fixed h (pick h) = Ok st ->
     snd (posy_negy (s_cp st)) = [(e, c)] -> no_clash (fst (posy_negy (s_cp st))) e) ->
  sig_as_hmapslt1 inf pick se fixed h = Ok out -> posy_negy h = (P, N) ->
  positive_point env -> sat env out ->
  eval (override env fixed) P <= (1 + tolerance) * eval (override env fixed) N.
Proof.
  intros Hc Hcl E EPN He Hsat.
  pose proof (sig_correct inf pick fixed Hf Hpick se h Hc Hcl) as HS. rewrite E in HS. destruct HS as (_ & _ & HS).
  destruct (posy_negy_correct h P N (proj1 Hc) EPN) as (Hval & HP & HN & _).
  assert (HN0 : 0 <= eval (override env fixed) N).
  { destruct (decide (N = [])) as [->|Hne]; [cbn; lra|]. apply Rlt_le, eval_all_positive; auto. intros e c Hin. apply HN in Hin. tauto. }
  specialize (Hval (override env fixed)).
  assert (Htol : 0 < tolerance) by (unfold tolerance; lra).
  destruct HS as [HS|(-> & _)]; [specialize (HS env He Hsat); nra|].
  unfold sig_as_hmapslt1 in E. destruct (sub_any inf pick fixed Hf Hpick h Hc) as (st & Es & Hcan & Hk & Hev).
  rewrite Es in E. cbn [rbind] in E. specialize (Hcl st).
  assert (Hnd : NoDup (dkeys (s_cp st))) by (destruct Hcan as [[]| ->]; [auto|apply NoDup_singleton]).
  destruct (posy_negy (s_cp st)) as [p n] eqn:Epn. cbn [fst snd] in Hcl.
  destruct (posy_negy_correct (s_cp st) p n Hnd Epn) as (Hv & Hp & Hn & _ & NP & NN).
  assert (Hev' : eval (override env fixed) P - eval (override env fixed) N = eval env p - eval env n)
    by (rewrite <- Hval, <- Hev, Hv by auto; auto).
  assert (Hcan' : forall x : hmap R, NoDup (dkeys x) -> (forall e c, In (e, c) x -> 0 < c /\ In e (dkeys (s_cp st))) -> canonical x).
  { intros x Hx Hi. split; auto. intros e c Hin. destruct (Hi e c Hin) as [Hpos Hin2]. split; [|lra].
    destruct Hcan as [[_ Hc2]|Hz].
    - apply in_map_iff in Hin2 as ([e' c'] & <- & Hin2). apply (Hc2 _ _ Hin2).
    - rewrite Hz in Hin2. destruct Hin2 as [<-|[]]. intros k y. cbn. unfold e_empty. rewrite lookup_empty. discriminate. }
  destruct p as [|tp p']; [cbn [eval] in Hev'; assert (0 <= eval env n); [|nra]|].
  { destruct (decide (n = [])) as [->|Hne]; [cbn; lra|]. apply Rlt_le, eval_all_positive; auto. intros e c Hin. apply Hn in Hin. tauto. }
  destruct n as [|[ne nc] [|]]; try discriminate.
  remember (tp :: p') as p eqn:Ep.
  assert (Hn1 : In (ne, - nc) (s_cp st) /\ 0 < nc) by (apply Hn; left; auto).
  assert (Hbound : eval env [(ne, nc)] <= eval (override env fixed) N).
  { cbn [eval]. rewrite Rplus_0_r. eapply negative_part_shrinks; eauto. apply In_dget; [auto|apply Hn1]. }
  assert (Hposn : 0 < eval env [(ne, nc)]) by (apply eval_all_positive; [|discriminate]; intros e c [[= <- <-]|[]]; apply Hn1).
  assert (Hle : eval env p <= (1 + tolerance) * eval env [(ne, nc)]); [|nra].
  assert (Hposp : is_posy p).
  { split; [|split; [|subst p; discriminate]].
    - apply Hcan'; auto. intros e c Hin. apply Hp in Hin as [Hin Hc0]. split; auto. apply in_map_iff. exists (e, c). auto.
    - intros e c Hin. apply Hp in Hin. tauto. }
  assert (Hmon : is_mono [(ne, nc)]).
  { exists ne, nc. split; auto. split; [|apply Hn1]. 
    destruct (Hcan' [(ne, nc)] NN) as [_ Hc2]; [|apply (Hc2 ne nc); left; auto].
    intros e c [[= <- <-]|[]]. split; [apply Hn1|]. apply in_map_iff. exists (ne, - nc). split; [auto|apply Hn1]. }
  pose proof (gen_unsubbed_cases se p [(ne, nc)] Hposp Hmon) as HG.
  assert (Hcl' : forall e c, [(ne, nc)] = [(e, c)] -> no_clash p e) by (intros e c [= <- <-]; apply (Hcl ne nc Es eq_refl)).
  specialize (HG Hcl'). rewrite Ep in E. rewrite <- Ep in E.
  destruct (gen_unsubbed se p [(ne, nc)]) as [us|x] eqn:Eg; [|destruct tp; discriminate].
  assert (E1 : exists r, as_hmapslt1 inf pick fixed (CS None None) us = Ok r /\ snd r = []).
  { cbn [rbind] in E. apply rbind_ok in E as (r & E1 & E). exists r. split; [exact E1|congruence]. }
  destruct E1 as ([st' l] & E1 & El). cbn [snd] in El. subst l.
  destruct us as [|u [|]]; [| |contradiction].
  - destruct HG as (c & Hc1 & Hc2). rewrite Hc2. nra.
  - destruct HG as (U1 & U2 & U3 & [(U4 & U5 & a & Ha & U6)|(_ & (e & c & Hin & Hneg) & _)]).
    + pose proof (as_hmapslt1_one inf pick fixed Hf Hpick (CS None None) u U2 U4 U1) as HO. rewrite E1 in HO.
      destruct HO as [(c & Hc1 & Hc2) _]. specialize (Hc2 env He).
      assert (Hpv : forall x : hmap R, (forall k, in_vks x k = true -> fixed !! k = None) -> eval (override env fixed) x = eval env x).
      { intros x Hx. apply eval_agree. intros k Hkx. unfold override. rewrite (Hx k Hkx). auto. }
      rewrite <- (Hpv p), <- (Hpv [(ne, nc)]).
      * rewrite U6, Hc2. rewrite (Hpv [(ne, nc)]).
        -- assert (a + (1 - a) * c <= 1 + tolerance) by nra. nra.
        -- intros k Hin. apply in_vks_true in Hin as (e & x & [[= <- <-]|[]] & Hek).
           destruct (fixed !! k) eqn:Ef; auto. exfalso. apply Hek. eapply Hk; eauto. apply in_map_iff. exists (ne, - nc). split; [auto|apply Hn1].
      * intros k Hin. apply in_vks_true in Hin as (e & x & [[= <- <-]|[]] & Hek).
        destruct (fixed !! k) eqn:Ef; auto. exfalso. apply Hek. eapply Hk; eauto. apply in_map_iff. exists (ne, - nc). split; [auto|apply Hn1].
      * intros k Hin. apply in_vks_true in Hin as (e & x & Hin & Hek). apply Hp in Hin as [Hin _].
        destruct (fixed !! k) eqn:Ef; auto. exfalso. apply Hek. eapply Hk; eauto. apply in_map_iff. exists (e, x). auto.
    + exfalso. cbn [as_hmapslt1] in E1. apply rbind_ok in E1 as (s & E2 & E1).
      rewrite (sub_nothing inf pick fixed Hpick u) in E2.
      * injection E2 as <-. change (s_cp (sub_init u)) with u in E1. unfold simplify in E1. rewrite U3 in E1. cbn [rbind] in E1.
        destruct (any_nonpositive u) eqn:Ea; [discriminate|]. pose proof (proj1 (any_nonpositive_false u) Ea e c Hin). lra.
      * intros k Hk2.
        destruct (gen_unsubbed_vars se p [(ne, nc)] u k (proj1 Hposp) Hmon Hcl' Eg Hk2) as [Hin2|Hin2].
        -- apply in_vks_true in Hin2 as (e2 & x & Hin2 & Hek). apply Hp in Hin2 as [Hin2 _].
           destruct (fixed !! k) eqn:Ef; auto. exfalso. apply Hek. eapply Hk; eauto. apply in_map_iff. exists (e2, x). auto.
        -- apply in_vks_true in Hin2 as (e2 & x & [[= <- <-]|[]] & Hek).
           destruct (fixed !! k) eqn:Ef; auto. exfalso. apply Hek. eapply Hk; eauto. apply in_map_iff. exists (ne, - nc). split; [auto|apply Hn1].
Qed.
End Sub.
