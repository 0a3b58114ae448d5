(** What the posynomials of an approximated program say about the signomials, and
    conversely (C36). *)
From Verif Require Import Base HashVec HashVecProofs Nomial NomialSem NomialProofs CanonProofs DiffProofs Sub SubSem SubProofs SubExtra
  Mono MonoProofs Constraint ConstraintSem ConstraintProofs GPGen GPGenProofs SGP SGPSem SGPProofs ApproxProofs RebuildProofs
  SGPIterSpec SGPIterProofs SGPIterSub.
Open Scope R_scope.

Section Lin.
Variables (inf : R) (pick : gmap nat R -> hmap R -> schedule) (vks_of : hmap R -> list nat) (se : bool).
Hypothesis Hvks : forall h, NoDup (vks_of h) /\ forall k, In k (vks_of h) <-> in_vks h k = true.
Hypothesis Hpick : forall x0 h, valid_schedule x0 h (pick x0 h).

Lemma eval_nonneg env (h : hmap R) : all_positive h -> 0 <= eval env h.
Proof. intros Hp. destruct (decide (h = [])) as [->|Hne]; [cbn; lra|]. apply Rlt_le, eval_all_positive; auto. Qed.

Lemma tol_pos : 0 < tolerance.
Proof. unfold tolerance. lra. Qed.

Lemma mono_of me mc : exp_canon me -> 0 < mc -> is_mono [(me, mc)].
Proof. intros H1 H2. exists me, mc. auto. Qed.
Lemma posy_of me mc : exp_canon me -> 0 < mc -> is_posy [(me, mc)].
Proof.
  intros H1 H2. split; [|split; [|discriminate]].
  - split; [apply NoDup_singleton|]. intros e c [[= <- <-]|[]]. split; [auto|lra].
  - intros e c [[= <- <-]|[]]. auto.
Qed.

(** The outcome of comparing a posynomial with a monomial, after the checks of
    [as_hmapslt1({})]. *)
Lemma compared (p : hmap R) me mc us st' l env : is_posy p -> exp_canon me -> 0 < mc -> no_clash p me ->
  gen_unsubbed se p [(me, mc)] = Ok us -> as_hmapslt1 inf (pick ∅) ∅ (CS None None) us = Ok (st', l) ->
  ((forall h, In h l -> eval env h <= 1 + tolerance) -> eval env p <= (1 + tolerance) * eval env [(me, mc)]) /\
  (eval env p <= eval env [(me, mc)] -> forall h, In h l -> eval env h <= 1).
Proof.
  intros Hp Hme Hmc Hcl Eg E.
  pose proof (gen_unsubbed_cases se p [(me, mc)] Hp (mono_of me mc Hme Hmc)) as HG.
  specialize (HG ltac:(intros e c [= <- <-]; exact Hcl)). rewrite Eg in HG.
  assert (Hm : 0 < eval env [(me, mc)]) by (apply eval_all_positive; [apply (posy_of me mc Hme Hmc)|discriminate]).
  pose proof tol_pos.
  destruct us as [|u [|]]; [| |contradiction].
  - cbn in E. injection E as _ <-. split; [|intros _ h []]. intros _. destruct HG as (c & Hc & Hc2). rewrite Hc2. nra.
  - destruct HG as (U1 & U2 & U3 & U).
    destruct (nothing_sub inf pick Hpick _ [u] _ _ ltac:(intros v [<-|[]]; exact U3) E) as [-> Hpos].
    assert (Hu : all_positive u) by (apply Hpos; left; auto).
    destruct U as [(_ & U5 & a & Ha & U6)|(_ & (e & c & Hin & Hneg) & _)]; [|specialize (Hu e c Hin); lra].
    split.
    + intros Hl. specialize (Hl u (or_introl eq_refl)). rewrite U6.
      assert (a + (1 - a) * eval env u <= 1 + tolerance) by nra. nra.
    + intros Hle h [<-|[]]. apply U5. auto.
Qed.

Lemma approx_ineq guess (s P N : hmap R) l : canonical s -> (forall k v, guess !! k = Some v -> 0 < v) ->
  posy_negy s = (P, N) ->
  (forall me mc, let x := x0_of guess (vks_of N) in mono_approx inf x (pick x) se N (vks_of N) = Ok [(me, mc)] -> no_clash P me) ->
  approx_hmaps inf pick vks_of se guess (SIneq s) = Ok l ->
  forall env, positive_point env ->
  ((forall h, In h l -> eval env h <= 1 + tolerance) -> eval env P <= (1 + tolerance) * eval env N) /\
  ((forall k, in_vks N k = true -> env k = override (fun _ => 1) guess k) -> eval env P <= eval env N ->
   forall h, In h l -> eval env h <= 1).
Proof.
  intros Hc Hg EPN Hcl E env He. unfold approx_hmaps in E. apply rbind_ok in E as (us & E1 & E).
  apply rbind_ok in E as ([st' l'] & E2 & E). injection E as <-. cbn [snd].
  cbn [approximate] in E1. unfold as_gpconstr in E1. rewrite EPN in E1. cbn [snd] in E1.
  destruct (posy_negy_parts s P N Hc EPN) as ([CP PP] & [CN PN] & _).
  destruct N as [|tn N']; [discriminate|]. remember (tn :: N') as N eqn:EN.
  assert (HN : N <> []) by (rewrite EN; discriminate).
  destruct (bound_ok inf pick vks_of se Hvks Hpick guess N CN PN HN Hg) as (me & mc & EM & Hme & Hmc & _ & Hlow & Htan).
  specialize (Hcl me mc EM). rewrite EM in E1. cbn [rbind] in E1. apply rbind_ok in E1 as (p & Ep & E1). cbn [posy_ineq] in E1.
  pose proof (Hlow env He) as HL. pose proof tol_pos.
  pose proof (eval_nonneg env N PN).
  destruct P as [|tp P'].
  - split; [intros _; cbn [eval]; nra|]. intros _ _ h Hin. exfalso.
    assert (Hn : nice (SIneq s) h).
    { eapply (approx_nice inf pick vks_of se Hvks Hpick guess (SIneq s) l'); auto. unfold approx_hmaps. cbn [approximate].
      unfold as_gpconstr. rewrite EPN. cbn [snd]. rewrite EN at 1. rewrite EM. cbn [rbind]. rewrite Ep. cbn [rbind posy_ineq]. rewrite E1. cbn [rbind].
      rewrite E2. auto. }
    destruct Hn as (_ & Hpos & _ & Hne & _).
    apply init_ok in Ep as [-> _]. unfold gen_unsubbed in E1. unfold num_hmap in E1. cbn [dkeys map fst rename_loop rbind] in E1.
    apply rbind_ok in E1 as (h1 & Eh1 & E1). unfold rename_loop in Eh1. unfold rename_step in Eh1.
    apply rbind_ok in Eh1 as (h2 & Eh2 & Eh1). injection Eh1 as <-.
    cbn [dget] in Eh2. rewrite decide_True in Eh2 by auto. injection Eh2 as <-.
    cbn [ddel] in E1. rewrite decide_True in E1 by auto. cbn [dset] in E1.
    apply rbind_ok in E1 as (o & Eo & E1).
    set (h0 := [_]) in Eo. assert (Hnd : NoDup (dkeys h0)) by apply NoDup_singleton.
    destruct o as [[|t h']|]; [injection E1 as <-; cbn in E2; injection E2 as _ <-; contradiction| |
      injection E1 as <-; cbn in E2; injection E2 as _ <-; contradiction].
    apply rbind_ok in E1 as (u & Eu & E1). injection E1 as <-. apply init_ok in Eu as [-> _].
    destruct (simplify_some (fun _ => 1) h0 _ Hnd Eo) as [[Hno Hh]|(c & _ & _ & _ & Hlen & _)]; [|unfold h0 in Hlen; cbn in Hlen; lia].
    assert (l' = [t :: h']) as ->.
    { eapply nothing_sub; [exact Hpick| |exact E2]. intros v [<-|[]]. rewrite Hh. auto. }
    destruct Hin as [<-|[]]. rewrite Hh in Hpos. unfold h0 in Hpos. specialize (Hpos _ _ (or_introl eq_refl)). cbn in Hpos. unfold Rdiv in Hpos. nra.
  - injection Ep as <-. remember (tp :: P') as P eqn:EP.
    assert (Hp : is_posy P) by (split; [auto|split; [auto|rewrite EP; discriminate]]).
    destruct (compared P me mc us st' l' env Hp Hme Hmc Hcl E1 E2) as [C1 C2]. split.
    + intros Hl. specialize (C1 Hl). nra.
    + intros Hk Hle. apply C2. rewrite (Htan env He Hk). auto.
Qed.

Lemma as_hmapslt1_app a b : forall st st' l, as_hmapslt1 inf (pick ∅) ∅ st (a ++ b) = Ok (st', l) ->
  exists st1 la lb, as_hmapslt1 inf (pick ∅) ∅ st a = Ok (st1, la) /\ as_hmapslt1 inf (pick ∅) ∅ st1 b = Ok (st', lb) /\ l = la ++ lb.
Proof.
  induction a as [|u a IH]; intros st st' l E; cbn [app as_hmapslt1] in *; [exists st, [], l; auto|].
  apply rbind_ok in E as (s & E1 & E). rewrite E1. cbn [rbind]. apply rbind_ok in E as (o & E2 & E). rewrite E2. cbn [rbind].
  destruct o as [h'|]; [|apply IH in E; auto].
  destruct (any_nonpositive h'); [discriminate|]. apply rbind_ok in E as ([st2 l2] & E3 & E). injection E as <- <-.
  apply IH in E3 as (st1 & la & lb & E3 & E4 & ->). exists st1, (h' :: la), lb. rewrite E3. cbn [rbind fst snd]. auto.
Qed.

(** What is returned does not depend on the attributes left by earlier calls. *)
Lemma as_hmapslt1_state us : forall st st2 st' l, as_hmapslt1 inf (pick ∅) ∅ st us = Ok (st', l) ->
  exists st2', as_hmapslt1 inf (pick ∅) ∅ st2 us = Ok (st2', l).
Proof.
  induction us as [|u us IH]; intros st st2 st' l E; cbn [as_hmapslt1] in *; [injection E as _ <-; eauto|].
  apply rbind_ok in E as (s & E1 & E). rewrite E1. cbn [rbind]. apply rbind_ok in E as (o & E2 & E). rewrite E2. cbn [rbind].
  destruct o as [h'|]; [|eapply IH; eauto].
  destruct (any_nonpositive h'); [discriminate|]. apply rbind_ok in E as ([st3 l3] & E3 & E). injection E as <- <-.
  destruct (IH _ (note_const st2 (s_cp s) (mmap s)) _ _ E3) as [st4 E4]. rewrite E4. cbn [rbind fst snd]. eauto.
Qed.

Lemma approx_equal guess (s P N : hmap R) l : canonical s -> (forall k v, guess !! k = Some v -> 0 < v) ->
  posy_negy s = (P, N) ->
  approx_hmaps inf pick vks_of se guess (SEqual s) = Ok l ->
  forall env, positive_point env ->
  (forall k, in_vks P k = true \/ in_vks N k = true -> env k = override (fun _ => 1) guess k) -> eval env P = eval env N ->
   forall h, In h l -> eval env h <= 1.
Proof.
  intros Hc Hg EPN E env He Hk Heq. unfold approx_hmaps in E. apply rbind_ok in E as (us & E1 & E).
  apply rbind_ok in E as ([st' l'] & E2 & E). injection E as <-. cbn [snd].
  cbn [approximate] in E1. unfold seq_as_gpconstr in E1. rewrite EPN in E1.
  destruct (posy_negy_parts s P N Hc EPN) as ([CP PP] & [CN PN] & _).
  destruct P as [|tp P']; [discriminate|]. destruct N as [|tn N']; [discriminate|].
  remember (tn :: N') as N eqn:EN. remember (tp :: P') as P eqn:EP.
  destruct (bound_ok inf pick vks_of se Hvks Hpick guess N CN PN ltac:(rewrite EN; discriminate) Hg) as (ne & nc & EMN & Hne & Hnc & _ & _ & HtN).
  destruct (bound_ok inf pick vks_of se Hvks Hpick guess P CP PP ltac:(rewrite EP; discriminate) Hg) as (pe & pc & EMP & Hpe & Hpc & _ & _ & HtP).
  rewrite EMP in E1. cbn [rbind] in E1. rewrite EMN in E1. cbn [rbind] in E1. unfold meq_unsubbed in E1.
  apply rbind_ok in E1 as (a & Ea & E1). apply rbind_ok in E1 as (b & Eb & E1). injection E1 as <-.
  apply as_hmapslt1_app in E2 as (st1 & la & lb & E2a & E2b & ->).
  destruct (as_hmapslt1_state b st1 (CS None None) _ _ E2b) as [st2 E2b'].
  assert (Hcl : forall e c m, no_clash [(e, c)] m).
  { intros e c m. apply (single_no_clash [(e, c)] e); [apply NoDup_singleton|]. intros e' c' [[= <- <-]|[]]. auto. }
  destruct (compared [(pe, pc)] ne nc a st1 la env (posy_of pe pc Hpe Hpc) Hne Hnc (Hcl _ _ _) Ea E2a) as [_ C1].
  destruct (compared [(ne, nc)] pe pc b st2 lb env (posy_of ne nc Hne Hnc) Hpe Hpc (Hcl _ _ _) Eb E2b') as [_ C2].
  rewrite (HtN env He), (HtP env He) in C1, C2 by (intros; apply Hk; auto).
  intros h Hin. apply in_app_iff in Hin as [Hin|Hin]; [apply C1|apply C2]; auto; lra.
Qed.

(** ** Substituting the fixed variables in the approximations *)
Section Fixed.
Variable fixed : gmap nat R.
Hypothesis Hf : forall k v, fixed !! k = Some v -> 0 < v.

Lemma sub_one (h : hmap R) st l env : usable None h ->
  as_hmapslt1 inf (pick fixed) fixed (CS None None) [over_hmap None h] = Ok (st, l) -> positive_point env ->
  ((forall v, In v l -> eval env v <= 1) -> eval (override env fixed) h <= 1 + tolerance) /\
  (eval (override env fixed) h <= 1 -> forall v, In v l -> eval env v <= 1).
Proof.
  intros (U1 & U2 & U3 & U4 & _) E He.
  assert (Hev : forall e, eval e (over_hmap None h) = eval e h).
  { intros e. unfold over_hmap. rewrite eval_divterm by lra. cbn [slack_exp]. rewrite mono_val_empty. field. }
  pose proof (as_hmapslt1_one inf (pick fixed) fixed Hf (Hpick fixed) (CS None None) (over_hmap None h)) as HO.
  specialize (HO ltac:(apply canonical_divterm; [auto|apply (slack_canon None)|lra])
                 ltac:(apply divterm_positive; [lra|auto])
                 ltac:(unfold over_hmap; destruct h; [congruence|discriminate])).
  rewrite E in HO. pose proof tol_pos. destruct l as [|v [|]]; [| |contradiction].
  - destruct HO as [(c & Hc & HO) _]. specialize (HO env He). rewrite Hev in HO. split; [intros _; lra|intros _ v []].
  - destruct HO as (_ & _ & _ & HO). specialize (HO env He). rewrite Hev in HO. split.
    + intros Hl. specialize (Hl v (or_introl eq_refl)). apply HO in Hl. lra.
    + intros Hle w [<-|[]]. apply HO. auto.
Qed.

Lemma chain_posys hs : (forall h, In h hs -> usable None h) -> forall A env, positive_point env ->
  chain inf pick se fixed (posys None hs) = Ok (map (pair false) A) ->
  ((forall v, In v A -> eval env v <= 1) -> forall h, In h hs -> eval (override env fixed) h <= 1 + tolerance) /\
  ((forall h, In h hs -> eval (override env fixed) h <= 1) -> forall v, In v A -> eval env v <= 1).
Proof.
  unfold chain, posys, overs. induction hs as [|h hs IH]; intros Hu A env He E; cbn [map chain_hmaps constr_hmaps] in E.
  - injection E as E. destruct A; [|discriminate]. split; [intros _ h []|intros _ v []].
  - apply rbind_ok in E as (x & E1 & E). apply rbind_ok in E as (y & E2 & E). injection E as E.
    destruct (posys_flags inf pick se None fixed hs y E2) as [B ->].
    unfold rmap in E1. apply rbind_ok in E1 as ([st l] & E1 & E3). injection E3 as <-. cbn [snd] in E.
    assert (A = l ++ B) as ->.
    { rewrite <- map_app in E. apply (f_equal (map snd)) in E. rewrite !map_map in E. cbn [snd] in E. rewrite !map_id in E. auto. }
    destruct (sub_one h st l env (Hu h (or_introl eq_refl)) E1 He) as [S1 S2].
    destruct (IH (fun h' Hh => Hu h' (or_intror Hh)) B env He E2) as [I1 I2]. split.
    + intros Hv h' [<-|Hh]; [apply S1|apply I1; auto]; intros v Hi; apply Hv, in_app_iff; auto.
    + intros Hh v Hi. apply in_app_iff in Hi as [Hi|Hi]; [apply S2; auto; apply Hh; left; auto|apply I2; auto; intros h' Hi'; apply Hh; right; auto].
Qed.

Lemma chain_sig g : forall G s, chain inf pick se fixed g = Ok G -> In (CSig s) g ->
  exists out, sig_as_hmapslt1 inf (pick fixed) se fixed s = Ok out /\ forall v, In v out -> In (false, v) G.
Proof.
  unfold chain. induction g as [|c g IH]; intros G s E Hin; [contradiction|]. cbn [chain_hmaps] in E.
  apply rbind_ok in E as (x & E1 & E). apply rbind_ok in E as (y & E2 & E). injection E as <-.
  destruct Hin as [->|Hin].
  - cbn [constr_hmaps] in E1. unfold rmap in E1. apply rbind_ok in E1 as (out & E1 & E3). injection E3 as <-. exists out. split; auto.
    intros v Hv. apply in_app_iff. left. apply in_map. auto.
  - destruct (IH y s E2 Hin) as (out & E3 & Ho). exists out. split; auto. intros v Hv. apply in_app_iff. auto.
Qed.
End Fixed.

Lemma approx_all_In guess c : forall hs x, approx_all inf pick vks_of se guess c = Ok hs -> In x c ->
  exists l, approx_hmaps inf pick vks_of se guess x = Ok l /\ forall h, In h l -> In h hs.
Proof.
  induction c as [|y c IH]; intros hs x E Hin; [contradiction|]. cbn [approx_all] in E.
  apply rbind_ok in E as (a & Ea & E). apply rbind_ok in E as (b & Eb & E). injection E as <-.
  destruct Hin as [->|Hin].
  - exists a. split; auto. intros h Hh. apply in_app_iff. auto.
  - destruct (IH b x Eb Hin) as (l & El & Hl). exists l. split; auto. intros h Hh. apply in_app_iff. auto.
Qed.
Lemma approx_all_from guess c : forall hs h, approx_all inf pick vks_of se guess c = Ok hs -> In h hs ->
  exists x l, In x c /\ approx_hmaps inf pick vks_of se guess x = Ok l /\ In h l.
Proof.
  induction c as [|y c IH]; intros hs h E Hin; cbn [approx_all] in E; [injection E as <-; contradiction|].
  apply rbind_ok in E as (a & Ea & E). apply rbind_ok in E as (b & Eb & E). injection E as <-.
  apply in_app_iff in Hin as [Hin|Hin]; [exists y, a; split; [left; auto|auto]|].
  destruct (IH b h Eb Hin) as (x & l & Hx & El & Hl). exists x, l. split; [right; auto|auto].
Qed.
Lemma sorts_sig fixed l g c s : sorts inf pick se fixed l g c -> In (SPc (CSig s)) l -> In (CSig s) g \/ In (SIneq s) c.
Proof.
  induction 1; cbn; [tauto| | | | |]; (intros [Hx|Hx]; [try discriminate; injection Hx as <-; auto|destruct IHsorts; auto]).
Qed.
Lemma sorts_from fixed l g c x : sorts inf pick se fixed l g c -> In x c ->
  match x with SIneq s => In (SPc (CSig s)) l | SEqual s => In (SPeq s) l end.
Proof.
  induction 1; cbn; [tauto| | | | |]; (intros [<-|Hx] || intros Hx); auto; specialize (IHsorts Hx); destruct x; auto.
Qed.
End Lin.
