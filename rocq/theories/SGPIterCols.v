(** No substituted variable has a column (C36). *)
From Verif Require Import Base HashVec HashVecProofs Nomial NomialSem NomialProofs CanonProofs DiffProofs Sub SubSem SubProofs SubExtra
  Mono MonoProofs Constraint ConstraintSem ConstraintProofs GPGen GPGenProofs SGP SGPSem SGPProofs ApproxProofs RebuildProofs
  SGPIterSpec SGPIterProofs SGPIterSub SGPIterLin SGPIterRun.
Open Scope R_scope.

Section Cols.
Variables (inf : R) (pick : gmap nat R -> hmap R -> schedule) (vks_of : hmap R -> list nat) (ord : var_order R) (se : bool).
Hypothesis Hord : forall e, List.NoDup (ord e) /\ forall k, In k (ord e) <-> e !! k <> None.
Hypothesis Hvks : forall h, NoDup (vks_of h) /\ forall k, In k (vks_of h) <-> in_vks h k = true.
Hypothesis Hpick : forall x0 h, valid_schedule x0 h (pick x0 h).
Variable fixed : gmap nat R.
Hypothesis Hf : forall k v, fixed !! k = Some v -> 0 < v.

Definition free (h : hmap R) : Prop := forall k, in_vks h k = true -> fixed !! k = None.

Lemma keys_free (h : hmap R) : (forall e k v, In e (dkeys h) -> fixed !! k = Some v -> e !! k = None) -> free h.
Proof.
  intros Hk k Hin. apply in_vks_true in Hin as (e & c & Hin & He). destruct (fixed !! k) as [v|] eqn:E; auto.
  exfalso. apply He. eapply Hk; eauto. apply in_map_iff. exists (e, c). auto.
Qed.
Lemma simplify_free (h h' : hmap R) : NoDup (dkeys h) -> free h -> simplify h = Ok (Some h') -> free h'.
Proof.
  intros Hn Hfr E. destruct (simplify_some (fun _ => 1) h h' Hn E) as [[_ ->]|(c & _ & _ & _ & _ & -> & _)]; auto.
  intros k Hk. apply Hfr. apply in_vks_true in Hk as (e & x & Hin & Hek). apply In_ddel in Hin.
  apply in_map_iff in Hin as ([e' x'] & [= <- _] & Hin). apply in_vks_true. exists e', x'. auto.
Qed.

Lemma hmapslt1_free us : (forall u, In u us -> canonical u) -> forall st st' l,
  as_hmapslt1 inf (pick fixed) fixed st us = Ok (st', l) -> forall v, In v l -> free v.
Proof.
  induction us as [|u us IH]; intros Hc st st' l E v Hv; cbn [as_hmapslt1] in E; [injection E as _ <-; contradiction|].
  apply rbind_ok in E as (s & E1 & E). apply rbind_ok in E as (o & E2 & E).
  destruct (sub_any inf (pick fixed) fixed Hf (Hpick fixed) u (Hc u (or_introl eq_refl))) as (s' & Es & Hcan & Hk & _).
  assert (s' = s) as -> by congruence.
  destruct o as [h'|]; [|eapply (IH (fun w Hw => Hc w (or_intror Hw))); eauto].
  destruct (any_nonpositive h'); [discriminate|]. apply rbind_ok in E as ([st2 l2] & E3 & E). injection E as _ <-. cbn [snd] in Hv.
  destruct Hv as [<-|Hv]; [|eapply (IH (fun w Hw => Hc w (or_intror Hw))); eauto].
  eapply simplify_free; [|apply keys_free; exact Hk|exact E2].
  destruct Hcan as [[]| ->]; [auto|apply NoDup_singleton].
Qed.

Lemma sig_free (h : hmap R) out : canonical h -> sig_as_hmapslt1 inf (pick fixed) se fixed h = Ok out ->
  (forall st me mc, nm_sub inf fixed h (pick fixed h) = Ok st ->
      snd (posy_negy (s_cp st)) = [(me, mc)] -> no_clash (fst (posy_negy (s_cp st))) me) ->
  forall v, In v out -> free v.
Proof.
  intros Hc E Hcl v Hv. pose proof (sig_correct inf (pick fixed) fixed Hf (Hpick fixed) se h Hc Hcl) as HS. rewrite E in HS.
  exact (proj2 (proj1 HS v Hv)).
Qed.

Variables (penalty : R) (cost : hmap R) (cs : list (sp_constr R)).
Hypothesis Hcons : forall s, In (SPc (CSig s)) cs \/ In (SPeq s) cs -> canonical s /\ fresh None s.
Hypothesis Hcost : canonical cost.
Hypothesis Hposys : forall st us u, In (SPc (CPosy st us)) cs \/ In (SPc (CMeq st us)) cs -> In u us -> canonical u.
Hypothesis Hclean : forall h st me mc, In (SPc (CSig h)) cs -> nm_sub inf fixed h (pick fixed h) = Ok st ->
      snd (posy_negy (s_cp st)) = [(me, mc)] -> no_clash (fst (posy_negy (s_cp st))) me.

Lemma chain_free g : (forall c, In c g -> In (SPc c) cs) -> forall G, chain inf pick se fixed g = Ok G ->
  forall b h, In (b, h) G -> free h.
Proof.
  unfold chain. induction g as [|c g IH]; intros Hin G E b h Hbh; cbn [chain_hmaps] in E; [injection E as <-; contradiction|].
  apply rbind_ok in E as (x & E1 & E). apply rbind_ok in E as (y & E2 & E). injection E as <-.
  apply in_app_iff in Hbh as [Hbh|Hbh]; [|eapply IH; eauto; intros; apply Hin; right; auto].
  pose proof (Hin c (or_introl eq_refl)) as Hc. destruct c as [st us|st us|s]; cbn [constr_hmaps] in E1; unfold rmap in E1;
    apply rbind_ok in E1 as (r & E1 & E3); injection E3 as <-; apply in_map_iff in Hbh as (v & [= <- <-] & Hv).
  - destruct r as [st' l]. eapply (hmapslt1_free us); eauto.
  - destruct r as [st' l]. eapply (hmapslt1_free us); eauto.
  - eapply (sig_free s r); eauto. apply Hcons. auto.
Qed.

Lemma posys_free hs : (forall h, In h hs -> usable None h) -> forall A, chain inf pick se fixed (posys None hs) = Ok A ->
  forall b h, In (b, h) A -> free h.
Proof.
  unfold chain, posys, overs. induction hs as [|u hs IH]; intros Hu A E b h Hbh; cbn [map chain_hmaps constr_hmaps] in E;
    [injection E as <-; contradiction|].
  apply rbind_ok in E as (x & E1 & E). apply rbind_ok in E as (y & E2 & E). injection E as <-.
  apply in_app_iff in Hbh as [Hbh|Hbh]; [|eapply IH; eauto; intros; apply Hu; right; auto].
  unfold rmap in E1. apply rbind_ok in E1 as ([st l] & E1 & E3). injection E3 as <-. apply in_map_iff in Hbh as (v & [= <- <-] & Hv).
  eapply (hmapslt1_free [over_hmap None u]); eauto. intros w [<-|[]].
  apply canonical_divterm; [apply (Hu u (or_introl eq_refl))|apply (slack_canon None)|lra].
Qed.

Lemma sorts_gp l g c : sorts inf pick se fixed l g c -> forall x, In x g -> In (SPc x) l.
Proof. induction 1; cbn; try tauto; intros x Hx; try (destruct Hx as [<-|Hx]; auto); right; auto. Qed.

Lemma columns_free s : sgp_build inf pick vks_of ord se None penalty cost cs fixed fixed = Ok s ->
  forall k, In k (dkeys (g_varlocs (sg_gp s))) -> fixed !! k = None.
Proof.
  intros E. destruct (build_parts inf pick vks_of ord se Hvks Hpick None penalty cost cs fixed Hcons fixed s Hf E)
    as (first & cost' & c0 & g & c & G & hs & A & P & E1 & E2 & E3 & E4 & E5 & E6 & E7 & E8 & E9 & E10).
  destruct P as [P1 P2 P3 P4 P5 (st & P6 & P7 & P8) P9]. cbn in P2. injection P2 as <-. cbn [app] in P9.
  assert (Hall : forall b h, In (b, h) (sg_hmaps s) -> free h).
  { rewrite E8. intros b h [[= <- <-]|Hin].
    - assert (Hc' : canonical cost').
      { unfold slack_cost in P3. cbn [py_mul] in P3. rewrite decide_False in P3 by (cbn; lra). 
        apply rbind_ok in P3 as (q & Eq & P3). unfold rmap in Eq. apply rbind_ok in Eq as (w & Ew & Eq). injection Eq as <-.
        injection P3 as <-. apply init_ok in Ew as [-> _]. apply canonical_mul; [cbn; lra|auto]. }
      rewrite P7. apply keys_free. destruct (sub_any inf (pick fixed) fixed Hf (Hpick fixed) cost' Hc') as (s' & Es & _ & Hk & _).
      assert (s' = st) as -> by congruence. exact Hk.
    - apply in_app_iff in Hin as [Hin|Hin].
      + eapply posys_free; [|exact E2|exact Hin]. intros u Hu.
        eapply (approx_usable inf pick vks_of se Hvks Hpick None cs fixed Hcons); [exact P4|exact Hf|exact E1|exact Hu].
      + eapply chain_free; [|exact P9|exact Hin]. intros x Hx. eapply sorts_gp; eauto. }
  intros k Hk. rewrite E9 in Hk. rewrite gen_eq in Hk. cbn [g_varlocs] in Hk.
  apply (vi_keys _ _ _ _ (gi_v _ _ (gen_loop_inv ord Hord (sg_hmaps s) _))) in Hk as [i Hi].
  unfold has in Hi. destruct (map fst (terms (sg_hmaps s)) !! i) as [e|] eqn:Ee; [|discriminate].
  destruct (e !! k) as [y|] eqn:Ek; [|discriminate].
  apply elem_of_list_lookup_2, elem_of_list_In, in_map_iff in Ee as ([e' x] & <- & Hin).
  unfold terms in Hin. apply in_flat_map in Hin as ([b h] & Hin & Hin2). apply (Hall b h Hin). apply in_vks_true. exists e', x.
  split; [exact Hin2|]. cbn in Ek. congruence.
Qed.
End Cols.
