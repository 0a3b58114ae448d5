(** The programs of the penalty method: signomial constraints relaxed by a slack
    variable the cost is charged for (C87). *)
From Verif Require Import Base HashVec HashVecProofs Nomial NomialSem NomialProofs CanonProofs DiffProofs Sub SubSem SubProofs SubExtra
  Mono MonoProofs Constraint ConstraintSem ConstraintProofs GPGen GPGenProofs SGP SGPSem SGPProofs ApproxProofs RebuildProofs
  SGPIterSpec SGPIterProofs SGPIterSub SGPIterLin.
Open Scope R_scope.

Section Penalty.
Variables (inf : R) (pick : gmap nat R -> hmap R -> schedule) (vks_of : hmap R -> list nat) (ord : var_order R) (se : bool).
Hypothesis Hord : forall e, List.NoDup (ord e) /\ forall k, In k (ord e) <-> e !! k <> None.
Hypothesis Hvks : forall h, NoDup (vks_of h) /\ forall k, In k (vks_of h) <-> in_vks h k = true.
Hypothesis Hpick : forall x0 h, valid_schedule x0 h (pick x0 h).

(** ** Approximations within a bound *)
Lemma compared_within (p : hmap R) me mc us st' l env B : is_posy p -> exp_canon me -> 0 < mc -> no_clash p me ->
  gen_unsubbed se p [(me, mc)] = Ok us -> as_hmapslt1 inf (pick ∅) ∅ (CS None None) us = Ok (st', l) -> 1 + tolerance <= B ->
  (forall h, In h l -> eval env h <= B) -> eval env p <= B * eval env [(me, mc)].
Proof.
  intros Hp Hme Hmc Hcl Eg E HB Hl.
  pose proof (gen_unsubbed_cases se p [(me, mc)] Hp (mono_of me mc Hme Hmc)) as HG.
  specialize (HG ltac:(intros e c [= <- <-]; exact Hcl)). rewrite Eg in HG.
  assert (Hm : 0 < eval env [(me, mc)]) by (apply eval_all_positive; [apply (posy_of me mc Hme Hmc)|discriminate]).
  pose proof tol_pos.
  destruct us as [|u [|]]; [| |contradiction].
  - destruct HG as (c & Hc & Hc2). rewrite Hc2. nra.
  - destruct HG as (U1 & U2 & U3 & U).
    destruct (nothing_sub inf pick Hpick _ [u] _ _ ltac:(intros v [<-|[]]; exact U3) E) as [-> Hpos].
    assert (Hu : all_positive u) by (apply Hpos; left; auto).
    destruct U as [(_ & U5 & a & Ha & U6)|(_ & (e & c & Hin & Hneg) & _)]; [|specialize (Hu e c Hin); lra].
    specialize (Hl u (or_introl eq_refl)). rewrite U6.
    assert (a + (1 - a) * eval env u <= B) by nra. nra.
Qed.

Lemma approx_within guess (s P N : hmap R) l : canonical s -> (forall k v, guess !! k = Some v -> 0 < v) ->
  posy_negy s = (P, N) ->
  (forall me mc, let x := x0_of guess (vks_of N) in mono_approx inf x (pick x) se N (vks_of N) = Ok [(me, mc)] -> no_clash P me) ->
  approx_hmaps inf pick vks_of se guess (SIneq s) = Ok l ->
  forall env B, positive_point env -> 1 + tolerance <= B ->
  (forall h, In h l -> eval env h <= B) -> eval env P <= B * eval env N.
Proof.
  intros Hc Hg EPN Hcl E env B He HB Hl. unfold approx_hmaps in E. apply rbind_ok in E as (us & E1 & E).
  apply rbind_ok in E as ([st' l'] & E2 & E). injection E as <-. cbn [snd] in Hl.
  cbn [approximate] in E1. unfold as_gpconstr in E1. rewrite EPN in E1. cbn [snd] in E1.
  destruct (posy_negy_parts s P N Hc EPN) as ([CP PP] & [CN PN] & _).
  destruct N as [|tn N']; [discriminate|]. remember (tn :: N') as N eqn:EN.
  assert (HN : N <> []) by (rewrite EN; discriminate).
  destruct (bound_ok inf pick vks_of se Hvks Hpick guess N CN PN HN Hg) as (me & mc & EM & Hme & Hmc & _ & Hlow & Htan).
  specialize (Hcl me mc EM). rewrite EM in E1. cbn [rbind] in E1. apply rbind_ok in E1 as (p & Ep & E1). cbn [posy_ineq] in E1.
  pose proof (Hlow env He) as HL. pose proof tol_pos. pose proof (eval_nonneg env N PN).
  destruct P as [|tp P']; [cbn [eval]; nra|].
  injection Ep as <-. remember (tp :: P') as P eqn:EP.
  assert (Hp : is_posy P) by (split; [auto|split; [auto|rewrite EP; discriminate]]).
  pose proof (compared_within P me mc us st' l' env B Hp Hme Hmc Hcl E1 E2 HB Hl). nra.
Qed.

Variable fixed : gmap nat R.
Hypothesis Hf : forall k v, fixed !! k = Some v -> 0 < v.
Variable k : nat.
Hypothesis Hk : fixed !! k = None.

Lemma over_k env (h : hmap R) : positive_point env -> eval env (over_hmap (Some k) h) = eval env h / env k.
Proof.
  intros He. unfold over_hmap. rewrite eval_divterm by lra. cbn [slack_exp].
  replace ({[k := 1]} : gmap nat R) with (<[k := 1]> (∅ : gmap nat R)) by apply insert_empty.
  rewrite mono_val_insert by apply lookup_empty. rewrite mono_val_empty. rewrite Rpower_1 by apply He. field.
  pose proof (He k). lra.
Qed.
Lemma override_k env : override env fixed k = env k.
Proof. unfold override. rewrite Hk. auto. Qed.
Lemma override_pos env : positive_point env -> positive_point (override env fixed).
Proof. intros He. apply override_positive; auto. Qed.

(** An approximation divided by the slack is never dropped. *)
Lemma slack_one (h : hmap R) st l : usable (Some k) h ->
  as_hmapslt1 inf (pick fixed) fixed (CS None None) [over_hmap (Some k) h] = Ok (st, l) ->
  exists v, l = [v] /\ forall env, positive_point env -> (eval env v <= 1 <-> eval (override env fixed) h <= env k).
Proof.
  intros (U1 & U2 & U3 & U4 & U5) E.
  pose proof (as_hmapslt1_one inf (pick fixed) fixed Hf (Hpick fixed) (CS None None) (over_hmap (Some k) h)) as HO.
  specialize (HO ltac:(apply canonical_divterm; [auto|apply (slack_canon (Some k))|lra])
                 ltac:(apply divterm_positive; [lra|auto])
                 ltac:(unfold over_hmap; destruct h; [congruence|discriminate])).
  rewrite E in HO. destruct l as [|v [|]]; [| |contradiction].
  - exfalso. destruct HO as [_ HO]. apply (HO k); [|exact Hk]. apply in_vks_true.
    destruct h as [|[e c] h]; [congruence|]. cbn [over_hmap map divterm fst snd slack_exp].
    exists (exp_sub e {[k := 1]}), (c / 1). split; [left; reflexivity|].
    intros Hn. assert (E' : eget (exp_sub e {[k := 1]}) k = 0) by (unfold eget; rewrite Hn; reflexivity).
    rewrite eget_sub in E'. unfold eget in E'. rewrite lookup_singleton in E'.
    unfold fresh in U5. destruct (e !! k) as [y|] eqn:Ey; [|cbn in E'; lra].
    assert (in_vks ((e, c) :: h) k = true); [|congruence]. apply in_vks_true. exists e, c. split; [left; auto|congruence].
  - exists v. split; auto. destruct HO as (_ & _ & _ & HO). intros env He. rewrite (HO env He), over_k by (apply override_pos; auto).
    rewrite override_k. pose proof (He k). split; intros Hle.
    + apply (Rmult_le_reg_r (/ env k)); [apply Rinv_0_lt_compat; auto|]. rewrite Rinv_r by lra. exact Hle.
    + apply (Rmult_le_reg_r (env k)); [auto|]. unfold Rdiv. rewrite Rmult_assoc, Rinv_l by lra. lra.
Qed.

Lemma chain_slack hs : (forall h, In h hs -> usable (Some k) h) -> forall A, chain inf pick se fixed (posys (Some k) hs) = Ok (map (pair false) A) ->
  forall env, positive_point env ->
  ((forall v, In v A -> eval env v <= 1) <-> forall h, In h hs -> eval (override env fixed) h <= env k).
Proof.
  unfold chain, posys, overs. induction hs as [|h hs IH]; intros Hu A E env He; cbn [map chain_hmaps constr_hmaps] in E.
  - injection E as E. destruct A; [|discriminate]. split; [intros _ h []|intros _ v []].
  - apply rbind_ok in E as (x & E1 & E). apply rbind_ok in E as (y & E2 & E). injection E as E.
    destruct (posys_flags inf pick se (Some k) fixed hs y E2) as [B ->].
    unfold rmap in E1. apply rbind_ok in E1 as ([st l] & E1 & E3). injection E3 as <-. cbn [snd] in E.
    assert (A = l ++ B) as ->.
    { rewrite <- map_app in E. apply (f_equal (map snd)) in E. rewrite !map_map in E. cbn [snd] in E. rewrite !map_id in E. auto. }
    destruct (slack_one h st l (Hu h (or_introl eq_refl)) E1) as (v & -> & S). specialize (S env He).
    specialize (IH (fun h' Hh => Hu h' (or_intror Hh)) B E2 env He). split.
    + intros Hv h' [<-|Hh]; [apply S, Hv; left; auto|]. apply IH; [|auto]. intros w Hw. apply Hv. right. auto.
    + intros Hh w [<-|Hw]; [apply S, Hh; left; auto|]. apply IH; [|auto]. intros h' Hh'. apply Hh. right. auto.
Qed.

(** ** The slack's own constraint *)
Lemma const_posy (c : R) : 0 < c -> is_posy (num_hmap c).
Proof.
  intros Hc. split; [|split; [|discriminate]].
  - split; [apply NoDup_singleton|]. intros e x [[= <- <-]|[]]. split; [|lra]. intros j y. unfold e_empty. rewrite lookup_empty. discriminate.
  - intros e x [[= <- <-]|[]]. auto.
Qed.
Lemma eval_const env (c : R) : eval env (num_hmap c) = c.
Proof. unfold num_hmap. cbn [eval]. change (mono_val env e_empty) with (mono_val env ∅). rewrite mono_val_empty. ring. Qed.
Lemma eval_k env : positive_point env -> eval env (var_hmap k) = env k.
Proof.
  intros He. unfold var_hmap. cbn [eval n1 R_num].
  replace ({[k := 1]} : gmap nat R) with (<[k := 1]> (∅ : gmap nat R)) by apply insert_empty.
  rewrite mono_val_insert by apply lookup_empty. rewrite mono_val_empty, Rpower_1 by apply He. ring.
Qed.
Definition flat (t : R) : point := fun _ => t.
Lemma flat_pos t : 0 < t -> positive_point (flat t).
Proof. intros Ht j. exact Ht. Qed.
Lemma override_flat t : 0 < t -> override (flat t) fixed k = t.
Proof. intros Ht. rewrite override_k. reflexivity. Qed.

Lemma first_ok us F : posy_ineq se (var_hmap k) OpGe (num_hmap n1) = Ok us ->
  chain inf pick se fixed [CPosy (CS None None) us] = Ok F ->
  exists v, F = [(false, v)] /\ forall env, positive_point env -> (eval env v <= 1 <-> 1 <= env k).
Proof.
  intros E EF. cbn [posy_ineq] in E.
  assert (Hm : is_mono (var_hmap (T := R) k)).
  { exists {[k := 1]}, 1. split; [reflexivity|]. split; [apply (slack_canon (Some k))|lra]. }
  assert (H1 : is_posy (num_hmap (T := R) n1)) by (apply const_posy; cbn; lra).
  pose proof (gen_unsubbed_cases se (num_hmap n1) (var_hmap k) H1 Hm) as HG.
  specialize (HG ltac:(intros e c _; apply (single_no_clash _ e_empty); [apply NoDup_singleton|intros e' c' [[= <- <-]|[]]; auto])).
  rewrite E in HG.
  assert (P2 := flat_pos 2 ltac:(lra)). assert (Ph := flat_pos (1 / 2) ltac:(lra)).
  destruct us as [|u [|]]; [| |contradiction].
  - exfalso. destruct HG as (c & _ & HG). pose proof (HG (flat 2)) as G1. pose proof (HG (flat (1 / 2))) as G2.
    rewrite eval_const, eval_k in G1, G2 by auto. unfold flat in G1, G2. cbn in G1, G2. lra.
  - destruct HG as (U1 & U2 & U3 & [(U4 & U5 & _)|(_ & _ & U)]).
    2:{ exfalso. specialize (U (flat 2)). rewrite eval_const, eval_k in U by auto. unfold flat in U. cbn in U. lra. }
    unfold chain in EF. cbn [chain_hmaps constr_hmaps] in EF. apply rbind_ok in EF as (x & EF & EF2). cbn [rbind] in EF2. injection EF2 as <-.
    unfold rmap in EF. apply rbind_ok in EF as ([st l] & EF & EF2). injection EF2 as <-. cbn [snd].
    pose proof (as_hmapslt1_one inf (pick fixed) fixed Hf (Hpick fixed) (CS None None) u U2 U4 U1) as HO. rewrite EF in HO.
    destruct l as [|v [|]]; [| |contradiction].
    + exfalso. destruct HO as [(c & _ & HO) _]. pose proof (HO (flat 2) P2) as G1. pose proof (HO (flat (1 / 2)) Ph) as G2.
      pose proof (U5 (override (flat 2) fixed)) as V1. pose proof (U5 (override (flat (1 / 2)) fixed)) as V2.
      rewrite G1, eval_const, eval_k, override_flat in V1 by (try lra; apply override_pos; auto).
      rewrite G2, eval_const, eval_k, override_flat in V2 by (try lra; apply override_pos; auto). cbn in V1, V2.
      assert (c <= 1) by (apply V1; lra). assert (1 <= 1 / 2) by (apply V2; lra). lra.
    + destruct HO as (_ & _ & _ & HO). exists v. split; [reflexivity|]. intros env He. rewrite (HO env He), U5, eval_const, eval_k, override_k
        by (apply override_pos; auto). cbn. tauto.
Qed.

(** ** Variables of what substitution and division leave *)
Lemma sub_vars (h : hmap R) st j : canonical h -> nm_sub inf fixed h (pick fixed h) = Ok st ->
  in_vks (s_cp st) j = true -> in_vks h j = true.
Proof.
  intros Hc E Hj. pose proof (positive_defined fixed h Hf) as Hpd.
  destruct (sub_any inf (pick fixed) fixed Hf (Hpick fixed) h Hc) as (s' & Es & Hcan & _). assert (s' = st) as -> by congruence.
  apply in_vks_true in Hj as (e & c & Hin & He). destruct Hcan as [[Hn Hcan]|Hz].
  2:{ exfalso. rewrite Hz in Hin. destruct Hin as [[= <- <-]|[]]. apply He. unfold e_empty. apply lookup_empty. }
  destruct (Hcan e c Hin) as [_ Hc0]. apply In_dget in Hin; [|auto].
  assert (Hcf : coef (s_cp st) e = c) by (unfold coef; rewrite Hin; auto).
  rewrite (final_coef inf h fixed (proj1 Hc) Hpd _ st e (Hpick fixed h) E) in Hcf.
  destruct (Classical_Prop.classic (exists o co, In (o, co) h /\ surviving fixed o = e)) as [(o & co & Ho & Hs)|Hno].
  - apply in_vks_true. exists o, co. split; auto. intros Hn2. apply He. rewrite <- Hs. unfold surviving. apply lookup_difference_None. auto.
  - exfalso. apply Hc0. rewrite <- Hcf. transitivity (lsum (fun _ : expv R * R => 0) h); [|apply lsum_zero]. apply lsum_ext. intros [o co] Ho. cbn [fst snd]. destruct (decide _) as [D|]; auto.
    exfalso. apply Hno. exists o, co. auto.
Qed.
Lemma simplify_vars (h h' : hmap R) j : NoDup (dkeys h) -> simplify h = Ok (Some h') -> in_vks h' j = true -> in_vks h j = true.
Proof.
  intros Hn E. destruct (simplify_some (fun _ => 1) h h' Hn E) as [[_ ->]|(c & _ & _ & _ & _ & -> & _)]; auto.
  intros Hj. apply in_vks_true in Hj as (e & x & Hin & Hek). apply In_ddel in Hin.
  apply in_map_iff in Hin as ([e' x'] & [= <- _] & Hin). apply in_vks_true. exists e', x'. auto.
Qed.
Lemma hmapslt1_vars j us : (forall u, In u us -> canonical u /\ in_vks u j = false) -> forall st st' l,
  as_hmapslt1 inf (pick fixed) fixed st us = Ok (st', l) -> forall v, In v l -> in_vks v j = false.
Proof.
  induction us as [|u us IH]; intros Hc st st' l E v Hv; cbn [as_hmapslt1] in E; [injection E as _ <-; contradiction|].
  apply rbind_ok in E as (s & E1 & E). apply rbind_ok in E as (o & E2 & E).
  destruct (Hc u (or_introl eq_refl)) as [Hu1 Hu2].
  destruct (sub_any inf (pick fixed) fixed Hf (Hpick fixed) u Hu1) as (s' & Es & Hcan & _ & _).
  assert (s' = s) as -> by congruence.
  destruct o as [h'|]; [|eapply (IH (fun w Hw => Hc w (or_intror Hw))); eauto].
  destruct (any_nonpositive h'); [discriminate|]. apply rbind_ok in E as ([st2 l2] & E3 & E). injection E as _ <-. cbn [snd] in Hv.
  destruct Hv as [<-|Hv]; [|eapply (IH (fun w Hw => Hc w (or_intror Hw))); eauto].
  destruct (in_vks h' j) eqn:Ej; auto. apply simplify_vars with (h := s_cp s) in Ej; [|destruct Hcan as [[]| ->]; [auto|apply NoDup_singleton]|auto].
  apply (sub_vars u s j Hu1 E1) in Ej. congruence.
Qed.
Lemma sig_vars j (h : hmap R) out : canonical h -> in_vks h j = false ->
  (forall st me mc, nm_sub inf fixed h (pick fixed h) = Ok st ->
      snd (posy_negy (s_cp st)) = [(me, mc)] -> no_clash (fst (posy_negy (s_cp st))) me) ->
  sig_as_hmapslt1 inf (pick fixed) se fixed h = Ok out ->
  forall v, In v out -> in_vks v j = false.
Proof.
  intros Hc Hj Hcl E v Hv. unfold sig_as_hmapslt1 in E. apply rbind_ok in E as (st & Es & E). specialize (Hcl st).
  destruct (sub_any inf (pick fixed) fixed Hf (Hpick fixed) h Hc) as (s' & Es' & Hcan & _ & _). assert (s' = st) as -> by congruence.
  assert (Hsj : forall e c, In (e, c) (s_cp st) -> exp_canon e /\ forall i, e !! i <> None -> i <> j).
  { intros e c Hin. split.
    - destruct Hcan as [[_ Hcan]|Hz]; [apply (Hcan e c Hin)|]. rewrite Hz in Hin. destruct Hin as [[= <- <-]|[]].
      intros i y. unfold e_empty. rewrite lookup_empty. discriminate.
    - intros i Hi ->. assert (in_vks (s_cp st) j = true) by (apply in_vks_true; exists e, c; auto).
      apply (sub_vars h st j Hc Es) in H. congruence. }
  destruct (posy_negy (s_cp st)) as [P N] eqn:EPN. cbn [fst snd] in Hcl.
  destruct (posy_negy_correct (s_cp st) P N ltac:(destruct Hcan as [[]| ->]; [auto|apply NoDup_singleton]) EPN) as (_ & HP & HN & _ & NP & NN).
  destruct P as [|tp P']; [injection E as <-; contradiction|]. remember (tp :: P') as P eqn:EP. destruct N as [|[me mc] [|]]; try discriminate.
  apply rbind_ok in E as (us & E1 & E). apply rbind_ok in E as ([st2 l] & E2 & E). injection E as <-. cbn [snd] in Hv.
  assert (Hus : forall u, In u us -> over (fun i => i <> j) u /\ dget u e_empty = None /\ u <> []).
  { intros u Hu. eapply gen_over; [| |exact E1|exact Hu].
    - split; [exact NP|]. intros e c Hin. apply HP in Hin as [Hin _]. eapply Hsj; eauto.
    - intros e c Hin. apply HN in Hin as [Hin _]. eapply Hsj; eauto. }
  assert (Hmc : In (me, - mc) (s_cp st) /\ 0 < mc) by (apply HN; left; auto).
  assert (HPp : is_posy P).
  { split; [|split; [|subst P; discriminate]].
    - split; [auto|]. intros e c Hin. apply HP in Hin as [Hin Hp]. split; [eapply Hsj; eauto|lra].
    - intros e c Hin. apply HP in Hin. tauto. }
  pose proof (gen_unsubbed_cases se P [(me, mc)] HPp (mono_of me mc (proj1 (Hsj _ _ (proj1 Hmc))) (proj2 Hmc))) as HG.
  specialize (HG ltac:(intros e c [= <- <-]; apply (Hcl me mc); auto)). rewrite E1 in HG.
  revert Hv. apply (hmapslt1_vars j us) with (st := CS None None) (st' := st2); [|exact E2].
  intros u Hu. destruct (Hus u Hu) as ([O1 O2] & _ & _). split.
  - destruct us as [|u0 [|]]; [contradiction| |contradiction]. destruct Hu as [<-|[]]. apply HG.
  - destruct (in_vks u j) eqn:Ej; auto. apply in_vks_true in Ej as (e & c & Hin & He). exfalso. exact (proj2 (O2 e c Hin) j He eq_refl).
Qed.

(** ** The program *)
Variables (penalty : R) (cost : hmap R) (cs : list (sp_constr R)).
Hypothesis Hcons : forall s, In (SPc (CSig s)) cs \/ In (SPeq s) cs -> canonical s /\ fresh (Some k) s.
Hypothesis Hcost : canonical cost.
Hypothesis Hposys : forall st us u, In (SPc (CPosy st us)) cs \/ In (SPc (CMeq st us)) cs -> In u us -> canonical u /\ in_vks u k = false.
Hypothesis Hclean : forall h st me mc, In (SPc (CSig h)) cs -> nm_sub inf fixed h (pick fixed h) = Ok st ->
      snd (posy_negy (s_cp st)) = [(me, mc)] -> no_clash (fst (posy_negy (s_cp st))) me.

Lemma chain_vars g : (forall c, In c g -> In (SPc c) cs) -> forall G, chain inf pick se fixed g = Ok G ->
  forall b h, In (b, h) G -> in_vks h k = false.
Proof.
  unfold chain. induction g as [|c g IH]; intros Hin G E b h Hbh; cbn [chain_hmaps] in E; [injection E as <-; contradiction|].
  apply rbind_ok in E as (x & E1 & E). apply rbind_ok in E as (y & E2 & E). injection E as <-.
  apply in_app_iff in Hbh as [Hbh|Hbh]; [|eapply IH; eauto; intros; apply Hin; right; auto].
  pose proof (Hin c (or_introl eq_refl)) as Hc. destruct c as [st us|st us|s]; cbn [constr_hmaps] in E1; unfold rmap in E1;
    apply rbind_ok in E1 as (r & E1 & E3); injection E3 as <-; apply in_map_iff in Hbh as (v & [= <- <-] & Hv).
  - destruct r as [st' l]. eapply (hmapslt1_vars k us); eauto.
  - destruct r as [st' l]. eapply (hmapslt1_vars k us); eauto.
  - destruct (Hcons s (or_introl Hc)) as [C1 C2]. eapply (sig_vars k s r); eauto.
Qed.
Lemma sorts_gp' l g c : sorts inf pick se fixed l g c -> forall x, In x g -> In (SPc x) l.
Proof. induction 1; cbn; try tauto; intros x Hx; try (destruct Hx as [<-|Hx]; auto); right; auto. Qed.

Lemma cost_eval cost' st env : slack_cost se (Some k) penalty cost = Ok cost' -> nm_sub inf fixed cost' (pick fixed cost') = Ok st ->
  positive_point env -> eval env (s_cp st) = eval (override env fixed) cost * Rpower (env k) penalty.
Proof.
  intros E Es He. unfold slack_cost in E. unfold mono_pow, var_hmap in E. cbn [rbind py_mul] in E.
  apply rbind_ok in E as (q & Eq & E). unfold rmap in Eq. apply rbind_ok in Eq as (w & Ew & Eq). injection Eq as <-. injection E as <-.
  apply init_ok in Ew as [-> _]. set (m := [_]) in *.
  assert (Hm : canonical m).
  { split; [apply NoDup_singleton|]. intros e c [[= <- <-]|[]]. split.
    - destruct (decide _) as [|Hp]; [intros j y; unfold e_empty; rewrite lookup_empty; discriminate|].
      intros j y. unfold exp_mul. rewrite lookup_fmap. destruct (decide (j = k)) as [->|].
      + rewrite lookup_singleton. cbn. intros [= <-]. cbn in Hp. lra.
      + rewrite lookup_singleton_ne by auto. discriminate.
    - cbn. rewrite Rpow_pos by lra. unfold Rpower. apply Rgt_not_eq, exp_pos. }
  assert (Hsm : canonical (smul cost m)) by (apply canonical_smul; auto).
  destruct (sub_any inf (pick fixed) fixed Hf (Hpick fixed) _ Hsm) as (s' & Es' & _ & _ & Hev). assert (s' = st) as -> by congruence.
  rewrite (Hev env He), eval_smul. f_equal. unfold m. cbn [eval]. rewrite Rplus_0_r.
  cbn [npow n1 n0 nmul R_num]. rewrite Rpow_pos by lra. replace (Rpower 1 penalty) with 1 by (unfold Rpower; rewrite ln_1, Rmult_0_r, exp_0; reflexivity). rewrite Rmult_1_l.
  destruct (decide (penalty = 0)) as [->|Hp].
  - change e_empty with (∅ : expv R). rewrite mono_val_empty, Rpower_O by apply He. reflexivity.
  - unfold exp_mul. rewrite map_fmap_singleton. cbn.
    replace ({[k := 1 * penalty]} : gmap nat R) with (<[k := 1 * penalty]> (∅ : gmap nat R)) by apply insert_empty.
    rewrite mono_val_insert by apply lookup_empty. rewrite mono_val_empty, override_k. rewrite !Rmult_1_l, Rmult_1_r. reflexivity.
Qed.

Lemma penalized s : good inf pick vks_of ord se (Some k) penalty cost cs fixed s ->
  exists c0 A v G hs, sg_hmaps s = (false, c0) :: map (pair false) A ++ (false, v) :: G /\
    (forall env, positive_point env -> eval env c0 = eval (override env fixed) cost * Rpower (env k) penalty) /\
    (forall env, positive_point env -> (eval env v <= 1 <-> 1 <= env k)) /\
    (forall env, positive_point env -> ((forall v, In v A -> eval env v <= 1) <-> forall h, In h hs -> eval (override env fixed) h <= env k)) /\
    (forall b h, In (b, h) G -> in_vks h k = false) /\
    (forall h, In h hs -> in_vks h k = false) /\
    (forall h P N, In (SPc (CSig h)) cs -> posy_negy h = (P, N) ->
      (forall me mc, let x0 := x0_of (sg_x0 s) (vks_of N) in
         mono_approx inf x0 (pick x0) se N (vks_of N) = Ok [(me, mc)] -> no_clash P me) ->
      forall env B, positive_point env -> 1 + tolerance <= B ->
      (forall b u, In (b, u) G -> eval env u <= 1) -> (forall u, In u hs -> eval (override env fixed) u <= B) ->
      eval (override env fixed) P <= B * eval (override env fixed) N).
Proof.
  intros Hg. destruct (gd_parts _ _ _ _ _ _ _ _ _ _ _ Hg) as (first & cost' & c0 & g & G' & hs & A & P1 & Ea & EA & Eh).
  pose proof (pa_first _ _ _ _ _ _ _ _ _ _ _ _ _ _ P1) as Ef. apply rbind_ok in Ef as (us & Ef & Ef2). injection Ef2 as <-.
  pose proof (pa_G _ _ _ _ _ _ _ _ _ _ _ _ _ _ P1) as EG. apply chain_app in EG as (F & G & EF & EG & ->).
  destruct (first_ok us F Ef EF) as (v & -> & Hv).
  destruct (pa_c0 _ _ _ _ _ _ _ _ _ _ _ _ _ _ P1) as (st & Es & -> & _).
  pose proof (pa_sorts _ _ _ _ _ _ _ _ _ _ _ _ _ _ P1) as Hso.
  assert (Hu : forall u, In u hs -> usable (Some k) u).
  { intros u Hu. eapply (approx_usable inf pick vks_of se Hvks Hpick (Some k) cs fixed Hcons); [exact Hso|apply Hg|exact Ea|exact Hu]. }
  exists (s_cp st), A, v, G, hs. split; [exact Eh|]. split; [|split; [exact Hv|split; [|split; [|split]]]].
  - intros env He. eapply cost_eval; [eapply pa_cost'; exact P1|exact Es|exact He].
  - intros env He. apply chain_slack; auto.
  - intros b h Hin. eapply chain_vars; [|exact EG|exact Hin]. intros x Hx. eapply sorts_gp'; eauto.
  - intros h Hin. destruct (Hu h Hin) as (_ & _ & _ & _ & Hfr). exact Hfr.
  - intros h P N Hin EPN Hcl env B He HB HG HH. destruct (Hcons h (or_introl Hin)) as [Hc _].
    pose proof (override_pos env He) as He'. pose proof tol_pos.
    assert (HN0 : 0 <= eval (override env fixed) N).
    { destruct (posy_negy_parts h P N Hc EPN) as (_ & [_ PN] & _). apply eval_nonneg. auto. }
    destruct (sorts_sig inf pick se fixed cs g (sg_cons s) h Hso Hin) as [Hin2|Hin2].
    + destruct (chain_sig inf pick se fixed g G h EG Hin2) as (out & Eo & Ho).
      assert (eval (override env fixed) P <= (1 + tolerance) * eval (override env fixed) N).
      { apply (sig_within inf (pick fixed) fixed Hf (Hpick fixed) se h P N out env Hc); auto; [|intros u Hin3; apply (HG false); auto].
        intros st' e c E1 E2. eapply Hclean; eauto. }
      nra.
    + destruct (approx_all_In inf pick vks_of se (sg_x0 s) (sg_cons s) hs (SIneq h) Ea Hin2) as (l & El & Hl2).
      apply (approx_within (sg_x0 s) h P N l Hc (gd_x0 _ _ _ _ _ _ _ _ _ _ _ Hg) EPN Hcl El (override env fixed) B He' HB).
      intros u Hin3. apply HH, Hl2. auto.
Qed.
End Penalty.
