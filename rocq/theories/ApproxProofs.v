(** The approximations of a sequential geometric program. *)
From Verif Require Import Base HashVec HashVecProofs Nomial NomialSem NomialProofs CanonProofs DiffProofs Sub SubSem SubProofs SubExtra
  Mono MonoProofs Constraint ConstraintSem ConstraintProofs GPGen SGP SGPSem.
Open Scope R_scope.

(** ** What [_gen_unsubbed] can produce *)
Section Made.
Variable D : nat -> Prop.

(** Distinct canonical exponents over the variables [D]. *)
Definition over (h : hmap R) : Prop :=
  NoDup (dkeys h) /\ forall e c, In (e, c) h -> exp_canon e /\ forall k, e !! k <> None -> D k.
Definition exp_over (e : expv R) : Prop := exp_canon e /\ forall k, e !! k <> None -> D k.

Lemma exp_sub_vars (a b : expv R) k : exp_sub a b !! k <> None -> a !! k <> None \/ b !! k <> None.
Proof.
  unfold exp_sub. rewrite lookup_exp_add. unfold exp_neg, exp_mul. rewrite lookup_fmap.
  destruct (a !! k), (b !! k); cbn; auto; intros; left; discriminate.
Qed.
Lemma exp_over_sub a b : exp_over a -> exp_over b -> exp_over (exp_sub a b).
Proof.
  intros [A1 A2] [B1 B2]. split; [apply exp_canon_sub; auto|]. intros k Hk. apply exp_sub_vars in Hk as [Hk|Hk]; auto.
Qed.

Lemma over_step m_exp m_c h e h' : over h -> exp_over m_exp -> rename_step m_exp m_c h e = Ok h' -> over h'.
Proof.
  intros [Hn Hh] Hm. unfold rename_step. destruct (dget h e) as [c|] eqn:E; [|discriminate]. intros [= <-].
  apply dget_In in E. split.
  - apply NoDup_dset, NoDup_ddel. auto.
  - intros e' c' Hin. apply In_dset in Hin as [[= -> ->]|Hin].
    + apply (exp_over_sub e m_exp); [exact (Hh _ _ E)|auto].
    + apply In_ddel in Hin. eauto.
Qed.
Lemma over_loop m_exp m_c es : forall h h', over h -> exp_over m_exp -> rename_loop m_exp m_c h es = Ok h' -> over h'.
Proof.
  induction es as [|e es IH]; intros h h' Hh Hm E; cbn [rename_loop] in E; [injection E as <-; auto|].
  apply rbind_ok in E as (h1 & E1 & E). apply (IH h1 h'); auto. exact (over_step m_exp m_c h e h1 Hh Hm E1).
Qed.
Lemma over_simplify h h' : over h -> simplify h = Ok (Some h') -> over h' /\ dget h' e_empty = None.
Proof.
  intros [Hn Hh] E. split; [|eapply simplify_no_const; eauto].
  destruct (simplify_some (fun _ => 1) h h' Hn E) as [[_ ->]|(c & _ & _ & _ & _ & -> & _)]; [split; auto|].
  split.
  - apply NoDup_ddel. rewrite dkeys_hv_mul. auto.
  - intros e x Hin. apply In_ddel in Hin. apply in_map_iff in Hin as ([e' x'] & [= <- _] & Hin). exact (Hh _ _ Hin).
Qed.

Lemma gen_over se p m us u : over p -> (forall e c, In (e, c) m -> exp_over e) -> gen_unsubbed se p m = Ok us -> In u us ->
  over u /\ dget u e_empty = None /\ u <> [].
Proof.
  intros Hp Hm. unfold gen_unsubbed. destruct m as [|[me mc] [|]]; try discriminate. intros E Hin.
  apply rbind_ok in E as (h & E1 & E). apply rbind_ok in E as (o & E2 & E).
  assert (Hh : over h) by (eapply over_loop; eauto; eapply Hm; left; reflexivity).
  destruct o as [[|t h']|]; [injection E as <-; contradiction| |injection E as <-; contradiction].
  apply rbind_ok in E as (u' & E3 & E). injection E as <-. destruct Hin as [<-|[]].
  apply init_ok in E3 as [-> _]. destruct (over_simplify _ _ Hh E2) as [H1 H2]. split; [auto|]. split; [auto|discriminate].
Qed.
End Made.

(** ** The approximations *)
Section Approx.
Variables (inf : R) (pick : gmap nat R -> hmap R -> schedule) (vks_of : hmap R -> list nat) (se : bool).
Hypothesis Hvks : forall h, NoDup (vks_of h) /\ forall k, In k (vks_of h) <-> in_vks h k = true.
Hypothesis Hpick : forall x0 h, valid_schedule x0 h (pick x0 h).

Definition sig_of (c : scons R) : hmap R := match c with SIneq s | SEqual s => s end.

Lemma posy_negy_parts (s P N : hmap R) : canonical s -> posy_negy s = (P, N) ->
  (canonical P /\ all_positive P) /\ (canonical N /\ all_positive N) /\
  (forall e c, In (e, c) P -> In (e, c) s) /\ (forall e c, In (e, c) N -> In (e, - c) s).
Proof.
  intros Hc E. destruct (posy_negy_correct s P N (proj1 Hc) E) as (_ & HP & HN & _ & NP & NN).
  split; [|split].
  - split; [split; auto; intros e c Hin; apply HP in Hin as [Hin Hp]; split; [apply (proj2 Hc _ _ Hin)|lra]|].
    intros e c Hin. apply HP in Hin. tauto.
  - split; [split; auto; intros e c Hin; apply HN in Hin as [Hin Hp]; split; [apply (proj2 Hc _ _ Hin)|lra]|].
    intros e c Hin. apply HN in Hin. tauto.
  - split; intros e c Hin; [apply HP in Hin|apply HN in Hin]; tauto.
Qed.

(** The monomial below a posynomial. *)
Lemma bound_ok (guess : gmap nat R) (N : hmap R) : canonical N -> all_positive N -> N <> [] ->
  (forall k v, guess !! k = Some v -> 0 < v) ->
  let x := x0_of guess (vks_of N) in
  exists me mc, mono_approx inf x (pick x) se N (vks_of N) = Ok [(me, mc)] /\ exp_canon me /\ 0 < mc /\
    (forall k, me !! k <> None -> in_vks N k = true) /\
    (forall env, positive_point env -> eval env [(me, mc)] <= eval env N) /\
    (forall env, positive_point env -> (forall k, in_vks N k = true -> env k = override (fun _ => 1) guess k) ->
       eval env [(me, mc)] = eval env N).
Proof.
  intros CN HNp HN0 Hg x. destruct (Hvks N) as [Hnv Hvk].
  assert (Hx1 : forall k v, x !! k = Some v -> 0 < v).
  { intros k v Hk. unfold x in Hk. rewrite x0_of_lookup in Hk by auto.
    destruct (in_dec _ _ _); [|discriminate]. injection Hk as <-. destruct (guess !! k) eqn:Eg; cbn; [eauto|lra]. }
  assert (Hx2 : forall k, in_vks N k = true -> x !! k <> None).
  { intros k Hk. unfold x. rewrite x0_of_lookup by auto. destruct (in_dec _ _ _) as [|Hn]; [discriminate|].
    exfalso. apply Hn, Hvk. auto. }
  assert (Hpos : 0 < eval (override (fun _ => 1) x) N) by (apply eval_all_positive; auto).
  destruct (mono_approx_total inf x (pick x) se N (vks_of N) CN HN0 Hx1 Hx2 (Hpick x) Hnv Hvk ltac:(lra) (or_introl Hpos))
    as (me & mc & EM & Hme).
  pose proof (mono_approx_lower inf x (pick x) se N (vks_of N) _ CN HN0 HNp Hx1 Hx2 (Hpick x) Hnv Hvk EM) as Hlow.
  destruct (mono_approx_tangent inf x (pick x) se N (vks_of N) _ CN HN0 Hx1 Hx2 (Hpick x) Hnv Hvk ltac:(lra) EM) as [Htan _].
  assert (HMv : forall k, in_vks [(me, mc)] k = true -> in_vks N k = true)
    by exact (mono_approx_vars inf x (pick x) se N (vks_of N) _ CN HN0 Hx1 Hx2 (Hpick x) Hnv Hvk ltac:(lra) (or_introl Hpos) EM).
  exists me, mc. split; [auto|]. split; [auto|]. split.
  { assert (P1 : positive_point (fun _ : nat => 1)) by (intros ?; lra).
    specialize (Hlow _ P1). cbn [eval] in Hlow. pose proof (mono_val_pos (fun _ => 1) me).
    destruct Hlow as [Hl _]. apply Rnot_le_lt. intros Hle. nra. }
  split.
  { intros k Hk. apply HMv, in_vks_true. exists me, mc. split; [left; auto|auto]. }
  split; [intros env He; apply (Hlow env He)|].
  intros env He Hk.
  assert (Hev : forall h : hmap R, (forall k, in_vks h k = true -> in_vks N k = true) ->
    eval env h = eval (override (fun _ => 1) x) h).
  { intros h Hh. apply eval_agree. intros k Hin. rewrite Hk by auto. unfold override, x. rewrite x0_of_lookup by auto.
    destruct (in_dec _ _ _) as [|Hno]; [destruct (guess !! k); auto|]. exfalso. apply Hno, Hvk, Hh; auto. }
  rewrite !Hev by auto. exact Htan.
Qed.

(** Substituting nothing. *)
Lemma nothing_sub st us st' hs : (forall u, In u us -> dget u e_empty = None) ->
  as_hmapslt1 inf (pick ∅) ∅ st us = Ok (st', hs) -> hs = us /\ forall u, In u us -> all_positive u.
Proof.
  revert st st' hs. induction us as [|u us IH]; intros st st' hs Hn E; cbn [as_hmapslt1] in E.
  - injection E as _ <-. split; auto. intros ? [].
  - apply rbind_ok in E as (s & E1 & E).
    rewrite (sub_nothing inf (pick ∅) ∅ (Hpick ∅) u) in E1 by (intros; apply lookup_empty). injection E1 as <-.
    change (s_cp (sub_init u)) with u in E. unfold simplify in E. rewrite (Hn u (or_introl eq_refl)) in E. cbn [rbind] in E.
    destruct (any_nonpositive u) eqn:EA; [discriminate|]. apply rbind_ok in E as ([st2 hs2] & E2 & E). injection E as _ <-.
    destruct (IH _ _ _ (fun v Hv => Hn v (or_intror Hv)) E2) as [-> Hp]. split; auto.
    intros v [<-|Hv]; auto. apply any_nonpositive_false. auto.
Qed.

(** What the posynomials of an approximation look like. *)
Definition nice (c : scons R) (h : hmap R) : Prop :=
  canonical h /\ all_positive h /\ dget h e_empty = None /\ h <> [] /\
  forall k, in_vks h k = true -> in_vks (sig_of c) k = true.

Lemma approximate_over guess c us u : canonical (sig_of c) -> (forall k v, guess !! k = Some v -> 0 < v) ->
  approximate inf pick vks_of se guess c = Ok us -> In u us ->
  over (fun k => in_vks (sig_of c) k = true) u /\ dget u e_empty = None /\ u <> [].
Proof.
  intros Hc Hg E Hin.
  assert (Hov : forall h, canonical h -> (forall e x, In (e, x) h -> exists x', In (e, x') (sig_of c)) ->
    over (fun k => in_vks (sig_of c) k = true) h).
  { intros h [Hn Hh] Hs. split; auto. intros e x Hi. split; [apply (Hh _ _ Hi)|]. intros k Hk.
    destruct (Hs _ _ Hi) as [x' Hx]. apply in_vks_true. exists e, x'. auto. }
  assert (Hsub : forall h k, (forall e x, In (e, x) h -> exists x', In (e, x') (sig_of c)) -> in_vks h k = true ->
     in_vks (sig_of c) k = true).
  { intros h k Hs Hk. apply in_vks_true in Hk as (e & x & Hi & Hk). destruct (Hs _ _ Hi) as [x' Hx]. apply in_vks_true. exists e, x'. auto. }
  destruct (posy_negy (sig_of c)) as [P N] eqn:EPN.
  destruct (posy_negy_parts _ P N Hc EPN) as ([CP PP] & [CN PN] & IP & IN).
  assert (SP : forall e x, In (e, x) P -> exists x', In (e, x') (sig_of c)) by eauto.
  assert (SN : forall e x, In (e, x) N -> exists x', In (e, x') (sig_of c)) by eauto.
  destruct c as [s|s]; cbn [sig_of approximate] in *.
  - unfold as_gpconstr in E. rewrite EPN in E. cbn [snd] in E. destruct N as [|tn N']; [discriminate|]. remember (tn :: N') as N eqn:EN.
    destruct (bound_ok guess N CN PN ltac:(rewrite EN; discriminate) Hg) as (me & mc & EM & Hme & _ & Hmv & _).
    rewrite EM in E. cbn [rbind] in E. apply rbind_ok in E as (p & Ep & E). cbn [posy_ineq] in E.
    refine (gen_over _ se p [(me, mc)] us u _ _ E Hin);
      [|intros e x [[= <- <-]|[]]; split; [exact Hme|intros k Hk; eapply Hsub; [exact SN|auto]]].
    destruct P as [|tp P'].
    + apply init_ok in Ep as [-> _]. split; [repeat constructor; apply not_elem_of_nil|].
      intros e x [[= <- <-]|[]]. split; [intros k y; unfold e_empty; rewrite lookup_empty; discriminate|].
      intros k; unfold e_empty; rewrite lookup_empty; congruence.
    + injection Ep as <-. apply Hov; auto.
  - unfold seq_as_gpconstr in E. rewrite EPN in E. destruct P as [|tp P']; [discriminate|].
    destruct N as [|tn N']; [discriminate|]. remember (tn :: N') as N eqn:EN. remember (tp :: P') as P eqn:EP.
    destruct (bound_ok guess N CN PN ltac:(rewrite EN; discriminate) Hg) as (ne & nc & EMN & Hne & Hnc & Hnv & _).
    destruct (bound_ok guess P CP PP ltac:(rewrite EP; discriminate) Hg) as (pe & pc & EMP & Hpe & Hpc & Hpv & _).
    rewrite EMP, EMN in E. cbn [rbind] in E. unfold meq_unsubbed in E.
    apply rbind_ok in E as (a & Ea & E). apply rbind_ok in E as (b & Eb & E). injection E as <-.
    assert (OP : exp_over (fun k => in_vks s k = true) pe) by (split; auto; intros k Hk; eapply Hsub; [exact SP|auto]).
    assert (ON : exp_over (fun k => in_vks s k = true) ne) by (split; auto; intros k Hk; eapply Hsub; [exact SN|auto]).
    assert (One : forall e x, exp_over (fun k => in_vks s k = true) e -> over (fun k => in_vks s k = true) [(e, x)]).
    { intros e x He. split; [repeat constructor; apply not_elem_of_nil|]. intros e' x' [[= <- <-]|[]]. exact He. }
    apply in_app_iff in Hin as [Hin|Hin].
    + refine (gen_over _ se _ [(ne, nc)] a u _ _ Ea Hin); [apply One; auto|]. intros e x [[= <- <-]|[]]; exact ON.
    + refine (gen_over _ se _ [(pe, pc)] b u _ _ Eb Hin); [apply One; auto|]. intros e x [[= <- <-]|[]]; exact OP.
Qed.

Lemma approx_nice guess c hs h : canonical (sig_of c) -> (forall k v, guess !! k = Some v -> 0 < v) ->
  approx_hmaps inf pick vks_of se guess c = Ok hs -> In h hs -> nice c h.
Proof.
  intros Hc Hg E Hin. unfold approx_hmaps in E. apply rbind_ok in E as (us & E1 & E).
  apply rbind_ok in E as ([st' hs'] & E2 & E). injection E as <-. cbn [snd] in Hin.
  pose proof (fun u Hu => approximate_over guess c us u Hc Hg E1 Hu) as Hov.
  destruct (nothing_sub _ us _ _ (fun u Hu => proj1 (proj2 (Hov u Hu))) E2) as [-> Hpos].
  destruct (Hov h Hin) as ([Hn Hh] & Hno & Hne). split; [|split; [auto|split; [auto|split; [auto|]]]].
  - split; auto. intros e x Hi. split; [apply (Hh _ _ Hi)|]. pose proof (Hpos h Hin e x Hi). lra.
  - intros k Hk. apply in_vks_true in Hk as (e & x & Hi & Hk). exact (proj2 (Hh _ _ Hi) k Hk).
Qed.

(** ** Dividing by the slack *)
Definition slack_exp (slack : option nat) : gmap nat R := match slack with None => ∅ | Some k => {[ k := 1 ]} end.
Definition fresh (slack : option nat) (h : hmap R) : Prop :=
  match slack with None => True | Some k => in_vks h k = false end.
Definition over_hmap (slack : option nat) (h : hmap R) : hmap R := map (divterm (slack_exp slack) 1) h.

Lemma slack_canon slack : exp_canon (slack_exp slack).
Proof.
  destruct slack as [k|]; cbn; intros j x; [|rewrite lookup_empty; discriminate].
  intros Hx. apply lookup_singleton_Some in Hx as [_ <-]. lra.
Qed.
Lemma sub_slack_ne slack (h : hmap R) e e' c c' : canonical h -> fresh slack h -> In (e, c) h -> In (e', c') h ->
  exp_sub e (slack_exp slack) = e' -> slack = None /\ e = e'.
Proof.
  intros [_ Hc] Hf Hi Hi' E. destruct slack as [k|]; cbn [slack_exp fresh] in *.
  - exfalso. assert (Ek : forall o x, In (o, x) h -> o !! k = None).
    { intros o x Ho. destruct (o !! k) eqn:Eo; auto. exfalso.
      assert (in_vks h k = true) by (apply in_vks_true; exists o, x; split; [auto|congruence]). congruence. }
    pose proof (f_equal (fun o => eget o k) E) as E'. cbn beta in E'. rewrite eget_sub in E'. unfold eget in E'.
    rewrite (Ek _ _ Hi), (Ek _ _ Hi'), lookup_singleton in E'. cbn in E'. lra.
  - split; auto. apply exp_canon_ext; [apply (Hc _ _ Hi)|apply (Hc _ _ Hi')|]. intros j.
    rewrite <- E, eget_sub. unfold eget at 3. rewrite lookup_empty. cbn. lra.
Qed.
Lemma slack_no_clash slack (h : hmap R) : canonical h -> fresh slack h -> no_clash h (slack_exp slack).
Proof.
  intros Hc Hf i j ei ci ej cj Hij Hi Hj E.
  assert (Ii : In (ei, ci) h) by (apply elem_of_list_In, elem_of_list_lookup_2 with i; auto).
  assert (Ij : In (ej, cj) h) by (apply elem_of_list_In, elem_of_list_lookup_2 with j; auto).
  destruct (sub_slack_ne slack h ei ej ci cj Hc Hf Ii Ij E) as [_ ->].
  assert (i = j); [|lia]. eapply (NoDup_lookup (dkeys h)); [apply Hc| |].
  - unfold dkeys. rewrite list_lookup_fmap. unfold hmap in *. rewrite Hi. reflexivity.
  - unfold dkeys. rewrite list_lookup_fmap. unfold hmap in *. rewrite Hj. reflexivity.
Qed.
Lemma over_no_const slack (h : hmap R) : canonical h -> fresh slack h -> dget h e_empty = None ->
  dget (over_hmap slack h) e_empty = None.
Proof.
  intros Hc Hf Hn. destruct (dget (over_hmap slack h) e_empty) as [x|] eqn:E; auto. exfalso. apply dget_In in E.
  apply in_map_iff in E as ([e c] & [= E _] & Hin). cbn [fst] in E. destruct slack as [k|]; cbn [slack_exp fresh] in *.
  - pose proof (f_equal (fun o => eget o k) E) as E'. cbn beta in E'. rewrite eget_sub, eget_empty in E'. unfold eget in E'.
    rewrite lookup_singleton in E'.
    assert (Ek : e !! k = None).
    { destruct (e !! k) eqn:Eo; auto. exfalso.
      assert (in_vks h k = true) by (apply in_vks_true; exists e, c; split; [auto|congruence]). congruence. }
    rewrite Ek in E'. cbn in E'. lra.
  - assert (e = e_empty) as ->.
    { apply exp_canon_ext; [apply (proj2 Hc _ _ Hin)|intros j y; unfold e_empty; rewrite lookup_empty; discriminate|].
      intros j. rewrite <- E, eget_sub. unfold eget at 3. rewrite lookup_empty. cbn. lra. }
    rewrite (In_dget h e_empty c (proj1 Hc) Hin) in Hn. discriminate.
Qed.

Lemma le_slack_ok slack (h : hmap R) : canonical h -> all_positive h -> dget h e_empty = None -> h <> [] -> fresh slack h ->
  le_slack se slack h = Ok [over_hmap slack h].
Proof.
  intros Hc Hp Hn Hne Hf. unfold le_slack, signomial_init.
  replace (any_nonpositive h) with false by (symmetry; apply any_nonpositive_false; auto). cbn [andb rbind posy_ineq].
  assert (Hs : slack_hmap slack = [(slack_exp slack, 1)]) by (destruct slack; reflexivity).
  rewrite Hs. cbn [gen_unsubbed]. rewrite rename_loop_ok by (auto using slack_no_clash). cbn [rbind].
  fold (over_hmap slack h). unfold simplify. rewrite over_no_const by auto. cbn [rbind].
  destruct (over_hmap slack h) as [|t l] eqn:E; [destruct h; [congruence|discriminate]|]. rewrite <- E.
  unfold signomial_init. replace (any_nonpositive (over_hmap slack h)) with false
    by (symmetry; apply any_nonpositive_false, divterm_positive; auto; lra). cbn [andb rbind]. auto.
Qed.

Lemma smul_single (m : expv R) c (h : hmap R) : canonical h -> c <> 0 -> 
  smul h [(m, c)] = map (fun t => (exp_add (fst t) m, snd t * c)) h.
Proof.
  intros [Hn Hc] Hc0. unfold smul.
  assert (G : forall rest pre, h = pre ++ rest ->
    fold_left (fun h0 s => fold_left (smul_term (fst s) (snd s)) [(m, c)] h0) rest (map (fun t => (exp_add (fst t) m, snd t * c)) pre)
    = map (fun t => (exp_add (fst t) m, snd t * c)) h).
  { induction rest as [|[e x] rest IH]; intros pre Hp; cbn [fold_left]; [rewrite Hp, app_nil_r; auto|].
    assert (Hfr : ~ In (exp_add e m) (dkeys (map (fun t => (exp_add (fst t) m, snd t * c)) pre))).
    { unfold dkeys. rewrite map_map. intros Hin. apply in_map_iff in Hin as ([e' x'] & E & Hin). cbn [fst] in E.
      assert (e' = e) as ->.
      { apply exp_canon_ext.
        - apply (Hc e' x'). rewrite Hp. apply in_or_app; auto.
        - apply (Hc e x). rewrite Hp. apply in_or_app; right; left; auto.
        - intros k. pose proof (f_equal (fun o => eget o k) E) as E'. cbn beta in E'. rewrite !eget_add in E'. lra. }
      rewrite Hp in Hn. unfold dkeys in Hn. rewrite map_app in Hn. apply NoDup_app in Hn as (_ & Hd & _).
      apply (Hd e); [apply elem_of_list_In, in_map_iff; exists (e, x'); auto|cbn; left]. }
    assert (Hx : x <> 0) by (apply (Hc e x); rewrite Hp; apply in_or_app; right; left; auto).
    cbn [smul_term fst snd].
    assert (Hd : dget (map (fun t => (exp_add (fst t) m, snd t * c)) pre) (exp_add e m) = None)
      by (apply dget_None; auto).
    rewrite Hd. cbn [nmul nopp n0 nadd R_num]. dcase D.
    - exfalso. cbn in D. assert (x * c <> 0) by (apply Rmult_integral_contrapositive_currified; auto). lra.
    - rewrite dset_absent_app by auto. rewrite Rplus_0_l.
      change [(exp_add e m, x * c)] with (map (fun t : expv R * R => (exp_add (fst t) m, snd t * c)) [(e, x)]).
      rewrite <- map_app. apply IH. rewrite <- app_assoc. auto. }
  exact (G h [] eq_refl).
Qed.

Lemma over_slack_ok slack (h : hmap R) : canonical h -> all_positive h -> h <> [] ->
  over_slack se slack h = Ok (over_hmap slack h).
Proof.
  intros Hc Hp Hne. unfold over_slack, signomial_init.
  replace (any_nonpositive h) with false by (symmetry; apply any_nonpositive_false; auto). cbn [andb rbind].
  assert (Hpos : any_nonpositive (over_hmap slack h) = false) by (apply any_nonpositive_false, divterm_positive; auto; lra).
  destruct slack as [k|]; cbn [py_div].
  - assert (Ecl : classify (var_hmap (T := R) k) = CMonomial).
    { unfold classify, any_nonpositive. cbn. unfold Rleb. destruct (Rle_dec 1 0); [lra|reflexivity]. }
    rewrite decide_True by auto. cbn [py_powz]. rewrite decide_True by auto. cbn [mono_pow var_hmap rbind].
    rewrite decide_False by (cbn; lra). cbn [npow n1 R_num]. rewrite Rpow_one.
    unfold signomial_init at 1. replace (any_nonpositive _) with false
      by (symmetry; unfold any_nonpositive; cbn; unfold Rleb; destruct (Rle_dec 1 0); [lra|reflexivity]).
    cbn [andb rmap rbind py_mul]. rewrite smul_single by (auto; lra).
    assert (E : map (fun t => (exp_add (fst t) (exp_mul {[k := 1]} (nofZ (-1))), snd t * 1)) h = over_hmap (Some k) h).
    { unfold over_hmap. apply map_ext. intros [e c]. unfold divterm. cbn [fst snd slack_exp].
      apply f_equal2; [|unfold Rdiv; lra]. unfold exp_sub, exp_neg. do 2 f_equal. }
    rewrite E. unfold signomial_init. rewrite Hpos. reflexivity.
  - rewrite decide_False by (cbn; lra). cbn [npow n1 nopp R_num]. rewrite Rpow_one. cbn [py_mul].
    rewrite decide_False by (cbn; lra).
    assert (E : hv_mul h 1 = over_hmap None h).
    { unfold over_hmap, hv_mul. apply map_ext_in. intros [e c] Hin. unfold divterm. cbn [fst snd slack_exp].
      f_equal; [|cbn; unfold Rdiv; lra]. apply exp_canon_ext; [apply (proj2 Hc _ _ Hin)|apply exp_canon_sub; [apply (proj2 Hc _ _ Hin)|apply (slack_canon None)]|].
      intros j. rewrite eget_sub. unfold eget at 3. rewrite lookup_empty. cbn. lra. }
    rewrite E. unfold signomial_init. rewrite Hpos. reflexivity.
Qed.
End Approx.
