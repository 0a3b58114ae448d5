(** C84: what is returned for a model is an optimum of the model as written. See EndToEndSpec.v for what that means. *)
From Verif Require Import Base HashVec Nomial NomialSem NomialProofs CanonProofs DiffProofs Sub SubSem SubProofs SubExtra Mono Constraint ConstraintSem
  ConstraintProofs PropsConstraint GPGen GPGenProofs PropsGP Solvers SolversSpec SolversProofs EndToEnd EndToEndSpec EndToEndProofs.
From Verif Require PropsSolvers.
Open Scope R_scope.

Lemma in_vks_true (h : hmap R) e c k : In (e, c) h -> e !! k <> None -> in_vks h k = true.
Proof. intros Hin Hk. apply existsb_exists. exists (e, c). split; [exact Hin|]. cbn. destruct (e !! k); [reflexivity|congruence]. Qed.
Lemma position_lookup l v : forall j, position l v = Some j -> l !! j = Some v.
Proof.
  induction l as [|k l IH]; intros j; [discriminate|]. cbn. destruct (decide (v = k)) as [-> |]; [intros [= <-]; reflexivity|].
  destruct (position l v) as [j'|]; [|discriminate]. intros [= <-]. apply IH. reflexivity.
Qed.

Lemma combine_lookup {A B} (ks : list A) (l : list B) v y : forall j, ks !! j = Some v -> l !! j = Some y -> combine ks l !! j = Some (v, y).
Proof.
  revert l. induction ks as [|k ks IH]; intros [|a l] [|j]; cbn; intros E1 E2; try discriminate; [congruence|]. apply IH; assumption.
Qed.

Section Solve.
Variables (inf : R) (pick : hmap R -> schedule) (ord : var_order R) (optimize : optimizer) (fixed : gmap nat R) (cost : hmap R) (ws : list written).
Hypotheses (Hs : subs_ok fixed pick) (Hord : any_order ord) (Hopt : honest optimize) (Hcost : is_posy cost) (Hws : Forall geometric ws).

(** the program, if there is one *)
Record program (hs : list (bool * hmap R)) : Prop := {
  pr_make : exists cs ch, make_all ws = Ok cs /\ gp_hmaps inf pick false fixed cost cs = Ok hs /\ hs = (false, ch) :: tl hs /\
    (forall env, positive_point env -> eval env ch = eval (override env fixed) cost) /\
    (forall o c, In (o, c) cost -> In (surviving fixed o) (dkeys ch)) /\ (forall e c, In (e, c) ch -> exists o co, In (o, co) cost /\ e = surviving fixed o);
  pr_stands : stands fixed ws (tl hs);
  pr_free : forall b v, In (b, v) hs -> is_posy v /\ forall k, in_vks v k = true -> fixed !! k = None;
  pr_proper : proper (posys_of ord hs);
  pr_pairs : meq_pairs (posys_of ord hs) (g_all (gen ord hs)) (g_first (gen ord hs));
  pr_columns : (0 < columns (gen ord hs))%nat }.
Lemma program_of : (exists hs, program hs) \/
  (never fixed ws /\ ((exists e, make_all ws = Err e) \/ exists cs e, make_all ws = Ok cs /\ gp_hmaps inf pick false fixed cost cs = Err e)).
Proof.
  destruct Hcost as (Hcan & Hpos & Hne).
  destruct (sub_posy inf cost fixed (pick cost) Hcan Hpos Hne (proj1 Hs) (proj2 Hs cost)) as (st & Es & Hc & Hp & Hn & Hfree & Hev).
  pose proof (chain_stands inf pick fixed Hs ws Hws) as C.
  destruct (make_all ws) as [cs|e] eqn:Em; [|right; eauto].
  assert (Enp : any_nonpositive (s_cp st) = false).
  { destruct (any_nonpositive (s_cp st)) eqn:E; [|reflexivity]. apply any_nonpositive_true in E as (e & c & Hin & Hle). specialize (Hp e c Hin). lra. }
  destruct (chain_hmaps inf pick false fixed cs) as [hs|e] eqn:Ec.
  2:{ right. split; [exact C|]. right. exists cs, e. split; [reflexivity|]. unfold gp_hmaps. rewrite Es. cbn [rbind]. rewrite Enp, Ec. reflexivity. }
  assert (Eg : gp_hmaps inf pick false fixed cost cs = Ok ((false, s_cp st) :: hs)) by (unfold gp_hmaps; rewrite Es; cbn [rbind]; rewrite Enp, Ec; reflexivity).
  left. exists ((false, s_cp st) :: hs). pose proof C as (S1 & S2 & S3 & S4).
  assert (F : forall b v, In (b, v) ((false, s_cp st) :: hs) -> is_posy v /\ forall k, in_vks v k = true -> fixed !! k = None).
  { intros b v [[= <- <-]|Hin]; [|apply (S1 b v Hin)]. split; [split; [exact Hc|split; assumption]|]. intros k Hk.
    destruct (fixed !! k) as [x|] eqn:E; [|reflexivity]. apply existsb_exists in Hk as ([e c] & Hin & Hk). cbn in Hk.
    rewrite (Hfree e k x) in Hk; [discriminate| |exact E]. apply in_map_iff. exists (e, c). auto. }
  split.
  - exists cs, (s_cp st). split; [exact Em|]. split; [exact Eg|]. split; [reflexivity|]. split; [exact Hev|].
    split; [apply (sub_posy_key inf cost fixed (pick cost) st Hcan Hpos (proj1 Hs) (proj2 Hs cost) Es)|]. intros e c Hin.
    destruct (positive_origin inf pick fixed cost st (proj1 Hs) (proj2 Hs) Hcan Es e c) as (o & co & Ho & _ & Eo); [|eauto].
    apply posy_negy_posy; [apply Hc|]. split; [exact Hin|apply (Hp e c Hin)].
  - exact C.
  - exact F.
  - apply (posys_proper ord Hord); [discriminate|]. intros b h Hin. apply (F b h Hin).
  - destruct (S4 (length (s_cp st))) as (f & a & P). eapply (meq_ok ord Hord). constructor; [exact Hn|]. cbn [Nat.add]. exact P.
  - apply (columns_pos ord Hord). unfold terms. cbn. destruct (s_cp st); [congruence|discriminate].
Qed.
Lemma solve_program hs : program hs -> solve inf pick ord optimize fixed cost ws =
  match optimize (c_of (posys_of ord hs)) (A_of (posys_of ord hs)) (k_of (posys_of ord hs)) (p_of (posys_of ord hs))
          (g_all (gen ord hs)) (g_first (gen ord hs)) (columns (gen ord hs)) with
  | Err e => Err e
  | Ok (c, x, _) => if decide (length (g_varlocs (gen ord hs)) = length x)
                    then Ok (c, fixed ∪ list_to_map (combine (dkeys (g_varlocs (gen ord hs))) (map exp x))) else Err RuntimeWarningE
  end.
Proof.
  intros HP. destruct (pr_make _ HP) as (cs & ch & Em & Eg & _). unfold solve. rewrite Em. cbn [rbind]. rewrite Eg. cbn [rbind].
  destruct (arrays ord Hord hs) as (E1 & E2 & E3 & E4). rewrite E1, E2, E3, E4. reflexivity.
Qed.
Lemma varidx_free hs v j : program hs -> varidx (gen ord hs) v = Some j -> fixed !! v = None.
Proof.
  intros HP E. destruct (C26_columns ord hs Hord) as (A & _). destruct (proj1 (A v)) as (b & h & e & c & Hin & Hec & Hv); [rewrite E; discriminate|].
  apply (pr_free _ HP b h Hin). eapply in_vks_true; eassumption.
Qed.
Lemma varlocs_nodup hs : NoDup (dkeys (g_varlocs (gen ord hs))).
Proof.
  pose proof (gen_loop_inv ord Hord hs (map (fun mh => length (snd mh)) hs)) as HI. rewrite gen_eq. cbn [g_varlocs]. apply (vi_nd _ _ _ _ (gi_v _ _ HI)).
Qed.
(** the logarithms of a point *)
Definition logs hs (q : point) (j : nat) : R := match dkeys (g_varlocs (gen ord hs)) !! j with Some v => ln (q v) | None => 0 end.
Lemma logs_agree hs q : positive_point q -> agrees ord hs (logs hs q) q.
Proof. intros Hq v j E. unfold logs. unfold varidx in E. rewrite (position_lookup _ _ _ E), exp_ln; auto. Qed.
Lemma solved_agree hs q x : program hs -> length (g_varlocs (gen ord hs)) = length x ->
  shows q (fixed ∪ list_to_map (combine (dkeys (g_varlocs (gen ord hs))) (map exp x))) -> agrees ord hs (pt x) q.
Proof.
  intros HP L Hq v j E. apply Hq. apply lookup_union_Some_raw. right. split; [eapply varidx_free; eassumption|].
  unfold varidx in E. apply position_lookup in E. set (ks := dkeys (g_varlocs (gen ord hs))) in *.
  assert (Lk : length ks = length (map exp x)) by (unfold ks, dkeys; rewrite !map_length; exact L).
  assert (Ef : map fst (combine ks (map exp x)) = ks).
  { clear -Lk. revert Lk. generalize (map exp x). intros l. revert l. induction ks as [|k ks IH]; intros [|a l]; intros Hl; try discriminate; [reflexivity|].
    cbn. rewrite IH; [reflexivity|]. cbn in Hl. lia. }
  apply elem_of_list_to_map_1.
  - change (NoDup (map fst (combine ks (map exp x)))). rewrite Ef. apply varlocs_nodup.
  - apply elem_of_list_lookup. exists j. pose proof (lookup_lt_Some _ _ _ E) as Lj.
    assert (Ex : map exp x !! j = Some (exp (pt x j))).
    { rewrite list_lookup_fmap. unfold pt. rewrite map_length in Lk. destruct (lookup_lt_is_Some_2 x j) as (y & Ey); [lia|].
      rewrite Ey. cbn. f_equal. f_equal. symmetry. apply nth_lookup_Some. exact Ey. }
    apply combine_lookup; assumption.
Qed.
Lemma same_at q w : (forall k v, fixed !! k = Some v -> q k = v) -> holds_at (override q fixed) w <-> holds_at q w.
Proof.
  intros Hq. destruct w as [l op r|l r]; cbn; [unfold holds|]; rewrite !(override_at fixed q Hq); reflexivity.
Qed.
Lemma meets_override q : positive_point q -> Forall (holds_at (override q fixed)) ws -> meets fixed ws (override q fixed).
Proof. intros Hq F. split; [apply (override_pos pick fixed Hs); exact Hq|]. split; [apply override_shows|exact F]. Qed.
(** if constraints can hold, constants in tolerance do hold *)
Lemma near_meets q0 q w : meets fixed ws q0 -> positive_point q -> (forall k v, fixed !! k = Some v -> q k = v) -> In w ws ->
  holds_at q w \/ constant_ratio fixed w -> holds_at q w.
Proof.
  intros (P0 & F0 & H0) Hq Fq Hin [H|(c & Hc & H)]; [exact H|]. rewrite List.Forall_forall in H0. specialize (H0 w Hin).
  pose proof (proj1 (List.Forall_forall _ _) Hws w Hin) as G. destruct w as [l op r|l r].
  - destruct G as (Ho & _ & (e & cg & Eg & _ & Hcg) & _).
    assert (Pos : forall p, 0 < eval p (greater l op r)) by (intros p; rewrite Eg; cbn; pose proof (mono_val_pos p e); nra).
    pose proof (H q0 P0 F0) as A. pose proof (H q Hq Fq) as B. pose proof (Pos q0) as Pos0. pose proof (Pos q) as Posq.
    assert (c <= 1).
    { destruct op; [| |congruence]; cbn [holds_at holds lesser greater] in *; rewrite A in H0; nra. }
    destruct op; [| |congruence]; cbn [holds_at holds lesser greater] in *; rewrite B; nra.
  - destruct G as (_ & (e & cg & Eg & _ & Hcg)). destruct H as [_ H].
    assert (Pos : 0 < eval q0 r) by (rewrite Eg; cbn; pose proof (mono_val_pos q0 e); nra).
    pose proof (H q0 P0 F0) as A. pose proof (H q Hq Fq) as B. cbn in *. rewrite A in H0.
    assert (c = 1) as -> by nra. lra.
Qed.

Lemma solve_ok c vs : solve inf pick ord optimize fixed cost ws = Ok (c, vs) ->
  (forall k v, fixed !! k = Some v -> vs !! k = Some v) /\ (forall k v, vs !! k = Some v -> 0 < v) /\
  (forall q, positive_point q -> shows q vs -> nearly_meets fixed ws q /\ eval q cost = c) /\
  (forall q, meets fixed ws q -> c <= eval q cost).
Proof.
  intros E. destruct program_of as [(hs & HP)|(_ & [(e & Em)|(cs & e & Em & Eg)])].
  2:{ unfold solve in E. rewrite Em in E. discriminate. }
  2:{ unfold solve in E. rewrite Em in E. cbn [rbind] in E. rewrite Eg in E. discriminate. }
  rewrite (solve_program hs HP) in E.
  pose proof (Hopt (posys_of ord hs) (g_all (gen ord hs)) (g_first (gen ord hs)) (columns (gen ord hs)) (pr_proper _ HP) (pr_pairs _ HP) (bounded ord hs) (pr_columns _ HP)) as HO.
  destruct (optimize _ _ _ _ _ _ _) as [[[c' x] la]|e]; [|discriminate]. destruct (decide _) as [L|]; [|discriminate]. injection E as <- <-.
  destruct HO as (_ & [Bf Bb] & Ec). destruct (pr_make _ HP) as (cs & ch & _ & _ & Eh & Hch & _).
  pose proof (pr_stands _ HP) as (_ & S2 & S3 & _).
  assert (E0 : hs !! 0%nat = Some (false, ch)) by (rewrite Eh; reflexivity).
  split; [|split; [|split]].
  - intros k v Hk. apply lookup_union_Some_raw. left. exact Hk.
  - intros k v Hk. apply lookup_union_Some_raw in Hk as [Hk|[_ Hk]]; [apply (proj1 Hs k v Hk)|].
    apply elem_of_list_to_map_2, elem_of_list_In, in_combine_r, in_map_iff in Hk as (y & <- & _). apply exp_pos.
  - intros q Hq Hsh. assert (Fq : forall k v, fixed !! k = Some v -> q k = v) by (intros k v Hk; apply Hsh; apply lookup_union_Some_raw; left; exact Hk).
    pose proof (solved_agree hs q x HP L Hsh) as Ha. split.
    + split; [exact Hq|]. split; [exact Fq|]. apply (feasible_sat ord Hord hs _ q Ha) in Bf. pose proof (S3 q Hq Bf) as N.
      eapply Forall_impl; [exact N|]. intros w [Hw|Hw]; [left; apply (same_at q w Fq); exact Hw|right; exact Hw].
    + rewrite Ec, (cost_eval ord Hord hs _ q _ _ E0 Ha), (Hch q Hq), (override_at fixed q Fq). reflexivity.
  - intros q (Hq & Fq & H). pose proof (logs_agree hs q Hq) as Ha.
    assert (Hf : gp_feasible (posys_of ord hs) (logs hs q)).
    { apply (feasible_sat ord Hord hs _ q Ha). apply S2; [exact Hq|]. eapply Forall_impl; [exact H|]. intros w Hw. apply (same_at q w Fq). exact Hw. }
    specialize (Bb _ Hf). rewrite <- Ec, (cost_eval ord Hord hs _ q _ _ E0 Ha), (Hch q Hq), (override_at fixed q Fq) in Bb. exact Bb.
Qed.
End Solve.

(** ** C84 *)

(** If constraints can be met at all, a returned solution is an optimum: with any values for variables it doesn't mention, it meets every
    constraint as written and the substitutions, no point that does costs less, and the cost returned is the cost there. *)
Theorem C84_optimum_partial :
  forall inf pick ord optimize fixed cost ws c vs, subs_ok fixed pick -> any_order ord -> honest optimize ->
  is_posy cost -> Forall geometric ws -> (exists q, meets fixed ws q) ->
  solve inf pick ord optimize fixed cost ws = Ok (c, vs) ->
  (forall k v, fixed !! k = Some v -> vs !! k = Some v) /\ (forall k v, vs !! k = Some v -> 0 < v) /\
  forall q, positive_point q -> shows q vs -> best (meets fixed ws) (fun q => eval q cost) q /\ c = eval q cost.
Proof.
  intros inf pick ord optimize fixed cost ws c vs Hs Ho Hh Hc Hw (q0 & H0) E.
  destruct (solve_ok inf pick ord optimize fixed cost ws Hs Ho Hh Hc Hw c vs E) as (A & B & C & D).
  split; [exact A|]. split; [exact B|]. intros q Hq Hsh. destruct (C q Hq Hsh) as [(_ & Fq & N) Ec]. split; [split|symmetry; exact Ec].
  - split; [exact Hq|]. split; [exact Fq|]. apply List.Forall_forall. intros w Hin. rewrite List.Forall_forall in N.
    apply (near_meets fixed ws Hw q0 q w H0 Hq Fq Hin (N w Hin)).
  - intros q' Hq'. rewrite Ec. apply D. exact Hq'.
Qed.
Print Assumptions C84_optimum_partial.

(** Whether or not they can, a solution meets every constraint, except perhaps those whose sides are in a fixed ratio that is over 1 by no
    more than the tolerance; and costs no more than any point that meets them all. *)
Theorem C84_nearly_partial :
  forall inf pick ord optimize fixed cost ws c vs, subs_ok fixed pick -> any_order ord -> honest optimize ->
  is_posy cost -> Forall geometric ws ->
  solve inf pick ord optimize fixed cost ws = Ok (c, vs) ->
  (forall q, positive_point q -> shows q vs -> nearly_meets fixed ws q /\ c = eval q cost) /\
  (forall q, meets fixed ws q -> c <= eval q cost).
Proof.
  intros inf pick ord optimize fixed cost ws c vs Hs Ho Hh Hc Hw E.
  destruct (solve_ok inf pick ord optimize fixed cost ws Hs Ho Hh Hc Hw c vs E) as (_ & _ & C & D). split; [|exact D].
  intros q Hq Hsh. destruct (C q Hq Hsh). split; [assumption|symmetry; assumption].
Qed.
Print Assumptions C84_nearly_partial.

(** A model that has an optimum, and a cost with a free variable, is solved unless the solver fails on a GP that has one; its exception is passed on. *)
Theorem C84_found_partial :
  forall inf pick ord optimize fixed cost ws q k, subs_ok fixed pick -> any_order ord -> honest optimize ->
  is_posy cost -> Forall geometric ws -> best (meets fixed ws) (fun q => eval q cost) q ->
  in_vks cost k = true -> fixed !! k = None ->
  match solve inf pick ord optimize fixed cost ws with Ok (c, _) => c = eval q cost | Err e => fails optimize e end.
Proof.
  intros inf pick ord optimize fixed cost ws q k Hs Ho Hh Hc Hw [Hm Hb] Hk Hf. pose proof Hm as (Hq & Fq & Fw).
  destruct (program_of inf pick ord fixed cost ws Hs Ho Hc Hw) as [(hs & HP)|[N _]].
  2:{ destruct (N q Hq). eapply Forall_impl; [exact Fw|]. intros w Hw'. apply (same_at fixed q w Fq). exact Hw'. }
  destruct (pr_make _ _ _ _ _ _ _ HP) as (cs & ch & _ & _ & Eh & Hch & Hkeys & _). pose proof (pr_stands _ _ _ _ _ _ _ HP) as (_ & S2 & S3 & _).
  assert (E0 : hs !! 0%nat = Some (false, ch)) by (rewrite Eh; reflexivity).
  pose proof (logs_agree ord hs q Hq) as Ha.
  assert (HB : best (gp_feasible (posys_of ord hs)) (gp_cost (posys_of ord hs)) (logs ord hs q)).
  { split.
    - apply (feasible_sat ord Ho hs _ q Ha). apply S2; [exact Hq|]. eapply Forall_impl; [exact Fw|]. intros w Hw'. apply (same_at fixed q w Fq). exact Hw'.
    - intros x Hx. set (env := (fun v => match varidx (gen ord hs) v with Some j => exp (x j) | None => 1 end) : point).
      assert (Hax : agrees ord hs x env) by (intros v j E; unfold env; rewrite E; reflexivity).
      assert (Hpos : positive_point env) by (intros v; unfold env; destruct (varidx _ v); [apply exp_pos|lra]).
      apply (feasible_sat ord Ho hs _ env Hax) in Hx. pose proof (S3 env Hpos Hx) as N.
      rewrite (cost_eval ord Ho hs _ q _ _ E0 Ha), (cost_eval ord Ho hs _ env _ _ E0 Hax), (Hch q Hq), (Hch env Hpos), (override_at fixed q Fq).
      apply Hb. split; [apply (override_pos pick fixed Hs); exact Hpos|]. split; [apply override_shows|]. apply List.Forall_forall. intros w Hin.
      rewrite List.Forall_forall in N.
      apply (near_meets fixed ws Hw q (override env fixed) w Hm (override_pos pick fixed Hs env Hpos) (override_shows fixed env) Hin (N w Hin)). }
  pose proof (Hh (posys_of ord hs) (g_all (gen ord hs)) (g_first (gen ord hs)) (columns (gen ord hs)) (pr_proper _ _ _ _ _ _ _ HP) (pr_pairs _ _ _ _ _ _ _ HP) (bounded ord hs) (pr_columns _ _ _ _ _ _ _ HP)) as HO.
  rewrite (solve_program inf pick ord optimize fixed cost ws Ho hs HP). destruct (optimize _ _ _ _ _ _ _) as [[[c x] la]|e] eqn:Eo.
  2:{ exists (posys_of ord hs), (g_all (gen ord hs)), (g_first (gen ord hs)), (columns (gen ord hs)).
      split; [exact (pr_proper _ _ _ _ _ _ _ HP)|]. split; [exact (pr_pairs _ _ _ _ _ _ _ HP)|]. split; [exact (bounded ord hs)|].
      split; [exact (pr_columns _ _ _ _ _ _ _ HP)|]. split; [eauto|exact Eo]. }
  destruct HO as (Lx & [Bf Bb] & Ec).
  assert (Lv : length (g_varlocs (gen ord hs)) = length x).
  { rewrite Lx. unfold columns. symmetry. apply (cols_shape ord Ho hs).
    apply existsb_exists in Hk as ([o co] & Hin & Hk). cbn in Hk. destruct (o !! k) as [a|] eqn:Ek; [|discriminate].
    specialize (Hkeys o co Hin). destruct (C26_columns ord hs Ho) as (A & _ & C). destruct (varidx (gen ord hs) k) as [j|] eqn:Ej.
    - specialize (C k j Ej). lia.
    - destruct (proj2 (A k)); [|exact Ej]. apply in_map_iff in Hkeys as ([e' c'] & Ee & Hin'). cbn in Ee. subst e'.
      exists false, ch, (surviving fixed o), c'. split; [rewrite Eh; left; reflexivity|]. split; [exact Hin'|].
      unfold surviving. rewrite (proj2 (lookup_difference_Some o fixed k a)); [discriminate|]. auto. }
  destruct (decide _) as [_|]; [|congruence].
  rewrite Ec. destruct HB as [Hf1 Hb1]. apply Rle_antisym.
  - specialize (Bb _ Hf1). rewrite (cost_eval ord Ho hs _ q _ _ E0 Ha), (Hch q Hq), (override_at fixed q Fq) in Bb. exact Bb.
  - specialize (Hb1 _ Bf). rewrite (cost_eval ord Ho hs _ q _ _ E0 Ha), (Hch q Hq), (override_at fixed q Fq) in Hb1. exact Hb1.
Qed.
Print Assumptions C84_found_partial.

(** Without a free variable it is not: where every variable is substituted, nothing is ever returned. *)
Definition all_fixed (fixed : gmap nat R) (h : hmap R) : Prop := forall k, in_vks h k = true -> fixed !! k <> None.
Definition sides (w : written) : list (hmap R) := match w with Ineq l _ r => [l; r] | Equal l r => [l; r] end.
Lemma mono_is_posy (h : hmap R) : is_mono h -> is_posy h /\ forall m, no_clash h m.
Proof.
  intros (e & c & -> & He & Hc). split; [split; [|split]|].
  - split; [apply NoDup_singleton|]. intros e' c' [[= <- <-]|[]]. split; [exact He|lra].
  - intros e' c' [[= <- <-]|[]]. exact Hc.
  - discriminate.
  - intros m. apply (single_no_clash _ e); [apply NoDup_singleton|]. intros e' c' [[= <- <-]|[]]. reflexivity.
Qed.
Lemma gen_fixed fixed (p m : hmap R) us : is_posy p -> is_mono m -> (forall e c, m = [(e, c)] -> no_clash p e) -> gen_unsubbed false p m = Ok us ->
  all_fixed fixed p -> all_fixed fixed m -> Forall (fun u => is_posy u /\ all_fixed fixed u) us.
Proof.
  intros Hp Hm Hc E Fp Fm. pose proof (gen_unsubbed_cases false p m Hp Hm Hc) as C. rewrite E in C. destruct us as [|u [|]]; [constructor| |destruct C].
  destruct C as (Hn & Hcan & _ & [[Hpos _]|[Hf _]]); [|discriminate]. constructor; [|constructor]. split; [split; [exact Hcan|split; assumption]|].
  intros k Hk. destruct (gen_unsubbed_vars false p m u k (proj1 Hp) Hm Hc E Hk); auto.
Qed.
Lemma fixed_out inf pick fixed us : subs_ok fixed pick -> Forall (fun u => is_posy u /\ all_fixed fixed u) us ->
  forall st st' out, as_hmapslt1 inf pick fixed st us = Ok (st', out) -> out = [].
Proof.
  intros Hs F. induction F as [|u us [(Hc & Hp & Hn) Hf] _ IH]; intros st st' out E; [injection E as _ <-; reflexivity|].
  rewrite as_hmapslt1_cons in E. pose proof (as_hmapslt1_one inf pick fixed (proj1 Hs) (proj2 Hs) st u Hc Hp Hn) as C.
  destruct (as_hmapslt1 inf pick fixed st [u]) as [[st1 l1]|] eqn:E1; [|discriminate].
  destruct (as_hmapslt1 inf pick fixed st1 us) as [[st2 l2]|] eqn:E2; [|discriminate]. injection E as _ <-. rewrite (IH _ _ _ E2), app_nil_r.
  destruct l1 as [|v [|]]; [reflexivity| |destruct C]. destruct C as (_ & _ & (k & Hk & Hk') & _). destruct (Hf k Hk Hk').
Qed.
Lemma fixed_chain inf pick fixed ws : subs_ok fixed pick -> Forall geometric ws -> Forall (fun w => Forall (all_fixed fixed) (sides w)) ws ->
  forall cs hs, make_all ws = Ok cs -> chain_hmaps inf pick false fixed cs = Ok hs -> hs = [].
Proof.
  intros Hs G F. induction F as [|w ws Fw _ IH]; intros cs hs E1 E2; [injection E1 as <-; injection E2 as <-; reflexivity|].
  inversion G as [|? ? Gw Gs]; subst. cbn [make_all] in E1. destruct (make w) as [c|] eqn:Ew; [|discriminate]. cbn [rbind] in E1.
  destruct (make_all ws) as [cs'|] eqn:Es; [|discriminate]. cbn [rbind] in E1. injection E1 as <-. cbn [chain_hmaps] in E2.
  destruct (constr_hmaps inf pick false fixed c) as [a|] eqn:Ea; [|discriminate]. cbn [rbind] in E2.
  destruct (chain_hmaps inf pick false fixed cs') as [b|] eqn:Eb; [|discriminate]. cbn [rbind] in E2. injection E2 as <-.
  rewrite (IH Gs _ _ eq_refl Eb), app_nil_r. clear IH.
  destruct w as [l op r|l r]; unfold make in Ew; cbn [sides] in Fw; inversion Fw as [|? ? Fl Fw']; subst; inversion Fw' as [|? ? Fr _]; subst.
  - destruct Gw as (Ho & Hl & Hg & Hc). destruct (posy_ineq false l op r) as [us|] eqn:Ep; [|discriminate]. injection Ew as <-.
    assert (Fu : Forall (fun u => is_posy u /\ all_fixed fixed u) us).
    { destruct op; [| |congruence]; cbn [posy_ineq lesser greater] in *; eapply gen_fixed; eassumption. }
    unfold constr_hmaps in Ea. destruct (as_hmapslt1 inf pick fixed (CS None None) us) as [[st out]|] eqn:Eo; [|discriminate]. cbn in Ea. injection Ea as <-.
    rewrite (fixed_out inf pick fixed us Hs Fu _ _ _ Eo). reflexivity.
  - destruct Gw as (Hl & Hr). destruct (meq_unsubbed false l r) as [us|] eqn:Ep; [|discriminate]. injection Ew as <-.
    assert (Fu : Forall (fun u => is_posy u /\ all_fixed fixed u) us).
    { unfold meq_unsubbed in Ep. destruct (gen_unsubbed false l r) as [u1|] eqn:E1; [|discriminate]. cbn [rbind] in Ep.
      destruct (gen_unsubbed false r l) as [u2|] eqn:E2; [|discriminate]. cbn [rbind] in Ep. injection Ep as <-. apply Forall_app. 
      destruct (mono_is_posy l Hl) as [Pl Cl], (mono_is_posy r Hr) as [Pr Cr].
      split; [apply (gen_fixed fixed l r u1 Pl Hr (fun e c _ => Cl e) E1 Fl Fr)|apply (gen_fixed fixed r l u2 Pr Hl (fun e c _ => Cr e) E2 Fr Fl)]. }
    unfold constr_hmaps in Ea. destruct (as_hmapslt1 inf pick fixed (CS None None) us) as [[st out]|] eqn:Eo; [|discriminate]. cbn in Ea. injection Ea as <-.
    rewrite (fixed_out inf pick fixed us Hs Fu _ _ _ Eo). reflexivity.
Qed.
Theorem C84_all_fixed_refuted :
  forall inf pick ord optimize fixed cost ws, subs_ok fixed pick -> any_order ord -> honest optimize ->
  is_posy cost -> Forall geometric ws -> all_fixed fixed cost -> Forall (fun w => Forall (all_fixed fixed) (sides w)) ws ->
  forall a, solve inf pick ord optimize fixed cost ws <> Ok a.
Proof.
  intros inf pick ord optimize fixed cost ws Hs Ho Hh Hc Hw Fc Fw a E.
  destruct (program_of inf pick ord fixed cost ws Hs Ho Hc Hw) as [(hs & HP)|(_ & [(e & Em)|(cs & e & Em & Eg)])].
  2:{ unfold solve in E. rewrite Em in E. discriminate. }
  2:{ unfold solve in E. rewrite Em in E. cbn [rbind] in E. rewrite Eg in E. discriminate. }
  rewrite (solve_program inf pick ord optimize fixed cost ws Ho hs HP) in E.
  pose proof (Hh (posys_of ord hs) (g_all (gen ord hs)) (g_first (gen ord hs)) (columns (gen ord hs)) (pr_proper _ _ _ _ _ _ _ HP) (pr_pairs _ _ _ _ _ _ _ HP) (bounded ord hs) (pr_columns _ _ _ _ _ _ _ HP)) as HO.
  destruct (optimize _ _ _ _ _ _ _) as [[[c x] la]|]; [|discriminate]. destruct (decide _) as [L|]; [|discriminate]. clear E.
  destruct HO as (Lx & _). pose proof (pr_columns _ _ _ _ _ _ _ HP) as Hpos. rewrite <- Lx, <- L in Hpos.
  destruct (pr_make _ _ _ _ _ _ _ HP) as (cs & ch & Em & Eg & Eh & _ & _ & Hor).
  assert (Et : tl hs = []).
  { unfold gp_hmaps in Eg. destruct (nm_sub inf fixed cost (pick cost)) as [st|]; [|discriminate]. cbn [rbind] in Eg. destruct (any_nonpositive (s_cp st)); [discriminate|].
    destruct (chain_hmaps inf pick false fixed cs) as [hs'|] eqn:Ec; [|discriminate]. cbn [rbind] in Eg. injection Eg as <-. cbn.
    apply (fixed_chain inf pick fixed ws Hs Hw Fw cs hs' Em Ec). }
  rewrite Et in Eh. destruct (g_varlocs (gen ord hs)) as [|[v locs] vl] eqn:Ev; [cbn in Hpos; lia|].
  destruct (C26_columns ord hs Ho) as (A & _). destruct (proj1 (A v)) as (b & h & e & c' & Hin & Hec & Hv).
  { unfold varidx. rewrite Ev. cbn. destruct (decide (v = v)); [discriminate|congruence]. }
  rewrite Eh in Hin. destruct Hin as [[= <- <-]|[]]. destruct (Hor e c' Hec) as (o & co & Hino & ->).
  unfold surviving in Hv. destruct ((o ∖ fixed) !! v) as [y|] eqn:Ey; [|congruence]. apply lookup_difference_Some in Ey as [Ey Ef].
  apply (Fc v); [|exact Ef]. eapply in_vks_true; [exact Hino|]. rewrite Ey. discriminate.
Qed.
Print Assumptions C84_all_fixed_refuted.

(** ** The solvers *)

(** CVXOPT's x has a value for each column of F. *)
Definition width (M : matrix) : nat := S (list_max (map fst (concat M))).
Theorem C84_cvxopt : forall gp use_leqs, PropsSolvers.cvx_honest gp ->
  (forall q out, gp q = Ok out -> o_optimal out = true -> length (o_x out) = width (q_F q)) -> honest (cvxopt gp use_leqs).
Proof.
  intros gp use_leqs Hg Hx ps all first m Hp Hm Hb Hpos.
  pose proof (PropsSolvers.C34_optimize gp ps all first use_leqs (m - 1) Hg Hp Hm) as C. unfold cvxopt.
  destruct (cvx_optimize gp (c_of ps) (A_of ps) (k_of ps) all first use_leqs (m - 1)) as [[[c x] la]|e] eqn:E; [|exact I].
  destruct C as (B & Ec & _). split; [|split; [exact B|exact Ec]].
  unfold cvx_optimize in E. set (q := cvx_problem _ _ _ _ _ _ _) in *. destruct (gp q) as [out|e] eqn:Eg; [|destruct e; discriminate].
  destruct (o_optimal out) eqn:Eo; [|discriminate]. destruct (cvx_la _ _ _ _ out) as [la'|]; [|discriminate]. cbn in E. injection E as _ <- _.
  rewrite (Hx q out Eg Eo). unfold width. cut (list_max (map fst (concat (q_F q))) = (m - 1)%nat); [lia|].
  assert (Hcol : forall r j a, In r (A_of ps) -> In (j, a) r -> (j <= m - 1)%nat).
  { intros r j a Hr Hj. unfold A_of in Hr. apply in_map_iff in Hr as (mo & <- & Hin). apply in_concat in Hin as (p & Hin & Hmo).
    unfold bounded_columns in Hb. rewrite List.Forall_forall in Hb. specialize (Hb p Hin). rewrite List.Forall_forall in Hb. specialize (Hb mo Hmo).
    rewrite List.Forall_forall in Hb. specialize (Hb (j, a) Hj). cbn in Hb. lia. }
  apply list_max_eq.
  - intros j Hj. apply in_map_iff in Hj as ([j' v] & <- & Hj). apply in_concat in Hj as (r & Hr & Hj). cbn [fst].
    unfold q, cvx_problem in Hr. cbn [q_F] in Hr.
    assert (Hsel : forall r idxs, In r (select [] (A_of ps) idxs) -> forall j a, In (j, a) r -> (j <= m - 1)%nat).
    { intros r' idxs Hr' j0 a0 H0. unfold select in Hr'. apply in_map_iff in Hr' as (i & <- & _).
      destruct (Nat.lt_ge_cases i (length (A_of ps))) as [Hi|Hi]; [|rewrite nth_overflow in H0 by exact Hi; destruct H0].
      eapply Hcol; [apply nth_In; exact Hi|exact H0]. }
    revert Hr. set (M := select [] (A_of ps) _). assert (HM : forall r, In r M -> forall j a, In (j, a) r -> (j <= m - 1)%nat) by (intros r'; apply Hsel).
    clearbody M. destruct M as [|r0 M]; cbn [pad].
    + intros [<-|[]]. destruct Hj as [[= <- _]|[]]. lia.
    + intros [<-|Hr]; [|eapply HM; [right; exact Hr|exact Hj]]. apply in_app_or in Hj as [Hj|[[= <- _]|[]]]; [eapply HM; [left; reflexivity|exact Hj]|lia].
  - unfold q, cvx_problem. cbn [q_F]. generalize (select [] (A_of ps) (lse_mons (classify (k_of ps) all first use_leqs))). intros M.
    apply in_map_iff. exists ((m - 1)%nat, 0). split; [reflexivity|]. apply in_concat. destruct M as [|r0 M]; cbn [pad]; eexists; (split; [left; reflexivity|]).
    + left. reflexivity.
    + apply in_or_app. right. left. reflexivity.
Qed.
Print Assumptions C84_cvxopt.
Theorem C84_mosek : forall task, PropsSolvers.msk_honest task -> honest (mosek_conif task).
Proof.
  intros task Hh ps all first m Hp Hm Hb Hpos. pose proof (PropsSolvers.C35_optimize task ps m Hh Hp Hb) as C. unfold mosek_conif. cbv zeta in C.
  destruct (msk_optimize task (c_of ps) (A_of ps) (k_of ps) (p_of ps) m) as [[[c x] la]|e] eqn:E; [|exact I].
  destruct C as (B & Ec & _). split; [|split; [exact B|exact Ec]].
  unfold msk_optimize in E. destruct (a_status _) eqn:Es; try discriminate. destruct (msk_la _ _ _); [|discriminate]. cbn [rbind] in E. injection E as _ <- _.
  destruct (Hh _ Es) as (_ & _ & L & _). rewrite firstn_length, L, msk_problem_eq by assumption. cbn [m_vars]. rewrite app_length, repeat_length. lia.
Qed.
Print Assumptions C84_mosek.

(** ** Minimizing x with 2 <= x, by a solver that knows only this *)
Definition x1 (a : R) : expv R := {[0%nat := a]}.
Lemma gen_example : let g := gen std_order [(false, [(x1 1, 1)]); (false, [(x1 (-1), 2)])] in
  g_cs g = [1; 2] /\ g_coo g = [(0%nat, 0%nat, 1); (1%nat, 0%nat, -1)] /\ g_k g = [1; 1]%nat /\ g_varlocs g = [(0, [0; 1])]%nat.
Proof.
  assert (E : forall a, std_order (x1 a) = [0%nat]) by (intros a; unfold std_order, x1; rewrite map_to_list_singleton; reflexivity).
  assert (N : forall a, x1 a <> e_empty) by (intros a H; apply (f_equal (fun m => m !! 0%nat)) in H; discriminate).
  unfold gen. cbn [map length snd enumerate combine seq fold_left gen_hmap dkeys fst gen_exp g_m g_all g_first g_varlocs g_coo g_k g_cs g_exps g_midxs g_pidxs app].
  rewrite !E, !decide_False by apply N. cbn.
  repeat split.
Qed.

Definition toy : optimizer := fun c A k _ _ _ m =>
  if decide (c = [1; 2] /\ A = [[(0%nat, 1)]; [(0%nat, -1)]] /\ k = [1; 1]%nat /\ m = 1%nat) then Ok (2, [ln 2], [1; 1]) else Err UnknownInfeasibleE.
Lemma toy_honest : honest toy.
Proof.
  intros ps all first m Hp _ _ _. unfold toy. destruct (decide _) as [(Ec & EA & Ek & Em)|]; [|exact I].
  assert (Eps : ps = [[(1, [(0%nat, 1)])]; [(2, [(0%nat, -1)])]]).
  { unfold c_of, A_of, k_of in *. destruct ps as [|[|[c1 r1] [|]] [|[|[c2 r2] [|]] [|]]]; try discriminate. injection Ec as -> ->. injection EA as -> ->. reflexivity. }
  subst ps m. split; [reflexivity|].
  assert (El : exp (ln 2) = 2) by (apply exp_ln; lra).
  split.
  - split.
    + constructor; [|constructor]. cbn. unfold mval, pt. cbn. replace (-1 * ln 2 + 0) with (- ln 2) by lra. rewrite exp_Ropp, El. lra.
    + intros x F. inversion F as [|? ? F1 _]; subst. cbn in F1. unfold mval in F1. cbn in F1. unfold gp_cost, pval, mval, pt. cbn.
      replace (1 * ln 2 + 0) with (ln 2) by lra. replace (1 * x 0%nat + 0) with (x 0%nat) by lra. replace (-1 * x 0%nat + 0) with (- x 0%nat) in F1 by lra.
      rewrite El. rewrite exp_Ropp in F1. pose proof (exp_pos (x 0%nat)) as P.
      assert (2 <= exp (x 0%nat)); [|lra]. apply (Rmult_le_compat_r _ _ _ (Rlt_le _ _ P)) in F1.
      replace ((2 * / exp (x 0%nat) + 0) * exp (x 0%nat)) with 2 in F1 by (field; lra). lra.
  - unfold gp_cost, pval, mval, pt. cbn. replace (1 * ln 2 + 0) with (ln 2) by lra. rewrite El. lra.
Qed.
Definition toy_cost : hmap R := [(x1 1, 1)].
Definition toy_ws : list written := [Ineq [(e_empty, 2)] OpLe [(x1 1, 1)]].
Lemma x1_canon a : a <> 0 -> exp_canon (x1 a).
Proof. intros Ha k v. unfold x1. intros E. apply lookup_singleton_Some in E as [_ <-]. exact Ha. Qed.
Example C84_nonvacuous :
  honest toy /\ subs_ok ∅ (std_schedule ∅) /\ any_order std_order /\ is_posy toy_cost /\ Forall geometric toy_ws /\ (exists q, meets ∅ toy_ws q) /\
  best (meets ∅ toy_ws) (fun q => eval q toy_cost) (fun _ => 2) /\ in_vks toy_cost 0 = true /\
  exists vs, solve 0 (std_schedule ∅) std_order toy ∅ toy_cost toy_ws = Ok (2, vs) /\ vs !! 0%nat = Some 2.
Proof.
  assert (Hs : subs_ok ∅ (std_schedule ∅)) by (split; [intros k v E; rewrite lookup_empty in E; discriminate|apply std_schedule_valid]).
  assert (Hn : forall a, x1 a <> e_empty) by (intros a E; apply (f_equal (fun m => m !! 0%nat)) in E; discriminate).
  assert (He : exp_canon e_empty) by (intros k v E; unfold e_empty in E; rewrite lookup_empty in E; discriminate).
  assert (Hm : is_mono [(x1 1, 1)]) by (eexists _, _; split; [reflexivity|]; split; [apply x1_canon; lra|lra]).
  assert (Hm2 : is_mono [(e_empty, 2)]) by (eexists _, _; split; [reflexivity|]; split; [exact He|lra]).
  split; [apply toy_honest|]. split; [exact Hs|]. split; [apply C26_nonvacuous|].
  assert (Hp : forall h, is_mono h -> is_posy h /\ forall m, no_clash h m).
  { intros h (e & c & -> & Hec & Hc). split; [split; [|split]|].
    - split; [apply NoDup_singleton|]. intros e' c' [[= <- <-]|[]]. split; [exact Hec|lra].
    - intros e' c' [[= <- <-]|[]]. exact Hc.
    - discriminate.
    - intros m. apply (single_no_clash _ e); [apply NoDup_singleton|]. intros e' c' [[= <- <-]|[]]. reflexivity. }
  split; [apply (Hp _ Hm)|]. split.
  { constructor; [|constructor]. split; [discriminate|]. split; [apply (Hp _ Hm2)|]. split; [exact Hm|]. intros e c _. apply (Hp _ Hm2). }
  split.
  { exists (fun _ => 3). split; [intros v; lra|]. split; [intros k v E; rewrite lookup_empty in E; discriminate|].
    constructor; [|constructor]. cbn [holds_at holds].
    pose proof (eval_var (fun _ => 3) 0 ltac:(lra)) as E. change (eval (fun _ => 3) [(x1 1, 1)] = 3) in E. rewrite E. cbn.
    unfold e_empty, mono_val. rewrite map_fold_empty. lra. }
  assert (Ev : forall q, positive_point q -> eval q [(x1 1, 1)] = q 0%nat) by (intros q Hq; exact (eval_var q 0 (Hq 0%nat))).
  assert (Ee : forall q, eval q [(e_empty, 2)] = 2) by (intros q; cbn; unfold e_empty, mono_val; rewrite map_fold_empty; lra).
  split.
  { split.
    - split; [intros v; lra|]. split; [intros k v E; rewrite lookup_empty in E; discriminate|]. constructor; [|constructor]. cbn [holds_at holds].
      rewrite Ee, Ev by (intros v; lra). lra.
    - intros q (Hq & _ & F). inversion F as [|? ? F1 _]; subst. cbn [holds_at holds] in F1. unfold toy_cost.
      rewrite Ee, (Ev q Hq) in F1. rewrite (Ev q Hq), (Ev (fun _ => 2)) by (intros v; lra). exact F1. }
  split; [reflexivity|].
  assert (Es : exp_sub e_empty (x1 1) = x1 (-1)).
  { apply exp_canon_ext; [apply exp_canon_sub; [exact He|apply x1_canon; lra]|apply x1_canon; lra|]. intros k. rewrite eget_sub.
    unfold eget, e_empty, x1. rewrite lookup_empty. destruct (decide (k = 0%nat)) as [-> |Hk]; [rewrite !lookup_singleton; cbn; lra|].
    rewrite !lookup_singleton_ne by congruence. cbn. lra. }
  assert (Sub : forall u, nm_sub 0 ∅ u (std_schedule ∅ u) = Ok (sub_init u)) by (intros u; apply (sub_nothing 0 (std_schedule ∅) ∅ (proj2 Hs)); intros; apply lookup_empty).
  assert (Eg : gp_hmaps 0 (std_schedule ∅) false ∅ toy_cost [CPosy (CS None None) [[(x1 (-1), 2 / 1)]]] = Ok [(false, [(x1 1, 1)]); (false, [(x1 (-1), 2 / 1)])]).
  { unfold gp_hmaps. rewrite Sub. cbn [rbind sub_init s_cp]. unfold toy_cost at 1, any_nonpositive. cbn [existsb snd].
    assert (B1 : nleb (1 : R) n0 = false) by (cbn; unfold Rleb; destruct (Rle_dec 1 0); [lra|reflexivity]).
    assert (B2 : nleb (2 / 1 : R) n0 = false) by (cbn; unfold Rleb; destruct (Rle_dec (2 / 1) 0); [lra|reflexivity]).
    rewrite B1. cbn [orb chain_hmaps constr_hmaps as_hmapslt1]. rewrite Sub. cbn [rbind sub_init s_cp].
    unfold simplify. cbn [dget]. destruct (decide (e_empty = x1 (-1))) as [E|_]; [destruct (Hn (-1)); symmetry; exact E|]. cbn [rbind].
    unfold any_nonpositive. cbn [existsb snd]. rewrite B2. cbn. reflexivity. }
  replace (2 / 1) with 2 in Eg by lra.
  unfold solve, toy_ws. cbn [make_all make posy_ineq]. rewrite gen_mono by (try exact He; try (apply x1_canon; lra); lra).
  destruct (decide (e_empty = x1 1)) as [E|_]; [destruct (Hn 1); symmetry; exact E|]. cbn [rmap rbind]. rewrite Es. replace (2 / 1) with 2 by lra.
  rewrite Eg. cbn [rbind]. destruct gen_example as (G1 & G2 & G3 & G4). unfold matrix_of, row_of, columns. set (g := gen std_order _) in *.
  rewrite G1, G2, G3, G4. unfold toy. destruct (decide _) as [_|N]; [|destruct N; repeat split; reflexivity].
  cbn [length]. destruct (decide _) as [_|N]; [|destruct N; reflexivity]. eexists. split; [reflexivity|].
  rewrite lookup_union_r by apply lookup_empty. cbn. rewrite lookup_insert, exp_ln by lra. reflexivity.
Qed.
