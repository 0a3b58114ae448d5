(** C24, C59: relaxed and bounded sets.
    Specification vocabulary: NomialSem.v, ConstraintSem.v, RelaxSem.v. *)
From Verif Require Import Base HashVec Nomial NomialSem NomialProofs CanonProofs Sub Mono Constraint ConstraintSem ConstraintProofs
  UnitsProofs Flat FlatProofs Relax RelaxSem RelaxProofs.
Open Scope R_scope.

Lemma holds_absent env rv t l : absent l rv -> (holds_set (upd env rv t) l <-> holds_set env l).
Proof.
  intros Ha. split; intros H p a o b E; destruct (Ha p a o b E) as [H1 H2]; specialize (H p a o b E); destruct o; cbn [holds] in *;
    rewrite ?eval_upd_absent in * by auto; auto.
Qed.

(** ** C24: sets relaxed equally *)

(** At relaxation 1 the points admitted are those of the original set, and every point of the original set
    is one with relaxation 1. *)
Theorem C24_equally_relaxed : forall (rv : nat) (l : list (item (eqn R))), Forall plain_arrays l ->
  exists cs, relaxed_equally rv l = Ok cs /\
    (forall env, env rv = 1 -> (holds_all env cs <-> holds_set env l)) /\
    (forall env, absent l rv -> holds_set env l -> holds_all (upd env rv 1) cs).
Proof.
  intros rv l Hp. destruct (relaxed_equally_ok rv l Hp) as (cs & E & H). exists cs. split; [exact E|]. split; [exact H|].
  intros env Ha Hh. apply H; [unfold upd; rewrite decide_True; auto|]. apply holds_absent; auto.
Qed.
Print Assumptions C24_equally_relaxed.

(** Sides of posynomials. *)
Definition posynomial_sides (l : list (item (eqn R))) : Prop :=
  forall p a o b, at_path l p = Some (Leaf (a, o, b)) -> all_positive a /\ all_positive b /\ a <> [] /\ b <> [].

Lemma relax_enough env rv (l : list (item (eqn R))) : positive_point env -> Forall is_leaf l ->
  (forall a o b, In (Leaf (a, o, b)) l -> all_positive a /\ all_positive b /\ a <> [] /\ b <> [] /\ in_vks a rv = false /\ in_vks b rv = false) ->
  exists cs r, relax_items (map (fun i => (rv, i)) l) = Ok cs /\ 1 <= r /\ forall r', r <= r' -> holds_all (upd env rv r') cs.
Proof.
  intros He Hl. induction Hl as [|i l Hi Hl IH]; intros Hs.
  - exists [], 1. split; [reflexivity|]. split; [lra|]. intros. apply holds_all_nil.
  - destruct IH as (cs & r & E & Hr & Hcs); [intros a o b Hi'; apply (Hs a o b); right; auto|].
    destruct i as [[[a o] b]| | | | |]; try contradiction. destruct (Hs a o b (or_introl eq_refl)) as (Pa & Pb & Na & Nb & Va & Vb).
    pose proof (eval_all_positive env a Pa Na) as Ea. pose proof (eval_all_positive env b Pb Nb) as Eb.
    simpl. rewrite E. simpl. exists (relaxed rv a o b ++ cs), (Rmax r (Rmax (eval env a / eval env b) (eval env b / eval env a))).
    split; [reflexivity|]. pose proof (Rmax_l r (Rmax (eval env a / eval env b) (eval env b / eval env a))) as M1.
    pose proof (Rmax_r r (Rmax (eval env a / eval env b) (eval env b / eval env a))) as M2.
    pose proof (Rmax_l (eval env a / eval env b) (eval env b / eval env a)) as M3.
    pose proof (Rmax_r (eval env a / eval env b) (eval env b / eval env a)) as M4.
    split; [lra|]. intros r' Hr'. rewrite holds_all_app. split; [|apply Hcs; lra].
    assert (U : upd env rv r' rv = r') by (unfold upd; rewrite decide_True; auto).
    rewrite relaxed_at by (rewrite U; lra). rewrite U, !eval_upd_absent by auto.
    assert (A : eval env a <= r' * eval env b).
    { replace (eval env a) with (eval env a / eval env b * eval env b) by (field; lra). apply Rmult_le_compat_r; lra. }
    assert (B : eval env b <= r' * eval env a).
    { replace (eval env b) with (eval env b / eval env a * eval env a) by (field; lra). apply Rmult_le_compat_r; lra. }
    destruct o; auto.
Qed.

(** Every positive point satisfies the relaxed set if relaxed far enough, when all sides
    are posynomials. *)
Theorem C24_relaxed_is_feasible : forall (rv : nat) (l : list (item (eqn R))) (env : point),
  Forall plain_arrays l -> posynomial_sides l -> absent l rv -> positive_point env ->
  exists cs r, relaxed_equally rv l = Ok cs /\ 1 <= r /\ holds_all (upd env rv r) cs.
Proof.
  intros rv l env Hp Hs Ha He.
  destruct (relax_enough env rv (flat l) He (flat_are_leaves l Hp)) as (cs & r & E & Hr & Hcs).
  - intros a o b Hi. destruct (flat_leaves l Hp) as (ps & _ & Hin & Hall).
    apply elem_of_list_In, elem_of_list_lookup in Hi as (n & Hn). destruct (Forall2_lookup_r _ _ _ _ _ Hall Hn) as (p & _ & Ep).
    destruct (Hs p a o b Ep) as (? & ? & ? & ?). destruct (Ha p a o b Ep). auto 10.
  - unfold relaxed_equally. rewrite E. simpl. exists (at_least_one rv :: cs), r. split; [reflexivity|]. split; [exact Hr|].
    unfold at_least_one. rewrite holds_all_cons. split; [|apply Hcs; lra]. cbn [holds].
    assert (U : upd env rv r rv = r) by (unfold upd; rewrite decide_True; auto).
    rewrite eval_num, eval_var by (rewrite U; lra). rewrite U. cbn. lra.
Qed.
Print Assumptions C24_relaxed_is_feasible.

(** ** C24: sets relaxed constraint by constraint *)

Definition C24_each_for (cond : list (item (eqn R)) -> Prop) : Prop :=
  forall (rv : nat -> nat) (l : list (item (eqn R))), Forall plain_arrays l -> cond l ->
  exists cs, constraints_relaxed rv l = Ok cs /\
    (forall env, (forall i, (i < length l)%nat -> env (rv i) = 1) -> (holds_all env cs <-> holds_set env l)).

(** What is missing: sets with more constraints than members, see C25. *)
Theorem C24_each_relaxed_partial : C24_each_for (fun l => (length (flat l) <= length l)%nat).
Proof. intros rv l Hp Hlen. apply constraints_relaxed_ok; auto. Qed.
Print Assumptions C24_each_relaxed_partial.

Theorem C24_each_relaxed_refuted : ~ C24_each_for (fun l => True).
Proof.
  intros H. destruct (H (fun i => i) [Lst [Leaf ([], OpLe, []); Leaf ([], OpLe, [])]]) as (cs & E & _); [repeat constructor|exact I|].
  vm_compute in E. discriminate.
Qed.
Print Assumptions C24_each_relaxed_refuted.

(** ** C24: relaxed constants *)

(** Relaxing succeeds; at relaxation 1 every constant has its original
    value; and every point of the original model, with relaxation 1, is admitted. *)
Definition C24_constants_for (cond : (nat -> nat) -> list (nat * R) -> Prop) : Prop :=
  forall (name shown rk ok : nat -> nat) (include_only exclude : list nat) (subs constants : list (nat * R)) (l : list (item (eqn R))),
  NoDup (dkeys constants) -> NoDup (dkeys subs) ->
  (forall k v, In (k, v) constants -> dget subs k = Some v /\ 0 <= v) ->
  fresh rk ok subs constants -> (forall k, In k (dkeys constants) -> absent l (rk k) /\ absent l (ok k)) ->
  cond shown constants ->
  exists st, constants_relaxed name shown rk ok include_only exclude subs constants = Ok st /\
    (forall k, In k (rx_freed st) <-> exists v, In (k, v) constants /\ chosen name include_only exclude k v) /\
    (forall env, agrees env (rx_subs st) -> (forall r, In r (rx_vars st) -> env r = 1) -> (forall k, In k (rx_freed st) -> 0 < env k) ->
       holds_all env (relaxation_constraints st) ->
       forall k v, In (k, v) constants -> env k = v) /\
    (forall env, agrees env subs -> holds_set env l ->
       exists env', (forall x, (forall k, In k (dkeys constants) -> x <> rk k /\ x <> ok k) -> env' x = env x) /\
         agrees env' (rx_subs st) /\ (forall r, In r (rx_vars st) -> env' r = 1) /\
         holds_set env' l /\ holds_all env' (relaxation_constraints st)).

Definition distinct_names (shown : nat -> nat) (constants : list (nat * R)) : Prop :=
  forall k k', In k (dkeys constants) -> In k' (dkeys constants) -> shown k = shown k' -> k = k'.

(** What is missing: constants that are printed alike; vectors of constants. *)
Theorem C24_constants_relaxed_partial : C24_constants_for distinct_names.
Proof.
  intros name shown rk ok inc exc subs cs l Hnd Hns Hsub Hf Habs Hsh.
  assert (Hsub' : forall k v, In (k, v) cs -> dget subs k = Some v) by (intros; apply Hsub; auto).
  destruct (constants_ok name shown rk ok inc exc subs cs Hnd Hns Hsub' Hf Hsh) as (st & E & Hrt).
  exists st. split; [exact E|]. split; [|split].
  - intros k. rewrite (rt_freed _ _ _ _ _ _ _ _ _ Hrt). simpl. split; [intros [[]|?]; auto|auto].
  - intros env Ha Hr Hpos Hh. eapply constants_forced; eauto.
    intros k v Hi Hc. split.
    + destruct (Hsub k v Hi) as [_ Hv]. destruct Hc as [Hv0 _]. lra.
    + apply Hpos. apply (rt_freed _ _ _ _ _ _ _ _ _ Hrt). right. eauto.
  - intros env Ha Hh. exists (extended rk ok cs env). split.
    { intros x Hx. apply extended_other. intros k Hk. destruct (Hx k Hk). auto. }
    destruct (constants_admitted name shown rk ok inc exc subs cs Hnd Hsub' Hf st env Hrt Ha) as (H1 & H2 & H3).
    { intros k v Hi Hc. destruct (Hsub k v Hi) as [_ Hv]. destruct Hc as [Hv0 _]. lra. }
    split; [exact H1|]. split; [exact H2|]. split; [|exact H3].
    intros p a o b Ep. specialize (Hh p a o b Ep).
    assert (Hag : forall h : hmap R, (forall k, In k (dkeys cs) -> in_vks h (rk k) = false /\ in_vks h (ok k) = false) -> eval (extended rk ok cs env) h = eval env h).
    { intros h Hv. apply eval_agree. intros x Hx. apply extended_other. intros k Hk. destruct (Hv k Hk). split; intros ->; congruence. }
    assert (Hea : eval (extended rk ok cs env) a = eval env a).
    { apply Hag. intros k Hk. destruct (Habs k Hk) as [A1 A2]. destruct (A1 p a o b Ep). destruct (A2 p a o b Ep). auto. }
    assert (Heb : eval (extended rk ok cs env) b = eval env b).
    { apply Hag. intros k Hk. destruct (Habs k Hk) as [A1 A2]. destruct (A1 p a o b Ep). destruct (A2 p a o b Ep). auto. }
    destruct o; cbn [holds] in *; rewrite Hea, Heb; auto.
Qed.
Print Assumptions C24_constants_relaxed_partial.

(** The constraints are kept in a dict under the printed name of their constant, which does not show
    units: of two constants x [m] and x [ft] only one is held, and the other is free even at relaxation 1.
    (They also share their dimensionless relaxation variable.) *)
Theorem C24_constants_refuted : ~ C24_constants_for (fun _ _ => True).
Proof.
  intros H.
  destruct (H (fun k => k) (fun _ => 0%nat) (fun _ => 10%nat) (fun k => 20 + k)%nat [] [] [(0%nat, 2); (1%nat, 3)] [(0%nat, 2); (1%nat, 3)] [])
    as (st & E & _ & Hforced & _).
  - cbn [dkeys map fst]. apply (bool_decide_unpack _). vm_compute. exact I.
  - cbn [dkeys map fst]. apply (bool_decide_unpack _). vm_compute. exact I.
  - intros k v [[= <- <-]|[[= <- <-]|[]]]; split; try reflexivity; lra.
  - split; [|split].
    + intros k k' _ _ Hx. lia.
    + intros k k' [<-|[<-|[]]] [<-|[<-|[]]]; discriminate.
    + intros k [<-|[<-|[]]]; split; intros [Hx|[Hx|[]]]; discriminate.
  - intros k _. split; intros p a o b Ep; destruct p as [|[|n] p]; discriminate.
  - exact I.
  - unfold constants_relaxed in E. cbn [relax_constants] in E.
    destruct (step_chosen (fun k => k) (fun _ => 0%nat) (fun _ => 10%nat) (fun k => 20 + k)%nat [] [] (RX [(0%nat, 2); (1%nat, 3)] [] [] []) 0%nat 2) as (es & _ & E1);
      [split; [lra|split; [auto|intros []]]|left; reflexivity|].
    rewrite E1 in E. cbn [rbind rx_subs rx_vars rx_freed rx_cons app] in E.
    destruct (step_chosen (fun k => k) (fun _ => 0%nat) (fun _ => 10%nat) (fun k => 20 + k)%nat [] [] 
       (RX (dset (ddel [(0%nat, 2); (1%nat, 3)] 0%nat) (20 + 0)%nat 2) [10%nat] [0%nat] (dset [] 0%nat es)) 1%nat 3) as (es' & Hes' & E2);
      [split; [lra|split; [auto|intros []]]|apply dkeys_dset_In; right; left; reflexivity|].
    rewrite E2 in E. cbn [rbind rx_subs rx_vars rx_freed rx_cons app] in E. injection E as <-.
    set (env := fun x : nat => match x with 0%nat => 7 | 1%nat => 3 | 10%nat => 1 | 20%nat => 2 | 21%nat => 3 | _ => 1 end).
    specialize (Hforced env). cbn [rx_subs rx_vars rx_freed rx_cons] in Hforced.
    assert (env 0%nat = 2); [|cbn in H0; lra]. apply Hforced; clear Hforced.
    + intros k v Hv. cbn in Hv.
      repeat (match type of Hv with context [decide ?P] => destruct (decide P) as [e|?]; [subst k; injection Hv as <-; reflexivity|] end). discriminate.
    + intros r [<-|[<-|[]]]; reflexivity.
    + intros k [<-|[<-|[]]]; cbn; lra.
    + intros a o b Hab. unfold relaxation_constraints in Hab. cbn in Hab. rewrite app_nil_r in Hab.
      eapply (eqns_at (fun k => k) (fun k => k)); [exact Hes'|..|exact Hab]; cbn; lra.
    + left. reflexivity.
Qed.
Print Assumptions C24_constants_refuted.

(** ** C24: bounded sets *)

(** A variable of the set without a substitution. *)
Definition free_in (s : cset R) (k : nat) : Prop := In k (cs_vks s) /\ ~ In k (cs_fixed s).

(** The set bounded between [lower] and [upper] admits exactly the points of the original set in the box. *)
Definition C24_bounded_for (cond : cset R -> option R -> option R -> Prop) : Prop :=
  forall (eps : R) (lower upper : option R) (s : cset R),
  0 < eps -> (forall k, In k (cs_cost s) -> In k (cs_vks s)) ->
  (forall x, lower = Some x -> 0 <= x) -> (forall x, upper = Some x -> 0 < x) -> cond s lower upper ->
  exists cs, bounded eps lower upper s = Ok cs /\
    forall env, positive_point env ->
      (holds_set env cs <-> holds_set env (cs_items s) /\
         in_box (match lower with Some x => x | None => eps end) (match upper with Some x => x | None => 1 / eps end) (free_in s) env).

(** What is missing: a lower bound of 0; variables made in the [setup] of the model itself. *)
Theorem C24_bounded_partial :
  C24_bounded_for (fun s lower upper => lower <> Some 0 /\ forall k, In k (cs_unique s) -> In k (cs_cost s)).
Proof.
  intros eps lower upper s He Hcost Hlow Hup [Hl0 Hu]. unfold bounded, upper_bound.
  set (lo := match lower with Some x => x | None => eps end). set (up := match upper with Some x => x | None => 1 / eps end).
  assert (Hlo : lower_bound eps lower = lo /\ lo <> 0).
  { unfold lower_bound, lo. destruct lower as [x|]; [|split; [auto|lra]]. rewrite decide_False by (intros ->; auto). split; auto. intros ->. auto. }
  assert (Hup' : upper_bound eps upper = Ok up /\ up <> 0).
  { unfold upper_bound, up. destruct upper as [x|].
    - specialize (Hup x eq_refl). rewrite decide_False by (cbn; lra). split; [auto|lra].
    - rewrite decide_False by (cbn; lra). split; [reflexivity|]. apply Rgt_not_eq. apply Rdiv_lt_0_compat; lra. }
  destruct Hlo as [-> Hlo]. destruct Hup' as [Eu Hup']. unfold upper_bound in Eu. rewrite Eu. cbn [rbind].
  eexists. split; [reflexivity|]. intros env Hpos. rewrite bounded_holds by auto.
  assert (Hk : forall k, In k (bound_varkeys s) <-> free_in s k).
  { intros k. unfold bound_varkeys, constrained, free_in. rewrite List.filter_In, in_app_iff, List.filter_In.
    rewrite !negb_true_iff, !bool_decide_eq_false, !elem_of_list_In. split.
    - intros [[[? _]|?] ?]; auto.
    - intros [H1 H2]. split; [|auto]. destruct (in_dec Nat.eq_dec k (cs_unique s)); auto. }
  split; intros [H1 H2]; (split; [auto|]); intros k Hk'; apply H2; apply Hk; auto.
Qed.
Print Assumptions C24_bounded_partial.

(** [lower or eps] takes a lower bound of 0 for none: with [lower=0] the points below eps are still excluded. *)
Theorem C24_bounded_zero_refuted :
  ~ C24_bounded_for (fun s lower upper => forall k, In k (cs_unique s) -> In k (cs_cost s)).
Proof.
  intros H. destruct (H (1/2) (Some 0) None (CSet_ [] [0%nat] [] [] [])) as (cs & E & Hcs); try (cbn; lra).
  - intros k [].
  - intros x [= <-]. lra.
  - intros x Hx. discriminate.
  - intros k [].
  - unfold bounded in E. destruct (upper_bound (1/2) None) as [up|e] eqn:Eu; [|discriminate]. cbn [rbind] in E.
    assert (El : lower_bound (1/2) (Some 0) = 1/2) by (unfold lower_bound; rewrite decide_True; auto). rewrite El in E. injection E as <-.
    assert (up = 1 / (1/2)). { unfold upper_bound in Eu. rewrite decide_False in Eu by (cbn; lra). injection Eu as <-. reflexivity. }
    destruct (Hcs (fun _ => 1/4)) as [_ Hx]; [intros v; lra|]. clear Hcs.
    assert (Hy := proj1 (bounded_holds (fun _ => 1/4) (1/2) up (CSet_ [] [0%nat] [] [] []) ltac:(lra) ltac:(lra) ltac:(intros; lra))).
    destruct Hy as [_ Hb].
    + apply Hx. split; [intros p a o b Ep; destruct p; discriminate|]. intros k _. lra.
    + assert (1/2 <= 1/4 <= up) by (apply (Hb 0%nat); vm_compute; auto). lra.
Qed.
Print Assumptions C24_bounded_zero_refuted.

(** The variables made in a model's own [setup] are not among those [constrained_varkeys] returns, so that
    [Bounded(m)] leaves those of them unbounded that are not in the cost. *)
Theorem C24_bounded_setup_refuted : ~ C24_bounded_for (fun s lower upper => lower <> Some 0).
Proof.
  intros H. destruct (H (1/2) None None (CSet_ [] [0%nat] [0%nat] [] [])) as (cs & E & Hcs); try (cbn; lra); try discriminate.
  - intros k [].
  - unfold bounded in E. destruct (upper_bound (1/2) None) as [up|e] eqn:Eu; [|discriminate]. cbn [rbind] in E.
    injection E as <-. assert (up <> 0). { unfold upper_bound in Eu. rewrite decide_False in Eu by (cbn; lra). injection Eu as <-. cbn. lra. }
    destruct (Hcs (fun _ => 1/4)) as [Hx _]; [intros v; lra|]. clear Hcs.
    assert (Hy := proj2 (bounded_holds (fun _ => 1/4) (1/2) up (CSet_ [] [0%nat] [0%nat] [] []) ltac:(lra) ltac:(auto) ltac:(intros; lra))).
    destruct Hx as [_ Hb].
    + apply Hy. split; [intros p a o b Ep; destruct p; discriminate|]. intros k Hk. cbn in Hk. destruct Hk.
    + specialize (Hb 0%nat). assert (free_in (CSet_ (T := R) [] [0%nat] [0%nat] [] []) 0%nat) as Hf by (split; [left; auto|intros []]).
      specialize (Hb Hf). lra.
Qed.
Print Assumptions C24_bounded_setup_refuted.

(** ** C59: the model solved to diagnose infeasibility *)

(** In the model made by [debug] neither the relaxation variables nor the relaxed constants are fixed. A variable copied
    from another carries the same value. *)
Definition C59_for (cond : (nat -> option R) -> list (nat * R) -> Prop) : Prop :=
  forall (name shown rk ok : nat -> nat) (include_only exclude : list nat) (subs constants : list (nat * R))
         (valued : nat -> option R) (cost : list nat) (st : relaxing R),
  NoDup (dkeys constants) -> NoDup (dkeys subs) -> (forall k v, In (k, v) constants -> dget subs k = Some v) ->
  fresh rk ok subs constants -> distinct_names shown constants ->
  (forall k, In k cost -> ~ In k (dkeys constants) -> valued k = None) ->
  (forall k v, In k (dkeys constants) -> valued k = Some v -> In (k, v) constants) ->
  (forall k, In k (dkeys constants) -> valued (rk k) = valued k) -> cond valued constants ->
  constants_relaxed name shown rk ok include_only exclude subs constants = Ok st ->
  forall x, In x (rx_vars st) \/ In x (rx_freed st) -> dget (feasibility_subs valued st cost) x = None.

(** What is missing: constants made with [constant=True]. *)
Theorem C59_debug_frees_partial : C59_for (fun valued constants => forall k, In k (dkeys constants) -> valued k = None).
Proof.
  intros name shown rk ok inc exc subs cs valued cost st Hnd Hns Hsub Hf Hsh Hcost _ Hcopy Hval E x Hx.
  destruct (constants_ok name shown rk ok inc exc subs cs Hnd Hns Hsub Hf Hsh) as (st' & E' & Hrt). rewrite E in E'. injection E' as <-.
  assert (Hkey : forall k v, In (k, v) cs -> In k (dkeys cs)) by (intros k v Hi; apply (in_map fst) in Hi; exact Hi).
  assert (Hvars : forall r, In r (rx_vars st) -> exists k v, In (k, v) cs /\ chosen name inc exc k v /\ r = rk k).
  { intros r Hr. apply (rt_vars _ _ _ _ _ _ _ _ _ Hrt) in Hr as [[]|?]; auto. }
  rewrite feasibility_free.
  - destruct Hx as [Hx|Hx].
    + destruct (Hvars x Hx) as (k & v & Hi & Hc & ->). destruct Hf as (Hok & Hro & Hn).
      destruct (Hn k (Hkey k v Hi)) as [_ Hrk].
      rewrite (rt_other _ _ _ _ _ _ _ _ _ Hrt); [apply dget_None; exact Hrk| |].
      * intros Hin. apply Hrk. apply in_map_iff in Hin as ([k' v'] & Ek & Hi'). simpl in Ek. subst k'. apply Hsub in Hi'. eapply dget_In_keys; eauto.
      * intros k' v' Hi' _. apply Hro; eauto.
    + apply (rt_freed _ _ _ _ _ _ _ _ _ Hrt) in Hx as [[]|(v & Hi & Hc)]. eapply (rt_gone _ _ _ _ _ _ _ _ _ Hrt); eauto.
  - intros k Hk. apply in_app_iff in Hk as [Hk|Hk].
    + destruct (Hvars k Hk) as (k' & v & Hi & _ & ->). rewrite Hcopy by eauto. eauto.
    + destruct (in_dec Nat.eq_dec k (dkeys cs)); auto.
Qed.
Print Assumptions C59_debug_frees_partial.

(** A constant made with [constant=True] keeps its value in its description, from which its relaxation variable is copied:
    in the model [debug] solves, the relaxation variable is fixed at the value of the constant. *)
Theorem C59_debug_frees_refuted : ~ C59_for (fun _ _ => True).
Proof.
  intros H.
  destruct (step_chosen (fun k => k) (fun k => k) (fun k => 10 + k)%nat (fun k => 20 + k)%nat [] [] (RX [(0%nat, 3)] [] [] []) 0%nat 3) as (es & _ & E1);
    [split; [lra|split; [auto|intros []]]|left; reflexivity|].
  specialize (H (fun k => k) (fun k => k) (fun k => 10 + k)%nat (fun k => 20 + k)%nat [] [] [(0%nat, 3)] [(0%nat, 3)]
    (fun k => if Nat.eqb k 0 then Some 3 else if Nat.eqb k 10 then Some 3 else None) []
    (RX (dset (ddel [(0%nat, 3)] 0%nat) (20 + 0)%nat 3) ([] ++ [10 + 0]%nat) ([] ++ [0%nat]) (dset [] 0%nat es))).
  assert (Hx : dget (feasibility_subs (fun k => if Nat.eqb k 0 then Some 3 else if Nat.eqb k 10 then Some 3 else None)
    (RX (dset (ddel [(0%nat, 3)] 0%nat) (20 + 0)%nat 3) ([] ++ [10 + 0]%nat) ([] ++ [0%nat]) (dset [] 0%nat es)) []) 10%nat = None); [|discriminate Hx].
  apply H.
  - repeat constructor; rewrite ?elem_of_nil; auto.
  - repeat constructor; rewrite ?elem_of_nil; auto.
  - intros k v [[= <- <-]|[]]. reflexivity.
  - split; [intros; lia|]. split; [intros k k' [<-|[]] [<-|[]]; discriminate|]. intros k [<-|[]]. split; intros [Hx|[]]; discriminate.
  - intros k k' _ _ Hx. exact Hx.
  - intros k [].
  - intros k v [<-|[]] [= <-]. left. reflexivity.
  - intros k [<-|[]]. reflexivity.
  - exact I.
  - unfold constants_relaxed. cbn [relax_constants]. rewrite E1. reflexivity.
  - left. left. reflexivity.
Qed.
Print Assumptions C59_debug_frees_refuted.

(** ** The hypotheses can be met *)

(** Two constants 2 and 3 of variables 0 and 1; the set x0 * x1 <= x2, 1 <= x2. *)
Example relax_set : list (item (eqn R)) :=
  [Leaf ([({[0%nat := 1; 1%nat := 1]}, 1)], OpLe, [({[2%nat := 1]}, 1)]); Lst [Leaf (num_hmap 1, OpLe, var_hmap 2)]].
Lemma relax_set_absent k : In k [7; 10; 11; 20; 21]%nat -> absent relax_set k.
Proof.
  intros Hk p a o b Ep. destruct p as [|[|[|n]] [|[|m] [|q p]]]; try discriminate; cbn in Ep; injection Ep as <- <- <-;
    repeat (destruct Hk as [<-|Hk]; [split; reflexivity|]); destruct Hk.
Qed.
Example relax_set_ok : Forall plain_arrays relax_set /\ posynomial_sides relax_set /\ (length (flat relax_set) <= length relax_set)%nat.
Proof.
  split; [repeat constructor|]. split; [|vm_compute; auto].
  intros p a o b Ep. destruct p as [|[|[|n]] [|[|m] [|q p]]]; try discriminate; cbn in Ep; injection Ep as <- <- <-;
    (split; [intros e c [[= <- <-]|[]]; cbn; lra|]); (split; [intros e c [[= <- <-]|[]]; cbn; lra|]); split; discriminate.
Qed.
Example C24_constants_nonvacuous :
  let cs := [(0%nat, 2); (1%nat, 3)] in
  NoDup (dkeys cs) /\ (forall k v, In (k, v) cs -> dget cs k = Some v /\ 0 <= v) /\
  fresh (fun k => 10 + k)%nat (fun k => 20 + k)%nat cs cs /\
  (forall k, In k (dkeys cs) -> absent relax_set (10 + k)%nat /\ absent relax_set (20 + k)%nat) /\
  distinct_names (fun k => k) cs /\ chosen (fun k => k) [] [1%nat] 0%nat 2.
Proof.
  split; [|split; [|split; [|split; [|split]]]].
  - cbn [dkeys map fst]. apply (bool_decide_unpack _). vm_compute. exact I.
  - intros k v [[= <- <-]|[[= <- <-]|[]]]; split; try reflexivity; lra.
  - split; [intros; lia|]. split; [intros k k' [<-|[<-|[]]] [<-|[<-|[]]]; discriminate|].
    intros k [<-|[<-|[]]]; split; intros [Hx|[Hx|[]]]; discriminate.
  - intros k [<-|[<-|[]]]; split; apply relax_set_absent; simpl; auto 10.
  - intros k k' _ _ Hx. exact Hx.
  - split; [lra|]. split; [auto|]. intros [Hx|[]]. discriminate.
Qed.
(** A model with a free variable 0, a fixed one 1 and a variable 2 of its own in the cost. *)
Example C24_bounded_nonvacuous :
  let s := CSet_ relax_set [0%nat; 1%nat; 2%nat] [2%nat] [2%nat] [1%nat] in
  (forall k, In k (cs_cost s) -> In k (cs_vks s)) /\ (forall k, In k (cs_unique s) -> In k (cs_cost s)) /\
  bound_varkeys s = [0%nat; 2%nat] /\ free_in s 0%nat /\ free_in s 2%nat.
Proof.
  intros s. split; [intros k [<-|[]]; simpl; auto|]. split; [intros k Hk; exact Hk|]. split; [reflexivity|].
  split; (split; [simpl; auto|intros [Hx|[]]; discriminate]).
Qed.
