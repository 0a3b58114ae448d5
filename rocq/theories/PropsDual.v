(** C30-C31: dual variables and the check of a solution. *)
From Verif Require Import Base HashVec Nomial NomialSem NomialProofs CanonProofs Sub Constraint ConstraintSem ConstraintProofs GPGen GPGenProofs PropsGP Dual DualProofs.
Open Scope R_scope.

(** The posynomials of a program: a cost and others, all with terms, all of
    whose coefficients are positive. *)
Definition program (hmaps : list (bool * hmap R)) : Prop :=
  hmaps <> [] /\ forall b h, In (b, h) hmaps -> h <> [] /\ forall e c, In (e, c) h -> 0 < c.

(** The rows of posynomial [p]: as many as it has terms, after those of the
    posynomials before it. *)
Definition rows_of (hmaps : list (bool * hmap R)) (p : nat) (h : hmap R) : list nat :=
  seq (length (flat_map snd (take p hmaps))) (length h).

(** The point with logarithms [primal], column by column. *)
Definition at_primal (g : gpdata R) (primal : list R) (env : point) : Prop :=
  forall v j, varidx g v = Some j -> env v = exp (nth j primal 0).

(** ** C30 *)

(** A solver that returns [nu] (one for each term). *)
Theorem C30_la_from_nu :
  forall (ord : var_order R) (hmaps : list (bool * hmap R)) (primal nu : list R) (la : option (list R)),
  any_order ord -> length nu = length (flat_map snd hmaps) ->
  exists la' by_posy, generate_nula (gen ord hmaps) primal (Some nu) la = Some (nu, la', by_posy) /\
  length la' = length hmaps /\
  forall p b h, hmaps !! p = Some (b, h) ->
    nth p by_posy [] = map (fun i => nth i nu 0) (rows_of hmaps p h) /\
    nth p la' 0 = lsum (fun i => nth i nu 0) (rows_of hmaps p h).
Proof.
  intros ord hmaps primal nu la Hord Hn.
  destruct (generate_nula (gen ord hmaps) primal (Some nu) la) as [[[nu' la'] by']|] eqn:E; [|discriminate].
  destruct (nula_nu ord Hord hmaps _ eq_refl nu la primal nu' la' by' Hn E) as [-> (_ & Hl & _ & Hp)].
  exists la', by'. split; auto. split; auto. intros p b h Eh.
  assert (Hlt : (p < length hmaps)%nat) by (apply lookup_lt_Some in Eh; auto).
  destruct (Hp p Hlt) as [H1 H2]. unfold rows_of.
  destruct (start_size hmaps p b h Eh) as (Hs & _). rewrite <- Hs. auto.
Qed.
Print Assumptions C30_la_from_nu.

(** A solver that returns [la], one for each posynomial or for each but the
    cost: at the point it returned, each term gets its share of [la]. *)
Theorem C30_nu_from_la :
  forall (ord : var_order R) (hmaps : list (bool * hmap R)) (primal la : list R) (env : point),
  any_order ord -> program hmaps -> at_primal (gen ord hmaps) primal env ->
  length la = length hmaps \/ S (length la) = length hmaps ->
  exists nu la' by_posy, generate_nula (gen ord hmaps) primal None (Some la) = Some (nu, la', by_posy) /\
  la' = (if (length la =? length hmaps)%nat then la else 1 :: la) /\
  length nu = length (flat_map snd hmaps) /\
  forall p b h, hmaps !! p = Some (b, h) ->
    nth p by_posy [] = map (fun i => nth i nu 0) (rows_of hmaps p h) /\
    nth p la' 0 = lsum (fun i => nth i nu 0) (rows_of hmaps p h) /\
    forall k e c, h !! k = Some (e, c) ->
      nth (length (flat_map snd (take p hmaps)) + k) nu 0 = nth p la' 0 * (c * mono_val env e / eval env h).
Proof.
  intros ord hmaps primal la env Hord [Hne Hh] Henv Hlen.
  assert (Hpos : forall b h e c, In (b, h) hmaps -> In (e, c) h -> 0 < c) by (intros b h e c Hb He; apply (Hh b h Hb) in He; auto).
  assert (Hlen0 : (0 < length hmaps)%nat) by (destruct hmaps; [contradiction|cbn; lia]).
  destruct (generate_nula (gen ord hmaps) primal None (Some la)) as [[[nu' la'] by']|] eqn:E; [|discriminate].
  destruct (nula_la ord Hord hmaps _ eq_refl Hpos la primal nu' la' by' Hne ltac:(intros b h Hb; apply (Hh b h Hb)) ltac:(lia) E)
    as ((Hn & Hl & _ & Hp) & L1 & L2 & HF).
  exists nu', la', by'. split; auto. split; [|split; [auto|]].
  { destruct (Nat.eqb_spec (length la) (length hmaps)) as [El|El]; [auto|apply L2; lia]. }
  intros p b h Eh. assert (Hlt : (p < length hmaps)%nat) by (apply lookup_lt_Some in Eh; auto).
  destruct (Hp p Hlt) as [H1 H2]. unfold rows_of. destruct (start_size hmaps p b h Eh) as (Hs & Hle & _). rewrite <- Hs.
  split; auto. split; auto. intros k e c Hk.
  assert (Hkl : (k < length h)%nat) by (apply lookup_lt_Some in Hk; auto).
  rewrite (HF p) by (unfold terms in *; lia). f_equal.
  rewrite (eval_slice ord Hord hmaps _ eq_refl primal env p b h Eh Henv). f_equal.
  assert (Ht : terms hmaps !! (length (terms (take p hmaps)) + k)%nat = Some (e, c)).
  { transitivity ((terms (take p hmaps) ++ h ++ terms (drop (S p) hmaps)) !! (length (terms (take p hmaps)) + k)%nat).
    - rewrite <- (terms_slice hmaps p b h Eh). reflexivity.
    - rewrite lookup_app_r by lia. replace (_ - _)%nat with k by lia. apply lookup_app_l_Some. auto. }
  unfold rowval, prow. rewrite (gen_row ord Hord hmaps _ e _ env); auto.
  - unfold hmap in *. f_equal. rewrite (g_cs_eq ord Hord hmaps _ eq_refl). apply nth_lookup_Some. rewrite list_lookup_fmap.
    fold (terms (take p hmaps)). rewrite Ht. auto.
  - unfold hmap in *. rewrite (g_exps_eq ord Hord hmaps _ eq_refl), list_lookup_fmap. fold (terms (take p hmaps)). rewrite Ht. auto.
Qed.
Print Assumptions C30_nu_from_la.

(** A solver that returns neither is an error. *)
Theorem C30_neither : forall (g : gpdata R) (primal : list R), generate_nula g primal None None = None.
Proof. reflexivity. Qed.
Print Assumptions C30_neither.

(** ** C31 *)

(** [sol] is a solver's answer with [nu] or [la] of the right length. *)
Definition answer (hmaps : list (bool * hmap R)) (nu la : option (list R)) : Prop :=
  match nu, la with
  | Some nu, _ => length nu = length (flat_map snd hmaps)
  | None, Some la => length la = length hmaps \/ S (length la) = length hmaps
  | None, None => False
  end.

(** A solver's answer that passes the check with no tolerance is optimal: its
    point has the cost it says, is feasible, and no feasible point costs less. *)
Theorem C31_exact_pass_is_optimal :
  forall (ord : var_order R) (b0 : bool) (cost_posy : hmap R) (constraints : list (bool * hmap R))
         (cost : R) (primal : list R) (nu la : option (list R)) nu' la' by_posy (env : point),
  let hmaps := (b0, cost_posy) :: constraints in
  let g := gen ord hmaps in
  any_order ord -> program hmaps -> answer hmaps nu la -> at_primal g primal env ->
  generate_nula g primal nu la = Some (nu', la', by_posy) ->
  check_solution g cost primal nu' la' by_posy 0 0 = ChkOk ->
  eval env cost_posy = cost /\
  (forall b h, In (b, h) constraints -> eval env h <= 1) /\
  forall env', positive_point env' -> (forall b h, In (b, h) constraints -> eval env' h <= 1) ->
    cost <= eval env' cost_posy.
Proof.
  intros ord b0 h0 rest cost primal nu la nu' la' by' env hmaps g Hord [Hne Hh] Hans Henv E Echk.
  assert (Hpos : forall b h e c, In (b, h) hmaps -> In (e, c) h -> 0 < c) by (intros b h e c Hb He; apply (Hh b h Hb) in He; auto).
  assert (Hd : dual_ok hmaps nu' la' by').
  { destruct nu as [nu|]; [|destruct la as [la|]; [|contradiction]].
    - destruct (nula_nu ord Hord hmaps g eq_refl nu la primal nu' la' by' Hans E) as [-> Hd]. auto.
    - cbn in Hans. assert (Hl0 : length hmaps = S (length rest)) by reflexivity.
      apply (nula_la ord Hord hmaps g eq_refl Hpos la primal nu' la' by' Hne ltac:(intros b h Hb; apply (Hh b h Hb)) ltac:(lia) E). }
  destruct (pass_facts ord Hord hmaps g eq_refl cost primal nu' la' by' 0 0 b0 h0 rest eq_refl Hd Echk)
    as (F1 & F2 & F3 & F4 & _ & _).
  assert (Hnn : forall i, 0 <= nth i nu' 0) by (intros i; specialize (F4 ltac:(lra) i); lra).
  destruct (weak_duality ord Hord hmaps g eq_refl Hpos cost primal nu' la' by' 0 0 b0 h0 rest eq_refl Hd Hnn Echk) as (d & Ed & Hw).
  apply exact_equal in F1, F3, Ed.
  rewrite (eval_slice ord Hord hmaps g eq_refl primal env 0 b0 h0 eq_refl Henv) in F1.
  split; auto. split.
  - intros b h Hin. apply elem_of_list_In, elem_of_list_lookup in Hin as (k & Hk).
    assert (Ek : hmaps !! S k = Some (b, h)) by exact Hk.
    rewrite <- (eval_slice ord Hord hmaps g eq_refl primal env (S k) b h Ek Henv).
    specialize (F2 (S k)). apply lookup_lt_Some in Ek. rewrite Rplus_0_r in F2. apply F2. lia.
  - intros env' He' Hf. specialize (Hw env' He' Hf). rewrite F3, Rmult_0_l, Rminus_0_r, Rmult_1_l in Hw.
    assert (Hev : 0 < eval env' h0).
    { destruct (Hh b0 h0 (or_introl eq_refl)) as [Hn0 Hc0]. apply eval_all_positive; auto. }
    rewrite <- Ed. rewrite <- (exp_ln (eval env' h0)) by auto.
    destruct Hw as [Hw| ->]; [left; apply exp_increasing; auto|right; auto].
Qed.
Print Assumptions C31_exact_pass_is_optimal.

(** With tolerances: [exp d] is the dual cost, which the check found almost
    equal to the cost, and the first [la] was found almost equal to one. If no
    multiplier is negative, [la] times the logarithm of any feasible cost is at
    least [d] less the tolerance times the sum of the absolute logarithms of
    the point. *)
Theorem C31_tolerant_pass_bounds_cost :
  forall (ord : var_order R) (b0 : bool) (cost_posy : hmap R) (constraints : list (bool * hmap R))
         (cost : R) (primal : list R) (nu la : option (list R)) nu' la' by_posy (env : point) (tol abstol : R),
  let hmaps := (b0, cost_posy) :: constraints in
  let g := gen ord hmaps in
  any_order ord -> program hmaps -> answer hmaps nu la -> at_primal g primal env ->
  generate_nula g primal nu la = Some (nu', la', by_posy) ->
  (forall x, In x nu' -> 0 <= x) ->
  check_solution g cost primal nu' la' by_posy tol abstol = ChkOk ->
  almost_equal tol abstol (eval env cost_posy) cost = true /\
  (forall b h, In (b, h) constraints -> eval env h <= 1 + tol) /\
  almost_equal tol abstol (nth 0 la' 0) 1 = true /\
  exists d, almost_equal tol abstol (exp d) cost = true /\
  forall env', positive_point env' -> (forall b h, In (b, h) constraints -> eval env' h <= 1) ->
    d - tol * lsum (fun v => Rabs (ln (env' v))) (dkeys (g_varlocs g)) <= nth 0 la' 0 * ln (eval env' cost_posy).
Proof.
  intros ord b0 h0 rest cost primal nu la nu' la' by' env tol abstol hmaps g Hord [Hne Hh] Hans Henv E Hnn Echk.
  assert (Hpos : forall b h e c, In (b, h) hmaps -> In (e, c) h -> 0 < c) by (intros b h e c Hb He; apply (Hh b h Hb) in He; auto).
  assert (Hd : dual_ok hmaps nu' la' by').
  { destruct nu as [nu|]; [|destruct la as [la|]; [|contradiction]].
    - destruct (nula_nu ord Hord hmaps g eq_refl nu la primal nu' la' by' Hans E) as [-> Hd]. auto.
    - cbn in Hans. assert (Hl0 : length hmaps = S (length rest)) by reflexivity.
      apply (nula_la ord Hord hmaps g eq_refl Hpos la primal nu' la' by' Hne ltac:(intros b h Hb; apply (Hh b h Hb)) ltac:(lia) E). }
  destruct (pass_facts ord Hord hmaps g eq_refl cost primal nu' la' by' tol abstol b0 h0 rest eq_refl Hd Echk)
    as (F1 & F2 & F3 & _).
  assert (Hnn' : forall i, 0 <= nth i nu' 0).
  { intros i. destruct (decide (i < length nu')%nat) as [Hi|Hi]; [apply Hnn, nth_In; auto|]. rewrite nth_overflow by lia. lra. }
  destruct (weak_duality ord Hord hmaps g eq_refl Hpos cost primal nu' la' by' tol abstol b0 h0 rest eq_refl Hd Hnn' Echk) as (d & Ed & Hw).
  rewrite (eval_slice ord Hord hmaps g eq_refl primal env 0 b0 h0 eq_refl Henv) in F1.
  split; auto. split; [|split; [auto|]].
  - intros b h Hin. apply elem_of_list_In, elem_of_list_lookup in Hin as (k & Hk).
    assert (Ek : hmaps !! S k = Some (b, h)) by exact Hk.
    rewrite <- (eval_slice ord Hord hmaps g eq_refl primal env (S k) b h Ek Henv).
    apply F2. apply lookup_lt_Some in Ek. lia.
  - exists d. split; auto.
Qed.
Print Assumptions C31_tolerant_pass_bounds_cost.

(** Minimize [x] subject to [2/x <= 1]: the answer [x = 2] with multipliers 1. *)
Example C31_nonvacuous :
  let hmaps : list (bool * hmap R) := [(false, [({[0%nat := 1]}, 1)]); (false, [({[0%nat := -1]}, 2)])] in
  let g := gen std_order hmaps in
  program hmaps /\ answer hmaps (Some [1; 1]) None /\ at_primal g [ln 2] (fun _ => 2) /\
  exists nu la by_posy, generate_nula g [ln 2] (Some [1; 1]) None = Some (nu, la, by_posy) /\
  check_solution g 2 [ln 2] nu la by_posy 0 0 = ChkOk.
Proof.
  assert (Hg : gen std_order [(false, [({[0%nat := 1]}, 1)]); (false, [({[0%nat := -1]}, 2)])]
       = GP [1; 1]%nat [(0, 1); (1, 2)]%nat [0; 1]%nat [1; 2] [{[0%nat := 1]}; {[0%nat := -1]}] [(0, [0; 1])]%nat [] [] 2
            [(0%nat, 0%nat, 1); (1%nat, 0%nat, -1)]).
  { lazy -[Rplus Rmult Ropp IZR R0 R1]. reflexivity. }
  cbv zeta. rewrite Hg. split; [|split; [|split]].
  - split; [discriminate|]. intros b h [[= <- <-]|[[= <- <-]|[]]]; (split; [discriminate|]); intros e c [[= <- <-]|[]]; lra.
  - reflexivity.
  - intros v j Hj. unfold varidx in Hj. cbn in Hj. destruct (decide (v = 0%nat)); [|discriminate]. injection Hj as <-. cbn.
    rewrite exp_ln; lra.
  - eexists _, _, _. split; [reflexivity|].
    assert (P0 : forall i, i = 0%nat -> prow (GP [1; 1]%nat [(0, 1); (1, 2)]%nat [0; 1]%nat [1; 2] [{[0%nat := 1]}; {[0%nat := -1]}] [(0, [0; 1])]%nat [] [] 2
            [(0%nat, 0%nat, 1); (1%nat, 0%nat, -1)]) [ln 2] i = ln 2) by (intros i ->; unfold prow, coo_dot; cbn; lra).
    assert (P1 : forall i, i = 1%nat -> prow (GP [1; 1]%nat [(0, 1); (1, 2)]%nat [0; 1]%nat [1; 2] [{[0%nat := 1]}; {[0%nat := -1]}] [(0, [0; 1])]%nat [] [] 2
            [(0%nat, 0%nat, 1); (1%nat, 0%nat, -1)]) [ln 2] i = - ln 2) by (intros i ->; unfold prow, coo_dot; cbn; lra).
    assert (Heq : forall a b, a = b -> almost_equal 0 0 a b = true).
    { intros a b ->. unfold almost_equal. rewrite (proj2 (Reqb_true b b) eq_refl). reflexivity. }
    assert (Hlt : forall a b, b <= a -> Rltb a b = false) by (intros; apply Rltb_false; auto).
    unfold check_solution. cbn -[prow almost_equal Rltb Rabs coo_tdot dual_cost].
    rewrite (P0 0%nat), (P1 1%nat) by auto. cbn [nth].
    rewrite exp_Ropp, exp_ln by lra.
    rewrite Heq by lra. cbn [negb]. rewrite Hlt by lra. cbn [orb].
    rewrite Heq by lra. cbn [negb]. rewrite !Hlt by lra. cbn [orb andb].
    unfold coo_tdot. cbn -[Rabs Rltb dual_cost almost_equal]. rewrite Hlt; [|replace (0 + 1 * 1 + -1 * 1) with 0 by lra; rewrite Rabs_R0; lra].
    cbn [orb].
    assert (D : dual_cost (GP [1; 1]%nat [(0, 1); (1, 2)]%nat [0; 1]%nat [1; 2] [{[0%nat := 1]}; {[0%nat := -1]}] [(0, [0; 1])]%nat [] [] 2
            [(0%nat, 0%nat, 1); (1%nat, 0%nat, -1)]) [1 + 0; 1 + 0] [[1]; [1]] = Some (ln 2)).
    { unfold dual_cost, enumerate, dual_term. cbn -[Reqb Rlt_dec].
      rewrite !(proj2 (Reqb_false (1 + 0) 0)) by lra. replace (1 / (1 + 0)) with 1 by field.
      destruct (Rlt_dec 0 1); [|lra]. cbn. rewrite ln_1. f_equal. lra. }
    unfold total. cbn [fold_right]. rewrite D. rewrite exp_ln by lra. rewrite Heq; auto.
Qed.
