(** C93: sensitivities of constraints and models, and results asked for again. *)
From Verif Require Import Base HashVec Nomial NomialSem NomialProofs Sub Constraint Sens SensSem SensProofs ReportProofs Multipliers.
Open Scope R_scope.

(** ** Specification *)

(** What a program says about one constraint of the user's: an inequality, a
    monomial equality (two posynomials of one constraint) or a signomial equality
    (two posynomials of two constraints made for it), with the multipliers. *)
Inductive stated :=
  | Ineq (i : nat) (la : R) (nu : list R)
  | Equal (i : nat) (la0 : R) (nu0 : list R) (la1 : R) (nu1 : list R)
  | SEqual (i j : nat) (la0 : R) (nu0 : list R) (la1 : R) (nu1 : list R).
Definition rows_of (p : stated) : list (row R) :=
  match p with
  | Ineq i la nu => [Row i la nu]
  | Equal i la0 nu0 la1 nu1 => [Row i la0 nu0; Row i la1 nu1]
  | SEqual i j la0 nu0 la1 nu1 => [Row i la0 nu0; Row j la1 nu1]
  end.
Definition rows (ps : list stated) : list (row R) := flat_map rows_of ps.
Definition who (p : stated) : nat := match p with Ineq i _ _ | Equal i _ _ _ _ | SEqual i _ _ _ _ _ => i end.

(** The multiplier of [left <= right] or [left == right]. *)
Definition multiplier (p : stated) : R :=
  match p with Ineq _ la _ => la | Equal _ la0 _ la1 _ | SEqual _ _ la0 _ la1 _ => la0 - la1 end.

(** The constraints are of these kinds, and hold no multiplier of their own. *)
Definition fits (origin : nat -> nat) (h : heap R) (p : stated) : Prop :=
  match p with
  | Ineq i _ _ => match h i with OMeq _ _ => False | _ => True end
  | Equal i _ _ _ _ => match h i with OMeq _ _ => True | _ => False end
  | SEqual i j _ _ _ _ => origin j = origin i /\
      (match h i with OPosy _ _ => True | _ => False end) /\ match h j with OPosy _ _ => True | _ => False end
  end.
Definition settled (h : heap R) : Prop := forall i u las, h i = OMeq u las -> las = [].

Definition is_signomial_equality (p : stated) : Prop := match p with SEqual _ _ _ _ _ _ => True | _ => False end.

(** The claim: a constraint's sensitivity is the size of its net multiplier. *)
Definition C93_for (allowed : (nat -> nat) -> list stated -> Prop) : Prop :=
  forall (origin lin vlin : nat -> nat) (h : heap R) (cost : expv R) (ps : list stated) (a : sacc R),
  settled h -> (forall p, In p ps -> fits origin h p) -> allowed origin ps ->
  compile_senss origin lin vlin h cost (rows ps) = Ok a ->
  forall o, dget (sa_cons a) o =
    if existsb (fun p => Nat.eqb (origin (who p)) o) ps
    then Some (Rabs (lsum multiplier (List.filter (fun p => Nat.eqb (origin (who p)) o) ps)))
    else None.

(** ** Proofs *)

Section Loop.
Variable origin lin vlin : nat -> nat.
Notation turn := (turn origin lin).
Notation turns := (turns origin lin).

Definition erase (o : cobj R) : cobj R :=
  match o with OPosy p _ => OPosy p (CS None None) | OMeq u _ => OMeq u [] | OSig f => OSig f end.
Definition like (h h' : heap R) : Prop := forall i, erase (h i) = erase (h' i).
Lemma like_trans h1 h2 h3 : like h1 h2 -> like h2 h3 -> like h1 h3.
Proof. intros H1 H2 i. rewrite H1. apply H2. Qed.
Lemma like_upd h i o : erase o = erase (h i) -> like h (hupd h i o).
Proof. intros E j. unfold hupd. destruct (Nat.eqb_spec j i); subst; auto. Qed.
Lemma fits_like h h' p : like h h' -> fits origin h p -> fits origin h' p.
Proof.
  intros Hl. destruct p as [i la nu|i la0 nu0 la1 nu1|i j la0 nu0 la1 nu1]; cbn [fits].
  - pose proof (Hl i). destruct (h i), (h' i); cbn in *; auto; discriminate.
  - pose proof (Hl i). destruct (h i), (h' i); cbn in *; auto; discriminate.
  - pose proof (Hl i). pose proof (Hl j). intros (E & H1 & H2). split; auto.
    split; [destruct (h i), (h' i); cbn in *; auto; discriminate|destruct (h j), (h' j); cbn in *; auto; discriminate].
Qed.

Lemma turns_app (a : sacc R) rs rs' : turns a (rs ++ rs') = let! a' := turns a rs in turns a' rs'.
Proof. revert a. induction rs as [|r rs IH]; intros a; cbn; auto. destruct (Multipliers.turn _ _ a r); cbn; auto. Qed.

Definition dval (d : list (nat * R)) (k : nat) : R := match dget d k with Some x => x | None => 0 end.
Lemma dval_bump d k x m : dval (bump d k x) m = dval d m + (if Nat.eqb k m then x else 0).
Proof.
  unfold dval, bump. rewrite dget_dset. destruct (Nat.eqb_spec k m) as [->|Hn].
  - rewrite decide_True by auto. destruct (dget d m); reflexivity.
  - rewrite decide_False by auto. lra.
Qed.
Lemma dset_dset (d : list (nat * R)) k x y : dset (dset d k x) k y = dset d k y.
Proof.
  induction d as [|[k' v] d IH]; cbn; [rewrite decide_True by auto; auto|].
  destruct (decide (k = k')); cbn; [rewrite decide_True by auto; auto|rewrite decide_False by auto; congruence].
Qed.

(** What is shown of a constraint, and what its model gets. *)
Definition shown (p : stated) : R :=
  match p with Ineq _ la _ => Rabs la | Equal _ la0 _ la1 _ => Rabs (la0 - la1) | SEqual _ _ _ _ la1 _ => Rabs la1 end.
Definition weight (p : stated) : R :=
  match p with Ineq _ la _ => Rabs la | Equal _ la0 _ la1 _ => Rabs (la0 - la1)
  | SEqual _ _ la0 _ la1 _ => Rabs la0 + Rabs la1 end.

Lemma turn_plain a i la nu a' : (match sa_heap a i with OMeq _ _ => False | _ => True end) ->
  turn a (Row i la nu) = Ok a' ->
  like (sa_heap a) (sa_heap a') /\ (settled (sa_heap a) -> settled (sa_heap a')) /\
  sa_cons a' = dset (sa_cons a) (origin i) (Rabs la) /\
  sa_models a' = bump (sa_models a) (lin (origin i)) (Rabs la).
Proof.
  unfold Multipliers.turn. cbn [r_con r_la r_nu]. intros Hk.
  assert (G : forall o v, erase o = erase (sa_heap a i) -> (forall u las, o <> OMeq u las) ->
    Ok (SA (hupd (sa_heap a) i o) (add_sens (sa_vars a) v) (dset (sa_cons a) (origin i) (nabs la))
      (bump (sa_models a) (lin (origin i)) (nabs la))) = Ok a' ->
    like (sa_heap a) (sa_heap a') /\ (settled (sa_heap a) -> settled (sa_heap a')) /\
    sa_cons a' = dset (sa_cons a) (origin i) (Rabs la) /\
    sa_models a' = bump (sa_models a) (lin (origin i)) (Rabs la)).
  { intros o v Eo Hno [= <-]. cbn [sa_heap sa_cons sa_models]. rewrite nabs_R. repeat split; auto.
    - apply like_upd. auto.
    - intros Hs j u las. unfold hupd. destruct (Nat.eqb_spec j i); [intros E; destruct (Hno _ _ E)|apply Hs]. }
  destruct (sa_heap a i) as [p st|u las|f] eqn:Ei; [|destruct Hk|]; cbn [sens_from_dual].
  - destruct (posy_sens st la nu p) as [[st' v]|e]; cbn [rbind fst snd]; [|discriminate].
    apply G; [reflexivity|discriminate].
  - destruct (f nu) as [v|e]; cbn [rbind]; [|discriminate]. apply G; [reflexivity|discriminate].
Qed.

Lemma hupd_same {A} (h : nat -> A) i o : (fun j => if Nat.eqb j i then o else h j) i = o.
Proof. cbn. rewrite Nat.eqb_refl. auto. Qed.

Lemma turns_pair a i la0 nu0 la1 nu1 u a' : sa_heap a i = OMeq u [] ->
  turns a [Row i la0 nu0; Row i la1 nu1] = Ok a' ->
  like (sa_heap a) (sa_heap a') /\ (settled (sa_heap a) -> settled (sa_heap a')) /\
  sa_cons a' = dset (sa_cons a) (origin i) (Rabs (la0 - la1)) /\
  sa_models a' = bump (bump (sa_models a) (lin (origin i)) 0) (lin (origin i)) (Rabs (la0 - la1)).
Proof.
  intros Ei. cbn [Multipliers.turns]. unfold Multipliers.turn at 1. cbn [r_con r_la r_nu]. rewrite Ei. cbn [sens_from_dual meq_sens app rbind fst snd].
  unfold Multipliers.turn. cbn [r_con r_la r_nu sa_heap sa_vars sa_cons sa_models]. unfold hupd at 1. rewrite Nat.eqb_refl.
  cbn [sens_from_dual]. unfold meq_sens. cbn [app].
  destruct u as [|[|[e c] [|? ?]] u]; cbn [rbind fst snd]; try discriminate.
  intros [= <-]. cbn [sa_heap sa_cons sa_models]. rewrite !nabs_R. cbn [nsub R_num].
  change (n0 : R) with 0. rewrite Rabs_R0, dset_dset. repeat split; auto.
  - intros j. unfold hupd. destruct (Nat.eqb_spec j i); subst; auto. rewrite Ei. reflexivity.
  - intros Hs j u' las'. unfold hupd. destruct (Nat.eqb_spec j i); [intros [= _ <-]; auto|apply Hs].
Qed.

Lemma turns_stated a p a' : settled (sa_heap a) -> fits origin (sa_heap a) p -> turns a (rows_of p) = Ok a' ->
  like (sa_heap a) (sa_heap a') /\ settled (sa_heap a') /\
  sa_cons a' = dset (sa_cons a) (origin (who p)) (shown p) /\
  (forall m, dval (sa_models a') m = dval (sa_models a) m + if Nat.eqb (lin (origin (who p))) m then weight p else 0).
Proof.
  intros Hs Hf. destruct p as [i la nu|i la0 nu0 la1 nu1|i j la0 nu0 la1 nu1]; cbn [rows_of fits] in *.
  - cbn [Multipliers.turns]. destruct (turn a (Row i la nu)) as [a1|] eqn:E; cbn [rbind]; [|discriminate]. intros [= <-].
    destruct (turn_plain _ _ _ _ _ Hf E) as (H1 & H2 & H3 & H4). repeat split; auto. intros m. rewrite H4. apply dval_bump.
  - destruct (sa_heap a i) as [|u las|] eqn:Ei; try destruct Hf. rewrite (Hs _ _ _ Ei) in Ei. intros E.
    destruct (turns_pair _ _ _ _ _ _ _ _ Ei E) as (H1 & H2 & H3 & H4). repeat split; auto.
    intros m. rewrite H4, !dval_bump. cbn [who weight]. destruct (Nat.eqb _ m); lra.
  - destruct Hf as (Ho & Hi & Hj). cbn [Multipliers.turns].
    destruct (turn a (Row i la0 nu0)) as [a1|] eqn:E1; cbn [rbind]; [|discriminate].
    assert (Hi' : match sa_heap a i with OMeq _ _ => False | _ => True end) by (destruct (sa_heap a i); auto).
    destruct (turn_plain _ _ _ _ _ Hi' E1) as (H1 & H2 & H3 & H4).
    destruct (turn a1 (Row j la1 nu1)) as [a2|] eqn:E2; cbn [rbind]; [|discriminate]. intros [= <-].
    assert (Hj' : match sa_heap a1 j with OMeq _ _ => False | _ => True end).
    { pose proof (H1 j). destruct (sa_heap a j), (sa_heap a1 j); cbn in *; auto; discriminate. }
    destruct (turn_plain _ _ _ _ _ Hj' E2) as (K1 & K2 & K3 & K4). split; [eapply like_trans; eauto|]. split; [auto|].
    split; [rewrite K3, H3, Ho; apply dset_dset|]. intros m. rewrite K4, H4, !dval_bump, Ho. cbn [who weight].
    destruct (Nat.eqb _ m); lra.
Qed.

Lemma turns_rows ps : forall a a', settled (sa_heap a) -> (forall p, In p ps -> fits origin (sa_heap a) p) ->
  turns a (rows ps) = Ok a' ->
  like (sa_heap a) (sa_heap a') /\ settled (sa_heap a') /\
  sa_cons a' = fold_left (fun d p => dset d (origin (who p)) (shown p)) ps (sa_cons a) /\
  (forall m, dval (sa_models a') m = dval (sa_models a) m + lsum (fun p => if Nat.eqb (lin (origin (who p))) m then weight p else 0) ps).
Proof.
  induction ps as [|p ps IH]; intros a a' Hs Hf.
  - intros [= <-]. repeat split; auto. intros m. cbn. lra.
  - change (rows (p :: ps)) with (rows_of p ++ rows ps). rewrite turns_app.
    destruct (turns a (rows_of p)) as [a1|] eqn:E; cbn [rbind]; [|discriminate]. intros E'.
    destruct (turns_stated a p a1 Hs (Hf p (or_introl eq_refl)) E) as (H1 & H2 & H3 & H4).
    destruct (IH a1 a' H2) as (K1 & K2 & K3 & K4); [|auto|].
    { intros q Hq. eapply fits_like; [eauto|]. apply Hf. right. auto. }
    split; [eapply like_trans; eauto|]. split; auto. split; [cbn [fold_left]; rewrite K3, H3; auto|].
    intros m. rewrite K4, H4. cbn [lsum]. lra.
Qed.
End Loop.

Lemma turns_compile origin lin vlin (h : heap R) cost ps (a : sacc R) :
  compile_senss origin lin vlin h cost (rows ps) = Ok a ->
  exists a0, turns origin lin (SA h cost [] []) (rows ps) = Ok a0 /\
    sa_heap a = sa_heap a0 /\ sa_vars a = sa_vars a0 /\ sa_cons a = sa_cons a0 /\
    sa_models a = fold_left (fun m kx => bump m (vlin (fst kx)) (nabs (snd kx))) (map_to_list (sa_vars a)) (sa_models a0).
Proof.
  unfold compile_senss. destruct (turns origin lin _ (rows ps)) as [a0|]; cbn [rbind]; [|discriminate].
  intros [= <-]. exists a0. auto.
Qed.

Section Folds.
Variable origin : nat -> nat.
Let setp (d : list (nat * R)) (p : stated) := dset d (origin (who p)) (shown p).
Lemma fold_keep ps : forall d o, (forall p, In p ps -> origin (who p) <> o) -> dget (fold_left setp ps d) o = dget d o.
Proof.
  induction ps as [|p ps IH]; intros d o Hn; cbn [fold_left]; auto. rewrite IH by (intros; apply Hn; right; auto).
  unfold setp. apply dget_dset_ne. intros E. apply (Hn p); [left; auto|auto].
Qed.
Lemma fold_last pre p post d : (forall q, In q post -> origin (who q) <> origin (who p)) ->
  dget (fold_left setp (pre ++ p :: post) d) (origin (who p)) = Some (shown p).
Proof.
  intros Hn. rewrite fold_left_app. cbn [fold_left]. rewrite fold_keep by auto. unfold setp. apply dget_dset_eq.
Qed.
End Folds.

Lemma shown_multiplier p : ~ is_signomial_equality p -> shown p = Rabs (multiplier p).
Proof. destruct p; cbn; auto. tauto. Qed.

(** ** C93 *)

(** True where no constraint is stated twice and no equality is of signomials. *)
Theorem C93_multiplier_partial :
  C93_for (fun origin ps => NoDup (map (fun p => origin (who p)) ps) /\ forall p, In p ps -> ~ is_signomial_equality p).
Proof.
  intros origin lin vlin h cost ps a Hs Hf [Hnd Hse] E o.
  destruct (turns_compile _ _ _ _ _ _ _ E) as (a0 & E0 & _ & _ & -> & _).
  destruct (turns_rows origin lin ps (SA h cost [] []) a0 Hs Hf E0) as (_ & _ & -> & _). cbn [sa_cons].
  destruct (existsb _ ps) eqn:Ex.
  - apply existsb_exists in Ex as (p & Hp & Eo). apply Nat.eqb_eq in Eo. subst o.
    apply in_split in Hp as (pre & post & ->). rewrite map_app in Hnd. cbn [map] in Hnd.
    apply NoDup_app in Hnd as (_ & Hd & Hnd). apply NoDup_cons in Hnd as [Hn _].
    assert (H1 : forall q, In q pre -> origin (who q) <> origin (who p)).
    { intros q Hq Ee. apply (Hd (origin (who q))); [apply elem_of_list_In, in_map_iff; eauto|]. rewrite Ee. left. }
    assert (H2 : forall q, In q post -> origin (who q) <> origin (who p)).
    { intros q Hq Ee. apply Hn. rewrite <- Ee. apply elem_of_list_In, in_map_iff. eauto. }
    rewrite fold_last by auto. f_equal. rewrite shown_multiplier by (apply Hse, in_elt). f_equal.
    assert (Hz : forall l, (forall q, In q l -> origin (who q) <> origin (who p)) -> List.filter (fun q => Nat.eqb (origin (who q)) (origin (who p))) l = []).
    { intros l. induction l as [|q l IH]; intros Hl; cbn; auto. destruct (Nat.eqb_spec (origin (who q)) (origin (who p))) as [Eq|_]; [destruct (Hl q (or_introl eq_refl) Eq)|].
      apply IH. intros; apply Hl; right; auto. }
    rewrite List.filter_app. cbn [List.filter]. rewrite Nat.eqb_refl, (Hz pre), (Hz post) by auto. cbn. lra.
  - rewrite fold_keep; [reflexivity|]. intros p Hp Eo.
    assert (Hc : existsb (fun q => Nat.eqb (origin (who q)) o) ps = true) by (apply existsb_exists; exists p; rewrite Eo, Nat.eqb_refl; auto).
    congruence.
Qed.
Print Assumptions C93_multiplier_partial.

(** In general what is reported is only what the last statement of a constraint
    says, and of a signomial equality only its second half. *)
Theorem C93_last :
  forall (origin lin vlin : nat -> nat) (h : heap R) (cost : expv R) (pre post : list stated) (p : stated) (a : sacc R),
  settled h -> (forall q, In q (pre ++ p :: post) -> fits origin h q) ->
  compile_senss origin lin vlin h cost (rows (pre ++ p :: post)) = Ok a ->
  (forall q, In q post -> origin (who q) <> origin (who p)) ->
  dget (sa_cons a) (origin (who p)) = Some match p with
    | Ineq _ la _ => Rabs la
    | Equal _ la0 _ la1 _ => Rabs (la0 - la1)
    | SEqual _ _ _ _ la1 _ => Rabs la1 end.
Proof.
  intros origin lin vlin h cost pre post p a Hs Hf E Hl.
  destruct (turns_compile _ _ _ _ _ _ _ E) as (a0 & E0 & _ & _ & -> & _).
  destruct (turns_rows origin lin _ (SA h cost [] []) a0 Hs Hf E0) as (_ & _ & -> & _). cbn [sa_cons].
  rewrite fold_last by auto. destruct p; reflexivity.
Qed.
Print Assumptions C93_last.

(** A model's sensitivity adds everything up: the sizes of all multipliers of
    its constraints, both halves of signomial equalities separately, and those of
    the sensitivities of its variables. *)
Theorem C93_models :
  forall (origin lin vlin : nat -> nat) (h : heap R) (cost : expv R) (ps : list stated) (a : sacc R) (m : nat),
  settled h -> (forall q, In q ps -> fits origin h q) ->
  compile_senss origin lin vlin h cost (rows ps) = Ok a ->
  match dget (sa_models a) m with Some x => x | None => 0 end =
    lsum (fun p => if Nat.eqb (lin (origin (who p))) m then
                     match p with SEqual _ _ la0 _ la1 _ => Rabs la0 + Rabs la1 | _ => Rabs (multiplier p) end else 0) ps
    + lsum (fun kx => if Nat.eqb (vlin (fst kx)) m then Rabs (snd kx) else 0) (map_to_list (sa_vars a)).
Proof.
  intros origin lin vlin h cost ps a m Hs Hf E.
  destruct (turns_compile _ _ _ _ _ _ _ E) as (a0 & E0 & _ & _ & _ & Em).
  destruct (turns_rows origin lin ps (SA h cost [] []) a0 Hs Hf E0) as (_ & _ & _ & Hm).
  change (dval (sa_models a) m = lsum (fun p => if Nat.eqb (lin (origin (who p))) m then
                     match p with SEqual _ _ la0 _ la1 _ => Rabs la0 + Rabs la1 | _ => Rabs (multiplier p) end else 0) ps
    + lsum (fun kx => if Nat.eqb (vlin (fst kx)) m then Rabs (snd kx) else 0) (map_to_list (sa_vars a))).
  rewrite Em. generalize (map_to_list (sa_vars a)). intros l.
  assert (G : forall l d, dval (fold_left (fun m kx => bump m (vlin (fst kx)) (nabs (snd kx))) l d) m
    = dval d m + lsum (fun kx : nat * R => if Nat.eqb (vlin (fst kx)) m then Rabs (snd kx) else 0) l).
  { clear. induction l as [|kx l IH]; intros d; cbn [fold_left lsum]; [lra|]. rewrite IH, dval_bump, nabs_R. lra. }
  rewrite G, Hm. f_equal. cbn [sa_models]. unfold dval at 1. cbn [dget]. rewrite Rplus_0_l.
  apply lsum_ext. intros p _. destruct p; reflexivity.
Qed.
Print Assumptions C93_models.

Definition half (i : nat) : cobj R := OPosy [({[i := 1]}, 1)] (CS None None).

(** A constraint stated twice gets only one of its multipliers: 0 for 1. *)
Theorem C93_repeated_refuted : ~ C93_for (fun _ ps => forall p, In p ps -> ~ is_signomial_equality p).
Proof.
  intros Hc.
  set (ps := [Ineq 0 1 [1]; Ineq 0 0 [0]]).
  destruct (compile_senss (fun i => i) (fun _ => 0%nat) (fun _ => 0%nat) half ∅ (rows ps)) as [a|e] eqn:E; [|discriminate E].
  pose proof (Hc (fun i => i) (fun _ => 0%nat) (fun _ => 0%nat) half ∅ ps a) as G.
  assert (Hs : settled half) by (intros i u las Eh; discriminate Eh).
  assert (Hf : forall p, In p ps -> fits (fun i => i) half p) by (intros p [<-|[<-|[]]]; exact I).
  specialize (G Hs Hf). specialize (G (fun p Hp => ltac:(destruct Hp as [<-|[<-|[]]]; intros Hx; exact Hx)) E 0%nat).
  assert (L : dget (sa_cons a) 0%nat = Some (Rabs 0)).
  { apply (C93_last (fun i => i) (fun _ => 0%nat) (fun _ => 0%nat) half ∅ [Ineq 0 1 [1]] [] (Ineq 0 0 [0]) a Hs Hf E). intros q []. }
  rewrite L in G.
  cbn in G. injection G as G. revert G. rewrite Rabs_R0, Rabs_right by lra. lra.
Qed.
Print Assumptions C93_repeated_refuted.

(** A signomial equality gets only the multiplier of its second half: one that
    holds the cost up with its first half is reported as having no effect. *)
Theorem C93_signomial_equality_refuted : ~ C93_for (fun origin ps => NoDup (map (fun p => origin (who p)) ps)).
Proof.
  intros Hc.
  set (ps := [SEqual 0 1 1 [1] 0 [0]]).
  destruct (compile_senss (fun _ => 2%nat) (fun _ => 0%nat) (fun _ => 0%nat) half ∅ (rows ps)) as [a|e] eqn:E; [|discriminate E].
  pose proof (Hc (fun _ => 2%nat) (fun _ => 0%nat) (fun _ => 0%nat) half ∅ ps a) as G.
  assert (Hs : settled half) by (intros i u las Eh; discriminate Eh).
  assert (Hf : forall p, In p ps -> fits (fun _ => 2%nat) half p) by (intros p [<-|[]]; repeat split).
  specialize (G Hs Hf). cbn [map ps] in G. specialize (G (NoDup_singleton _) E 2%nat).
  assert (L : dget (sa_cons a) 2%nat = Some (Rabs 0)).
  { apply (C93_last (fun _ => 2%nat) (fun _ => 0%nat) (fun _ => 0%nat) half ∅ [] [] (SEqual 0 1 1 [1] 0 [0]) a Hs Hf E). intros q []. }
  rewrite L in G.
  cbn in G. injection G as G. revert G. rewrite Rabs_R0, Rabs_right by lra. lra.
Qed.
Print Assumptions C93_signomial_equality_refuted.

(** x == 2*y and x >= 3 in model 7, then z >= 1 in model 8: the equality is
    worth 1/2 - 2, the inequality 1/4. *)
Example C93_example :
  let h : heap Q := fun i => match i with
    | 0%nat => OMeq [[(list_to_map [(0%nat, 1%Q); (1%nat, (-1)%Q)], (1 # 2)%Q)]; [(list_to_map [(0%nat, (-1)%Q); (1%nat, 1%Q)], 2%Q)]] []
    | _ => OPosy [({[i := (-1)%Q]}, 3%Q)] (CS None None) end in
  let rs := [Row 0%nat (1 # 2)%Q []; Row 0%nat 2%Q []; Row 1%nat (1 # 4)%Q [(1 # 4)%Q]; Row 2%nat 3%Q [3%Q]] in
  (let! a := compile_senss (fun i => i) (fun i => match i with 2%nat => 8%nat | _ => 7%nat end) (fun _ => 9%nat) h ∅ rs in
   Ok (sa_cons a, sa_models a)) =
  Ok ([(0%nat, (3 # 2)%Q); (1%nat, (1 # 4)%Q); (2%nat, 3%Q)], [(7%nat, (7 # 4)%Q); (8%nat, 3%Q); (9%nat, (23 # 4)%Q)]).
Proof. vm_compute. reflexivity. Qed.
