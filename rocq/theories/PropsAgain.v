(** C94: results of a program asked for again. Specification vocabulary:
    PropsMult.v. *)
From Verif Require Import Base HashVec Nomial NomialSem NomialProofs Sub Constraint Sens SensSem SensProofs ReportProofs Multipliers PropsMult SubExtra.
Open Scope R_scope.

(** What [as_hmapslt1] leaves on a constraint none of whose terms were changed
    by substitution: every term stands for itself, with nothing moved across. *)
Definition untouched (p : hmap R) : cstate R := CS (Some (map (fun i => [(i, 1)]) (seq 0 (length p)))) None.
Definition unmerged (h : heap R) (r : row R) : Prop :=
  match h (r_con r) with
  | OPosy p st => (st = untouched p \/ cs_pmap st = None) /\ length (r_nu r) = length p
  | _ => True
  end.

Definition C94_for (allowed : heap R -> list (row R) -> Prop) : Prop :=
  forall (origin lin vlin : nat -> nat) (h : heap R) (cost : expv R) (ps : list stated) (a : sacc R),
  settled h -> (forall p, In p ps -> fits origin h p) -> allowed h (rows ps) ->
  compile_senss origin lin vlin h cost (rows ps) = Ok a ->
  exists a', compile_senss origin lin vlin (sa_heap a) cost (rows ps) = Ok a' /\
    sa_cons a' = sa_cons a /\ sa_vars a' = sa_vars a /\ sa_models a' = sa_models a.

(** ** Proofs *)

Lemma add_pmap_untouched nu : forall (pre : list R),
  add_pmap (pre ++ replicate (length nu) 0) (map (fun i => [(i, 1)]) (seq (length pre) (length nu))) nu = Ok (pre ++ nu).
Proof.
  induction nu as [|w nu IH]; intros pre; [reflexivity|].
  cbn [length replicate seq map add_pmap add_fractions]. unfold add_at.
  rewrite lookup_app_r by lia. rewrite Nat.sub_diag. cbn [lookup list_lookup rbind].
  rewrite insert_app_r_alt by lia. rewrite Nat.sub_diag. cbn [insert list_insert].
  replace (nadd 0 (nmul 1 w)) with w by (cbn; lra).
  replace (pre ++ w :: replicate (length nu) 0) with ((pre ++ [w]) ++ replicate (length nu) 0) by (rewrite <- app_assoc; auto).
  replace (S (length pre)) with (length (pre ++ [w])) by (rewrite app_length; cbn; lia).
  rewrite IH, <- app_assoc. reflexivity.
Qed.
Lemma posy_sens_untouched p st la nu : st = untouched p \/ cs_pmap st = None -> length nu = length p ->
  exists st', posy_sens st la nu p = Ok (st', sum_terms nu p) /\ cs_pmap st' = None.
Proof.
  intros [->|E] El.
  - unfold posy_sens, untouched. cbn [cs_pmap cs_const]. rewrite <- El.
    pose proof (add_pmap_untouched nu []) as G. cbn [app length] in G. change (n0 : R) with 0. rewrite G. cbn [rbind]. eauto.
  - unfold posy_sens. rewrite E. eauto.
Qed.

Definition ready (h : heap R) (i : nat) (nu : list R) : Prop :=
  match h i with
  | OPosy _ st => cs_pmap st = None
  | OSig f => exists v, f nu = Ok v
  | OMeq u _ => exists e c us, u = [(e, c)] :: us
  end.

Section Again.
Variable origin lin vlin : nat -> nat.
Notation turn := (turn origin lin).
Notation turns := (turns origin lin).

Lemma turn_ready a r a' i nu : turn a r = Ok a' -> ready (sa_heap a) i nu -> ready (sa_heap a') i nu.
Proof.
  unfold Multipliers.turn. destruct r as [j la nu']. cbn [r_con r_la r_nu]. unfold ready at 1. intros E Hr.
  destruct (Nat.eq_dec i j) as [->|Hn].
  - destruct (sa_heap a j) as [p st|u las|f] eqn:Ej; cbn [sens_from_dual] in E.
    + unfold posy_sens in E. rewrite Hr in E. cbn [rbind fst snd] in E. injection E as <-.
      unfold ready. cbn [sa_heap]. unfold hupd. rewrite Nat.eqb_refl. auto.
    + destruct (meq_sens las la u) as [[las' v]|]; cbn [rbind fst snd] in E; [|discriminate].
      destruct v as [v d]. injection E as <-. unfold ready. cbn [sa_heap]. unfold hupd. rewrite Nat.eqb_refl. auto.
    + destruct (f nu') as [v|]; cbn [rbind] in E; [|discriminate]. injection E as <-.
      unfold ready. cbn [sa_heap]. unfold hupd. rewrite Nat.eqb_refl. auto.
  - destruct (sens_from_dual (sa_heap a j) la nu') as [[o [v d]]|]; cbn [rbind] in E; [|discriminate]. injection E as <-.
    unfold ready. cbn [sa_heap]. unfold hupd. destruct (Nat.eqb_spec i j); [contradiction|auto].
Qed.
Lemma turns_ready rs : forall a a' i nu, turns a rs = Ok a' -> ready (sa_heap a) i nu -> ready (sa_heap a') i nu.
Proof.
  induction rs as [|r rs IH]; intros a a' i nu; cbn [Multipliers.turns]; [intros [= <-]; auto|].
  destruct (turn a r) as [a1|] eqn:E; cbn [rbind]; [|discriminate]. intros E' Hr. eapply IH; eauto. eapply turn_ready; eauto.
Qed.
Lemma turn_makes_ready a i la nu a' : (match sa_heap a i with OMeq _ _ => False | _ => True end) ->
  turn a (Row i la nu) = Ok a' -> ready (sa_heap a') i nu.
Proof.
  unfold Multipliers.turn. cbn [r_con r_la r_nu]. intros Hk E. unfold ready.
  destruct (sa_heap a i) as [p st|u las|f] eqn:Ei; [|destruct Hk|]; cbn [sens_from_dual] in E.
  - destruct (posy_sens st la nu p) as [[st' v]|] eqn:Ep; cbn [rbind fst snd] in E; [|discriminate]. injection E as <-.
    cbn [sa_heap]. unfold hupd. rewrite Nat.eqb_refl. unfold posy_sens in Ep. destruct (cs_pmap st) eqn:Es.
    + destruct (add_pmap _ _ _) as [nu1|]; cbn [rbind] in Ep; [|discriminate].
      destruct (cs_const st) as [[fr coeff]|].
      * destruct (decide _); [discriminate|]. destruct (add_fractions nu1 fr _); cbn [rbind] in Ep; [|discriminate]. injection Ep as <- _. reflexivity.
      * injection Ep as <- _. reflexivity.
    + injection Ep as <- _. auto.
  - destruct (f nu) as [v|] eqn:Ef; cbn [rbind] in E; [|discriminate]. injection E as <-.
    cbn [sa_heap]. unfold hupd. rewrite Nat.eqb_refl. eauto.
Qed.

Lemma stated_ready a p a' : settled (sa_heap a) -> fits origin (sa_heap a) p -> turns a (rows_of p) = Ok a' ->
  forall r, In r (rows_of p) -> ready (sa_heap a') (r_con r) (r_nu r).
Proof.
  intros Hs Hf E r Hr. destruct p as [i la nu|i la0 nu0 la1 nu1|i j la0 nu0 la1 nu1]; cbn [rows_of fits] in *.
  - destruct Hr as [<-|[]]. cbn [Multipliers.turns] in E. destruct (turn a (Row i la nu)) as [a1|] eqn:E1; cbn [rbind] in E; [|discriminate].
    injection E as <-. cbn [r_con r_nu]. eapply turn_makes_ready; eauto.
  - destruct (sa_heap a i) as [|u las|] eqn:Ei; try destruct Hf. rewrite (Hs _ _ _ Ei) in Ei.
    assert (Hu : exists e c us, u = [(e, c)] :: us).
    { revert E. cbn [Multipliers.turns]. unfold Multipliers.turn at 1. cbn [r_con r_la r_nu]. rewrite Ei. cbn [sens_from_dual meq_sens app rbind fst snd].
      unfold Multipliers.turn. cbn [r_con r_la r_nu sa_heap sa_vars sa_cons sa_models]. unfold hupd at 1. rewrite Nat.eqb_refl.
      cbn [sens_from_dual]. unfold meq_sens. cbn [app].
      destruct u as [|[|[e c] [|? ?]] u]; cbn [rbind fst snd]; try discriminate. eauto. }
    assert (Hrd : ready (sa_heap a) (r_con r) (r_nu r)).
    { destruct Hr as [<-|[<-|[]]]; unfold ready; cbn [r_con]; rewrite Ei; auto. }
    eapply turns_ready; eauto.
  - destruct Hf as (Ho & Hi & Hj). cbn [Multipliers.turns] in E.
    destruct (turn a (Row i la0 nu0)) as [a1|] eqn:E1; cbn [rbind] in E; [|discriminate].
    destruct (turn a1 (Row j la1 nu1)) as [a2|] eqn:E2; cbn [rbind] in E; [|discriminate]. injection E as <-.
    assert (Hi' : match sa_heap a i with OMeq _ _ => False | _ => True end) by (destruct (sa_heap a i); auto).
    destruct (turn_plain origin lin _ _ _ _ _ Hi' E1) as (H1 & _).
    assert (Hj' : match sa_heap a1 j with OMeq _ _ => False | _ => True end).
    { pose proof (H1 j). destruct (sa_heap a j), (sa_heap a1 j); cbn in *; auto; discriminate. }
    destruct Hr as [<-|[<-|[]]]; cbn [r_con r_nu].
    + eapply turn_ready; eauto. eapply turn_makes_ready; eauto.
    + eapply turn_makes_ready; eauto.
Qed.
Lemma rows_ready ps : forall a a', settled (sa_heap a) -> (forall p, In p ps -> fits origin (sa_heap a) p) ->
  turns a (rows ps) = Ok a' -> forall r, In r (rows ps) -> ready (sa_heap a') (r_con r) (r_nu r).
Proof.
  induction ps as [|p ps IH]; intros a a' Hs Hf E r Hr; [destruct Hr|].
  change (rows (p :: ps)) with (rows_of p ++ rows ps) in *. rewrite turns_app in E.
  destruct (turns a (rows_of p)) as [a1|] eqn:E1; cbn [rbind] in E; [|discriminate].
  destruct (turns_stated origin lin a p a1 Hs (Hf p (or_introl eq_refl)) E1) as (H1 & H2 & _).
  apply in_app_iff in Hr as [Hr|Hr].
  - eapply turns_ready; [exact E|]. exact (stated_ready a p a1 Hs (Hf p (or_introl eq_refl)) E1 r Hr).
  - eapply IH; eauto. intros q Hq. eapply fits_like; [eauto|]. apply Hf. right. auto.
Qed.

Lemma ready_turn a r : ready (sa_heap a) (r_con r) (r_nu r) -> exists a', turn a r = Ok a'.
Proof.
  unfold ready, Multipliers.turn. destruct (sa_heap a (r_con r)) as [p st|u las|f]; cbn [sens_from_dual].
  - intros E. unfold posy_sens. rewrite E. cbn [rbind]. eauto.
  - intros (e & c & us & ->). unfold meq_sens. destruct las as [|l0 [|l1 las]]; cbn [app rbind]; eauto.
  - intros [v ->]. cbn [rbind]. eauto.
Qed.
Lemma ready_turns rs : forall a, (forall r, In r rs -> ready (sa_heap a) (r_con r) (r_nu r)) -> exists a', turns a rs = Ok a'.
Proof.
  induction rs as [|r rs IH]; intros a Hr; cbn [Multipliers.turns]; eauto.
  destruct (ready_turn a r (Hr r (or_introl eq_refl))) as [a1 E]. rewrite E. cbn [rbind]. apply IH.
  intros q Hq. eapply turn_ready; eauto. apply Hr. right. auto.
Qed.

(** Two runs side by side, from constraints that would answer alike. *)
Definition alike (o o' : cobj R) : Prop :=
  match o, o' with
  | OPosy p st, OPosy p' st' => p = p' /\ (st = untouched p \/ cs_pmap st = None) /\ (st' = untouched p \/ cs_pmap st' = None)
  | OMeq u las, OMeq u' las' => u = u' /\ las = las'
  | OSig f, OSig f' => f = f'
  | _, _ => False
  end.
Definition same_outputs (a a' : sacc R) : Prop :=
  sa_vars a = sa_vars a' /\ sa_cons a = sa_cons a' /\ sa_models a = sa_models a'.
Variable cons : nat -> Prop.
Definition fits_len (h : heap R) (r : row R) : Prop :=
  cons (r_con r) /\ match h (r_con r) with OPosy p _ => length (r_nu r) = length p | _ => True end.
Definition all_alike (h h' : heap R) : Prop := forall i, cons i -> alike (h i) (h' i).

Lemma alike_turn a a' r a1 : all_alike (sa_heap a) (sa_heap a') -> same_outputs a a' -> fits_len (sa_heap a) r ->
  turn a r = Ok a1 -> exists a1', turn a' r = Ok a1' /\ all_alike (sa_heap a1) (sa_heap a1') /\ same_outputs a1 a1' /\
    like (sa_heap a) (sa_heap a1).
Proof.
  intros Ha (Ev & Ec & Em) [Hi Hl] E. destruct r as [i la nu]. unfold Multipliers.turn in *. cbn [r_con r_la r_nu] in *.
  rewrite <- Ev, <- Ec, <- Em. pose proof (Ha i Hi) as Hai.
  assert (G : forall o o' v d, alike o o' -> erase o = erase (sa_heap a i) ->
    SA (hupd (sa_heap a) i o) (add_sens (sa_vars a) v) (dset (sa_cons a) (origin i) (nabs d)) (bump (sa_models a) (lin (origin i)) (nabs d)) = a1 ->
    exists a1', Ok (SA (hupd (sa_heap a') i o') (add_sens (sa_vars a) v) (dset (sa_cons a) (origin i) (nabs d)) (bump (sa_models a) (lin (origin i)) (nabs d))) = Ok a1' /\
      all_alike (sa_heap a1) (sa_heap a1') /\ same_outputs a1 a1' /\ like (sa_heap a) (sa_heap a1)).
  { intros o o' v d Ho Eo <-. eexists. split; [reflexivity|]. split; [|split; [repeat split|apply like_upd; auto]].
    intros j Hj. cbn [sa_heap]. unfold hupd. destruct (Nat.eqb_spec j i); auto. }
  destruct (sa_heap a i) as [p st|u las|f] eqn:Ei, (sa_heap a' i) as [p' st'|u' las'|f'] eqn:Ei'; try (destruct Hai; fail); cbn [alike] in Hai.
  - destruct Hai as (<- & H1 & H2). cbn [sens_from_dual] in *.
    destruct (posy_sens_untouched p st la nu H1 Hl) as (st1 & E1 & N1). destruct (posy_sens_untouched p st' la nu H2 Hl) as (st2 & E2 & N2).
    rewrite E1 in E. rewrite E2. cbn [rbind fst snd] in *. injection E as E. apply (G (OPosy p st1) (OPosy p st2)); auto. cbn. auto.
  - destruct Hai as (<- & <-). cbn [sens_from_dual] in *. destruct (meq_sens las la u) as [[las1 [v d]]|]; cbn [rbind fst snd] in *; [|discriminate].
    injection E as E. apply (G (OMeq u las1) (OMeq u las1)); auto. cbn. auto.
  - subst f'. cbn [sens_from_dual] in *. destruct (f nu) as [v|]; cbn [rbind] in *; [|discriminate]. injection E as E.
    apply (G (OSig f) (OSig f)); auto. cbn. auto.
Qed.
Lemma fits_len_like h h' r : like h h' -> fits_len h r -> fits_len h' r.
Proof.
  intros Hl [Hc H]. split; auto. pose proof (Hl (r_con r)) as E. destruct (h (r_con r)), (h' (r_con r)); cbn in E; try discriminate; auto.
  injection E as <-. auto.
Qed.
Lemma alike_turns rs : forall a a' a1, all_alike (sa_heap a) (sa_heap a') -> same_outputs a a' -> (forall r, In r rs -> fits_len (sa_heap a) r) ->
  turns a rs = Ok a1 -> exists a1', turns a' rs = Ok a1' /\ same_outputs a1 a1' /\ all_alike (sa_heap a1) (sa_heap a1').
Proof.
  induction rs as [|r rs IH]; intros a a' a1 Ha Ho Hl; cbn [Multipliers.turns]; [intros [= <-]; eauto|].
  destruct (turn a r) as [a2|] eqn:E; cbn [rbind]; [|discriminate]. intros E'.
  destruct (alike_turn a a' r a2 Ha Ho (Hl r (or_introl eq_refl)) E) as (a2' & E2 & Ha2 & Ho2 & Hlk). rewrite E2. cbn [rbind].
  apply (IH a2 a2' a1); auto. intros q Hq. eapply fits_len_like; [eauto|]. apply Hl. right. auto.
Qed.
End Again.

(** ** C94 *)

(** Whatever the constraints, a second result can be had, and shows the same
    sensitivities of constraints. *)
Theorem C94_constraints :
  forall (origin lin vlin : nat -> nat) (h : heap R) (cost : expv R) (ps : list stated) (a : sacc R),
  settled h -> (forall p, In p ps -> fits origin h p) ->
  compile_senss origin lin vlin h cost (rows ps) = Ok a ->
  exists a', compile_senss origin lin vlin (sa_heap a) cost (rows ps) = Ok a' /\ sa_cons a' = sa_cons a.
Proof.
  intros origin lin vlin h cost ps a Hs Hf E.
  destruct (turns_compile _ _ _ _ _ _ _ E) as (a0 & E0 & -> & _ & Ec & _).
  destruct (turns_rows origin lin ps (SA h cost [] []) a0 Hs Hf E0) as (Hl & Hs0 & Ecs & _). cbn [sa_heap sa_cons] in *.
  pose proof (rows_ready origin lin ps (SA h cost [] []) a0 Hs Hf E0) as Hr.
  destruct (ready_turns origin lin (rows ps) (SA (sa_heap a0) cost [] []) Hr) as [a1 E1].
  unfold compile_senss. rewrite E1. cbn [rbind]. eexists. split; [reflexivity|]. cbn [sa_cons].
  destruct (turns_rows origin lin ps (SA (sa_heap a0) cost [] []) a1 Hs0) as (_ & _ & Ecs' & _); auto.
  - intros p Hp. eapply fits_like; [exact Hl|]. auto.
  - rewrite Ec, Ecs', Ecs. reflexivity.
Qed.
Print Assumptions C94_constraints.

(** Where substitution changed no terms, it shows the same of everything. *)
Theorem C94_untouched_partial : C94_for (fun h rs => forall r, In r rs -> unmerged h r).
Proof.
  intros origin lin vlin h cost ps a Hs Hf Hu E.
  destruct (turns_compile _ _ _ _ _ _ _ E) as (a0 & E0 & Eh & Ev & Ec & Em). rewrite Eh.
  destruct (turns_rows origin lin ps (SA h cost [] []) a0 Hs Hf E0) as (Hl & Hs0 & _ & _). cbn [sa_heap] in *.
  pose proof (rows_ready origin lin ps (SA h cost [] []) a0 Hs Hf E0) as Hr.
  set (cons := fun i => exists r, In r (rows ps) /\ r_con r = i).
  assert (Ha : all_alike cons h (sa_heap a0)).
  { intros i (r & Hr1 & <-). pose proof (Hu r Hr1) as Hur. pose proof (Hr r Hr1) as Hrr. pose proof (Hl (r_con r)) as Hlr.
    unfold unmerged in Hur. unfold ready in Hrr. unfold alike.
    destruct (h (r_con r)) as [p st|u las|f] eqn:E1, (sa_heap a0 (r_con r)) as [p' st'|u' las'|f'] eqn:E2; cbn in Hlr; try discriminate; injection Hlr as <-.
    - destruct Hur. auto.
    - rewrite (Hs _ _ _ E1), (Hs0 _ _ _ E2). auto.
    - auto. }
  destruct (alike_turns origin lin cons (rows ps) (SA h cost [] []) (SA (sa_heap a0) cost [] []) a0) as (a1 & E1 & (Sv & Sc & Sm) & _); auto.
  - repeat split.
  - intros r Hr1. split; [exists r; auto|]. cbn [sa_heap]. pose proof (Hu r Hr1) as Hur. unfold unmerged in Hur.
    destruct (h (r_con r)); auto. apply Hur.
  - unfold compile_senss. rewrite E1. cbn [rbind]. eexists. split; [reflexivity|]. cbn [sa_cons sa_vars sa_models].
    rewrite Em, Ev, Ec, Sv, Sc, Sm. auto.
Qed.
Print Assumptions C94_untouched_partial.

(** In general it is false: the record of which terms were merged goes with the
    first result, and the second gives the multiplier of the merged term to the
    first of them alone. *)
Definition merged : heap R := fun _ =>
  OPosy [({[0%nat := 1]}, 2); ({[1%nat := 1]}, 3)] (CS (Some [[(0%nat, 2/5); (1%nat, 3/5)]]) None).
Theorem C94_merged_refuted : ~ C94_for (fun _ _ => True).
Proof.
  intros Hc.
  set (ps := [Ineq 0 1 [1]]).
  destruct (compile_senss (fun i => i) (fun _ => 0%nat) (fun _ => 0%nat) merged ∅ (rows ps)) as [a|e] eqn:E; [|discriminate E].
  destruct (Hc (fun i => i) (fun _ => 0%nat) (fun _ => 0%nat) merged ∅ ps a) as (a' & E' & _ & Hv & _); auto.
  { intros i u las Eh. discriminate Eh. }
  { intros p [<-|[]]. exact I. }
  assert (G : forall h cost (b : sacc R), compile_senss (fun i => i) (fun _ => 0%nat) (fun _ => 0%nat) h cost (rows ps) = Ok b ->
    forall p st, h 0%nat = OPosy p st -> exists st' v, posy_sens st 1 [1] p = Ok (st', v) /\ sa_vars b = add_sens cost v /\ sa_heap b 0%nat = OPosy p st').
  { clear. intros h cost b. unfold compile_senss, ps. cbn [rows flat_map rows_of app turns]. unfold turn. cbn [sa_heap r_con r_la r_nu].
    intros Eb p st Eh. rewrite Eh in Eb. cbn [sens_from_dual] in Eb. destruct (posy_sens st 1 [1] p) as [[st' v]|]; cbn [rbind fst snd] in Eb; [|discriminate].
    injection Eb as <-. exists st', v. cbn [sa_vars sa_heap]. repeat split. }
  destruct (G _ _ _ E _ _ eq_refl) as (st1 & v1 & P1 & V1 & H1).
  destruct (G _ _ _ E' _ _ H1) as (st2 & v2 & P2 & V2 & _).
  rewrite V1, V2 in Hv. apply (f_equal (fun d => eget d 0%nat)) in Hv. rewrite !add_sens_eget in Hv.
  unfold posy_sens in P1. cbn [cs_pmap cs_const add_pmap length replicate add_fractions] in P1. unfold add_at in P1.
  cbn [replicate lookup list_lookup rbind insert list_insert] in P1. injection P1 as <- <-.
  unfold posy_sens in P2. cbn [cs_pmap] in P2. injection P2 as _ <-.
  assert (Eg : forall nu u k, eget (sum_terms nu u) k = lsum (fun ne => fst ne * eget (fst (snd ne)) k) (List.combine nu u)) by (intros; apply sum_terms_hget).
  rewrite !Eg in Hv. cbn [combine lsum fst snd] in Hv.
  replace (eget ({[0%nat := 1]} : expv R) 0) with 1 in Hv by (unfold eget; rewrite lookup_singleton; auto).
  replace (eget ({[1%nat := 1]} : expv R) 0) with 0 in Hv by (unfold eget; rewrite lookup_singleton_ne by discriminate; auto).
  cbn in Hv. lra.
Qed.
Print Assumptions C94_merged_refuted.

(** A constraint 2*a/x + 3/x <= 1 (variables 0 and 1) with a = 1: its terms are
    merged, and a is worth 2/5 in the first result and 1 in the second. Without
    the substitution every term stands for itself. *)
Example C94_example :
  let u : hmap Q := [(list_to_map [(0%nat, 1%Q); (1%nat, (-1)%Q)], 2%Q); ({[1%nat := (-1)%Q]}, 3%Q)] in
  let fixed : gmap nat Q := {[0%nat := 1%Q]} in
  (let! r := as_hmapslt1 0%Q (std_schedule fixed) fixed (CS None None) [u] in
   let! a := compile_senss (fun i => i) (fun _ => 0%nat) (fun _ => 0%nat) (fun _ => OPosy u (fst r)) ∅ [Row 0%nat 1%Q [1%Q]] in
   let! a' := compile_senss (fun i => i) (fun _ => 0%nat) (fun _ => 0%nat) (sa_heap a) ∅ [Row 0%nat 1%Q [1%Q]] in
   Ok (map_to_list (sa_vars a), map_to_list (sa_vars a'))) =
  Ok ([(0%nat, (2 # 5)%Q); (1%nat, (-1)%Q)], [(0%nat, 1%Q); (1%nat, (-1)%Q)]) /\
  (let! r := as_hmapslt1 0%Q (std_schedule ∅) ∅ (CS None None) [u] in Ok (fst r)) =
  Ok (CS (Some [[(0%nat, 1%Q)]; [(1%nat, 1%Q)]]) None).
Proof. split; vm_compute; reflexivity. Qed.

(** The same happens in a first result when that constraint is in the model
    twice, each time with multiplier 1/2: a gets 1/5 + 1/2 instead of 2/5. *)
Example C94_twice_example :
  let u : hmap Q := [(list_to_map [(0%nat, 1%Q); (1%nat, (-1)%Q)], 2%Q); ({[1%nat := (-1)%Q]}, 3%Q)] in
  let fixed : gmap nat Q := {[0%nat := 1%Q]} in
  (let! r := as_hmapslt1 0%Q (std_schedule fixed) fixed (CS None None) [u] in
   let! a := compile_senss (fun i => i) (fun _ => 0%nat) (fun _ => 0%nat) (fun _ => OPosy u (fst r)) ∅
     [Row 0%nat (1 # 2)%Q [(1 # 2)%Q]; Row 0%nat (1 # 2)%Q [(1 # 2)%Q]] in
   Ok (map_to_list (sa_vars a), sa_cons a)) = Ok ([(0%nat, (7 # 10)%Q); (1%nat, (-1)%Q)], [(0%nat, (1 # 2)%Q)]).
Proof. vm_compute. reflexivity. Qed.
