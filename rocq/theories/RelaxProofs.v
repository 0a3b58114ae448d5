(** Proofs about relaxed and bounded sets (C24). *)
From Verif Require Import Base HashVec Nomial NomialSem NomialProofs CanonProofs Sub Mono Constraint ConstraintSem ConstraintProofs
  UnitsProofs Flat FlatProofs Relax RelaxSem.
Open Scope R_scope.

Lemma holds_all_app env l l' : holds_all env (l ++ l') <-> holds_all env l /\ holds_all env l'.
Proof.
  unfold holds_all. split.
  - intros H. split; intros a op b Hi; apply H; apply in_app_iff; auto.
  - intros [H1 H2] a op b Hi. apply in_app_iff in Hi as [?|?]; auto.
Qed.
Lemma holds_all_cons env a op b l : holds_all env ((a, op, b) :: l) <-> holds env a op b /\ holds_all env l.
Proof.
  change ((a, op, b) :: l) with ([(a, op, b)] ++ l). rewrite holds_all_app. split; intros [H1 H2]; split; auto.
  - apply H1. left. auto.
  - intros a' op' b' [[= <- <- <-]|[]]. auto.
Qed.
Lemma holds_all_nil env : holds_all env [].
Proof. intros a op b []. Qed.

Lemma one_holds env rv : 0 < env rv -> (holds env (fst (fst (at_least_one (T := R) rv))) (snd (fst (at_least_one (T := R) rv))) (snd (at_least_one (T := R) rv)) <-> 1 <= env rv).
Proof. intros Hr. unfold at_least_one. cbn [fst snd holds]. rewrite eval_num, eval_var by auto. cbn. lra. Qed.

(** What a nested set means, from what [flat] yields. *)
Lemma holds_flat env (l : list (item (eqn R))) : Forall plain_arrays l ->
  (holds_set env l <-> forall left op right, In (Leaf (left, op, right)) (flat l) -> holds env left op right).
Proof.
  intros Hp. destruct (flat_leaves l Hp) as (ps & _ & Hin & Hall). split.
  - intros H left op right Hi. apply elem_of_list_In, elem_of_list_lookup in Hi as (n & Hn).
    destruct (Forall2_lookup_r _ _ _ _ _ Hall Hn) as (p & _ & E). eapply H; eauto.
  - intros H p left op right E. assert (Hi : In p ps) by (apply Hin; eexists; split; [exact E|exact I]).
    apply elem_of_list_In, elem_of_list_lookup in Hi as (n & Hn).
    destruct (Forall2_lookup_l _ _ _ _ _ Hall Hn) as (i & Hi & E'). apply H. apply elem_of_list_In, elem_of_list_lookup.
    exists n. rewrite E in E'. injection E' as <-. exact Hi.
Qed.

Lemma relax_items_ok (l : list (nat * item (eqn R))) : Forall (fun ri => is_leaf (snd ri)) l -> exists cs, relax_items l = Ok cs /\
  forall env, (forall r i, In (r, i) l -> env r = 1) ->
    (holds_all env cs <-> forall left op right, In (Leaf (left, op, right)) (map snd l) -> holds env left op right).
Proof.
  induction 1 as [|[r i] l Hi Hl (cs & E & IH)]; simpl.
  - exists []. split; [reflexivity|]. intros env _. split; [intros _ ? ? ? []|intros _; apply holds_all_nil].
  - destruct i as [[[a o] b]| | | | |]; try contradiction. simpl. rewrite E. simpl. eexists; split; [reflexivity|].
    intros env He. rewrite holds_all_app, relaxed_one by (apply (He r (Leaf (a, o, b))); auto). rewrite IH by (intros; eapply He; right; eauto).
    split.
    + intros [H1 H2] a' o' b' [[= <- <- <-]|Hin]; auto.
    + intros H. split; [apply H; auto|]. intros; apply H; auto.
Qed.

Lemma flat_are_leaves {C} (l : list (item C)) : Forall plain_arrays l -> Forall is_leaf (flat l).
Proof.
  intros Hp. unfold flat, flatiter. induction Hp as [|i l Hi Hl IH]; simpl; [constructor|]. apply Forall_app. split; auto.
  apply visit_are_leaves. auto.
Qed.

Lemma relaxed_equally_ok rv (l : list (item (eqn R))) : Forall plain_arrays l ->
  exists cs, relaxed_equally rv l = Ok cs /\
    forall env, env rv = 1 -> (holds_all env cs <-> holds_set env l).
Proof.
  intros Hp. destruct (relax_items_ok (map (fun i => (rv, i)) (flat l))) as (cs & E & Hcs).
  { apply List.Forall_forall. intros ri Hri. apply in_map_iff in Hri as (i & <- & Hi). pose proof (flat_are_leaves l Hp) as Hf.
    rewrite List.Forall_forall in Hf. apply Hf. auto. }
  unfold relaxed_equally. rewrite E. simpl. eexists; split; [reflexivity|]. intros env He.
  unfold at_least_one. rewrite holds_all_cons. cbn [holds]. rewrite eval_num, eval_var by lra. cbn [n1 R_num].
  rewrite Hcs, holds_flat by (auto; intros r i Hri; apply in_map_iff in Hri as (? & [= <- <-] & _); auto).
  rewrite map_map. simpl. rewrite map_id. split; [intros [_ H]; auto|intros H; split; [lra|auto]].
Qed.

Lemma constraints_relaxed_ok rv (l : list (item (eqn R))) : Forall plain_arrays l -> (length (flat l) <= length l)%nat ->
  exists cs, constraints_relaxed rv l = Ok cs /\
    forall env, (forall i, (i < length l)%nat -> env (rv i) = 1) -> (holds_all env cs <-> holds_set env l).
Proof.
  intros Hp Hlen. unfold constraints_relaxed, relax_numbers. rewrite numbered_ok by (simpl; exact Hlen). cbn [rbind].
  set (nums := combine (seq 0 (length (flat l))) (flat l)).
  assert (Hs : map snd nums = flat l) by (apply map_snd_combine; rewrite seq_length; auto).
  destruct (relax_items_ok (map (fun ni => (rv (fst ni), snd ni)) nums)) as (cs & E & Hcs).
  { apply List.Forall_forall. intros ri Hri. apply in_map_iff in Hri as (ni & <- & Hi). pose proof (flat_are_leaves l Hp) as Hf.
    rewrite List.Forall_forall in Hf. apply Hf. simpl. rewrite <- Hs. apply in_map. auto. }
  rewrite E. simpl. eexists; split; [reflexivity|]. intros env He. rewrite holds_all_app, Hcs, map_map.
  - simpl. replace (map (fun x => snd x) nums) with (flat l) by (symmetry; exact Hs). rewrite <- holds_flat by auto. split; [intros [_ H]; auto|]. intros H. split; [|auto].
    intros a o b Hi. apply in_map_iff in Hi as (i & [= <- <- <-] & Hi). apply in_seq in Hi.
    cbn [holds]. rewrite eval_num, eval_var by (rewrite He by lia; lra). rewrite He by lia. cbn. lra.
  - intros r i Hri. apply in_map_iff in Hri as ([n j] & [= <- <-] & Hi). apply He. simpl. apply in_combine_l in Hi. apply in_seq in Hi. lia.
Qed.

(** ** Constants *)

Lemma over_ok a b : exists h, over (T := R) a b = Ok h /\ forall env, 0 < env a -> 0 < env b -> eval env h = env a / env b.
Proof.
  unfold over. destruct (py_div false (VNom (var_hmap a)) (VNom (var_hmap b))) as [v|e] eqn:E.
  - destruct v as [c|h]; eexists; (split; [reflexivity|]); intros env Ha Hb.
    + rewrite eval_num. rewrite <- (eval_var env a), <- (eval_var env b) by auto. apply (val_py_div false env _ _ _ E).
    + rewrite <- (eval_var env a), <- (eval_var env b) by auto. apply (val_py_div false env _ _ _ E).
  - exfalso. revert E. unfold py_div. cbn [n0 n1 nleb R_num var_hmap].
    assert (Hc : forall k, classify (var_hmap (T := R) k) = CMonomial).
    { intros k. unfold classify, any_nonpositive, var_hmap. cbn. assert (Rleb 1 0 = false) as -> by (apply Rleb_false; lra). reflexivity. }
    rewrite decide_True by apply Hc. unfold py_powz. rewrite decide_True by apply Hc. cbn [mono_pow var_hmap rbind rmap].
    rewrite init_pos by (intros e' c' [[= <- <-]|[]]; cbn; rewrite Rpow_pos by lra; apply exp_pos). cbn [rmap rbind py_mul].
    rewrite init_pos; [discriminate|]. apply smul_pos; try discriminate.
    + intros e' c' [[= <- <-]|[]]. cbn. lra.
    + intros e' c' [[= <- <-]|[]]; cbn; rewrite Rpow_pos by lra; apply exp_pos.
Qed.
Lemma times_ok a b : exists h, times (T := R) a b = Ok h /\ forall env, 0 < env a -> 0 < env b -> eval env h = env a * env b.
Proof.
  unfold times. destruct (py_mul false (VNom (var_hmap a)) (VNom (var_hmap b))) as [v|e] eqn:E.
  - destruct v as [c|h]; eexists; (split; [reflexivity|]); intros env Ha Hb.
    + rewrite eval_num. rewrite <- (eval_var env a), <- (eval_var env b) by auto. apply (val_py_mul false env _ _ _ E).
    + rewrite <- (eval_var env a), <- (eval_var env b) by auto. apply (val_py_mul false env _ _ _ E).
  - exfalso. revert E. unfold py_mul. rewrite init_pos; [discriminate|]. apply smul_pos; try discriminate; intros e' c' [[= <- <-]|[]]; cbn; lra.
Qed.

Section Constants.
Variables (name shown rk ok : nat -> nat) (inc exc : list nat).
Notation chosen := (chosen name inc exc).

Definition eqns_for (k : nat) (es : list (eqn R)) : Prop :=
  exists low high, over (ok k) (rk k) = Ok low /\ times (ok k) (rk k) = Ok high /\
    es = [at_least_one (rk k); (low, OpLe, var_hmap k); (var_hmap k, OpLe, high)].

Lemma eqns_at env k es : eqns_for k es -> 0 < env k -> 0 < env (ok k) -> 0 < env (rk k) ->
  (holds_all env es <-> 1 <= env (rk k) /\ env (ok k) / env (rk k) <= env k <= env (ok k) * env (rk k)).
Proof.
  intros (low & high & El & Eh & ->) Hk Ho Hr. unfold at_least_one. rewrite !holds_all_cons. cbn [holds].
  destruct (over_ok (ok k) (rk k)) as (low' & El' & Hl). destruct (times_ok (ok k) (rk k)) as (high' & Eh' & Hh).
  rewrite El in El'. injection El' as <-. rewrite Eh in Eh'. injection Eh' as <-.
  rewrite Hl, Hh, eval_num, !eval_var by auto. cbn [n1 R_num]. split; [tauto|]. intros (? & ? & ?). repeat split; auto. apply holds_all_nil.
Qed.

Lemma chosen_dec k v : {chosen k v} + {~ chosen k v}.
Proof.
  unfold RelaxSem.chosen. destruct (decide (v = 0)) as [->|Hv]; [right; intros [? _]; lra|].
  destruct (in_dec Nat.eq_dec (name k) exc) as [He|He]; [right; tauto|].
  destruct inc as [|i inc']; [left; auto|].
  destruct (in_dec Nat.eq_dec (name k) (i :: inc')) as [Hi|Hi]; [left; auto|right]. intros (_ & [?|?] & _); [discriminate|contradiction].
Qed.

(** One step. *)
Lemma step_zero st k : relax_constant name shown rk ok inc exc st (k, 0) = Ok (RX (dset (rx_subs st) k 0) (rx_vars st) (rx_freed st) (rx_cons st)).
Proof. unfold relax_constant. rewrite decide_True by reflexivity. reflexivity. Qed.
Lemma step_kept st k v : v <> 0 -> ~ chosen k v -> relax_constant name shown rk ok inc exc st (k, v) = Ok st.
Proof.
  intros Hv Hc. unfold relax_constant. rewrite decide_False by auto.
  case_bool_decide as Hi; simpl.
  - case_bool_decide as He; auto. exfalso. apply Hc. split; [auto|]. split; [auto|]. intros Hin. apply He. apply elem_of_list_In. auto.
  - case_bool_decide as Hn; simpl; auto. case_bool_decide as He; auto. exfalso. apply Hc. split; [auto|].
    split; [right; apply elem_of_list_In; auto|]. intros Hin. apply He. apply elem_of_list_In. auto.
Qed.
Lemma step_chosen st k v : chosen k v -> In k (dkeys (rx_subs st)) -> exists es, eqns_for k es /\
  relax_constant name shown rk ok inc exc st (k, v) =
    Ok (RX (dset (ddel (rx_subs st) k) (ok k) v) (rx_vars st ++ [rk k]) (rx_freed st ++ [k]) (dset (rx_cons st) (shown k) es)).
Proof.
  intros (Hv & Hi & He) Hk. unfold relax_constant. rewrite decide_False by auto.
  assert (negb (bool_decide (inc = [])) && negb (bool_decide (name k ∈ inc)) = false) as ->.
  { case_bool_decide; simpl; auto. destruct Hi as [?|Hi]; [contradiction|]. rewrite bool_decide_true by (apply elem_of_list_In; auto). auto. }
  rewrite bool_decide_false by (rewrite elem_of_list_In; auto).
  destruct (dget (rx_subs st) k) as [w|] eqn:E; [|apply dget_None in E; contradiction].
  destruct (over_ok (ok k) (rk k)) as (low & El & _). destruct (times_ok (ok k) (rk k)) as (high & Eh & _).
  rewrite El, Eh. cbn [rbind]. eexists. split; [exists low, high; auto|reflexivity].
Qed.

Record relaxed_to (st : relaxing R) (cs : list (nat * R)) (st' : relaxing R) : Prop := {
  rt_other : forall x, ~ In x (dkeys cs) -> (forall k v, In (k, v) cs -> chosen k v -> x <> ok k) -> dget (rx_subs st') x = dget (rx_subs st) x;
  rt_new : forall k v, In (k, v) cs -> chosen k v -> dget (rx_subs st') (ok k) = Some v;
  rt_gone : forall k v, In (k, v) cs -> chosen k v -> dget (rx_subs st') k = None;
  rt_zero : forall k, In (k, 0) cs -> dget (rx_subs st') k = Some 0;
  rt_kept : forall k v, In (k, v) cs -> v <> 0 -> ~ chosen k v -> dget (rx_subs st') k = dget (rx_subs st) k;
  rt_vars : forall r, In r (rx_vars st') <-> In r (rx_vars st) \/ exists k v, In (k, v) cs /\ chosen k v /\ r = rk k;
  rt_freed : forall r, In r (rx_freed st') <-> In r (rx_freed st) \/ exists v, In (r, v) cs /\ chosen r v;
  rt_cons : forall k v, In (k, v) cs -> chosen k v -> exists es, eqns_for k es /\ dget (rx_cons st') (shown k) = Some es;
  rt_same : forall s, (forall k v, In (k, v) cs -> chosen k v -> shown k <> s) -> dget (rx_cons st') s = dget (rx_cons st) s;
  rt_nodup : NoDup (dkeys (rx_cons st)) -> NoDup (dkeys (rx_cons st'))
}.

Lemma relax_all cs : forall st, NoDup (dkeys cs) -> NoDup (dkeys (rx_subs st)) ->
  (forall k, In k (dkeys cs) -> In k (dkeys (rx_subs st))) ->
  (forall k k', In k (dkeys cs) -> In k' (dkeys cs) -> ok k = ok k' -> k = k') ->
  (forall k k', In k (dkeys cs) -> In k' (dkeys cs) -> ok k <> k') ->
  (forall k k', In k (dkeys cs) -> In k' (dkeys cs) -> shown k = shown k' -> k = k') ->
  exists st', relax_constants name shown rk ok inc exc st cs = Ok st' /\ relaxed_to st cs st'.
Proof.
  induction cs as [|[k v] cs IH]; intros st Hnd Hns Hin Hok Hne Hsh.
  - exists st. split; [reflexivity|]. constructor; auto; try (intros; contradiction).
    + intros r. split; auto. intros [?|(? & ? & [] & _)]; auto.
    + intros r. split; auto. intros [?|(? & [] & _)]; auto.
  - cbn [dkeys map fst] in Hnd. apply NoDup_cons in Hnd as [Hk Hnd]. rewrite elem_of_list_In in Hk.
    assert (Hkcs : forall w, ~ In (k, w) cs) by (intros w Hw; apply Hk; apply (in_map fst) in Hw; exact Hw).
    assert (Hkey : forall k' v', In (k', v') cs -> In k' (dkeys cs)) by (intros k' v' Hw; apply (in_map fst) in Hw; exact Hw).
    assert (Hk0 : In k (dkeys ((k, v) :: cs))) by (left; auto).
    assert (Htl : forall x, In x (dkeys cs) -> In x (dkeys ((k, v) :: cs))) by (intros; right; auto).
    cbn [relax_constants]. destruct (decide (v = 0)) as [->|Hv]; [|destruct (chosen_dec k v) as [Hc|Hc]].
    + rewrite step_zero. cbn [rbind]. destruct (IH (RX (dset (rx_subs st) k 0) (rx_vars st) (rx_freed st) (rx_cons st))) as (st' & E & [R1 R2 R2' R3 R4 R5 R6 R7 R8 R9]); cbn [rx_subs rx_vars rx_freed rx_cons] in *; auto.
      { apply NoDup_dset; auto. }
      { intros x Hx. apply dkeys_dset_In. auto. }
      assert (Hnc : ~ chosen k 0) by (intros [? _]; lra).
      exists st'. split; [exact E|]. constructor; auto.
      * intros x Hx Hx'. rewrite R1; [apply dget_dset_ne; intros ->; apply Hx; left; auto|intros ?; apply Hx; right; auto|intros; eapply Hx'; [right; eauto|auto]].
      * intros k' v' [[= <- <-]|?] ?; [contradiction|eauto].
      * intros k' v' [[= <- <-]|?] ?; [contradiction|eauto].
      * intros k' [[= <-]|?]; [|auto]. rewrite R1; auto. { apply dget_dset_eq. } intros k' v' Hi _ ->. apply (Hne k' (ok k')); auto; eapply Htl, Hkey; eauto.
      * intros k' v' [[= <- <-]|Hi] H1 H2; [contradiction|]. rewrite (R4 k' v'); auto. apply dget_dset_ne. intros ->. eapply Hkcs; eauto.
      * intros r. rewrite R5. split; (intros [?|(k' & v' & Hi & ? & ?)]; [auto|right; exists k', v']); [split; [right; auto|split; auto]|].
        destruct Hi as [[= <- <-]|?]; [contradiction|auto].
      * intros r. rewrite R6. split; (intros [?|(v' & Hi & ?)]; [auto|right; exists v']); [split; auto; right; auto|].
        destruct Hi as [[= <- <-]|?]; [contradiction|auto].
      * intros k' v' [[= <- <-]|?] ?; [contradiction|eauto].
      * intros s Hs. apply R8. intros; eapply Hs; [right; eauto|auto].
    + destruct (step_chosen st k v Hc (Hin k Hk0)) as (es & Hes & Est). rewrite Est. cbn [rbind].
      destruct (IH (RX (dset (ddel (rx_subs st) k) (ok k) v) (rx_vars st ++ [rk k]) (rx_freed st ++ [k]) (dset (rx_cons st) (shown k) es))) as (st' & E & [R1 R2 R2' R3 R4 R5 R6 R7 R8 R9]); cbn [rx_subs rx_vars rx_freed rx_cons] in *; auto.
      { apply NoDup_dset, NoDup_ddel; auto. }
      { intros x Hx. apply dkeys_dset_In. right. assert (Hxk : x <> k) by (intros ->; contradiction).
        destruct (dget (ddel (rx_subs st) k) x) as [w|] eqn:Ew; [eapply dget_In_keys; eauto|].
        rewrite dget_ddel_ne in Ew by auto. apply dget_None in Ew. exfalso. auto. }
      exists st'. split; [exact E|]. constructor; auto.
      * intros x Hx Hx'. rewrite R1.
        -- rewrite dget_dset_ne by (eapply Hx'; [left; eauto|auto]). apply dget_ddel_ne. intros ->; apply Hx; left; auto.
        -- intros ?; apply Hx; right; auto.
        -- intros; eapply Hx'; [right; eauto|auto].
      * intros k' v' [[= <- <-]|?] ?; [|eauto]. rewrite R1.
        -- apply dget_dset_eq.
        -- intros Hi. apply (Hne k (ok k)); auto.
        -- intros k' v' Hi _ Heq. assert (k = k') as -> by (apply Hok; auto; eapply Htl, Hkey; eauto). eapply Hkcs; eauto.
      * intros k' v' [[= <- <-]|?] ?; [|eauto]. rewrite R1; auto.
        -- rewrite dget_dset_ne by (intros Heq; apply (Hne k k); auto). apply Base.dget_ddel_eq; auto.
        -- intros k' v' Hi _ ->. apply (Hne k' (ok k')); auto; eapply Htl, Hkey; eauto.
      * intros k' [[= <- ->]|?]; [destruct Hc; lra|auto].
      * intros k' v' [[= <- <-]|Hi] H1 H2; [contradiction|]. rewrite (R4 k' v'); auto.
        rewrite dget_dset_ne by (intros Heq; apply (Hne k k'); auto; eapply Htl, Hkey; eauto). apply dget_ddel_ne. intros ->. eapply Hkcs; eauto.
      * intros r. rewrite R5, in_app_iff. split.
        -- intros [[?|[<-|[]]]|(k' & v' & ? & ? & ?)]; [auto|right; exists k, v; split; [left; auto|split; auto]|right; exists k', v'; split; [right; auto|split; auto]].
        -- intros [?|(k' & v' & [[= <- <-]|?] & ? & ->)]; [auto|left; right; left; auto|right; exists k', v'; auto].
      * intros r. rewrite R6, in_app_iff. split.
        -- intros [[?|[<-|[]]]|(v' & ? & ?)]; [auto|right; exists v; split; auto; left; auto|right; exists v'; split; auto; right; auto].
        -- intros [?|(v' & [[= <- <-]|?] & ?)]; [auto|left; right; left; auto|right; exists v'; auto].
      * intros k' v' [[= <- <-]|?] ?; [|eauto]. exists es. split; [auto|]. rewrite R8; [apply dget_dset_eq|].
        intros k' v' Hi _ Heq. assert (k' = k) as -> by (apply Hsh; auto; eapply Htl, Hkey; eauto). eapply Hkcs; eauto.
      * intros s Hs. rewrite R8; [apply dget_dset_ne; intros ->; eapply Hs; [left; eauto|auto|auto]|]. intros; eapply Hs; [right; eauto|auto].
      * intros Hn. apply R9, NoDup_dset. auto.
    + rewrite step_kept by auto. cbn [rbind]. destruct (IH st) as (st' & E & [R1 R2 R2' R3 R4 R5 R6 R7 R8 R9]); auto.
      exists st'. split; [exact E|]. constructor; auto.
      * intros x Hx Hx'. apply R1; [intros ?; apply Hx; right; auto|intros; eapply Hx'; [right; eauto|auto]].
      * intros k' v' [[= <- <-]|?] ?; [contradiction|eauto].
      * intros k' v' [[= <- <-]|?] ?; [contradiction|eauto].
      * intros k' [[= <- ->]|?]; [contradiction|auto].
      * intros k' v' [[= <- <-]|Hi] H1 H2; [|eauto]. apply R1; auto. intros k' v' Hi _ ->. apply (Hne k' (ok k')); auto; eapply Htl, Hkey; eauto.
      * intros r. rewrite R5. split; (intros [?|(k' & v' & Hi & ? & ?)]; [auto|right; exists k', v']); [split; [right; auto|split; auto]|].
        destruct Hi as [[= <- <-]|?]; [contradiction|auto].
      * intros r. rewrite R6. split; (intros [?|(v' & Hi & ?)]; [auto|right; exists v']); [split; auto; right; auto|].
        destruct Hi as [[= <- <-]|?]; [contradiction|auto].
      * intros k' v' [[= <- <-]|?] ?; [contradiction|eauto].
      * intros s Hs. apply R8. intros; eapply Hs; [right; eauto|auto].
Qed.

Variables (subs cs : list (nat * R)).
Hypothesis Hnd : NoDup (dkeys cs).
Hypothesis Hns : NoDup (dkeys subs).
Hypothesis Hsub : forall k v, In (k, v) cs -> dget subs k = Some v.
Hypothesis Hfresh : fresh rk ok subs cs.
Hypothesis Hsh : forall k k', In k (dkeys cs) -> In k' (dkeys cs) -> shown k = shown k' -> k = k'.

Lemma cs_key k v : In (k, v) cs -> In k (dkeys cs).
Proof. intros Hi. apply (in_map fst) in Hi. exact Hi. Qed.
Lemma key_cs k : In k (dkeys cs) -> exists v, In (k, v) cs.
Proof. intros Hi. apply in_map_iff in Hi as ([k' v] & <- & Hi). eauto. Qed.
Lemma key_subs k : In k (dkeys cs) -> In k (dkeys subs).
Proof. intros Hi. apply key_cs in Hi as (v & Hi). apply Hsub in Hi. eapply dget_In_keys; eauto. Qed.

Lemma constants_ok : exists st, constants_relaxed name shown rk ok inc exc subs cs = Ok st /\ relaxed_to (RX subs [] [] []) cs st.
Proof.
  destruct Hfresh as (Hok & Hro & Hn). apply relax_all; auto.
  - intros k Hk. apply key_subs; auto.
  - intros k k' Hk Hk' <-. destruct (Hn k Hk) as [Ha _]. apply Ha. apply key_subs. auto.
Qed.

(** At relaxation one. *)
Lemma constants_forced st env : relaxed_to (RX subs [] [] []) cs st ->
  agrees env (rx_subs st) -> (forall r, In r (rx_vars st) -> env r = 1) -> holds_all env (relaxation_constraints st) ->
  (forall k v, In (k, v) cs -> chosen k v -> 0 < v /\ 0 < env k) ->
  forall k v, In (k, v) cs -> env k = v.
Proof.
  intros [R1 R2 R2' R3 R4 R5 R6 R7 R8 R9] Ha Hr Hh Hpos k v Hi.
  destruct (decide (v = 0)) as [->|Hv]; [apply Ha; auto|]. destruct (chosen_dec k v) as [Hc|Hc].
  - destruct (R7 k v Hi Hc) as (es & Hes & Eg). destruct (Hpos k v Hi Hc) as [Hv0 Hk0].
    assert (Eo : env (ok k) = v) by (apply Ha; eauto). assert (Er : env (rk k) = 1) by (apply Hr, R5; right; exists k, v; auto).
    assert (holds_all env es).
    { intros a o b Hab. apply Hh. unfold relaxation_constraints. apply in_concat. exists es. split; [|auto]. apply dget_In in Eg. apply (in_map snd) in Eg. exact Eg. }
    apply (eqns_at env k es Hes) in H; [|auto|lra|lra]. rewrite Eo, Er in H. destruct H as (_ & H1 & H2). unfold Rdiv in H1. rewrite Rinv_1 in H1. lra.
  - apply Ha. rewrite (R4 k v Hi Hv Hc). cbn [rx_subs]. auto.
Qed.

(** Every point of the original set, extended. *)
Definition extended (env : point) : point := fun x =>
  match find (fun kv => Nat.eqb (ok (fst kv)) x) cs with
  | Some kv => snd kv
  | None => if existsb (fun kv => Nat.eqb (rk (fst kv)) x) cs then 1 else env x
  end.
Lemma extended_ok env k v : In (k, v) cs -> extended env (ok k) = v.
Proof.
  intros Hi. unfold extended. destruct (find (fun kv => Nat.eqb (ok (fst kv)) (ok k)) cs) as [[k' v']|] eqn:E.
  - apply find_some in E as [Hi' E]. apply Nat.eqb_eq in E. simpl in E. destruct Hfresh as (Hok & _ & _).
    assert (k' = k) as -> by (apply Hok; auto; eapply cs_key; eauto). simpl.
    apply (In_dget cs k v Hnd) in Hi. apply (In_dget cs k v' Hnd) in Hi'. congruence.
  - exfalso. apply (find_none _ _ E (k, v)) in Hi. simpl in Hi. apply Nat.eqb_neq in Hi. auto.
Qed.
Lemma extended_rk env k v : In (k, v) cs -> extended env (rk k) = 1.
Proof.
  intros Hi. unfold extended. destruct (find (fun kv => Nat.eqb (ok (fst kv)) (rk k)) cs) as [[k' v']|] eqn:E.
  - apply find_some in E as [Hi' E]. apply Nat.eqb_eq in E. simpl in E. destruct Hfresh as (_ & Hro & _).
    exfalso. symmetry in E. revert E. apply Hro; eapply cs_key; eauto.
  - replace (existsb (fun kv => Nat.eqb (rk (fst kv)) (rk k)) cs) with true; auto. symmetry. apply existsb_exists.
    exists (k, v). split; [auto|]. apply Nat.eqb_refl.
Qed.
Lemma extended_other env x : (forall k, In k (dkeys cs) -> x <> ok k /\ x <> rk k) -> extended env x = env x.
Proof.
  intros Hx. unfold extended. destruct (find (fun kv => Nat.eqb (ok (fst kv)) x) cs) as [[k' v']|] eqn:E.
  - apply find_some in E as [Hi' E]. apply Nat.eqb_eq in E. simpl in E. destruct (Hx k' (cs_key _ _ Hi')) as [? _]. congruence.
  - destruct (existsb (fun kv => Nat.eqb (rk (fst kv)) x) cs) eqn:E'; auto. apply existsb_exists in E' as ([k' v'] & Hi' & E'). apply Nat.eqb_eq in E'.
    simpl in E'. destruct (Hx k' (cs_key _ _ Hi')) as [_ ?]. congruence.
Qed.
Lemma extended_subs env x : In x (dkeys subs) -> extended env x = env x.
Proof.
  intros Hx. apply extended_other. intros k Hk. destruct Hfresh as (_ & _ & Hn). destruct (Hn k Hk) as [H1 H2]. split; intros ->; contradiction.
Qed.

Lemma constants_admitted st env : relaxed_to (RX subs [] [] []) cs st -> agrees env subs ->
  (forall k v, In (k, v) cs -> chosen k v -> 0 < v) ->
  agrees (extended env) (rx_subs st) /\ (forall r, In r (rx_vars st) -> extended env r = 1) /\
  holds_all (extended env) (relaxation_constraints st).
Proof.
  intros [R1 R2 R2' R3 R4 R5 R6 R7 R8 R9] Ha Hpos. cbn [rx_subs rx_vars rx_cons rx_freed] in *. split; [|split].
  - intros x w Hw. destruct (in_dec Nat.eq_dec x (dkeys cs)) as [Hx|Hx].
    + destruct (key_cs x Hx) as (v & Hi). rewrite extended_subs by (apply key_subs; auto). rewrite (Ha x v) by auto.
      destruct (decide (v = 0)) as [->|Hv]; [rewrite R3 in Hw by auto; congruence|]. destruct (chosen_dec x v) as [Hc|Hc].
      * rewrite (R2' x v) in Hw by auto. discriminate.
      * rewrite (R4 x v) in Hw by auto. rewrite (Hsub x v) in Hw by auto. congruence.
    + destruct (find (fun kv => Nat.eqb (ok (fst kv)) x) cs) as [[k v]|] eqn:E.
      * apply find_some in E as [Hi E]. apply Nat.eqb_eq in E. simpl in E. subst x. rewrite (extended_ok env k v) by auto.
        destruct (chosen_dec k v) as [Hc|Hc]; [rewrite (R2 k v) in Hw by auto; congruence|]. exfalso.
        rewrite R1 in Hw; auto.
        -- destruct Hfresh as (_ & _ & Hn). destruct (Hn k (cs_key _ _ Hi)) as [Hn1 _]. apply Hn1. eapply dget_In_keys; eauto.
        -- intros k' v' Hi' Hc' Heq. destruct Hfresh as (Hok & _ & _). assert (k = k') as <- by (apply Hok; auto; eapply cs_key; eauto).
           apply (In_dget cs k v Hnd) in Hi. apply (In_dget cs k v' Hnd) in Hi'. assert (v = v') by congruence. subst. contradiction.
      * rewrite R1 in Hw; auto.
        -- rewrite extended_subs by (eapply dget_In_keys; eauto). auto.
        -- intros k v Hi _ ->. apply (find_none _ _ E (k, v)) in Hi. simpl in Hi. apply Nat.eqb_neq in Hi. auto.
  - intros r Hr. apply R5 in Hr as [[]|(k & v & Hi & _ & ->)]. eapply extended_rk; eauto.
  - intros a o b Hab. unfold relaxation_constraints in Hab. apply in_concat in Hab as (es & Hes & Hab).
    apply in_map_iff in Hes as ([s es'] & Ees & Hes). simpl in Ees. subst es'. apply In_dget in Hes; [|apply R9; constructor].
    assert (exists k v, In (k, v) cs /\ chosen k v /\ shown k = s) as (k & v & Hi & Hc & <-).
    { destruct (existsb (fun kv => Nat.eqb (shown (fst kv)) s && (if chosen_dec (fst kv) (snd kv) then true else false)) cs) eqn:E.
      - apply existsb_exists in E as ([k v] & Hi & E). simpl in E. apply andb_prop in E as [E1 E2]. apply Nat.eqb_eq in E1.
        destruct (chosen_dec k v); [|discriminate]. exists k, v. auto.
      - exfalso. rewrite R8 in Hes; [discriminate|]. intros k v Hi Hc Heq.
        assert (existsb (fun kv => Nat.eqb (shown (fst kv)) s && (if chosen_dec (fst kv) (snd kv) then true else false)) cs = true).
        { apply existsb_exists. exists (k, v). split; auto. simpl. rewrite Heq, Nat.eqb_refl. destruct (chosen_dec k v); auto. }
        congruence. }
    destruct (R7 k v Hi Hc) as (es' & Hes' & E'). rewrite Hes in E'. injection E' as <-.
    assert (Ek : extended env k = v). { rewrite extended_subs by (eapply key_subs, cs_key; eauto). apply Ha. auto. }
    pose proof (Hpos k v Hi Hc) as Hv.
    assert (Hall : holds_all (extended env) es).
    { apply (eqns_at _ k es Hes'); rewrite ?Ek, ?(extended_ok env k v), ?(extended_rk env k v) by auto; try lra. }
    apply Hall. auto.
Qed.
End Constants.

(** ** The model made to find a feasible point *)

Lemma feasibility_free valued (st : relaxing R) cost x : (forall k, In k (rx_vars st ++ cost) -> valued k = None) ->
  dget (feasibility_subs valued st cost) x = dget (rx_subs st) x.
Proof.
  unfold feasibility_subs. generalize (rx_subs st) as d. induction (rx_vars st ++ cost) as [|k l IH]; intros d Hv; simpl; auto.
  rewrite Hv by (left; auto). apply IH. intros; apply Hv; right; auto.
Qed.

(** ** Bounds *)

Lemma bounds_for_holds env lo up k : lo <> 0 -> up <> 0 -> 0 < env k -> 
  (holds_all env (bounds_for lo up k) <-> lo <= env k <= up).
Proof.
  intros Hl Hu Hk. unfold bounds_for. rewrite !decide_False by auto. cbn [app]. rewrite !holds_all_cons. cbn [holds].
  rewrite !eval_num, !eval_var by auto. split; [tauto|]. intros [? ?]. repeat split; auto. apply holds_all_nil.
Qed.

Lemma at_map_Leaf {C} (es : list C) p i : at_path (map Leaf es) p = Some i -> exists n c, p = [n] /\ es !! n = Some c /\ i = Leaf c.
Proof.
  destruct p as [|n p]; simpl; [discriminate|]. pose proof (list_lookup_fmap Leaf es n) as E. unfold fmap, list_fmap in E.
  replace (map Leaf es !! n) with (Leaf <$> es !! n) by (symmetry; exact E). clear E.
  destruct (es !! n) as [c|] eqn:En; simpl; [|discriminate]. destruct p as [|m p]; simpl; [|discriminate]. intros [= <-]. exists n, c. auto.
Qed.

Lemma map_lookup_some {A B} (f : A -> B) (l : list A) n : map f l !! n = option_map f (l !! n).
Proof. revert n. induction l; intros [|n]; simpl; auto. Qed.

Lemma bounded_holds env lo up (s : cset R) : lo <> 0 -> up <> 0 -> (forall k, In k (bound_varkeys s) -> 0 < env k) ->
  (holds_set env [CSet 0 (cs_items s); Lst (map (fun k => Lst (map Leaf (bounds_for lo up k))) (bound_varkeys s))] <->
   holds_set env (cs_items s) /\ forall k, In k (bound_varkeys s) -> lo <= env k <= up).
Proof.
  intros Hl Hu Hpos. split.
  - intros H. split.
    + intros p a o b E. destruct p as [|n p]; [discriminate|]. apply (H (0%nat :: n :: p) a o b). exact E.
    + intros k Hk. apply (bounds_for_holds env lo up k); auto. intros a o b Hab.
      apply elem_of_list_In, elem_of_list_lookup in Hk as (n & Hn). apply elem_of_list_In, elem_of_list_lookup in Hab as (m & Hm).
      apply (H [1%nat; n; m] a o b). simpl. rewrite map_lookup_some. rewrite Hn. simpl. rewrite map_lookup_some.
      unfold eqn in *. rewrite Hm. reflexivity.
  - intros [H1 H2] p a o b E. destruct p as [|[|[|n]] p]; try discriminate.
    + simpl in E. destruct p as [|n p]; [discriminate|]. apply (H1 (n :: p) a o b). exact E.
    + simpl in E. destruct p as [|n p]; [discriminate|]. cbn [at_item members] in E. rewrite map_lookup_some in E.
      destruct (bound_varkeys s !! n) as [k|] eqn:En; [|discriminate]. cbn [option_map] in E.
      destruct p as [|m p]; [discriminate|].
      destruct (at_map_Leaf (bounds_for lo up k) (m :: p) _ E) as (m' & c & _ & Hm & [= <-]).
      assert (Hk : In k (bound_varkeys s)) by (apply elem_of_list_In, elem_of_list_lookup; eauto).
      apply (bounds_for_holds env lo up k); auto. apply elem_of_list_In, elem_of_list_lookup. eauto.
Qed.
