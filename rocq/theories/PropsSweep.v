(** C43, C44 and C53: sweeps and linked constants. The specification is at the top of SweepProofs.v. *)
From Verif Require Import Base Sweep SweepProofs.
From Coq Require Import Permutation.
Open Scope nat_scope.

(** ** C53: Linked constants do not depend on evaluation order *)

(** Two orders give the same constants, or both fail. *)
Definition C53_for (cond : forall V, list (link V) -> Prop) : Prop :=
  forall V (ls ls' : list (link V)) (constants : list (nat * V)),
    NoDup (map l_key ls) -> ad_agrees ls -> cond V ls -> Permutation ls ls' ->
    match evaluate_linked false constants ls, evaluate_linked false constants ls' with
    | Ok c, Ok c' => forall k, dget c k = dget c' k
    | Err _, Err _ => True
    | _, _ => False
    end.

(** Linked constants get the values of their functions, others keep theirs, and it fails only if a function does. *)
Theorem C53_values : forall V (ls : list (link V)) (constants : list (nat * V)),
  NoDup (map l_key ls) -> ad_agrees ls -> reads_no_linked ls ->
  ((exists c, evaluate_linked false constants ls = Ok c) <-> (forall l, In l ls -> exists v, l_plain l (dget constants) = Ok v)) /\
  (forall c, evaluate_linked false constants ls = Ok c ->
     (forall l v, In l ls -> l_plain l (dget constants) = Ok v -> dget c (l_key l) = Some v) /\
     (forall k, ~ In k (map l_key ls) -> dget c k = dget constants k)).
Proof.
  intros V ls constants Hnd Ha Hr. split; [split|].
  - intros (c & E). apply (evaluate_ok_inv ls constants c); auto.
  - intros Hok. destruct (evaluate_ok ls constants) as (c & E & _); eauto.
  - intros c E. destruct (evaluate_ok ls constants) as (c' & E' & C1 & C2); auto; [apply (evaluate_ok_inv ls constants c); auto|].
    assert (c' = c) as -> by congruence. split; auto. intros l v Hl Hv. destruct (C1 l Hl) as (w & Hw & Hg). congruence.
Qed.
Print Assumptions C53_values.

(** With the setting "ad_errors_raise" the first failure is raised; without any, the values are those of the functions. *)
Theorem C53_errors_raised : forall V (a b : list (link V)) l e (constants : list (nat * V)),
  (forall l', In l' a -> exists v, l_ad l' (dget constants) = Ok v) -> l_ad l (dget constants) = Err e ->
  evaluate_linked true constants (a ++ l :: b) = Err e.
Proof.
  intros V a b l e constants Ha He. unfold evaluate_linked.
  assert (G : forall c plain, linked_loop true (dget constants) plain (a ++ l :: b) c = Err e); [|apply G].
  induction a as [|l' a IH]; intros c plain; simpl; [rewrite He; auto|].
  destruct (Ha l' (or_introl eq_refl)) as (v & ->). apply IH. intros; apply Ha; right; auto.
Qed.
Print Assumptions C53_errors_raised.
Theorem C53_no_errors : forall V (ls : list (link V)) (constants : list (nat * V)) strict, NoDup (map l_key ls) ->
  (forall l, In l ls -> exists v, l_ad l (dget constants) = Ok v) ->
  exists c, evaluate_linked strict constants ls = Ok c /\
    (forall l v, In l ls -> l_ad l (dget constants) = Ok v -> dget c (l_key l) = Some v) /\
    (forall k, ~ In k (map l_key ls) -> dget c k = dget constants k).
Proof.
  intros V ls constants strict. unfold evaluate_linked.
  assert (G : forall c0 plain, NoDup (map l_key ls) -> (forall l, In l ls -> exists v, l_ad l (dget constants) = Ok v) ->
    exists c, linked_loop strict (dget constants) plain ls c0 = Ok c /\ (forall l v, In l ls -> l_ad l (dget constants) = Ok v -> dget c (l_key l) = Some v) /\
    (forall k, ~ In k (map l_key ls) -> dget c k = dget c0 k)); [|apply G].
  induction ls as [|l ls IH]; intros c0 plain Hn Ha; cbn [linked_loop].
  - exists c0. split; auto. split; auto. intros l v [].
  - inversion Hn as [|? ? Hl Hn']; subst. destruct (Ha l (or_introl eq_refl)) as (v & Hv). rewrite Hv.
    destruct (IH (dset c0 (l_key l) v) plain Hn') as (c & E & C1 & C2); [intros; apply Ha; right; auto|]. exists c. split; auto. rewrite elem_of_list_In in Hl. split.
    + intros l' v' [<-|Hi] Hv'; auto. rewrite C2 by auto. rewrite dget_dset_eq. congruence.
    + intros k Hk. simpl in Hk. rewrite C2 by auto. apply dget_dset_ne. auto.
Qed.
Print Assumptions C53_no_errors.

(** Missing: functions that read other linked constants. *)
Theorem C53_order_partial : C53_for (fun V ls => reads_no_linked ls).
Proof.
  intros V ls ls' constants Hnd Ha Hr Hp.
  assert (Hin : forall l, In l ls' <-> In l ls) by (intros l; split; apply Permutation_in; auto; symmetry; auto).
  assert (Hkeys : forall k, In k (map l_key ls') <-> In k (map l_key ls)).
  { intros k. split; apply Permutation_in; [symmetry|]; apply Permutation_map; auto. }
  assert (Hnd' : NoDup (map l_key ls')). { apply NoDup_ListNoDup. eapply Permutation_NoDup; [apply Permutation_map; exact Hp|]. apply NoDup_ListNoDup. auto. }
  assert (Ha' : ad_agrees ls') by (intros l env v Hl; apply Ha, Hin; auto).
  assert (Hr' : reads_no_linked ls') by (intros l env env' Hl He; apply Hr; [apply Hin; auto|]; intros k Hk; apply He; rewrite Hkeys; auto).
  destruct (C53_values V ls constants Hnd Ha Hr) as [I1 V1]. destruct (C53_values V ls' constants Hnd' Ha' Hr') as [I2 V2].
  destruct (evaluate_linked false constants ls) as [c|e] eqn:E1, (evaluate_linked false constants ls') as [c'|e'] eqn:E2; auto.
  - destruct (V1 c eq_refl) as [A1 B1]. destruct (V2 c' eq_refl) as [A2 B2]. intros k.
    destruct (in_dec Nat.eq_dec k (map l_key ls)) as [Hk|Hk].
    + apply in_map_iff in Hk as (l & <- & Hl). destruct (proj1 I1 (ex_intro _ c eq_refl) l Hl) as (v & Hv).
      rewrite (A1 l v), (A2 l v); auto. apply Hin. auto.
    + rewrite B1, B2; auto. rewrite Hkeys. auto.
  - assert (exists c', @Err (list (nat * V)) e' = Ok c') as (? & ?); [|discriminate]. apply I2. intros l Hl. apply I1; eauto. apply Hin. auto.
  - assert (exists c', @Err (list (nat * V)) e = Ok c') as (? & ?); [|discriminate]. apply I1. intros l Hl. apply I2; eauto. apply Hin. auto.
Qed.
Print Assumptions C53_order_partial.

(** A function reading constant [r]. *)
Definition reader (r : nat) (f : nat -> nat) (env : nat -> option nat) : res nat :=
  match env r with Some x => Ok (f x) | None => Err KeyErrorE end.
Lemma reader_agrees ls : (forall l, In l ls -> l_ad l = l_plain l \/ exists e, forall env, l_ad l env = Err e) -> ad_agrees (V := nat) ls.
Proof. intros H l env v Hl E. destruct (H l Hl) as [<-|(e & He)]; auto. rewrite He in E. discriminate. Qed.

(** Hypotheses met: two functions of a constant, one of which cannot be differentiated. *)
Definition two_links : list (link nat) := [Link 1 (reader 0 S) (reader 0 S); Link 2 (fun _ => Err TypeErrorE) (reader 0 (Nat.mul 2))].
Example C53_met : NoDup (map l_key two_links) /\ ad_agrees two_links /\ reads_no_linked two_links /\
  evaluate_linked false [(0, 5)] two_links = Ok [(0, 5); (1, 6); (2, 10)] /\
  evaluate_linked false [(0, 5)] (rev two_links) = Ok [(0, 5); (2, 10); (1, 6)].
Proof.
  split; [apply (bool_decide_unpack _); vm_compute; exact I|]. split.
  { apply reader_agrees. intros l [<-|[<-|[]]]; eauto. }
  split.
  { intros l env env' Hl He. assert (E : env 0 = env' 0) by (apply He; simpl; lia). destruct Hl as [<-|[<-|[]]]; simpl; unfold reader; rewrite E; auto. }
  split; reflexivity.
Qed.

(** A linked constant that is a function of another is found, or not, depending on which comes first. *)
Theorem C53_order_refuted : ~ C53_for (fun V ls => True).
Proof.
  intros H. set (b := Link 1 (reader 0 S) (reader 0 S)). set (c := Link 2 (reader 1 S) (reader 1 S)).
  specialize (H nat [b; c] [c; b] [(0, 5)]).
  assert (E1 : evaluate_linked false [(0, 5)] [b; c] = Ok [(0, 5); (1, 6); (2, 7)]) by reflexivity.
  assert (E2 : evaluate_linked false [(0, 5)] [c; b] = Err KeyErrorE) by reflexivity.
  rewrite E1, E2 in H. apply H; auto; [apply (bool_decide_unpack _); vm_compute; exact I| |apply perm_swap].
  apply reader_agrees. intros l [<-|[<-|[]]]; eauto.
Qed.
Print Assumptions C53_order_refuted.

(** ** C43: A sweep solves every combination exactly once *)

(** [outcomes] are what the solves with constants [calls] give. Either all of them are solutions, or failures that are
    skipped: the sweep went through every combination, and returns the solutions or raises if there are none. Or
    the last is a failure that is not skipped, which ends the sweep. *)
Definition C43_for (cond : forall V P, ((nat -> option V) -> res P) -> list (link V) -> Prop) : Prop :=
  forall V P R (gen : (nat -> option V) -> res P) (solve : P -> res R) (skip : bool) (ls : list (link V)) (sweep : list (nat * list V)) (base : list (nat * V)),
    NoDup (map fst sweep) -> NoDup (map l_key ls) -> (forall k, In k (map fst sweep) -> ~ In k (map l_key ls)) ->
    ad_agrees ls -> (forall combo, In combo (product sweep) -> links_work base combo ls) -> cond V P gen ls ->
    let calls := fst (run_sweep gen solve false skip ls sweep base) in
    let result := snd (run_sweep gen solve false skip ls sweep base) in
    exists combos outcomes, Permutation combos (product sweep) /\
      Forall2 (called_with base ls) (take (length calls) combos) calls /\
      Forall2 (fun c o => (let! p := gen (dget c) in solve p) = o) calls outcomes /\
      ((Forall (settled skip) outcomes /\ length calls = length combos /\
          result = match oks outcomes with [] => Err RuntimeWarningE | rs => Ok rs end) \/
       (exists outs e, outcomes = outs ++ [Err e] /\ Forall (settled skip) outs /\ ~ settled (R := R) skip (Err e) /\
          result = Err (if kind_of_infeasible e then RuntimeWarningE else e))).

(** Programs can be made for all combinations. *)
Definition always_made {V P} (gen : (nat -> option V) -> res P) : Prop := forall env, exists p, gen env = Ok p.

(** Missing: functions reading other linked constants, programs that cannot be made. *)
Theorem C43_sweep_partial : C43_for (fun V P gen ls => always_made gen /\ reads_no_linked ls).
Proof.
  intros V P R gen solve skip ls sweep base Hns Hnl Hdis Ha Hw [Hg Hr] calls result.
  destruct (passes_all sweep) as (combos & Ep & Hp).
  destruct (loop_spec gen solve skip ls sweep base Hg Hr Ha Hnl Hns Hdis (seq 0 (n_passes sweep)) combos base Ep) as (t & outcomes & E1 & H2 & H3 & H4).
  - intros k _ _. reflexivity.
  - intros combo Hin. assert (Hin' : In combo (product sweep)) by (eapply Permutation_in; eauto). split; [apply product_keys; auto|apply Hw; auto].
  - unfold calls, result, run_sweep in *. destruct (sweep_loop gen solve false skip ls sweep (seq 0 (n_passes sweep)) base) as [t' out] eqn:El.
    simpl in E1, H4. subst t'. simpl. exists combos, outcomes. split; auto. split; auto. split; auto.
    destruct H4 as [(F & L & O)|(outs & e & E & F & N & O)].
    + left. split; auto. split; auto. rewrite O. destruct (oks outcomes); auto.
    + right. exists outs, e. rewrite O. auto.
Qed.
Print Assumptions C43_sweep_partial.

(** Hypotheses met: two variables swept over, with one combination infeasible and a linked constant. *)
Definition half_feasible (env : nat -> option nat) : res (list (option nat)) :=
  if decide (env 0 = Some 1 /\ env 1 = Some 20) then Err PrimalInfeasibleE else Ok [env 0; env 1; env 2].
Definition double0 : list (link nat) := [Link 2 (reader 0 (Nat.mul 2)) (reader 0 (Nat.mul 2))].
Example C43_met :
  let sweep := [(0, [1; 2; 3]); (1, [10; 20])] in
  NoDup (map fst sweep) /\ NoDup (map l_key double0) /\ (forall k, In k (map fst sweep) -> ~ In k (map l_key double0)) /\ ad_agrees double0 /\
  (forall combo, In combo (product sweep) -> links_work [] combo double0) /\ always_made (P := nat -> option nat) Ok /\ reads_no_linked double0 /\
  run_sweep (P := nat -> option nat) Ok half_feasible false true double0 [(0, [1; 2]); (1, [10; 20])] [] =
    ([[(0, 1); (1, 10); (2, 2)]; [(0, 2); (1, 10); (2, 4)]; [(0, 1); (1, 20); (2, 2)]; [(0, 2); (1, 20); (2, 4)]],
     Ok [[Some 1; Some 10; Some 2]; [Some 2; Some 10; Some 4]; [Some 2; Some 20; Some 4]]) /\
  snd (run_sweep (P := nat -> option nat) Ok half_feasible false false double0 sweep []) = Err RuntimeWarningE.
Proof.
  intros sweep. split; [apply (bool_decide_unpack _); vm_compute; exact I|]. split; [apply (bool_decide_unpack _); vm_compute; exact I|].
  split; [simpl; lia|]. split; [apply reader_agrees; intros l [<-|[]]; auto|]. split.
  { intros combo Hin l [<-|[]]. simpl in Hin. repeat destruct Hin as [<-|Hin]; try (eexists; reflexivity). destruct Hin. }
  split; [intros env; eauto|]. split.
  { intros l env env' [<-|[]] He. simpl. unfold reader. rewrite (He 0); auto. simpl. lia. }
  split; vm_compute; reflexivity.
Qed.

(** A program whose constants violate a constraint is infeasible before it is solved, and is not skipped. *)
Theorem C43_generation_refuted : ~ C43_for (fun V P gen ls => reads_no_linked ls).
Proof.
  intros H.
  set (g := fun env : nat -> option nat => if decide (env 0 = Some 1) then Err PrimalInfeasibleE else Ok tt).
  destruct (H nat unit nat g (fun _ => Ok 7) true [] [(0, [1; 2])] []) as (combos & outcomes & Hp & H2 & H3 & H4).
  1-2: apply (bool_decide_unpack _); vm_compute; exact I.
  1: intros k _ [].
  1: intros l env v [].
  1: intros combo _ l [].
  1: intros l env env' [].
  assert (E : run_sweep g (fun _ => Ok 7) false true [] [(0, [1; 2])] [] = ([], Err PrimalInfeasibleE)) by (vm_compute; reflexivity).
  rewrite E in *. simpl in *. inversion H3; subst. destruct H4 as [(_ & L & _)|(outs & e & E' & _)].
  - apply Permutation_length in Hp. simpl in Hp. lia.
  - destruct outs; discriminate.
Qed.
Print Assumptions C43_generation_refuted.

(** A linked constant that is a function of another gets the value it should have had in the pass before. *)
Theorem C43_linked_refuted : ~ C43_for (fun V P gen ls => always_made gen).
Proof.
  intros H. set (b := Link 1 (reader 0 S) (reader 0 S)). set (c := Link 2 (reader 1 S) (reader 1 S)).
  set (base := [(1, 0)]).
  destruct (H nat unit nat (fun _ => Ok tt) (fun _ => Ok 7) true [b; c] [(0, [10; 20])] base) as (combos & outcomes & Hp & H2 & H3 & H4).
  1-2: apply (bool_decide_unpack _); vm_compute; exact I.
  1: simpl; lia.
  1: apply reader_agrees; intros l [<-|[<-|[]]]; auto.
  1: intros combo Hin l Hl; simpl in Hin; destruct Hin as [<-|[<-|[]]]; destruct Hl as [<-|[<-|[]]]; eexists; reflexivity.
  1: intros env; eauto.
  assert (E : fst (run_sweep (fun _ => Ok tt) (fun _ => Ok 7) false true [b; c] [(0, [10; 20])] base) =
    [[(1, 11); (0, 10); (2, 1)]; [(1, 21); (0, 20); (2, 12)]]) by (vm_compute; reflexivity).
  rewrite E in *. apply Forall2_length in H2 as Hl. destruct (take _ combos) as [|x [|y r]]; try discriminate.
  inversion H2 as [|? ? ? ? _ H5]; subst. inversion H5 as [|? ? ? ? H6 _]; subst. destruct H6 as (_ & _ & H7).
  destruct (H7 c) as (v & E1 & E2); [right; left; auto|]. vm_compute in E1, E2. congruence.
Qed.
Print Assumptions C43_linked_refuted.

(** ** C44: Sweeping leaves the model as it was *)

Section C44.
(** The substitutions a model has after a sweep of one or more variables, or an autosweep of one, are those before it. *)
Definition C44_sweep_for (cond : forall V S, (V -> bool) -> (list (nat * sub V) -> res S) -> list (nat * sub V) -> list nat -> Prop) : Prop :=
  forall V S (is_zero : V -> bool) (solve : list (nat * sub V) -> res S) (subs : list (nat * sub V)) sweeps,
    NoDup (map fst subs) -> cond V S is_zero solve subs (map fst sweeps) ->
    forall k, dget (fst (model_sweep is_zero solve sweeps subs)) k = dget subs k.
Definition C44_autosweep_for (cond : forall V S, (V -> bool) -> (list (nat * sub V) -> res S) -> list (nat * sub V) -> list nat -> Prop) : Prop :=
  forall V S (is_zero : V -> bool) (solve : list (nat * sub V) -> res S) (subs : list (nat * sub V)) x vals,
    NoDup (map fst subs) -> cond V S is_zero solve subs [x] ->
    forall k, dget (fst (autosweep_subs is_zero solve x vals subs)) k = dget subs k.

Definition never_fails {V S} (solve : list (nat * sub V) -> res S) : Prop := forall subs, exists s, solve subs = Ok s.
Definition none_zero {V} (is_zero : V -> bool) (subs : list (nat * sub V)) (ks : list nat) : Prop :=
  forall k v, In k ks -> dget subs k = Some (Value v) -> is_zero v = false.

Lemma restore_spec {V} (is_zero : V -> bool) x (subs subs' : list (nat * sub V)) :
  NoDup (map fst subs') -> none_zero is_zero subs [x] -> (forall k, k <> x -> dget subs' k = dget subs k) ->
  NoDup (map fst (restore is_zero x (dget subs x) subs')) /\ forall k, dget (restore is_zero x (dget subs x) subs') k = dget subs k.
Proof.
  intros Hnd Hz Hk. assert (Hd : dget subs x = None -> forall k, dget (ddel subs' x) k = dget subs k).
  { intros En k. destruct (decide (k = x)) as [->|Hne]; [rewrite Base.dget_ddel_eq; auto|rewrite dget_ddel_ne; auto]. }
  assert (Hs : forall v, dget subs x = Some v -> forall k, dget (dset subs' x v) k = dget subs k).
  { intros v Ev k. destruct (decide (k = x)) as [->|Hne]; [rewrite dget_dset_eq; auto|rewrite dget_dset_ne; auto]. }
  unfold restore. destruct (dget subs x) as [[v|vals]|] eqn:E; simpl.
  - rewrite (Hz x v) by (simpl; auto). simpl. split; [apply NoDup_dset; auto|auto].
  - split; [apply NoDup_dset; auto|auto].
  - split; [apply NoDup_ddel; auto|auto].
Qed.

(** Missing: a solve that fails, an original value of zero. *)
Theorem C44_sweep_partial : C44_sweep_for (fun V S is_zero solve subs ks => never_fails solve /\ none_zero is_zero subs ks).
Proof.
  intros V S is_zero solve subs sweeps Hnd [Hs Hz].
  assert (G : forall sweeps subs', (forall x, In x sweeps -> In (fst x) (map fst sweeps)) -> NoDup (map fst subs') ->
    none_zero is_zero subs (map fst sweeps) -> (forall k, dget subs' k = dget subs k) ->
    forall k, dget (fst (model_sweep is_zero solve sweeps subs')) k = dget subs k).
  { clear sweeps Hz. induction sweeps as [|[x vals] sweeps IH]; intros subs' Hi Hnd' Hz He k; simpl; auto.
    destruct (Hs (dset subs' x (Sweep vals))) as (s & Es). rewrite Es.
    destruct (restore_spec is_zero x subs' (dset subs' x (Sweep vals))) as [H1 H2].
    - apply NoDup_dset. auto.
    - intros y v [<-|[]] Hv. rewrite He in Hv. apply (Hz x v); simpl; auto.
    - intros y Hy. rewrite dget_dset_ne; auto.
    - specialize (IH (restore is_zero x (dget subs' x) (dset subs' x (Sweep vals)))).
      destruct (model_sweep is_zero solve sweeps (restore is_zero x (dget subs' x) (dset subs' x (Sweep vals)))) as [subs'' out]. simpl in IH |- *.
      apply IH; auto.
      + intros y Hy. apply in_map. auto.
      + intros y v Hy. apply Hz. simpl. auto.
      + intros y. rewrite H2. auto. }
  apply G; auto. intros x Hx. apply in_map. auto.
Qed.
Print Assumptions C44_sweep_partial.
Theorem C44_autosweep_partial : C44_autosweep_for (fun V S is_zero solve subs ks => never_fails solve /\ none_zero is_zero subs ks).
Proof.
  intros V S is_zero solve subs x vals Hnd [Hs Hz] k. unfold autosweep_subs.
  assert (G : forall vals subs', NoDup (map fst subs') -> (forall k, k <> x -> dget subs' k = dget subs k) ->
    NoDup (map fst (fst (solve_at solve x vals subs'))) /\ (forall k, k <> x -> dget (fst (solve_at solve x vals subs')) k = dget subs k) /\
    exists ss, snd (solve_at solve x vals subs') = Ok ss).
  { clear vals. induction vals as [|v vals IH]; intros subs' Hn He; simpl; eauto.
    destruct (Hs (dset subs' x (Value v))) as (s & Es). rewrite Es.
    destruct (IH (dset subs' x (Value v))) as (A & B & ss & C); [apply NoDup_dset; auto|intros y Hy; rewrite dget_dset_ne; auto|].
    destruct (solve_at solve x vals (dset subs' x (Value v))) as [subs'' out]. simpl in *. rewrite C. simpl. eauto. }
  destruct (G vals subs Hnd) as (A & B & ss & C); auto.
  destruct (solve_at solve x vals subs) as [subs' out]. simpl in *. rewrite C. simpl. apply restore_spec; auto.
Qed.
Print Assumptions C44_autosweep_partial.

(** Hypotheses met: a variable with a value and one without. *)
Example C44_met : let subs := [(0, Value 3); (1, Value 0)] in
  NoDup (map fst subs) /\ never_fails (V := nat) (fun subs => Ok subs) /\ none_zero (Nat.eqb 0) subs [0; 2] /\
  model_sweep (Nat.eqb 0) (fun subs => Ok (length subs)) [(0, [1; 2]); (2, [5])] subs = (subs, Ok [2; 3]) /\
  autosweep_subs (Nat.eqb 0) (fun subs => Ok (length subs)) 2 [1; 2] subs = (subs, Ok [3; 3]).
Proof.
  split; [apply (bool_decide_unpack _); vm_compute; exact I|]. split; [intros s; eauto|]. split.
  { intros k v [<-|[<-|[]]]; simpl; intros [= <-]; auto. }
  split; reflexivity.
Qed.

(** A value of zero is deleted. *)
Theorem C44_sweep_zero_refuted : ~ C44_sweep_for (fun V S is_zero solve subs ks => never_fails solve).
Proof.
  intros H. specialize (H nat nat (Nat.eqb 0) (fun _ => Ok 7) [(0, Value 0)] [(0, [1; 2])]). cbv in H.
  assert (E : None = Some (Value 0)); [|discriminate]. refine (H _ _ 0); [apply (bool_decide_unpack _); vm_compute; exact I|intros s; eauto].
Qed.
Print Assumptions C44_sweep_zero_refuted.
Theorem C44_autosweep_zero_refuted : ~ C44_autosweep_for (fun V S is_zero solve subs ks => never_fails solve).
Proof.
  intros H. specialize (H nat nat (Nat.eqb 0) (fun _ => Ok 7) [(0, Value 0)] 0 [1; 2]). cbv in H.
  assert (E : None = Some (Value 0)); [|discriminate]. refine (H _ _ 0); [apply (bool_decide_unpack _); vm_compute; exact I|intros s; eauto].
Qed.
Print Assumptions C44_autosweep_zero_refuted.
(** A solve that fails leaves the variable swept. *)
Theorem C44_sweep_failure_refuted : ~ C44_sweep_for (fun V S is_zero solve subs ks => none_zero is_zero subs ks).
Proof.
  intros H. specialize (H nat nat (Nat.eqb 0) (fun _ => Err RuntimeWarningE) [(0, Value 3)] [(0, [1; 2])]). cbv in H.
  assert (E : Some (Sweep [1; 2]) = Some (Value 3)); [|discriminate].
  refine (H _ _ 0); [apply (bool_decide_unpack _); vm_compute; exact I|]. intros k v [<-|[]] [= <-]. auto.
Qed.
Print Assumptions C44_sweep_failure_refuted.
Theorem C44_autosweep_failure_refuted : ~ C44_autosweep_for (fun V S is_zero solve subs ks => none_zero is_zero subs ks).
Proof.
  intros H. specialize (H nat nat (Nat.eqb 0) (fun _ => Err PrimalInfeasibleE) [(0, Value 3)] 0 [1; 2]). cbv in H.
  assert (E : Some (Value 1) = Some (Value 3)); [|discriminate].
  refine (H _ _ 0); [apply (bool_decide_unpack _); vm_compute; exact I|]. intros k v [<-|[]] [= <-]. auto.
Qed.
Print Assumptions C44_autosweep_failure_refuted.
End C44.
