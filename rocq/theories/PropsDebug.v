(** C115: what [debug] finds out about a model. *)
From Verif Require Import Base Debug.
Local Open Scope list_scope.
Local Open Scope Z_scope.

Section Diagnosis.
Context {M S W : Type}.
Variable constants : M -> bool.
Variables tants bounded traints : M -> M.
Variables gp sp : M -> res S.
Variable fast : M -> bool.
Variables check_constants check_constraints : M -> S -> S.
Variable warnings : S -> list W.
Notation debug := (debug constants tants bounded traints gp sp fast check_constants check_constraints warnings).

(** A model is solved as a geometric program, or locally if it is not one. *)
Definition outcome (m : M) : res S := match gp m with Err InvalidGPConstraintE => sp m | r => r end.
Definition no_solution (m : M) : Prop :=
  exists e, outcome m = Err e /\ In e [PrimalInfeasibleE; DualInfeasibleE; UnknownInfeasibleE; InfeasibleE].

Lemma infeasible_In e : infeasible e = true <-> In e [PrimalInfeasibleE; DualInfeasibleE; UnknownInfeasibleE; InfeasibleE].
Proof. split; [destruct e; simpl; intros H; try discriminate; auto|]. simpl. intros H. intuition (subst; auto). Qed.

Lemma attempt_quiet d v m : v <= 0 -> attempt gp sp fast d v m = ([] : list (@line W), outcome m).
Proof.
  intros Hv. unfold attempt, solve, localsolve, outcome. replace (0 <? v) with false by (symmetry; apply Z.ltb_ge; lia).
  replace (0 <? v - 1) with false by (symmetry; apply Z.ltb_ge; lia).
  destruct (gp m) as [s|e]; auto. rewrite andb_false_r. simpl. destruct e; auto. destruct (sp m); auto. rewrite andb_false_r. auto.
Qed.

(** At verbosities 0 and 1 the diagnosis of a model with constants is that of its relaxations: the solution of the model with relaxed constants
    and bounded variables if it has one; else that of the model with relaxed constraints, if it has one; else None; what else solvers
    raise is raised. *)
Theorem C115_diagnosis_partial v m : v <= 1 -> constants m = true ->
  (forall s, outcome (tants m) = Ok s -> snd (debug v m) = Ok (Some (check_constants m s))) /\
  (forall s, no_solution (tants m) -> outcome (traints m) = Ok s -> snd (debug v m) = Ok (Some (check_constraints m s))) /\
  (snd (debug v m) = Ok None <-> no_solution (tants m) /\ no_solution (traints m)) /\
  (forall e, snd (debug v m) = Err e -> outcome (tants m) = Err e \/ no_solution (tants m) /\ outcome (traints m) = Err e).
Proof.
  intros Hv Hc. unfold debug, debug_with. rewrite Hc, !attempt_quiet by lia.
  unfold no_solution. destruct (outcome (tants m)) as [s|e] eqn:E1; simpl.
  - split; [intros ? [= ->]; auto|]. split; [intros s' (e & [=] & _)|]. split; [split; [discriminate|intros [(e & [=] & _) _]]|discriminate].
  - split; [discriminate|]. destruct (infeasible e) eqn:Hi.
    + destruct (outcome (traints m)) as [s'|e'] eqn:E2; simpl.
      * split; [intros s _ [= ->]; auto|]. split; [split; [discriminate|intros [_ (e' & [=] & _)]]|discriminate].
      * split; [discriminate|]. destruct (infeasible e') eqn:Hi'; simpl.
        -- apply infeasible_In in Hi, Hi'. split; [split; [eauto 10|auto]|discriminate].
        -- split; [split; [discriminate|]|].
           ++ intros [_ (e'' & [= <-] & H)]. apply infeasible_In in H. congruence.
           ++ apply infeasible_In in Hi. intros e0 [= <-]. right. eauto.
    + simpl. split; [|split; [split; [discriminate|]|]].
      * intros s (e0 & [= <-] & H). apply infeasible_In in H. congruence.
      * intros [(e0 & [= <-] & H) _]. apply infeasible_In in H. congruence.
      * intros e0 [= <-]. auto.
Qed.

(** Whatever the verbosity, unless it is 0 the last of what is printed lists the warnings of the solution returned, or says that there are none;
    before it nothing is said of modifications unless a solver was fast and another [debug] was run. *)
Theorem C115_modifications v m s : v <> 0 -> snd (debug v m) = Ok (Some s) ->
  exists l, fst (debug v m) = l ++ [match warnings s with [] => SeemsFeasible | ws => Modified ws end] /\
  (~ In LetsDebug l -> incl l [NotWithConstants]).
Proof.
  intros Hv. apply Z.eqb_neq in Hv. unfold debug. set (d := debug_with _ _ _ _ _ _ _ _ _ _ _ 1). clearbody d. unfold debug_with.
  assert (Ha : forall m l r, attempt gp sp fast d (v - 1) m = (l, r) -> l = [] \/ In LetsDebug l).
  { intros m' l r. unfold attempt, solve, localsolve. destruct (gp m') as [s'|e]; [intros [= <- _]; auto|]. destruct (_ && _ && _).
    - destruct (d m') as [l' r']. destruct (let! o := r' in _) as [?|e'] eqn:E; [intros [= <- _]; right; left; auto|].
      assert (H : In LetsDebug (LetsDebug :: l')) by (left; auto).
      destruct e'; try (intros [= <- _]; auto; fail). destruct (sp m') as [?|e2]; [|destruct (_ && _ && _)]; intros [= <- _]; right; left; auto.
    - destruct e; try (intros [= <- _]; auto; fail). destruct (sp m') as [?|e2]; [|destruct (_ && _ && _)]; intros [= <- _]; simpl; auto. }
  assert (Hr : forall s, report (W := W) warnings v s = [match warnings s with [] => SeemsFeasible | ws => Modified ws end]).
  { intros s'. unfold report. rewrite Hv. destruct (warnings s'); auto. }
  destruct (attempt gp sp fast d (v - 1) (if constants m then tants m else bounded m)) as [l1 r1] eqn:E1.
  destruct (let! s0 := r1 in _) as [s1|e].
  - simpl. intros [= ->]. exists l1. split; [rewrite Hr; auto|]. destruct (Ha _ _ _ E1) as [->|H]; [intros _ x []|intros Hn; contradiction].
  - destruct (infeasible e); [|discriminate]. destruct (attempt gp sp fast d (v - 1) (traints m)) as [l3 r2] eqn:E2.
    destruct (let! s0 := r2 in _) as [s2|e2]; [|destruct (infeasible e2); discriminate]. simpl. intros [= ->].
    rewrite Hv. exists (l1 ++ [NotWithConstants] ++ l3). split; [rewrite Hr, <- !app_assoc; auto|]. intros Hn.
    destruct (Ha _ _ _ E1) as [->|H]; [|destruct Hn; apply in_app_iff; auto].
    destruct (Ha _ _ _ E2) as [->|H]; [|destruct Hn; right; auto]. intros x Hx. exact Hx.
Qed.

(** At verbosity 0 nothing is printed, unless the model has no solution with its constraints relaxed either; *)
Theorem C115_quiet_partial m : fst (debug 0 m) = [] \/ fst (debug 0 m) = [NotWithConstraints] /\ snd (debug 0 m) = Ok None.
Proof.
  unfold debug. set (d := debug_with _ _ _ _ _ _ _ _ _ _ _ 1). clearbody d. unfold debug_with. rewrite !attempt_quiet by lia.
  destruct (let! s := _ in _) as [s|e]; [auto|]. destruct (infeasible e); [|auto].
  destruct (let! s := outcome (traints m) in _) as [s|e']; [auto|]. destruct (infeasible e'); auto.
Qed.

(** A model without constants that has a solution with bounded variables is not diagnosed: UnboundLocalError is raised. *)
Theorem C115_no_constants_refuted v m s : v <= 1 -> constants m = false -> outcome (bounded m) = Ok s -> snd (debug v m) = Err UnboundLocalE.
Proof. intros Hv Hc E. unfold debug. set (d := debug_with _ _ _ _ _ _ _ _ _ _ _ 1). clearbody d. unfold debug_with. rewrite Hc, !attempt_quiet, E by lia. auto. Qed.

(** At verbosities over 1 the relaxation of constraints is never tried if the solver is fast to find that relaxing constants does not do: the
    relaxed model is debugged in its stead, and what comes of that is the result. *)
Theorem C115_verbose_refuted v m e : 1 < v -> constants m = true -> gp (tants m) = Err e -> In e [PrimalInfeasibleE; DualInfeasibleE; UnknownInfeasibleE] ->
  fast (tants m) = true ->
  (forall s, snd (debug 1 (tants m)) = Ok (Some s) -> snd (debug v m) = Ok (Some (check_constants m s))) /\
  (snd (debug 1 (tants m)) = Ok None -> snd (debug v m) = Err AttributeErrorE).
Proof.
  intros Hv Hc Hg He Hf. assert (Hi : solver_infeasible e = true) by (simpl in He; intuition (subst; auto)).
  assert (Hd : forall m, debug 1 m = debug_with constants tants bounded traints gp sp fast check_constants check_constraints warnings (fun _ => ([], Err RuntimeWarningE)) 1 m).
  { intros m'. unfold debug at 1. unfold debug_with at 1 3. rewrite !attempt_quiet by lia. reflexivity. }
  rewrite Hd. unfold debug. set (d := debug_with _ _ _ _ _ _ _ _ _ _ _ 1). clearbody d. unfold debug_with. rewrite Hc. unfold attempt, solve.
  rewrite Hg, Hi, Hf. replace (0 <? v - 1) with true by (symmetry; apply Z.ltb_lt; lia). simpl. destruct (d (tants m)) as [l r]. simpl. split.
  - intros s ->. auto.
  - intros ->. auto.
Qed.
End Diagnosis.

Print Assumptions C115_diagnosis_partial.
Print Assumptions C115_modifications.
Print Assumptions C115_quiet_partial.
Print Assumptions C115_no_constants_refuted.
Print Assumptions C115_verbose_refuted.

(** Models by how they were made, the last relaxation first; solutions by their warnings *)
Inductive made := Constants | Bounds | Constraints.
Definition made_debug (constants : bool) (gp sp : list made -> res (list nat)) (v : Z) : out (W := nat) (option (list nat)) :=
  debug (fun _ => constants) (cons Constants) (cons Bounds) (cons Constraints) gp sp (fun _ => true) (fun _ s => s) (fun _ s => s) (fun s => s) v [].

(** At verbosity 0 something is printed of a model that has no solution at all. *)
Theorem C115_quiet_refuted : exists constants gp sp, fst (made_debug constants gp sp 0) <> [].
Proof. exists true, (fun _ => Err PrimalInfeasibleE), (fun _ => Err PrimalInfeasibleE). discriminate. Qed.
Print Assumptions C115_quiet_refuted.

(** A model whose constraints need to be relaxed, of which no relaxation of constants has a solution: at verbosity 1 it is diagnosed, at
    verbosity 2 AttributeError is raised. The same model as a signomial one: at verbosity 3. *)
Theorem C115_verbosity_refuted :
  (exists gp, snd (made_debug true gp gp 1) = Ok (Some [7%nat]) /\ snd (made_debug true gp gp 2) = Err AttributeErrorE) /\
  exists sp, snd (made_debug true (fun _ => Err InvalidGPConstraintE) sp 2) = Ok (Some [7%nat]) /\
    snd (made_debug true (fun _ => Err InvalidGPConstraintE) sp 3) = Err AttributeErrorE.
Proof.
  set (f := fun l => match l with [Constraints] => Ok [7%nat] | _ => Err PrimalInfeasibleE end).
  split; exists f; split; reflexivity.
Qed.
Print Assumptions C115_verbosity_refuted.

(** A signomial model with constants that are relaxed, and one without modification; one without constants *)
Example C115_met :
  made_debug true (fun _ => Err InvalidGPConstraintE) (fun l => match l with [Constants] => Ok [3%nat] | _ => Err InfeasibleE end) 1 =
    ([Modified [3%nat]], Ok (Some [3%nat])) /\
  made_debug true (fun l => match l with [Constraints] => Ok [] | _ => Err DualInfeasibleE end) (fun _ => Err InfeasibleE) 1 =
    ([NotWithConstants; SeemsFeasible], Ok (Some [])) /\
  made_debug true (fun _ => Err UnknownInfeasibleE) (fun _ => Err InfeasibleE) 1 = ([NotWithConstants; NotWithConstraints], Ok None) /\
  made_debug false (fun _ => Ok []) (fun _ => Ok []) 1 = ([], Err UnboundLocalE).
Proof. repeat split; reflexivity. Qed.
