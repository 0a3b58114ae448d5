(** C117: solutions with nan in them are reported. *)
From Coq Require Import Reals Lra.
From Verif Require Import Base NanCheck.
Local Open Scope R_scope.

Definition is_number (a : float) : Prop := exists x, a = Some x.

Lemma lift2_num f a b : is_number (lift2 f a b) -> is_number a /\ is_number b.
Proof. intros [x E]. destruct a, b; try discriminate. split; eexists; eauto. Qed.
Lemma fsum_num l : is_number (fsum l) -> Forall is_number l.
Proof. induction l as [|a l IH]; intros Hn; constructor; apply (lift2_num Rplus) in Hn as [H1 H2]; auto. Qed.
Lemma fdiv_num a b : is_number (fdiv a b) -> is_number a /\ is_number b.
Proof. intros [x E]. destruct a, b; try discriminate. split; eexists; eauto. Qed.
Lemma flog_num a : is_number (flog a) -> is_number a.
Proof. intros [x E]. destruct a; try discriminate. eexists; eauto. Qed.
Lemma fexp_num a : is_number (fexp a) -> is_number a.
Proof. intros [x E]. destruct a; try discriminate. eexists; eauto. Qed.
Lemma falmost_num tol abstol a b : falmost tol abstol a b = true -> is_number a /\ is_number b.
Proof. destruct a as [x|], b as [y|]; simpl; try discriminate. split; eexists; eauto. Qed.

(** The variables of a posynomial *)
Definition in_posy (j : nat) (p : posynomial) : Prop := exists m x, In m p /\ In (j, x) (snd m).

Lemma row_num primal m j x : is_number (row_dot primal m) -> In (j, x) (snd m) -> is_number (primal j).
Proof.
  intros Hn Hi. apply fsum_num in Hn. rewrite List.Forall_forall in Hn.
  specialize (Hn (fmul (Some x) (primal j))). apply (lift2_num Rmult (Some x) (primal j)). apply Hn. apply in_map_iff. exists (j, x). auto.
Qed.
Lemma posy_num primal p j : is_number (posy_val primal p) -> in_posy j p -> is_number (primal j).
Proof.
  intros Hn (m & x & Hm & Hx). apply fsum_num in Hn. rewrite List.Forall_forall in Hn.
  assert (H1 : is_number (mono_val primal m)) by (apply Hn, in_map; auto).
  apply (lift2_num Rmult (Some (fst m)) (fexp (row_dot primal m))) in H1 as [_ H1]. apply fexp_num in H1. eapply row_num; eauto.
Qed.

Lemma fcheck_parts tol abstol posys vars cost primal nus las : fcheck tol abstol posys vars cost primal nus las = Passed ->
  is_number cost /\ is_number (posy_val primal (hd [] posys)) /\ is_number (fdual_cost posys nus las).
Proof.
  unfold fcheck. destruct posys as [|p0 ps]; [discriminate|]. destruct (falmost tol abstol (posy_val primal p0) cost) eqn:E1; simpl; [|discriminate].
  destruct (existsb _ ps); [discriminate|]. destruct (falmost tol abstol (fsum (hd [] nus)) (Some 1)); simpl; [|discriminate].
  destruct (_ && _); [discriminate|]. destruct (existsb _ vars); [discriminate|].
  destruct (falmost tol abstol (fexp (fdual_cost (p0 :: ps) nus las)) cost) eqn:E2; simpl; [|discriminate]. intros _.
  apply falmost_num in E1 as [A B]. apply falmost_num in E2 as [C _]. apply fexp_num in C. auto.
Qed.

Lemma dual_nums posys : forall nus, Forall2 (fun (p : posynomial) (nu : list float) => length p = length nu) posys nus ->
  is_number (fdual_cost posys nus (la_of_nu nus)) -> Forall (Forall is_number) nus.
Proof.
  induction posys as [|p posys IH]; intros nus Hl Hn; inversion Hl as [|? nu ? nus' Hp Hr]; subst; [constructor|].
  unfold fdual_cost, la_of_nu in Hn. simpl in Hn. apply (lift2_num Rplus) in Hn as [H1 H2]. constructor; [|apply IH; auto].
  destruct (fsum nu) as [s|] eqn:Es; [apply fsum_num; eexists; eauto|]. exfalso. simpl in H1. apply fsum_num in H1. rewrite List.Forall_forall in H1.
  unfold dual_terms in H1. destruct p as [|m p], nu as [|n nu]; try (simpl in Es, Hp; discriminate).
  assert (Hn := H1 _ (or_introl eq_refl)). apply (lift2_num Rmult) in Hn as [_ Hn]. apply (lift2_num Rminus) in Hn as [_ Hn].
  apply flog_num, fdiv_num in Hn as [_ [x E]]. discriminate.
Qed.

(** No nan passes, other than in a variable that the cost does not have, if the solver returns nu. *)
Theorem C117_reported_partial : forall tol abstol posys vars cost primal nus,
  Forall2 (fun (p : posynomial) (nu : list float) => length p = length nu) posys nus ->
  fcheck tol abstol posys vars cost primal nus (la_of_nu nus) = Passed ->
  is_number cost /\ Forall (Forall is_number) nus /\ Forall is_number (la_of_nu nus) /\
  forall j, in_posy j (hd [] posys) -> is_number (primal j).
Proof.
  intros tol abstol posys vars cost primal nus Hl E. apply fcheck_parts in E as (A & B & C). apply dual_nums in C; auto.
  split; auto. split; auto. split.
  - unfold la_of_nu. clear Hl. induction C as [|nu nus Hnu _ IH]; simpl; constructor; auto. clear -Hnu. induction Hnu as [|n nu [x ->] _ [y IH]]; [eexists; reflexivity|].
    simpl. rewrite IH. eexists. reflexivity.
  - intros j Hj. eapply posy_num; eauto.
Qed.
Print Assumptions C117_reported_partial.

Lemma in_combine_image {A B} (f : A -> B) l x : In x l -> In (x, f x) (combine l (map f l)).
Proof. induction l as [|y l IH]; intros []; [subst; left; auto|right; auto]. Qed.

(** If it returns la, no nan passes at all, unless a constraint's la is zero. *)
Theorem C117_la_reported_partial : forall tol abstol posys vars cost primal las, length las = length posys ->
  fcheck tol abstol posys vars cost primal (nu_of_la posys primal las) las = Passed ->
  is_number cost /\ forall p la, In (p, la) (combine posys las) -> p <> [] -> la <> Some 0 -> is_number la /\ forall j, in_posy j p -> is_number (primal j).
Proof.
  intros tol abstol posys vars cost primal las Hl E. apply fcheck_parts in E as (A & _ & C). split; auto. intros p la Hi Hp Hz.
  assert (Hd : is_number (fsum (dual_terms p (map (fun m => fdiv (fmul la (fexp (fadd (flog (Some (fst m))) (row_dot primal m))))
    (fsum (map (fun m => fexp (fadd (flog (Some (fst m))) (row_dot primal m))) p))) p) la))).
  { revert las Hl C Hi. induction posys as [|p' posys IH]; intros [|la' las] Hl C Hi; try discriminate; [destruct Hi|].
    unfold fdual_cost, nu_of_la in C. simpl in C. apply (lift2_num Rplus) in C as [C1 C2]. destruct Hi as [[= -> ->]|Hi].
    - replace (truthy la) with true in C1; auto. unfold truthy. destruct la as [x|]; auto. destruct (Req_EM_T x 0); auto. subst. congruence.
    - apply (IH las); auto; simpl in Hl; lia. }
  apply fsum_num in Hd. rewrite List.Forall_forall in Hd. unfold dual_terms in Hd.
  assert (Hm : forall m, In m p -> is_number la /\ is_number (row_dot primal m)).
  { intros m Hi'. set (f := fun m : mono => fdiv (fmul la (fexp (fadd (flog (Some (fst m))) (row_dot primal m)))) (fsum (map (fun m => fexp (fadd (flog (Some (fst m))) (row_dot primal m))) p))) in *.
    assert (Hc := in_combine_image f p m Hi').
    specialize (Hd (fmul (f m) (fsub (flog (Some (fst m))) (flog (fdiv (f m) la))))).
    destruct (lift2_num Rmult _ _ (Hd ltac:(apply in_map_iff; exists (m, f m); auto))) as [H1 _].
    unfold f in H1. apply fdiv_num in H1 as [H1 _]. apply (lift2_num Rmult) in H1 as [H1 H2]. split; auto.
    apply fexp_num in H2. apply (lift2_num Rplus) in H2 as [_ H2]. auto. }
  destruct p as [|m0 p]; [congruence|]. split; [apply (Hm m0); left; auto|]. intros j (m & x & Hi' & Hx). apply (row_num primal m j x); auto. apply Hm. auto.
Qed.
Print Assumptions C117_la_reported_partial.

Lemma abs_zero tol x : 0 < tol -> x = 0 -> flt (Some tol) (fabs (Some x)) = false.
Proof. intros Ht ->. simpl. rewrite Rabs_R0. destruct (Rlt_dec tol 0); auto. lra. Qed.

(** Minimize x where 1/x <= 1 and y <= 1. *)
Definition minimal : list posynomial := [[(1, [(0%nat, 1)])]; [(1, [(0%nat, -1)])]; [(1, [(1%nat, 1)])]].
Definition slack : list (list float) := [[Some 1]; [Some 1]; [Some 0]].

Lemma minimal_passes y tol abstol : 0 < tol -> flt (Some (1 + tol)) (posy_val (fun j => if Nat.eqb j 0 then Some 0 else y) [(1, [(1%nat, 1)])]) = false ->
  fcheck tol abstol minimal [0; 1]%nat (Some 1) (fun j => if Nat.eqb j 0 then Some 0 else y) slack (la_of_nu slack) = Passed.
Proof.
  intros Ht Hy. unfold fcheck, minimal.
  assert (Ha : falmost tol abstol (Some 1) (Some 1) = true) by (unfold falmost; simpl; destruct (Req_EM_T 1 1); auto; congruence).
  assert (H0 : exp 0 = 1) by apply exp_0.
  replace (posy_val _ [(1, [(0%nat, 1)])]) with (Some 1) by (unfold posy_val, mono_val, row_dot, fsum; simpl; f_equal; replace (1 * 0 + 0) with 0 by lra; rewrite H0; lra).
  rewrite Ha. cbn [negb existsb]. rewrite Hy.
  replace (posy_val _ [(1, [(0%nat, -1)])]) with (Some 1) by (unfold posy_val, mono_val, row_dot, fsum; simpl; f_equal; replace (-1 * 0 + 0) with 0 by lra; rewrite H0; lra).
  replace (flt (Some (1 + tol)) (Some 1)) with false by (simpl; destruct (Rlt_dec (1 + tol) 1); auto; lra). cbn [orb].
  replace (fsum (hd [] slack)) with (Some 1) by (unfold fsum; simpl; f_equal; lra). rewrite Ha. cbn [negb].
  replace (existsb (fun n => flt n (Some 0)) (concat slack)) with false
    by (simpl; destruct (Rlt_dec 1 0); [lra|]; destruct (Rlt_dec 0 0); [lra|]; auto). cbn [andb].
  match goal with |- context [column_dot ?P slack 0%nat] => replace (column_dot P slack 0%nat) with (Some 0) by (unfold column_dot, fsum; simpl; f_equal; lra);
    replace (column_dot P slack 1%nat) with (Some 0) by (unfold column_dot, fsum; simpl; f_equal; lra) end.
  rewrite (abs_zero tol 0 Ht eq_refl). cbn [orb].
  match goal with |- context [fdual_cost ?P slack ?L] => replace (fdual_cost P slack L) with (Some 0) end.
  - simpl (fexp _). rewrite H0, Ha. reflexivity.
  - unfold fdual_cost, la_of_nu, slack, fsum, dual_terms. simpl.
    destruct (Req_EM_T (1 + 0) 0); [lra|]. destruct (Req_EM_T (0 + 0) 0); [|lra]. simpl. unfold flog. destruct (Rlt_dec 0 1); [|lra]. simpl.
    destruct (Req_EM_T (1 + 0) 0); [lra|]. simpl. destruct (Rlt_dec 0 (1 / (1 + 0))) as [|Hn]; [|destruct Hn; lra].
    simpl. f_equal. replace (1 / (1 + 0)) with 1 by lra. rewrite ln_1. lra.
Qed.

(** A solution in which y is nan passes, whatever the tolerance: a sum that is nan is not greater than 1. *)
Theorem C117_unreported_refuted : forall tol abstol, 0 < tol ->
  exists posys cost primal nus, Forall2 (fun (p : posynomial) (nu : list float) => length p = length nu) posys nus /\
  fcheck tol abstol posys [0; 1]%nat cost primal nus (la_of_nu nus) = Passed /\ exists j p, In p posys /\ in_posy j p /\ ~ is_number (primal j).
Proof.
  intros tol abstol Ht. exists minimal, (Some 1), (fun j => if Nat.eqb j 0 then Some 0 else None), slack.
  split; [repeat constructor|]. split; [apply minimal_passes; auto|]. exists 1%nat, [(1, [(1%nat, 1)])]. split; [right; right; left; auto|].
  split; [|intros [x E]; discriminate]. exists (1, [(1%nat, 1)]), 1. split; left; auto.
Qed.
Print Assumptions C117_unreported_refuted.

Definition lost : nat -> float := fun j => if Nat.eqb j 0 then Some 0 else None.
Definition slack_la : list float := [Some 1; Some 1; Some 0].
(** With la from the solver, a nan passes where la is zero; it spreads to nu, and passes there too. *)
Theorem C117_la_unreported_refuted : forall tol abstol, 0 < tol ->
  exists posys cost primal las, length las = length posys /\
  fcheck tol abstol posys [0; 1]%nat cost primal (nu_of_la posys primal las) las = Passed /\
  (exists j p, In p posys /\ in_posy j p /\ ~ is_number (primal j)) /\ ~ Forall (Forall is_number) (nu_of_la posys primal las).
Proof.
  intros tol abstol Ht. exists minimal, (Some 1), lost, slack_la.
  assert (H0 : exp 0 = 1) by apply exp_0. assert (H1 : flog (Some 1) = Some 0) by (unfold flog; destruct (Rlt_dec 0 1); [rewrite ln_1; auto|lra]).
  assert (En : nu_of_la minimal lost slack_la = [[Some 1]; [Some 1]; [None]]).
  { unfold nu_of_la, minimal, row_dot, slack_la, lost. cbn [combine map fst snd]. rewrite H1. unfold fsum. simpl.
    replace (0 + (1 * 0 + 0)) with 0 by lra. replace (0 + (-1 * 0 + 0)) with 0 by lra. rewrite H0.
    destruct (Req_EM_T (1 + 0) 0); [lra|]. replace (1 * 1 / (1 + 0)) with 1 by lra. reflexivity. }
  split; [reflexivity|]. rewrite En. split; [|split].
  - assert (Ha : falmost tol abstol (Some 1) (Some 1) = true) by (unfold falmost; simpl; destruct (Req_EM_T 1 1); auto; congruence).
    unfold fcheck, minimal, slack_la, lost.
    replace (posy_val _ [(1, [(0%nat, 1)])]) with (Some 1) by (unfold posy_val, mono_val, row_dot, fsum; simpl; f_equal; replace (1 * 0 + 0) with 0 by lra; rewrite H0; lra).
    rewrite Ha. cbn [negb existsb].
    replace (posy_val _ [(1, [(0%nat, -1)])]) with (Some 1) by (unfold posy_val, mono_val, row_dot, fsum; simpl; f_equal; replace (-1 * 0 + 0) with 0 by lra; rewrite H0; lra).
    replace (flt (Some (1 + tol)) (Some 1)) with false by (simpl; destruct (Rlt_dec (1 + tol) 1); auto; lra).
    replace (posy_val _ [(1, [(1%nat, 1)])]) with (@None R) by reflexivity. change (flt (Some (1 + tol)) None) with false. cbn [orb hd].
    replace (fsum [Some 1]) with (Some 1) by (unfold fsum; simpl; f_equal; lra). rewrite Ha. cbn [negb].
    match goal with |- context [if ?x && _ then Negative else _] => assert (Hx : x = false) by (simpl; destruct (Rlt_dec 1 0); [lra|]; auto); rewrite Hx; clear Hx end.
    cbn [andb].
    match goal with |- context [column_dot ?P ?N 0%nat] => replace (column_dot P N 0%nat) with (Some 0) by (unfold column_dot, fsum; simpl; f_equal; lra);
      replace (column_dot P N 1%nat) with (@None R) by reflexivity end.
    rewrite (abs_zero tol 0 Ht eq_refl). cbn [orb flt fabs].
    match goal with |- context [fdual_cost ?P ?N ?L] => replace (fdual_cost P N L) with (Some 0) end.
    + simpl (fexp _). rewrite H0, Ha. reflexivity.
    + unfold fdual_cost, dual_terms. cbn [combine map fst snd]. rewrite H1. unfold fsum. simpl.
      destruct (Req_EM_T 1 0); [lra|]. destruct (Req_EM_T 0 0); [|lra]. replace (1 / 1) with 1 by lra. rewrite H1. simpl. f_equal. lra.
  - exists 1%nat, [(1, [(1%nat, 1)])]. split; [right; right; left; auto|]. split; [|intros [x E]; discriminate]. exists (1, [(1%nat, 1)]), 1. split; left; auto.
  - intros Hf. rewrite List.Forall_forall in Hf. specialize (Hf [None] ltac:(right; right; left; auto)). inversion Hf as [|? ? [x E]]. discriminate.
Qed.
Print Assumptions C117_la_unreported_refuted.

(** A solution without nan that passes *)
Example C117_met : fcheck (1/100000) 0 minimal [0; 1]%nat (Some 1) (fun j => if Nat.eqb j 0 then Some 0 else Some (-1)) slack (la_of_nu slack) = Passed.
Proof.
  apply minimal_passes; [lra|]. unfold posy_val, mono_val, row_dot, fsum. simpl. destruct (Rlt_dec _ _) as [H|]; auto. exfalso.
  assert (exp (1 * -1 + 0) < exp 0) by (apply exp_increasing; lra). rewrite exp_0 in *. lra.
Qed.
