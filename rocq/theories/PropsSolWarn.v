(** C118: solutions that fail the check are reported. *)
From Coq Require Import Reals Lra Strings.String Strings.Ascii.
From Verif Require Import Base NanCheck SolWarn PropsNanCheck.
Local Open Scope string_scope.
Local Open Scope R_scope.

(** Printed numbers have no D in them. *)
Definition has_D (s : string) : Prop := In "D"%char (list_ascii_of_string s).

Lemma has_D_app a b : has_D (a ++ b) <-> has_D a \/ has_D b.
Proof. unfold has_D. induction a as [|c a IH]; simpl; [tauto|]. rewrite IH. tauto. Qed.
Lemma contains_D s : contains "Dual" s = true -> has_D s.
Proof.
  unfold has_D. induction s as [|c s IH]; [discriminate|]. cbn [contains]. intros E. apply orb_true_iff in E as [E|E]; [|right; auto].
  cbn [String.prefix] in E. destruct (ascii_dec "D" c) as [<-|]; [left; auto|discriminate].
Qed.

(** What is wrong with a primal solution: the cost is not that of its variables, or a posynomial that is to be at most 1 is more, beyond the tolerances *)
Definition about (tol abstol : R) (a b : float) : Prop :=
  exists x y, a = Some x /\ b = Some y /\ (x = y \/ x + y <> 0 /\ Rabs ((x - y) / (x + y)) < tol \/ Rabs (x - y) < abstol).
Definition over (tol : R) (a : float) : Prop := exists x, a = Some x /\ 1 + tol < x.
Definition primal_wrong (tol abstol : R) (cost_posy : posynomial) (constraints : list posynomial) (cost : float) (primal : nat -> float) : Prop :=
  ~ about tol abstol (posy_val primal cost_posy) cost \/ exists p, In p constraints /\ over tol (posy_val primal p).
(** With a dual: the cost's multipliers do not sum to 1, one of them is negative, the sensitivity to a variable does not vanish, or the cost is another *)
Definition dual_wrong (tol abstol : R) (posys : list posynomial) (vars : list nat) (cost : float) (nus : list (list float)) (las : list float) : Prop :=
  ~ about tol abstol (fsum (hd [] nus)) (Some 1) \/
  (exists x, In (Some x) (concat nus) /\ x < 0) /\ (exists x, pymin (concat nus) = Some x /\ x < - tol / 1000) \/
  (exists j x, In j vars /\ column_dot posys nus j = Some x /\ tol < Rabs x) \/
  ~ about tol abstol (fexp (fdual_cost posys nus las)) cost.

Lemma flt_spec a b : flt a b = true <-> exists x y, a = Some x /\ b = Some y /\ x < y.
Proof.
  split.
  - destruct a as [x|], b as [y|]; simpl; try discriminate. destruct (Rlt_dec x y); [|discriminate]. eauto.
  - intros (x & y & -> & -> & Hl). simpl. destruct (Rlt_dec x y); [auto|contradiction].
Qed.
Lemma falmost_spec tol abstol a b : falmost tol abstol a b = true <-> about tol abstol a b.
Proof.
  unfold falmost, about. rewrite !orb_true_iff, !flt_spec. split.
  - intros [[E|E]|E].
    + destruct a as [x|], b as [y|]; simpl in E; try discriminate. destruct (Req_EM_T x y); [|discriminate]. eauto 6.
    + destruct E as (u & v & Eu & [= <-] & Hl). destruct a as [x|], b as [y|]; try discriminate. simpl in Eu. destruct (Req_EM_T (x + y) 0); [discriminate|].
      simpl in Eu. injection Eu as <-. exists x, y. auto 6.
    + destruct E as (u & v & Eu & [= <-] & Hl). destruct a as [x|], b as [y|]; try discriminate. simpl in Eu. injection Eu as <-. exists x, y. auto 6.
  - intros (x & y & -> & -> & [->|[[Hn Hl]|Hl]]).
    + left; left. simpl. destruct (Req_EM_T y y); congruence.
    + left; right. exists (Rabs ((x - y) / (x + y))), tol. simpl. destruct (Req_EM_T (x + y) 0); [contradiction|]. auto.
    + right. exists (Rabs (x - y)), abstol. auto.
Qed.
Lemma falmost_false tol abstol a b : falmost tol abstol a b = false <-> ~ about tol abstol a b.
Proof. rewrite <- falmost_spec. destruct (falmost tol abstol a b); split; congruence. Qed.

Lemma over_spec tol primal ps : existsb (fun p => flt (Some (1 + tol)) (posy_val primal p)) ps = true <-> exists p, In p ps /\ over tol (posy_val primal p).
Proof.
  rewrite existsb_exists. split; intros (p & Hi & E); exists p; (split; [auto|]).
  - apply flt_spec in E as (x & y & [= <-] & -> & Hl). exists y. auto.
  - destruct E as (x & -> & Hl). apply flt_spec. eauto.
Qed.

(** The six ways to fail, and which of them are primal *)
Definition is_primal (v : verdict) : bool := match v with CostMismatch | Violated => true | _ => false end.
Lemma fcheck_primal tol abstol p0 ps vars cost primal nus las :
  is_primal (fcheck tol abstol (p0 :: ps) vars cost primal nus las) = true <-> primal_wrong tol abstol p0 ps cost primal.
Proof.
  unfold fcheck, primal_wrong. rewrite <- over_spec, <- falmost_false. destruct (falmost tol abstol (posy_val primal p0) cost); simpl; [|split; auto].
  destruct (existsb _ ps); simpl; [split; auto|]. split; [|intros [|]; discriminate].
  destruct (falmost _ _ _ _); simpl; [|discriminate]. destruct (_ && _); [discriminate|]. destruct (existsb _ vars); [discriminate|].
  destruct (falmost _ _ _ _); discriminate.
Qed.
Lemma fcheck_passed tol abstol p0 ps vars cost primal nus las :
  fcheck tol abstol (p0 :: ps) vars cost primal nus las <> Passed <-> primal_wrong tol abstol p0 ps cost primal \/ dual_wrong tol abstol (p0 :: ps) vars cost nus las.
Proof.
  unfold dual_wrong. rewrite <- !falmost_false.
  assert (H2 : existsb (fun n => flt n (Some 0)) (concat nus) = true <-> exists x, In (Some x) (concat nus) /\ x < 0).
  { rewrite existsb_exists. split; [intros (n & Hi & E); apply flt_spec in E as (x & y & -> & [= <-] & Hl); eauto|intros (x & Hi & Hl); exists (Some x); rewrite flt_spec; eauto 6]. }
  assert (H3 : flt (pymin (concat nus)) (Some (- tol / 1000)) = true <-> exists x, pymin (concat nus) = Some x /\ x < - tol / 1000).
  { rewrite flt_spec. split; [intros (x & y & E & [= <-] & Hl); eauto|intros (x & E & Hl); eauto 6]. }
  assert (H4 : existsb (fun j => flt (Some tol) (fabs (column_dot (p0 :: ps) nus j))) vars = true <-> exists j x, In j vars /\ column_dot (p0 :: ps) nus j = Some x /\ tol < Rabs x).
  { rewrite existsb_exists. split.
    - intros (j & Hi & E). apply flt_spec in E as (x & y & [= <-] & E & Hl). destruct (column_dot _ _ j) as [z|] eqn:Ez; [|discriminate]. injection E as <-. eauto 6.
    - intros (j & x & Hi & E & Hl). exists j. split; auto. apply flt_spec. rewrite E. simpl. eauto. }
  rewrite <- H2, <- H3, <- H4. unfold primal_wrong. rewrite <- over_spec, <- falmost_false. unfold fcheck. clear.
  destruct (falmost tol abstol (posy_val primal p0) cost); simpl; [|split; [auto|discriminate]].
  destruct (existsb _ ps); simpl; [split; [auto|discriminate]|].
  destruct (falmost tol abstol (fsum _) _); simpl; [|split; [auto|discriminate]].
  destruct (existsb _ (concat nus)), (flt (pymin _) _); simpl; try (split; [tauto|discriminate]);
  (destruct (existsb _ vars); simpl; [split; [auto 6|discriminate]|]); destruct (falmost _ _ _ _); simpl; split; try discriminate; auto 6;
  intros E; exfalso; intuition congruence.
Qed.

(** A warning is printed if and only if something is wrong with the primal solution, or with the dual one and [dual_check] is set; so asking not to
    check duals hides nothing else. *)
Theorem C118_warned : forall (show : float -> string) (tol abstol : R) (dual_check : bool) p0 ps vars cost primal nus las,
  (forall x, ~ has_D (show x)) ->
  check_warning dual_check (check_message show tol abstol (p0 :: ps) vars cost primal nus las) <> None <->
  primal_wrong tol abstol p0 ps cost primal \/ dual_check = true /\ dual_wrong tol abstol (p0 :: ps) vars cost nus las.
Proof.
  intros show tol abstol dc p0 ps vars cost primal nus las Hs.
  set (v := fcheck tol abstol (p0 :: ps) vars cost primal nus las).
  assert (Hw : check_warning dc (check_message show tol abstol (p0 :: ps) vars cost primal nus las) <> None <-> is_primal v = true \/ dc = true /\ v <> Passed).
  { unfold check_message. fold v. assert (Hp : forall w, ~ has_D w -> check_warning dc (Some w) <> None).
    { intros w Hw. unfold check_warning. destruct (contains "Dual" w) eqn:E; [destruct (Hw (contains_D w E))|discriminate]. }
    assert (Hd : forall w, contains "Dual" w = true -> check_warning dc (Some w) <> None <-> dc = true).
    { intros w Hw. unfold check_warning. rewrite Hw. destruct dc; simpl; split; congruence. }
    destruct v; cbn [is_primal].
    - simpl. split; [congruence|]. intros [|[_ K]]; congruence.
    - split; [auto|]. intros _. apply Hp. rewrite !has_D_app. intros [K|[K|[K|[K|K]]]]; try (eapply Hs; exact K); unfold has_D in K; simpl in K; intuition discriminate.
    - split; [auto|]. intros _. apply Hp. rewrite !has_D_app. intros [K|[K|K]]; [|destruct (find _ _); [eapply Hs; exact K|destruct K]|]; unfold has_D in K; simpl in K; intuition discriminate.
    - rewrite Hd by reflexivity. split; [intros ->; right; split; [auto|discriminate]|intros [|[]]; [discriminate|auto]].
    - rewrite Hd by reflexivity. split; [intros ->; right; split; [auto|discriminate]|intros [|[]]; [discriminate|auto]].
    - rewrite Hd by reflexivity. split; [intros ->; right; split; [auto|discriminate]|intros [|[]]; [discriminate|auto]].
    - rewrite Hd by reflexivity. split; [intros ->; right; split; [auto|discriminate]|intros [|[]]; [discriminate|auto]]. }
  rewrite Hw. unfold v. rewrite fcheck_primal, fcheck_passed. tauto.
Qed.
Print Assumptions C118_warned.

(** What is printed names the side that is wrong: Primal if the primal solution is, else Dual. *)
Theorem C118_named : forall (show : float -> string) (tol abstol : R) (dual_check : bool) p0 ps vars cost primal nus las w,
  check_warning dual_check (check_message show tol abstol (p0 :: ps) vars cost primal nus las) = Some w ->
  (primal_wrong tol abstol p0 ps cost primal -> String.prefix "Solution check warning: Primal" w = true) /\
  (~ primal_wrong tol abstol p0 ps cost primal -> String.prefix "Solution check warning: Dual" w = true).
Proof.
  intros show tol abstol dc p0 ps vars cost primal nus las w. rewrite <- (fcheck_primal tol abstol p0 ps vars cost primal nus las).
  unfold check_message. destruct (fcheck _ _ _ _ _ _ _ _); unfold check_warning; try discriminate; destruct (negb _); intros [= <-]; split; intros K; try reflexivity; try discriminate; destruct (K eq_refl).
Qed.
Print Assumptions C118_named.

(** A case: y = e where y <= 1, checked with a tolerance of a thousandth; and the solution y = 1/e is not reported. *)
Definition no_number (x : float) : string := "1.0".
Example C118_met : ~ has_D (no_number None) /\
  check_warning false (check_message no_number (1/1000) 0 minimal [0; 1]%nat (Some 1) (fun j => if Nat.eqb j 0 then Some 0 else Some (-1)) slack (la_of_nu slack)) = None /\
  primal_wrong (1/1000) 0 [(1, [(0%nat, 1)])] [[(1, [(1%nat, 1)])]] (Some 1) (fun j => if Nat.eqb j 0 then Some 0 else Some 1).
Proof.
  split; [unfold has_D; simpl; intuition discriminate|]. split.
  - unfold check_message. rewrite minimal_passes; [reflexivity|lra|]. unfold posy_val, mono_val, row_dot, fsum. simpl. destruct (Rlt_dec _ _) as [H|]; auto. exfalso.
    assert (exp (1 * -1 + 0) < exp 0) by (apply exp_increasing; lra). rewrite exp_0 in *. lra.
  - right. eexists. split; [left; reflexivity|]. eexists. split; [unfold posy_val, mono_val, row_dot, fsum; simpl; reflexivity|].
    assert (1 + 1 < exp (1 * 1 + 0)) by (replace (1 * 1 + 0) with 1 by lra; apply exp_ineq1; lra). lra.
Qed.
