(** C51: the Taylor tools. Derivatives are Coquelicot's. *)
From Verif Require Import Base HashVec Nomial NomialSem NomialProofs CanonProofs Taylor TaylorProofs.
From Coquelicot Require Import Coquelicot.
Open Scope R_scope.

(** [v] is the value at [x] of the Taylor polynomial of degree [n] of [f] around 0: f's derivatives at 0 are [a 0], [a 1], ... *)
Definition taylor_value (f : R -> R) (n : nat) (x v : R) : Prop :=
  exists a : nat -> R, (forall k, (k <= n)%nat -> is_derive_n f k 0 (a k)) /\ v = sum_f_R0 (fun k => a k / INR (fact k) * x ^ k) n.

(** A posynomial (or positive number): something with positive coefficients only *)
Definition positive (v : value R) : Prop := match v with VNum c => 0 < c | VNom h => all_positive h /\ h <> [] end.

(** [te_exp_minus1(p, n)] has the value of the Taylor polynomial of degree [n] of exp(x) - 1, and is always defined for posynomials. *)
Theorem C51_exp : forall se p n env, positive_point env ->
  (forall v, te_exp_minus1 se p n = Ok v -> taylor_value (fun x => exp x - 1) n (val env p) (val env v)) /\
  (positive p -> exists v, te_exp_minus1 false p n = Ok v /\ (n = 0%nat /\ v = VNum 0 \/ positive v)).
Proof.
  intros se p n env _. split.
  - intros v Hv. apply rmap_ok in Hv as ([v' d] & Hv & ->). destruct (exp_loop se env p n v' d Hv) as [_ E].
    exists (fun k => match k with O => 0 | _ => 1 end). split; [intros k _; apply exp_derive_n|exact E].
  - intros Hp. destruct (exp_total p n Hp) as (v & H & Hv). exists v. split; [|exact Hv]. exact (f_equal (rmap fst) H).
Qed.
Print Assumptions C51_exp.

(** [te_secant(p, n)] has the value of the Taylor polynomial of degree [2*n] of 1/cos(x), up to the 12 numbers in the table. *)
Theorem C51_secant : forall se p n env, positive_point env -> (n <= 12)%nat ->
  (forall v, te_secant se euler_approx p n = Ok v -> taylor_value (fun x => / cos x) (2 * n) (val env p) (val env v)) /\
  (positive p -> exists v, te_secant false euler_approx p n = Ok v /\ positive v).
Proof.
  intros se p n env _ Hn. split.
  - intros v Hv. apply rmap_ok in Hv as ([v' d] & Hv & ->). destruct (sec_loop se env euler_approx n p n v' d (le_n n) Hv) as [_ E].
    exists (sec_coeffs euler_approx). split; [|exact E]. intros k Hk. rewrite sec_coeffs_ok by lia. apply sec_derive_n.
  - intros Hp. destruct (sec_total (fun k => euler_approx (S k)) n p n) as (v & H & Hv); auto.
    { intros k. apply euler_approx_pos. lia. }
    exists v. split; [|exact Hv]. unfold te_secant. cbv zeta in H. revert H. replace (Nat.ltb 12 n) with false by (symmetry; apply Nat.ltb_ge; exact Hn).
    intros H. exact (f_equal (rmap fst) H).
Qed.
Print Assumptions C51_secant.

(** With more terms the result is no Taylor polynomial: those beyond the twelfth come from an asymptotic formula. *)
Definition C51_secant_for (nmax : nat) : Prop := forall p n env v, positive_point env -> (n <= nmax)%nat ->
  te_secant false euler_approx p n = Ok v -> taylor_value (fun x => / cos x) (2 * n) (val env p) (val env v).
Theorem C51_secant_stops_at_table : C51_secant_for 12 /\ ~ C51_secant_for 13.
Proof.
  split.
  - intros p n env v He Hn Hv. apply (C51_secant false p n env He Hn). exact Hv.
  - intros H. assert (P : pos_value (VNum 1)) by (cbn; lra).
    destruct (sec_total (fun k => euler_approx (match k with O => 1 | _ => k end)%nat) 13 (VNum 1) 13) as (v & Hv & _); auto.
    { intros [|k]; apply euler_approx_pos; lia. }
    assert (Hv' : te_secant false euler_approx (VNum 1) 13 = Ok v) by (unfold te_secant; apply (f_equal (rmap fst)) in Hv; exact Hv).
    destruct (H (VNum 1) 13%nat (fun _ => 1) v ltac:(intros ?; lra) (le_n _) Hv') as (a & Ha & Ea).
    apply rmap_ok in Hv' as ([v' d] & Hv' & Ev). cbn in Ev. subst v'.
    destruct (sec_loop false (fun _ => 1) euler_approx 13 (VNum 1) 13 v d (le_n _) Hv') as [_ E].
    assert (A : forall k, (k <= 26)%nat -> a k = IZR (hd 0%Z (Ps k))).
    { intros k Hk. specialize (Ha k Hk). pose proof (sec_derive_n k) as D. unfold sec in D.
      apply is_derive_n_unique in Ha. apply is_derive_n_unique in D. congruence. }
    rewrite Ea in E. unfold tsum in E. change (2 * 13)%nat with (S 25) in E. cbn [val] in E.
    rewrite (tech5 (fun k => a k / INR (fact k) * 1 ^ k) 25), (tech5 (fun k => sec_coeffs euler_approx k / INR (fact k) * 1 ^ k) 25) in E.
    rewrite (sum_eq (fun k => a k / INR (fact k) * 1 ^ k) (fun k => sec_coeffs euler_approx k / INR (fact k) * 1 ^ k)) in E.
    2:{ intros i Hi. rewrite A by lia. destruct (Nat.eq_dec i 25%nat) as [-> |Hne]; [|rewrite sec_coeffs_ok by lia; reflexivity].
      replace (hd 0%Z (Ps 25)) with 0%Z by (vm_compute; reflexivity). reflexivity. }
    apply Rplus_eq_reg_l in E. rewrite !pow1, A in E by lia.
    assert (C : sec_coeffs euler_approx 26 = euler_approx 13) by reflexivity.
    rewrite C in E. pose proof euler13 as L. pose proof (INR_fact_lt_0 26) as F.
    apply Rmult_eq_reg_r in E; [|lra]. unfold Rdiv in E. apply Rmult_eq_reg_r in E; [lra|]. apply Rinv_neq_0_compat. lra.
Qed.
Print Assumptions C51_secant_stops_at_table.

(** [te_tangent(p, n)] has the value of the Taylor polynomial of degree [2*n] (that is, [2*n - 1]) of the tangent, or isn't implemented. *)
Theorem C51_tangent : forall se p n env, positive_point env ->
  (forall v, te_tangent se p n = Ok v -> taylor_value tan (2 * n) (val env p) (val env v)) /\
  ((15 < n)%nat -> te_tangent se p n = Err NotImplementedValueE) /\
  (positive p -> (n <= 15)%nat -> exists v, te_tangent false p n = Ok v /\ (n = 0%nat /\ v = VNum 0 \/ positive v)).
Proof.
  intros se p n env _. split; [|split].
  - intros v Hv. unfold te_tangent in Hv. destruct (Nat.ltb_spec 15 n) as [|Hn]; [discriminate|].
    apply rmap_ok in Hv as ([v' d] & Hv & ->). destruct (tan_loop se env p n v' d Hn Hv) as [_ E].
    exists tan_coeffs. split; [|exact E]. intros k _. apply tan_derive_n.
  - intros Hn. unfold te_tangent. destruct (Nat.ltb_spec 15 n); [reflexivity|lia].
  - intros Hp Hn. destruct (tan_total p n Hp Hn) as (v & H & Hv). exists v. split; [|exact Hv].
    unfold te_tangent. destruct (Nat.ltb_spec 15 n); [lia|]. exact (f_equal (rmap fst) H).
Qed.
Print Assumptions C51_tangent.

Definition xplusy {T} `{Num T} : value T := VNom (({[ 0%nat := n1 ]}, n1) :: ({[ 1%nat := n1 ]}, n1) :: nil).
Example C51_nonvacuous : positive xplusy /\
  vitems (te_exp_minus1 false (xplusy (T := Q)) 2) =
    Some ((((0%nat, 1%Q) :: nil), 1%Q) :: (((1%nat, 1%Q) :: nil), 1%Q) :: (((0%nat, 2%Q) :: nil), (1 # 2)%Q) ::
          (((0%nat, 1%Q) :: (1%nat, 1%Q) :: nil), 1%Q) :: (((1%nat, 2%Q) :: nil), (1 # 2)%Q) :: nil) /\
  vitems (te_tangent false (VNom (T := Q) (var_hmap 0)) 2) = Some ((((0%nat, 1%Q) :: nil), 1%Q) :: (((0%nat, 3%Q) :: nil), (1 # 3)%Q) :: nil) /\
  vitems (te_secant false (fun _ => 0%Q) (VNom (T := Q) (var_hmap 0)) 2) =
    Some ((((0%nat, 2%Q) :: nil), (1 # 2)%Q) :: (nil, 1%Q) :: (((0%nat, 4%Q) :: nil), (5 # 24)%Q) :: nil).
Proof.
  split; [|vm_compute; repeat split].
  split; [|discriminate]. intros e c [[= <- <-]|[[= <- <-]|[]]]; cbn; lra.
Qed.
