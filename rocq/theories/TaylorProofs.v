(** Taylor polynomials: the derivatives of tangent and secant, and what the loops of Taylor.v evaluate to. *)
From Verif Require Import Base HashVec Nomial NomialSem NomialProofs CanonProofs Taylor.
From Coquelicot Require Import Coquelicot.
Open Scope R_scope.

(** ** Polynomials with integer coefficients, lowest first *)
Definition peval (p : list Z) (t : R) : R := fold_right (fun a acc => IZR a + t * acc) 0 p.
Fixpoint padd (p q : list Z) : list Z :=
  match p, q with [], _ => q | _, [] => p | a :: p', b :: q' => (a + b)%Z :: padd p' q' end.
Definition pX (p : list Z) : list Z := 0%Z :: p.
Fixpoint pder_from (n : Z) (p : list Z) : list Z := match p with [] => [] | a :: p' => (n * a)%Z :: pder_from (n + 1) p' end.
Definition pder (p : list Z) : list Z := match p with [] => [] | _ :: p' => pder_from 1 p' end.
Definition pone (p : list Z) : list Z := padd p (pX (pX p)).   (* (1 + t^2) p *)

Lemma peval_add p q t : peval (padd p q) t = peval p t + peval q t.
Proof. revert q. induction p as [|a p IH]; intros [|b q]; simpl; try lra. rewrite IH, plus_IZR. lra. Qed.
Lemma peval_X p t : peval (pX p) t = t * peval p t.
Proof. simpl. lra. Qed.
Lemma peval_one p t : peval (pone p) t = (1 + t * t) * peval p t.
Proof. unfold pone. rewrite peval_add, !peval_X. lra. Qed.
Lemma peval_0 p : peval p 0 = IZR (hd 0%Z p).
Proof. destruct p; simpl; lra. Qed.

Lemma pder_from_eval n p t : peval (pder_from (n + 1) p) t = peval (pder_from n p) t + peval p t.
Proof. revert n. induction p as [|a p IH]; intros n; simpl; [lra|]. rewrite IH, !mult_IZR, plus_IZR. lra. Qed.
Lemma peval_derive p t : is_derive (peval p) t (peval (pder p) t).
Proof.
  induction p as [|a p IH].
  - apply (is_derive_ext (fun _ => 0)); [reflexivity|]. simpl. apply @is_derive_const.
  - apply (is_derive_ext (fun x => IZR a + x * peval p x)); [reflexivity|].
    assert (E : peval (pder (a :: p)) t = peval p t + t * peval (pder p) t).
    { unfold pder at 1. destruct p as [|b p]; [simpl; lra|]. cbn [pder]. change (pder_from 1 (b :: p)) with ((1 * b)%Z :: pder_from (1 + 1) p).
      cbn [peval fold_right]. fold (peval p t) (peval (pder_from (1 + 1) p) t) (peval (pder_from 1 p) t).
      rewrite pder_from_eval, mult_IZR. lra. }
    rewrite E. evar_last.
    + apply @is_derive_plus; [apply @is_derive_const|]. apply @is_derive_mult; [apply @is_derive_id|exact IH|intros; apply Rmult_comm].
    + unfold plus, mult, zero, one; simpl. unfold plus, mult, zero, one; simpl. lra.
Qed.

(** ** Tangent and secant *)
Lemma cos_locally x : cos x <> 0 -> locally x (fun y => cos y <> 0).
Proof.
  intros Hx. assert (C : continuous cos x) by (apply continuity_pt_filterlim, continuity_cos).
  apply (C (fun z => z <> 0)). apply (open_neq 0). exact Hx.
Qed.
Lemma tan_derive x : cos x <> 0 -> is_derive tan x (1 + tan x * tan x).
Proof.
  intros Hx. apply (is_derive_ext (fun y => sin y / cos y)); [reflexivity|]. auto_derive; [exact Hx|].
  unfold tan. field_simplify; [|exact Hx|exact Hx]. reflexivity.
Qed.
Definition sec (x : R) : R := / cos x.
Lemma sec_derive x : cos x <> 0 -> is_derive sec x (sec x * tan x).
Proof. intros Hx. unfold sec. auto_derive; [exact Hx|]. unfold tan. field. exact Hx. Qed.

(** The [k]th derivative of tangent is a polynomial in tangent; that of secant is secant times one. *)
Fixpoint Pt (k : nat) : list Z := match k with O => 0%Z :: 1%Z :: nil | S k' => pone (pder (Pt k')) end.
Fixpoint Ps (k : nat) : list Z := match k with O => 1%Z :: nil | S k' => let p := Ps k' in padd (pX p) (pone (pder p)) end.

Lemma Pt_derive k x : cos x <> 0 -> is_derive (fun y => peval (Pt k) (tan y)) x (peval (Pt (S k)) (tan x)).
Proof.
  intros Hx. change (Pt (S k)) with (pone (pder (Pt k))). rewrite peval_one. evar_last.
  - apply (is_derive_comp (peval (Pt k)) tan); [apply peval_derive|apply tan_derive; exact Hx].
  - unfold scal; simpl. unfold mult; simpl. ring.
Qed.
Lemma Ps_derive k x : cos x <> 0 -> is_derive (fun y => sec y * peval (Ps k) (tan y)) x (sec x * peval (Ps (S k)) (tan x)).
Proof.
  intros Hx. change (Ps (S k)) with (padd (pX (Ps k)) (pone (pder (Ps k)))). rewrite peval_add, peval_X, peval_one. evar_last.
  - apply @is_derive_mult; [apply sec_derive; exact Hx| |intros; apply Rmult_comm].
    apply (is_derive_comp (peval (Ps k)) tan); [apply peval_derive|apply tan_derive; exact Hx].
  - unfold plus, scal, mult; simpl. unfold plus, scal, mult; simpl. ring.
Qed.

Lemma is_derive_n_of (F : nat -> R -> R) f (good : R -> Prop) :
  (forall x, good x -> locally x good) -> (forall x, f x = F O x) ->
  (forall k x, good x -> is_derive (F k) x (F (S k) x)) ->
  forall k x, good x -> is_derive_n f k x (F k x).
Proof.
  intros Hl H0 HF. assert (E : forall k x, good x -> Derive_n f k x = F k x).
  { induction k as [|k IH]; intros x Hx; [apply H0|]. simpl. rewrite (Derive_ext_loc _ (F k)).
    - apply is_derive_unique. apply HF. exact Hx.
    - specialize (Hl x Hx). eapply filter_imp; [|exact Hl]. intros y Hy. apply IH. exact Hy. }
  intros [|k] x Hx; [apply H0|]. simpl. apply (is_derive_ext_loc (F k)); [|apply HF; exact Hx].
  specialize (Hl x Hx). eapply filter_imp; [|exact Hl]. intros y Hy. symmetry. apply E. exact Hy.
Qed.
Lemma tan_derive_n k : is_derive_n tan k 0 (IZR (hd 0%Z (Pt k))).
Proof.
  rewrite <- peval_0. replace (peval (Pt k) 0) with (peval (Pt k) (tan 0)) by (rewrite tan_0; reflexivity).
  apply (is_derive_n_of (fun k x => peval (Pt k) (tan x)) tan (fun x => cos x <> 0)).
  - apply cos_locally.
  - intros x. simpl. lra.
  - apply Pt_derive.
  - rewrite cos_0. lra.
Qed.
Lemma sec_derive_n k : is_derive_n sec k 0 (IZR (hd 0%Z (Ps k))).
Proof.
  rewrite <- peval_0. replace (peval (Ps k) 0) with (sec 0 * peval (Ps k) (tan 0)) by (rewrite tan_0; unfold sec; rewrite cos_0; lra).
  apply (is_derive_n_of (fun k x => sec x * peval (Ps k) (tan x)) sec (fun x => cos x <> 0)).
  - apply cos_locally.
  - intros x. simpl. lra.
  - apply Ps_derive.
  - rewrite cos_0. lra.
Qed.
Lemma exp_derive_n k : is_derive_n (fun x => exp x - 1) k 0 (match k with O => 0 | _ => 1 end).
Proof.
  replace (match k with O => 0 | _ => 1 end) with ((fun k x => match k with O => exp x - 1 | _ => exp x end) k 0)
    by (cbv beta; rewrite exp_0; destruct k; lra).
  apply (is_derive_n_of (fun k x => match k with O => exp x - 1 | _ => exp x end) (fun x => exp x - 1) (fun _ => True)); auto.
  - intros x _. apply filter_true.
  - intros k0 x _. destruct k0; auto_derive; auto; lra.
Qed.

(** The tables are right. *)
Definition tan_check (i : nat) : bool :=
  match B2n !! (i - 1)%nat with
  | Some (a, b) => ((-1) ^ (Z.of_nat i - 1) * 2 ^ (2 * Z.of_nat i) * (2 ^ (2 * Z.of_nat i) - 1) * a =? hd 0 (Pt (2 * i - 1)) * b * (2 * Z.of_nat i))%Z &&
      (0 <? b)%Z && (hd 0 (Pt (2 * i)) =? 0)%Z && (0 <? (-1) ^ (Z.of_nat i - 1) * a)%Z
  | None => false
  end.
Lemma tan_checked : forallb tan_check (seq 1 15) = true.
Proof. vm_compute. reflexivity. Qed.
Definition sec_check (i : nat) : bool :=
  match E2n !! (i - 1)%nat with
  | Some a => (a =? hd 0 (Ps (2 * i)))%Z && (hd 0 (Ps (2 * i - 1)) =? 0)%Z && (0 <? a)%Z
  | None => false
  end.
Lemma sec_checked : forallb sec_check (seq 1 12) = true.
Proof. vm_compute. reflexivity. Qed.

(** ** The loops *)
Definition tsum (a : nat -> R) (x : R) (n : nat) : R := sum_f_R0 (fun k => a k / INR (fact k) * x ^ k) n.
Lemma powerRZ_nat x n : powerRZ x (Z.of_nat n) = x ^ n.
Proof. rewrite <- pow_powerRZ. reflexivity. Qed.
Lemma fact_Z n : INR (fact n) = IZR (Z.of_nat (fact n)).
Proof. apply INR_IZR_INZ. Qed.
Lemma fact_step_ok n : fact_step (Z.of_nat (fact n)) (S n) = Z.of_nat (fact (S n)).
Proof. unfold fact_step. rewrite <- Nat2Z.inj_mul. f_equal. simpl. lia. Qed.
Lemma fact_step2_ok n : fact_step2 (Z.of_nat (fact (2 * n))) (S n) = Z.of_nat (fact (2 * S n)).
Proof.
  unfold fact_step2. replace (2 * S n)%nat with (S (S (2 * n))) by lia.
  change (fact (S (S (2 * n)))) with ((S (S (2 * n))) * (S (2 * n) * fact (2 * n)))%nat. rewrite !Nat2Z.inj_mul. lia.
Qed.
Lemma fact_nz n : INR (fact n) <> 0.
Proof. apply INR_fact_neq_0. Qed.

Ltac loop_step H :=
  rewrite seq_S, fold_left_app in H; simpl fold_left in H.

Section Loops.
Variable se : bool.
Variable env : point.

Lemma exp_loop p n v d :
  fold_left (fun acc i =>
    let! (total, d) := acc in
    let d' := fact_step d i in
    let! p := py_powz se p (Z.of_nat i) in
    let! q := py_div se p (VNum (nofZ d')) in
    let! total' := py_add se total q in
    Ok (total', d')) (seq 1 n) (Ok (VNum (nofZ 0), 1%Z)) = Ok (v, d) ->
  d = Z.of_nat (fact n) /\ val env v = tsum (fun k => match k with O => 0 | _ => 1 end) (val env p) n.
Proof.
  revert v d. induction n as [|n IH]; intros v d Hv.
  - simpl in Hv. injection Hv as <- <-. split; [reflexivity|]. unfold tsum. simpl. lra.
  - rewrite seq_S, fold_left_app in Hv. cbn [fold_left] in Hv. apply rbind_ok in Hv as ([v0 d0] & H0 & Hv). destruct (IH _ _ H0) as [-> E]. cbv zeta in Hv.
    change (1 + n)%nat with (S n) in Hv. rewrite fact_step_ok in Hv.
    apply rbind_ok in Hv as (w & Hw & Hv). apply rbind_ok in Hv as (q & Hq & Hv). apply rbind_ok in Hv as (v' & Hv' & Hv).
    injection Hv as <- <-. split; [reflexivity|].
    rewrite (val_py_add se env _ _ _ Hv'), (val_py_div se env _ _ _ Hq), (val_py_powz se env _ _ _ Hw), E, powerRZ_nat.
    unfold tsum. cbn [sum_f_R0]. cbn [val nofZ R_num]. rewrite <- fact_Z. field. apply fact_nz.
Qed.

Definition sec_coeffs (extend : nat -> R) (k : nat) : R :=
  if Nat.even k then (match k with O => 1 | _ => match E2n !! (Nat.div2 k - 1)%nat with Some z => IZR z | None => extend (Nat.div2 k) end end) else 0.
Lemma tsum_two a x n : tsum a x (2 * S n) = tsum a x (2 * n) + a (S (2 * n)) / INR (fact (S (2 * n))) * x ^ (S (2 * n)) +
  a (2 * S n)%nat / INR (fact (2 * S n)) * x ^ (2 * S n).
Proof. replace (2 * S n)%nat with (S (S (2 * n))) by lia. reflexivity. Qed.
Lemma even_2S n : Nat.even (2 * S n) = true.
Proof. rewrite Nat.even_mul. reflexivity. Qed.
Lemma even_S2 n : Nat.even (S (2 * n)) = false.
Proof. rewrite Nat.even_succ, <- Nat.negb_even, Nat.even_mul. reflexivity. Qed.
Lemma div2_2S n : Nat.div2 (2 * S n) = S n.
Proof. apply Nat.div2_double. Qed.

Lemma sec_loop extend N p n v d : (n <= N)%nat ->
  let E := map nofZ E2n ++ (if Nat.ltb 12 N then map extend (seq 13 (N - 12)) else []) in
  fold_left (fun acc i =>
    let! (total, d) := acc in
    let d' := fact_step2 d i in
    let! p := py_powz se p (2 * Z.of_nat i)%Z in
    let! e := match E !! (i - 1)%nat with Some e => Ok e | None => Err IndexErrorE end in
    let! pe := py_mul se p (VNum e) in
    let! q := py_div se pe (VNum (nofZ d')) in
    let! total' := py_add se total q in
    Ok (total', d')) (seq 1 n) (Ok (VNum (nofZ 1), 1%Z)) = Ok (v, d) ->
  d = Z.of_nat (fact (2 * n)) /\ val env v = tsum (sec_coeffs extend) (val env p) (2 * n).
Proof.
  intros HnN E. revert v d HnN. induction n as [|n IH]; intros v d HnN Hv.
  - simpl in Hv. injection Hv as <- <-. split; [reflexivity|]. unfold tsum. simpl. cbv. lra.
  - rewrite seq_S, fold_left_app in Hv. cbn [fold_left] in Hv. apply rbind_ok in Hv as ([v0 d0] & H0 & Hv).
    destruct (IH _ _ ltac:(lia) H0) as [-> EE]. cbv zeta in Hv.
    change (1 + n)%nat with (S n) in Hv. rewrite fact_step2_ok in Hv.
    apply rbind_ok in Hv as (w & Hw & Hv). apply rbind_ok in Hv as (e & He & Hv). apply rbind_ok in Hv as (pe & Hpe & Hv).
    apply rbind_ok in Hv as (q & Hq & Hv). apply rbind_ok in Hv as (v' & Hv' & Hv).
    injection Hv as <- <-. split; [reflexivity|].
    rewrite (val_py_add se env _ _ _ Hv'), (val_py_div se env _ _ _ Hq), (val_py_mul se env _ _ _ Hpe), (val_py_powz se env _ _ _ Hw), EE.
    replace (2 * Z.of_nat (S n))%Z with (Z.of_nat (2 * S n)) by lia. rewrite powerRZ_nat, tsum_two.
    assert (C1 : sec_coeffs extend (S (2 * n)) = 0) by (unfold sec_coeffs; rewrite even_S2; reflexivity).
    assert (C2 : sec_coeffs extend (2 * S n) = e).
    { unfold sec_coeffs. rewrite even_2S, div2_2S. replace (2 * S n)%nat with (S (S (2 * n))) at 1 by lia. cbv iota beta.
      replace (S n - 1)%nat with n in * by lia.
      destruct (E !! n) as [e'|] eqn:Ee; [|discriminate]. injection He as ->. unfold E in Ee.
      destruct (decide (n < 12)%nat) as [Hn|Hn].
      - rewrite lookup_app_l in Ee by (rewrite map_length; exact Hn).
        assert (Q : map (nofZ : Z -> R) E2n !! n = nofZ <$> E2n !! n) by apply list_lookup_fmap. rewrite Q in Ee.
        destruct (E2n !! n); [|discriminate]. simpl in Ee. congruence.
      - destruct (E2n !! n) eqn:E1; [apply lookup_lt_Some in E1; simpl in E1; lia|].
        rewrite lookup_app_r in Ee by (rewrite map_length; simpl; lia). rewrite map_length in Ee. change (length E2n) with 12%nat in Ee.
        destruct (Nat.ltb_spec 12 N) as [L|L]; [|discriminate].
        assert (Q : map extend (seq 13 (N - 12)) !! (n - 12)%nat = extend <$> seq 13 (N - 12) !! (n - 12)%nat) by apply list_lookup_fmap.
        rewrite Q in Ee. rewrite lookup_seq_lt in Ee by lia. simpl in Ee. injection Ee as <-. f_equal. lia. }
    rewrite C1, C2. cbn [val nofZ R_num]. rewrite <- fact_Z. unfold Rdiv. ring.
Qed.

Definition tan_coeffs (k : nat) : R := IZR (hd 0%Z (Pt k)).
Lemma tan_loop p n v d : (n <= 15)%nat ->
  fold_left (fun acc i =>
    let! (total, d) := acc in
    let d' := fact_step2 d i in
    let! b := match B2n !! (i - 1)%nat with Some b => Ok b | None => Err IndexErrorE end in
    let ints := ((-1) ^ (Z.of_nat i - 1) * 2 ^ (2 * Z.of_nat i) * (2 ^ (2 * Z.of_nat i) - 1))%Z in
    let coef := ndiv (nmul (nofZ ints) (ndiv (nofZ (fst b)) (nofZ (snd b)))) (nofZ d') in
    let! p := py_powz se p (2 * Z.of_nat i - 1)%Z in
    let! q := py_mul se (VNum coef) p in
    let! total' := py_add se total q in
    Ok (total', d')) (seq 1 n) (Ok (VNum (nofZ 0), 1%Z)) = Ok (v, d) ->
  d = Z.of_nat (fact (2 * n)) /\ val env v = tsum tan_coeffs (val env p) (2 * n).
Proof.
  revert v d. induction n as [|n IH]; intros v d Hn Hv.
  - simpl in Hv. injection Hv as <- <-. split; [reflexivity|]. unfold tsum, tan_coeffs. simpl. lra.
  - rewrite seq_S, fold_left_app in Hv. cbn [fold_left] in Hv. apply rbind_ok in Hv as ([v0 d0] & H0 & Hv).
    destruct (IH _ _ ltac:(lia) H0) as [-> EE]. cbv zeta in Hv.
    change (1 + n)%nat with (S n) in Hv. rewrite fact_step2_ok in Hv.
    apply rbind_ok in Hv as (b & Hb & Hv). apply rbind_ok in Hv as (w & Hw & Hv).
    apply rbind_ok in Hv as (q & Hq & Hv). apply rbind_ok in Hv as (v' & Hv' & Hv).
    injection Hv as <- <-. split; [reflexivity|].
    rewrite (val_py_add se env _ _ _ Hv'), (val_py_mul se env _ _ _ Hq), (val_py_powz se env _ _ _ Hw), EE.
    replace (2 * Z.of_nat (S n) - 1)%Z with (Z.of_nat (S (2 * n))) by lia. rewrite powerRZ_nat, tsum_two.
    assert (HC : tan_check (S n) = true) by (apply (proj1 (forallb_forall tan_check (seq 1 15)) tan_checked); apply in_seq; lia).
    unfold tan_check in HC. destruct (B2n !! (S n - 1)%nat) as [[a b0]|] eqn:Eb; [|discriminate].
    injection Hb as <-. cbn [fst snd] in *. rewrite !andb_true_iff in HC. destruct HC as [[[H1 H2] H3] _].
    apply Z.eqb_eq in H1, H3. apply Z.ltb_lt in H2.
    cbn [val nofZ R_num ndiv nmul ninv]. unfold ndiv. cbn [nmul ninv R_num nofZ].
    assert (C2 : tan_coeffs (2 * S n) = 0) by (unfold tan_coeffs; rewrite H3; reflexivity).
    rewrite C2. set (c := ((-1) ^ (Z.of_nat (S n) - 1) * 2 ^ (2 * Z.of_nat (S n)) * (2 ^ (2 * Z.of_nat (S n)) - 1))%Z) in *.
    assert (C1 : IZR c * IZR a = tan_coeffs (S (2 * n)) * IZR b0 * INR (2 * S n)).
    { unfold tan_coeffs. replace (S (2 * n)) with (2 * S n - 1)%nat by lia. rewrite INR_IZR_INZ.
      replace (Z.of_nat (2 * S n)) with (2 * Z.of_nat (S n))%Z by lia. rewrite <- !mult_IZR. f_equal. exact H1. }
    assert (F : IZR (Z.of_nat (fact (2 * S n))) = INR (2 * S n) * INR (fact (S (2 * n)))).
    { rewrite <- fact_Z, <- mult_INR. f_equal. replace (2 * S n)%nat with (S (S (2 * n))) by lia. reflexivity. }
    rewrite F. assert (B0 : IZR b0 <> 0) by (apply IZR_neq; lia). assert (I0 : INR (2 * S n) <> 0) by (apply not_0_INR; lia).
    pose proof (fact_nz (S (2 * n))) as F0. 
    replace (tan_coeffs (S (2 * n))) with (IZR c * IZR a / (IZR b0 * INR (2 * S n))) by (rewrite C1; field; auto). field. pose proof (fact_nz (2 * S n)). auto.
Qed.
End Loops.

Lemma sec_coeffs_ok extend k : (k <= 24)%nat -> sec_coeffs extend k = IZR (hd 0%Z (Ps k)).
Proof.
  intros Hk. unfold sec_coeffs. destruct (Nat.even k) eqn:E.
  - apply Nat.even_spec in E as [i ->]. rewrite Nat.div2_double. destruct i as [|i]; [reflexivity|].
    assert (HC : sec_check (S i) = true) by (apply (proj1 (forallb_forall sec_check (seq 1 12)) sec_checked); apply in_seq; lia).
    unfold sec_check in HC. destruct (E2n !! (S i - 1)%nat) as [a|]; [|discriminate]. rewrite !andb_true_iff in HC. destruct HC as [[H1 _] _].
    apply Z.eqb_eq in H1. rewrite H1. replace (2 * S i)%nat with (S (S (2 * i))) by lia. reflexivity.
  - assert (O : Nat.odd k = true) by (unfold Nat.odd; rewrite E; reflexivity). apply Nat.odd_spec in O as [i ->].
    assert (HC : sec_check (S i) = true) by (apply (proj1 (forallb_forall sec_check (seq 1 12)) sec_checked); apply in_seq; lia).
    unfold sec_check in HC. destruct (E2n !! (S i - 1)%nat) as [a|]; [|discriminate]. rewrite !andb_true_iff in HC. destruct HC as [[_ H2] _].
    apply Z.eqb_eq in H2. replace (2 * i + 1)%nat with (2 * S i - 1)%nat by lia. rewrite H2. reflexivity.
Qed.

(** ** They return *)
Lemma powz_total a z : pos_value a -> (0 < z)%Z -> exists v, py_powz false a z = Ok v /\ pos_value v.
Proof.
  destruct a as [c|h]; cbn [pos_value]; intros Ha Hz; unfold py_powz.
  - unfold num_powz. dcase E; cbn in E; [lra|]. eexists; split; [reflexivity|]. cbn. rewrite Rpow_pos by auto. apply exp_pos.
  - destruct Ha as [Hp Hn]. dcase E.
    + apply classify_CMonomial in E as (e & c & -> & Hc). cbn [mono_pow rbind].
      assert (P : all_positive ((if decide (nofZ z = n0 :> R) then e_empty else exp_mul e (nofZ z), npow c (nofZ z)) :: nil)).
      { intros e' c' [[= <- <-]|[]]. cbn. rewrite Rpow_pos by auto. apply exp_pos. }
      rewrite init_pos by exact P. eexists; split; [reflexivity|]. split; [exact P|discriminate].
    + destruct (Z.ltb_spec z 0); [lia|]. destruct (Z.eqb_spec z 0); [lia|]. apply pow_loop_total; auto. cbn. lra.
Qed.
Lemma div_total a c : pos_value a -> 0 < c -> exists v, py_div false a (VNum c) = Ok v /\ pos_value v.
Proof.
  intros Ha Hc. destruct a as [x|h]; unfold py_div; dcase E; cbn in E; try lra.
  - eexists; split; [reflexivity|]. cbn in *. unfold ndiv. cbn. apply Rmult_lt_0_compat; [exact Ha|apply Rinv_0_lt_compat; exact Hc].
  - apply py_mul_total; [exact Ha|]. cbn. rewrite Rpow_pos by exact Hc. apply exp_pos.
Qed.
Lemma add_total a b : pos_value b -> (a = VNum 0 \/ pos_value a) -> exists v, py_add false a b = Ok v /\ pos_value v.
Proof.
  intros Hb [-> |Ha]; [|apply py_add_total; assumption]. destruct b as [y|h]; cbn [py_add].
  - eexists; split; [reflexivity|]. cbn in *. lra.
  - unfold nom_add_num. dcase E; cbn in E; [|lra]. rewrite init_pos by apply Hb. eexists; split; [reflexivity|]. exact Hb.
Qed.
Lemma fact_pos n : 0 < IZR (Z.of_nat (fact n)).
Proof. rewrite <- fact_Z. apply INR_fact_lt_0. Qed.

Lemma exp_total p n : pos_value p -> exists v, 
  fold_left (fun acc i =>
    let! (total, d) := acc in
    let d' := fact_step d i in
    let! p := py_powz false p (Z.of_nat i) in
    let! q := py_div false p (VNum (nofZ d')) in
    let! total' := py_add false total q in
    Ok (total', d')) (seq 1 n) (Ok (VNum (nofZ 0), 1%Z)) = Ok (v, Z.of_nat (fact n)) /\ (n = 0%nat /\ v = VNum 0 \/ pos_value v).
Proof.
  intros Hp. induction n as [|n (v & H & Hv)]; [eexists; split; [reflexivity|left; auto]|].
  rewrite seq_S, fold_left_app, H. cbn [fold_left rbind]. cbv zeta. change (1 + n)%nat with (S n). rewrite fact_step_ok.
  destruct (powz_total p (Z.of_nat (S n)) Hp ltac:(lia)) as (w & -> & Hw). cbn [rbind].
  destruct (div_total w (@nofZ R R_num (Z.of_nat (fact (S n)))) Hw (fact_pos (S n))) as (q & -> & Hq). cbn [rbind].
  destruct (add_total v q Hq) as (t & -> & Ht); [tauto|]. eexists; split; [reflexivity|right; exact Ht].
Qed.
Lemma sec_total extend N p n : (forall k, 0 < extend k) -> pos_value p -> (n <= N)%nat -> 
  let E := map nofZ E2n ++ (if Nat.ltb 12 N then map extend (seq 13 (N - 12)) else []) in exists v,
  fold_left (fun acc i =>
    let! (total, d) := acc in
    let d' := fact_step2 d i in
    let! p := py_powz false p (2 * Z.of_nat i)%Z in
    let! e := match E !! (i - 1)%nat with Some e => Ok e | None => Err IndexErrorE end in
    let! pe := py_mul false p (VNum e) in
    let! q := py_div false pe (VNum (nofZ d')) in
    let! total' := py_add false total q in
    Ok (total', d')) (seq 1 n) (Ok (VNum (nofZ 1), 1%Z)) = Ok (v, Z.of_nat (fact (2 * n))) /\ pos_value v.
Proof.
  intros Hx Hp Hn E. induction n as [|n IH]; [eexists; split; [reflexivity|cbn; lra]|]. destruct IH as (v & H & Hv); [lia|].
  rewrite seq_S, fold_left_app, H. cbn [fold_left rbind]. cbv zeta. change (1 + n)%nat with (S n). rewrite fact_step2_ok.
  destruct (powz_total p (2 * Z.of_nat (S n))%Z Hp ltac:(lia)) as (w & -> & Hw). cbn [rbind].
  assert (HE : exists e, E !! (S n - 1)%nat = Some e /\ 0 < e).
  { replace (S n - 1)%nat with n by lia.
    assert (F : List.Forall (fun e => 0 < e) E).
    { unfold E. apply Forall_app. split.
      - assert (Q : List.Forall (fun z => (0 < z)%Z) E2n) by (unfold E2n; repeat constructor; lia).
        apply Forall_map. eapply Forall_impl; [exact Q|]. intros z Hz. cbn. apply (IZR_lt 0). exact Hz.
      - destruct (Nat.ltb 12 N); [|constructor]. apply Forall_map. apply Forall_true. exact Hx. }
    destruct (lookup_lt_is_Some_2 E n) as [e He].
    - unfold E. rewrite app_length, map_length. change (length E2n) with 12%nat. destruct (Nat.ltb_spec 12 N); [rewrite map_length, seq_length|simpl]; lia.
    - exists e. split; [exact He|]. exact (Forall_lookup_1 _ _ _ _ F He). }
  destruct HE as (e & -> & He). cbn [rbind].
  destruct (py_mul_total w (VNum e) Hw He) as (pe & -> & Hpe). cbn [rbind].
  destruct (div_total pe (@nofZ R R_num (Z.of_nat (fact (2 * S n)))) Hpe (fact_pos (2 * S n))) as (q & -> & Hq). cbn [rbind].
  destruct (add_total v q Hq) as (t & -> & Ht); [auto|]. eexists; split; [reflexivity|exact Ht].
Qed.
Lemma tan_total p n : pos_value p -> (n <= 15)%nat -> exists v,
  fold_left (fun acc i =>
    let! (total, d) := acc in
    let d' := fact_step2 d i in
    let! b := match B2n !! (i - 1)%nat with Some b => Ok b | None => Err IndexErrorE end in
    let ints := ((-1) ^ (Z.of_nat i - 1) * 2 ^ (2 * Z.of_nat i) * (2 ^ (2 * Z.of_nat i) - 1))%Z in
    let coef := ndiv (nmul (nofZ ints) (ndiv (nofZ (fst b)) (nofZ (snd b)))) (nofZ d') in
    let! p := py_powz false p (2 * Z.of_nat i - 1)%Z in
    let! q := py_mul false (VNum coef) p in
    let! total' := py_add false total q in
    Ok (total', d')) (seq 1 n) (Ok (VNum (nofZ 0), 1%Z)) = Ok (v, Z.of_nat (fact (2 * n))) /\ (n = 0%nat /\ v = VNum 0 \/ pos_value v).
Proof.
  intros Hp. induction n as [|n IH]; intros Hn; [eexists; split; [reflexivity|left; auto]|]. destruct IH as (v & H & Hv); [lia|].
  rewrite seq_S, fold_left_app, H. cbn [fold_left rbind]. cbv zeta. change (1 + n)%nat with (S n). rewrite fact_step2_ok.
  assert (HC : tan_check (S n) = true) by (apply (proj1 (forallb_forall tan_check (seq 1 15)) tan_checked); apply in_seq; lia).
  unfold tan_check in HC. destruct (B2n !! (S n - 1)%nat) as [[a b]|] eqn:Eb; [|discriminate].
  rewrite !andb_true_iff in HC. destruct HC as [[[_ H2] _] H4]. apply Z.ltb_lt in H2, H4. cbn [rbind fst snd].
  destruct (powz_total p (2 * Z.of_nat (S n) - 1)%Z Hp ltac:(lia)) as (w & -> & Hw). cbn [rbind].
  match goal with |- context [VNum ?c] => assert (C : 0 < c) end.
  { unfold ndiv. cbn [nmul ninv R_num nofZ]. apply Rmult_lt_0_compat; [|apply Rinv_0_lt_compat, fact_pos].
    rewrite <- Rmult_assoc. apply Rmult_lt_0_compat; [|apply Rinv_0_lt_compat, (IZR_lt 0); exact H2].
    rewrite <- mult_IZR. apply (IZR_lt 0).
    assert (2 <= 2 ^ (2 * Z.of_nat (S n)))%Z by (change 2%Z with (2 ^ 1)%Z at 1; apply Z.pow_le_mono_r; lia). nia. }
  destruct (py_mul_total (VNum _) w C Hw) as (q & -> & Hq). cbn [rbind].
  destruct (add_total v q Hq) as (t & -> & Ht); [tauto|]. eexists; split; [reflexivity|right; exact Ht].
Qed.
Lemma euler_approx_pos n : (0 < n)%nat -> 0 < euler_approx n.
Proof.
  intros Hn. assert (0 < INR n) by (apply lt_0_INR; exact Hn). pose proof PI_RGT_0. pose proof (exp_pos 1).
  unfold euler_approx. apply Rmult_lt_0_compat; [apply Rmult_lt_0_compat; [lra|]|].
  - apply sqrt_lt_R0. apply Rdiv_lt_0_compat; assumption.
  - apply pow_lt. apply Rdiv_lt_0_compat; [lra|]. apply Rmult_lt_0_compat; assumption.
Qed.

(** ** Beyond the table of the secant *)
Lemma e_low : 2.7182 <= exp 1.
Proof.
  assert (X : exp_in 1 (exp 1)) by (unfold exp; destruct (exist_exp 1); assumption).
  pose proof (sum_incr (fun i => / INR (fact i) * 1 ^ i) 8 (exp 1) X) as H.
  eapply Rle_trans; [|apply H].
  - cbn [sum_f_R0]. rewrite !pow1.
    repeat match goal with |- context [INR (fact ?n)] =>
      let z := eval vm_compute in (Z.of_nat (fact n)) in
      replace (INR (fact n)) with (IZR z) by (rewrite INR_IZR_INZ; apply f_equal; vm_compute; reflexivity) end. lra.
  - intros n. apply Rmult_le_pos; [left; apply Rinv_0_lt_compat, INR_fact_lt_0|rewrite pow1; lra].
Qed.
Lemma pi_low : 3.1415 <= PI.
Proof. pose proof (proj1 (Machin.PI_2_3_7_ineq 3)) as H. cbv [sum_f_R0 tg_alt Machin.PI_2_3_7_tg Ratan.Ratan_seq Nat.mul Nat.add] in H. simpl in H. lra. Qed.
Lemma euler13 : euler_approx 13 < IZR (hd 0%Z (Ps 26)).
Proof.
  assert (S0 : R_sqrt.sqrt (INR 13 / PI) <= 2.0343).
  { rewrite <- (sqrt_Rsqr 2.0343) by lra. apply sqrt_le_1_alt. unfold Rsqr. pose proof pi_low. pose proof PI_RGT_0.
    apply Rmult_le_reg_r with PI; [lra|]. unfold Rdiv. rewrite Rmult_assoc, Rinv_l by lra. simpl. nra. }
  assert (B : 4 * INR 13 / (PI * exp 1) <= 52 / (3.1415 * 2.7182)).
  { replace (4 * INR 13) with 52 by (simpl; lra). pose proof pi_low. pose proof e_low. unfold Rdiv.
    apply Rmult_le_compat_l; [lra|]. apply Rinv_le_contravar; [lra|]. apply Rmult_le_compat; lra. }
  assert (P0 : 0 <= 4 * INR 13 / (PI * exp 1)).
  { left. pose proof PI_RGT_0. pose proof (exp_pos 1). apply Rdiv_lt_0_compat; [simpl; lra|]. apply Rmult_lt_0_compat; assumption. }
  unfold euler_approx. apply Rle_lt_trans with (8 * 2.0343 * (52 / (3.1415 * 2.7182)) ^ (2 * 13)).
  - apply Rmult_le_compat; [|apply pow_le; exact P0| |apply pow_incr; split; assumption].
    + pose proof (sqrt_pos (INR 13 / PI)). lra.
    + lra.
  - replace (hd 0%Z (Ps 26)) with 4087072509293123892361%Z by (vm_compute; reflexivity).
    replace (52 / (3.1415 * 2.7182)) with (5200000000/853922530) by lra. simpl. lra.
Qed.
