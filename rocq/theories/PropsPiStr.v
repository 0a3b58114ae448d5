(** C113: the text of numbers. *)
From Coq Require Import Reals Machin.
From Flocq Require Import Core Relative.
From Verif Require Import Base LatexSem PiStr.
Open Scope R_scope.

(** *** Specification *)
(** The number that a text stands for *)
Definition read (t : text) : R := match t with Plain v => v | TimesPi v => v * PI | JustPi => PI | PiOver v => PI / v end.
Definition with_pi (t : text) : Prop := match t with Plain _ => False | _ => True end.
(** [y] is [x] to three significant digits: half a unit of the third digit off at most *)
Definition three_digits (x y : R) : Prop := forall e : Z, powerRZ 10 e <= Rabs x < powerRZ 10 (e + 1) -> Rabs (y - x) <= / 2 * powerRZ 10 (e - 2).
(** At most a hundredth of a step of pi/12 above or below the [n]-th *)
Definition near_step (n : Z) (x : R) : Prop := Rabs (x - IZR n * (PI / 12)) <= / 100 * (PI / 12).

(** *** Rounding *)
Lemma pi_bound : 3133 / 1000 < PI.
Proof.
  assert (H := PI_2_3_7_ineq 0). destruct H as [H _]. unfold sum_f_R0, tg_alt, PI_2_3_7_tg, Ratan_seq in H. simpl in H. lra.
Qed.
Lemma bpow_powerRZ e : bpow radix10 e = powerRZ 10 e.
Proof. rewrite bpow_powerRZ. reflexivity. Qed.
Lemma rounded_at e x : powerRZ 10 e <= Rabs x < powerRZ 10 (e + 1) -> rounded 3 x = IZR (ZnearestE (x * powerRZ 10 (2 - e))) * powerRZ 10 (e - 2).
Proof.
  intros H. unfold rounded, round, F2R, scaled_mantissa, cexp, FLX_exp. cbn [Fnum Fexp].
  rewrite (mag_unique radix10 x (e + 1)) by (rewrite !bpow_powerRZ; replace (e + 1 - 1)%Z with e by lia; auto). rewrite !bpow_powerRZ.
  replace (- (e + 1 - Z.of_nat 3))%Z with (2 - e)%Z by lia. replace (e + 1 - Z.of_nat 3)%Z with (e - 2)%Z by lia. auto.
Qed.
Lemma rounded_error e x : powerRZ 10 e <= Rabs x < powerRZ 10 (e + 1) -> Rabs (rounded 3 x - x) <= / 2 * powerRZ 10 (e - 2).
Proof.
  intros H. rewrite (rounded_at e x H). assert (Hk := Znearest_half (fun n => negb (Z.even n)) (x * powerRZ 10 (2 - e))).
  change (Znearest (fun n => negb (Z.even n))) with ZnearestE in Hk. set (k := ZnearestE (x * powerRZ 10 (2 - e))) in *.
  assert (Hp : 0 < powerRZ 10 (e - 2)) by (apply powerRZ_lt; lra).
  assert (E : powerRZ 10 (2 - e) * powerRZ 10 (e - 2) = 1) by (rewrite <- powerRZ_add by lra; replace (2 - e + (e - 2))%Z with 0%Z by lia; auto).
  replace (IZR k * powerRZ 10 (e - 2) - x) with (- ((x * powerRZ 10 (2 - e) - IZR k) * powerRZ 10 (e - 2))) by (rewrite <- (Rmult_1_r x) at 2; rewrite <- E; ring).
  rewrite Rabs_Ropp, Rabs_mult, (Rabs_pos_eq (powerRZ 10 (e - 2))) by (left; exact Hp). apply Rmult_le_compat_r; [left; exact Hp|exact Hk].
Qed.
Lemma rounded_rel x : Rabs (rounded 3 x - x) <= / 200 * Rabs x.
Proof.
  assert (H := relative_error_N_FLX radix10 3 ltac:(lia) (fun n => negb (Z.even n)) x).
  assert (E : / 2 * bpow radix10 (- (3) + 1) = / 200) by (rewrite bpow_powerRZ; simpl; field). rewrite E in H. exact H.
Qed.
Lemma rounded_small n x : 1 <= x < 10 -> Rabs (x * 100 - IZR n) < / 2 -> rounded 3 x = IZR n / 100.
Proof.
  intros H Hn. rewrite (rounded_at 0) by (simpl; rewrite Rabs_pos_eq; lra). replace (x * powerRZ 10 (2 - 0)) with (x * 100) by (simpl; lra).
  rewrite (Znearest_imp _ _ n Hn). simpl. field.
Qed.
Lemma rounded_tens n x : 10 <= x < 100 -> Rabs (x * 10 - IZR n) < / 2 -> rounded 3 x = IZR n / 10.
Proof.
  intros H Hn. rewrite (rounded_at 1) by (simpl; rewrite Rabs_pos_eq; lra). replace (x * powerRZ 10 (2 - 1)) with (x * 10) by (simpl; lra).
  rewrite (Znearest_imp _ _ n Hn). simpl. field.
Qed.
Lemma mod1_range x : 0 <= mod1 x < 1.
Proof. unfold mod1. assert (H := Zfloor_lb x). assert (H2 := Zfloor_ub x). lra. Qed.
Lemma mod1_at n x : IZR n <= x < IZR n + 1 -> mod1 x = x - IZR n.
Proof. intros H. unfold mod1. rewrite (Zfloor_imp n); auto. rewrite plus_IZR. lra. Qed.

(** *** Properties *)
(** The text of any number, read as a number, is within half a percent of it. *)
Theorem C113_half_percent : forall x, Rabs (read (strify x) - x) <= / 200 * Rabs x.
Proof.
  intros x. assert (Hpi := pi_bound). unfold strify. destruct (Rlt_dec (PI / 12) x) as [H1|]; [|apply rounded_rel]. destruct (Rlt_dec x (100 * PI)) as [H2|]; [|apply rounded_rel].
  destruct (Rle_dec (Rabs (mod1 (12 * x / PI))) (1 / 100)) as [H3|]; [|apply rounded_rel]. destruct (Rlt_dec (31 / 10) x) as [H4|H4]; cbn zeta.
  - assert (E : forall v, v = rounded 3 (x / PI) -> Rabs (v * PI - x) <= / 200 * Rabs x).
    { intros v ->. assert (H := rounded_rel (x / PI)). replace (rounded 3 (x / PI) * PI - x) with ((rounded 3 (x / PI) - x / PI) * PI) by (field; lra).
      rewrite Rabs_mult, (Rabs_pos_eq PI) by lra. replace (Rabs x) with (Rabs (x / PI) * PI) by (rewrite <- (Rabs_pos_eq PI) at 2 by lra; rewrite <- Rabs_mult; f_equal; field; lra).
      rewrite <- Rmult_assoc. apply Rmult_le_compat_r; lra. }
    destruct (Req_EM_T (rounded 3 (x / PI)) 1) as [E1|]; cbn [read]; [|apply E; auto]. replace PI with (1 * PI) at 1 by lra. apply E. auto.
  - cbn [read]. set (y := PI / x). assert (Hx : 0 < x) by lra.
    assert (Hy : 101 / 100 <= y <= 12).
    { unfold y. split; apply (Rmult_le_reg_r x); auto; replace (PI / x * x) with PI by (field; lra); lra. }
    assert (Ey : 12 * x / PI = 12 / y) by (unfold y; field; lra). rewrite Ey in H3.
    assert (Exy : x = PI / y) by (unfold y; field; lra).
    assert (Hr : Rabs (rounded 3 y - y) <= / 201 * y).
    { destruct (Rlt_dec y 10) as [H|H].
      - assert (Hr := rounded_error 0 y ltac:(simpl; rewrite Rabs_pos_eq; lra)). simpl in Hr. lra.
      - assert (Hr := rounded_error 1 y ltac:(simpl; rewrite Rabs_pos_eq; lra)). simpl in Hr.
        assert (Hd : 12 / y <= 12 / 10) by (apply Rmult_le_compat_l; [lra|]; apply Rinv_le_contravar; lra).
        assert (Hd1 : 1 <= 12 / y) by (apply (Rmult_le_reg_r y); [lra|]; replace (12 / y * y) with 12 by (field; lra); lra).
        rewrite (mod1_at 1) in H3 by lra. rewrite Rabs_pos_eq in H3 by lra.
        assert (Hy2 : 12 <= 101 / 100 * y) by (apply (Rmult_le_reg_r (/ y)); [apply Rinv_0_lt_compat; lra|]; replace (101 / 100 * y * / y) with (101 / 100) by (field; lra); change (12 * / y) with (12 / y); lra).
        lra. }
    set (v := rounded 3 y) in *. apply Rabs_le_inv in Hr. rewrite Exy. rewrite (Rabs_pos_eq (PI / y)) by (rewrite <- Exy; lra).
    assert (Hv : 200 / 201 * y <= v <= 202 / 201 * y) by lra. assert (Hv0 : 0 < v) by lra.
    replace (PI / v - PI / y) with (PI * (y - v) * / (v * y)) by (field; lra).
    replace (/ 200 * (PI / y)) with (PI * (v / 200) * / (v * y)) by (field; lra).
    rewrite Rabs_mult, (Rabs_pos_eq (/ (v * y))) by (left; apply Rinv_0_lt_compat; nra). apply Rmult_le_compat_r; [left; apply Rinv_0_lt_compat; nra|].
    rewrite Rabs_mult, (Rabs_pos_eq PI) by lra. apply Rmult_le_compat_l; [lra|]. apply Rabs_le. lra.
Qed.
Print Assumptions C113_half_percent.

Lemma strify_pi n x : PI / 12 < x -> x < 100 * PI -> IZR n <= 12 * x / PI <= IZR n + 1 / 100 ->
  strify x = if Rlt_dec (31 / 10) x then if Req_EM_T (rounded 3 (x / PI)) 1 then JustPi else TimesPi (rounded 3 (x / PI)) else PiOver (rounded 3 (PI / x)).
Proof.
  intros H1 H2 H3. unfold strify. destruct (Rlt_dec (PI / 12) x); [|lra]. destruct (Rlt_dec x (100 * PI)); [|lra].
  rewrite (mod1_at n) by lra. rewrite Rabs_pos_eq by lra. destruct (Rle_dec (12 * x / PI - IZR n) (1 / 100)); [reflexivity|lra].
Qed.
(** Whole multiples of pi below a hundred are printed as such, without loss. *)
Theorem C113_multiples : forall k, (1 <= k <= 99)%Z -> strify (IZR k * PI) = if Z.eqb k 1 then JustPi else TimesPi (IZR k).
Proof.
  intros k Hk. assert (Hpi := pi_bound). assert (K1 : 1 <= IZR k) by (apply IZR_le; lia). assert (K2 : IZR k <= 99) by (apply IZR_le; lia).
  rewrite (strify_pi (12 * k)); [|nra|nra|rewrite mult_IZR; replace (12 * (IZR k * PI) / PI) with (12 * IZR k) by (field; lra); lra].
  destruct (Rlt_dec (31 / 10) (IZR k * PI)); [|nra]. replace (IZR k * PI / PI) with (IZR k) by (field; lra).
  assert (E : rounded 3 (IZR k) = IZR k).
  { destruct (Z_lt_le_dec k 10) as [H|H].
    - assert (IZR k < 10) by (apply IZR_lt; auto). rewrite (rounded_small (k * 100)); [rewrite mult_IZR; field|lra|]. rewrite mult_IZR, Rminus_diag_eq, Rabs_R0 by auto. lra.
    - assert (10 <= IZR k) by (apply IZR_le; auto). rewrite (rounded_tens (k * 10)); [rewrite mult_IZR; field|lra|]. rewrite mult_IZR, Rminus_diag_eq, Rabs_R0 by auto. lra. }
  rewrite E. destruct (Z.eqb_spec k 1) as [->|Hne]; destruct (Req_EM_T _ 1) as [E1|E1]; auto; [lra|]. apply eq_IZR in E1. lia.
Qed.
Print Assumptions C113_multiples.
(** So are the halves, thirds, quarters and sixths of pi. *)
Theorem C113_divisions : forall d, In d [2; 3; 4; 6]%Z -> strify (PI / IZR d) = PiOver (IZR d).
Proof.
  intros d Hd. assert (Hpi := pi_bound). assert (Hp4 := PI_4).
  assert (H : exists q, (q * d = 12)%Z /\ (2 <= d <= 6)%Z). { destruct Hd as [<-|[<-|[<-|[<-|[]]]]]; [exists 6%Z|exists 4%Z|exists 3%Z|exists 2%Z]; lia. }
  destruct H as (q & Hq & Hr). assert (D1 : 2 <= IZR d) by (apply IZR_le; lia). assert (D2 : IZR d <= 6) by (apply IZR_le; lia).
  assert (Q : IZR q * IZR d = 12) by (rewrite <- mult_IZR, Hq; auto).
  assert (L : PI / IZR d <= 2). { apply (Rmult_le_reg_r (IZR d)); [lra|]. replace (PI / IZR d * IZR d) with PI by (field; lra). lra. }
  assert (G : PI / 6 <= PI / IZR d). { apply Rmult_le_compat_l; [lra|]. apply Rinv_le_contravar; lra. }
  rewrite (strify_pi q); [|lra|lra|replace (12 * (PI / IZR d) / PI) with (12 / IZR d) by (field; lra); rewrite <- Q; replace (IZR q * IZR d / IZR d) with (IZR q) by (field; lra); lra].
  destruct (Rlt_dec (31 / 10) (PI / IZR d)); [lra|]. f_equal. replace (PI / (PI / IZR d)) with (IZR d) by (field; lra).
  rewrite (rounded_small (d * 100)); [rewrite mult_IZR; field|lra|]. rewrite mult_IZR, Rminus_diag_eq, Rabs_R0 by auto. lra.
Qed.
Print Assumptions C113_divisions.

(** The full claim is that texts are right to three digits. Proved for those without pi; the half percent above is what holds for the others. *)
Definition C113_for (cond : R -> Prop) : Prop := forall x, cond x -> three_digits x (read (strify x)).
Theorem C113_digits_partial : C113_for (fun x => ~ with_pi (strify x)).
Proof.
  intros x Hx e He. assert (E : strify x = Plain (rounded 3 x)).
  { unfold strify in *. destruct (Rlt_dec (PI / 12) x); auto. destruct (Rlt_dec x (100 * PI)); auto. destruct (Rle_dec (Rabs (mod1 (12 * x / PI))) (1 / 100)); auto.
    exfalso. apply Hx. destruct (Rlt_dec (31 / 10) x); cbn zeta; [destruct (Req_EM_T (rounded 3 (x / PI)) 1)|]; exact I. }
  rewrite E. cbn [read]. apply rounded_error. auto.
Qed.
Print Assumptions C113_digits_partial.
(** Seventeen twelfths of pi, which are 4.45, are printed as 1.42 pi, which is 4.46. *)
Theorem C113_digits_refuted : ~ C113_for (fun x => True).
Proof.
  intros H. assert (Hpi := pi_bound). assert (Hp4 := PI_4). specialize (H (17 * PI / 12) I).
  assert (E : strify (17 * PI / 12) = TimesPi (142 / 100)).
  { rewrite (strify_pi 17); [|lra|lra|replace (12 * (17 * PI / 12) / PI) with 17 by (field; lra); lra]. destruct (Rlt_dec (31 / 10) (17 * PI / 12)); [|lra].
    replace (17 * PI / 12 / PI) with (17 / 12) by (field; lra). rewrite (rounded_small 142); [|lra|apply Rabs_def1; lra].
    destruct (Req_EM_T (142 / 100) 1); [lra|auto]. }
  rewrite E in H. cbn [read] in H. specialize (H 0%Z). simpl powerRZ in H. rewrite (Rabs_pos_eq (17 * PI / 12)) in H by lra.
  assert (H' : Rabs (142 / 100 * PI - 17 * PI / 12) <= / 2 * / (10 * (10 * 1))) by (apply H; lra). rewrite Rabs_pos_eq in H' by lra. lra.
Qed.
Print Assumptions C113_digits_refuted.

(** Texts have pi only for numbers that are close to a multiple of pi/12. *)
Theorem C113_only_near : forall x, with_pi (strify x) -> PI / 12 < x < 100 * PI /\ exists n, near_step n x.
Proof.
  intros x H. assert (Hpi := pi_bound). unfold strify in H. destruct (Rlt_dec (PI / 12) x); [|contradiction]. destruct (Rlt_dec x (100 * PI)); [|contradiction].
  destruct (Rle_dec (Rabs (mod1 (12 * x / PI))) (1 / 100)) as [H3|]; [|contradiction]. split; [lra|]. exists (Zfloor (12 * x / PI)). unfold near_step.
  unfold mod1 in H3. set (n := IZR (Zfloor (12 * x / PI))) in *. replace (x - n * (PI / 12)) with ((12 * x / PI - n) * (PI / 12)) by (field; lra).
  rewrite Rabs_mult, (Rabs_pos_eq (PI / 12)) by lra. apply Rmult_le_compat_r; lra.
Qed.
Print Assumptions C113_only_near.
(** Conversely those that are close and above have pi. *)
Definition C113_near_for (cond : Z -> R -> Prop) : Prop := forall n x, PI / 12 < x < 100 * PI -> near_step n x -> cond n x -> with_pi (strify x).
Theorem C113_near_partial : C113_near_for (fun n x => IZR n * (PI / 12) <= x).
Proof.
  intros n x Hx Hn Hc. assert (Hpi := pi_bound). unfold near_step in Hn. rewrite Rabs_pos_eq in Hn by lra.
  assert (E : 12 * x / PI = x * / (PI / 12)) by (field; lra). assert (Hi : 0 < / (PI / 12)) by (apply Rinv_0_lt_compat; lra).
  rewrite (strify_pi n); [|lra|lra|].
  - destruct (Rlt_dec (31 / 10) x); [destruct (Req_EM_T (rounded 3 (x / PI)) 1)|]; exact I.
  - rewrite E. split; apply (Rmult_le_reg_r (PI / 12)); try lra; rewrite Rmult_assoc, Rinv_l by lra; lra.
Qed.
Print Assumptions C113_near_partial.
(** A number just below three pi is printed as 9.42. *)
Theorem C113_near_refuted : ~ C113_near_for (fun n x => True).
Proof.
  intros H. assert (Hpi := pi_bound). set (x := 3 * PI - PI / 12000). specialize (H 36%Z x). assert (Hs : ~ with_pi (strify x)).
  { unfold strify. destruct (Rlt_dec (PI / 12) x); [|intros []]. destruct (Rlt_dec x (100 * PI)); [|intros []].
    assert (E : 12 * x / PI = 36 - 1 / 1000) by (unfold x; field; lra). rewrite E, (mod1_at 35) by lra. rewrite Rabs_pos_eq by lra.
    destruct (Rle_dec (36 - 1 / 1000 - 35) (1 / 100)); [lra|intros []]. }
  apply Hs. apply H; auto; unfold x; [lra|]. unfold near_step. rewrite Rabs_left by lra. lra.
Qed.
Print Assumptions C113_near_refuted.
Example C113_met : strify (7 * PI) = TimesPi 7 /\ strify (PI / 3) = PiOver 3 /\ ~ with_pi (strify 0) /\ near_step 36 (3 * PI).
Proof.
  assert (Hpi := pi_bound). split; [apply (C113_multiples 7); lia|]. split; [apply (C113_divisions 3); simpl; auto|].
  split; [unfold strify; destruct (Rlt_dec (PI / 12) 0); [lra|intros []]|]. unfold near_step. rewrite Rminus_diag_eq, Rabs_R0 by lra. lra.
Qed.
