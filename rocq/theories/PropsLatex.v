(** C105: the LaTeX of expressions. *)
From Coq Require Import Reals Lra Permutation.
From Flocq Require Core.
Require Flocq.Prop.Relative.
From Verif Require Import Base HashVec Nomial NomialSem NomialProofs Latex LatexSem LatexProofs.
Open Scope R_scope.

Definition keeps_all {A} (sort : list A -> list A) : Prop := forall l, Permutation (sort l) l.

(** Read as mathematics, the LaTeX of an expression is the expression, with four digits of each coefficient and two of each exponent. *)
Definition C105_reads_for (cond : hmap R -> Prop) : Prop :=
  forall printf sf st h env, prints printf -> keeps_all sf -> keeps_all st -> canonical h -> h <> [] -> cond h -> positive_point env ->
    read env (latex printf sf st h) = Some (eval env (to_digits 4 2 h)).

(** No exponent is so large or so small that it is printed as "1e+02". *)
Definition short_exponents (h : hmap R) : Prop := forall e c k x, In (e, c) h -> e !! k = Some x -> / 10000 <= Rabs (rounded 2 x) < 100.
(** No coefficient of variables with positive exponents that is 1 or -1 to two digits differs from it in the next two. *)
Definition plain_ones (h : hmap R) : Prop := forall e c, In (e, c) h -> (exists k x, e !! k = Some x /\ 0 < x) ->
  Rabs (rounded 2 c) = 1 -> rounded 4 c = rounded 2 c.
Lemma short_fine h : short_exponents h -> forall e c k x, In (e, c) h -> e !! k = Some x -> fine x.
Proof. intros Hs e c k x Hin Hk. right. specialize (Hs e c k x Hin Hk). simpl. lra. Qed.
Theorem C105_reads_partial : C105_reads_for (fun h => short_exponents h /\ plain_ones h).
Proof.
  intros printf sf st h env Hp Hf Ht [_ Hc] Hne [Hs H1] He.
  rewrite (latex_reads printf Hp env He sf Hf st Ht h Hne); [|intros e c Hin; apply (Hc e c Hin)|apply short_fine; auto].
  do 2 f_equal. unfold shown_all, to_digits. apply map_ext_in. intros [e c] Hin. f_equal. unfold shown.
  destruct (has_pos e) eqn:Ep; auto. apply has_pos_iff in Ep. cbn [andb]. destruct (_ || _) eqn:E1; auto. symmetry. apply (H1 e c Hin Ep).
  apply orb_true_iff in E1 as [E1|E1]; apply bool_decide_eq_true in E1; rewrite E1; [apply Rabs_R1|rewrite Rabs_left; lra].
Qed.
Print Assumptions C105_reads_partial.

(** Whatever the coefficients, they are within a twentieth. *)
Theorem C105_coefficients : forall printf sf st h env, prints printf -> keeps_all sf -> keeps_all st -> canonical h -> h <> [] -> short_exponents h -> positive_point env ->
  exists h', read env (latex printf sf st h) = Some (eval env h') /\
    Forall2 (fun t t' => fst t' = rounded 2 <$> fst t /\ Rabs (snd t' - snd t) <= / 20 * Rabs (snd t)) h h'.
Proof.
  intros printf sf st h env Hp Hf Ht [_ Hc] Hne Hs He. exists (shown_all h). split.
  - apply latex_reads; auto; [intros e c Hin; apply (Hc e c Hin)|apply short_fine; auto].
  - assert (A : forall p c, (2 <= p)%nat -> Rabs (rounded p c - c) <= / 20 * Rabs c).
    { intros p c Hp2. unfold rounded. eapply Rle_trans; [apply Relative.relative_error_N_FLX; lia|]. apply Rmult_le_compat_r; [apply Rabs_pos|].
      assert (B : Raux.bpow radix10 (- Z.of_nat p + 1) <= Raux.bpow radix10 (-1)) by (apply Raux.bpow_le; lia). assert (B1 : Raux.bpow radix10 (-1) = / 10) by (simpl; lra). rewrite B1 in B. lra. }
    clear Hne Hs Hc. induction h as [|[e c] h IH]; constructor; auto. cbn [fst snd]. split; auto. unfold shown. destruct (_ && _); apply A; lia.
Qed.
Print Assumptions C105_coefficients.

(** *** A printf, and cases *)
Definition py_printf (p : nat) (x : R) : numeral R :=
  let v := rounded p x in
  if Req_EM_T v 0 then Plain v
  else if Rle_dec (/ 10000) (Rabs v) then if Rlt_dec (Rabs v) (powerRZ 10 (Z.of_nat p)) then Plain v
    else let k := (Raux.mag_val radix10 v (Raux.mag radix10 v) - 1)%Z in Sci (v * Raux.bpow radix10 (- k)) k
  else let k := (Raux.mag_val radix10 v (Raux.mag radix10 v) - 1)%Z in Sci (v * Raux.bpow radix10 (- k)) k.
Lemma bpow10 z : Raux.bpow radix10 z = powerRZ 10 z.
Proof. apply (Raux.bpow_powerRZ radix10). Qed.
Lemma sci_number v k : v * Raux.bpow radix10 (- k) * powerRZ 10 k = v.
Proof. rewrite <- bpow10, Rmult_assoc, <- Raux.bpow_plus. replace (- k + k)%Z with 0%Z by lia. simpl. lra. Qed.
Lemma sci_mantissa v : v <> 0 -> 1 <= Rabs (v * Raux.bpow radix10 (- (Raux.mag_val radix10 v (Raux.mag radix10 v) - 1))) < 10.
Proof.
  intros Hv. rewrite Rabs_mult, (Rabs_right (Raux.bpow _ _)) by (apply Rle_ge, Raux.bpow_ge_0). destruct (Raux.mag radix10 v) as [k Hk]. cbn [Raux.mag_val].
  specialize (Hk Hv). assert (P := Raux.bpow_gt_0 radix10 (- (k - 1))). split.
  - replace 1 with (Raux.bpow radix10 (k - 1) * Raux.bpow radix10 (- (k - 1))); [apply Rmult_le_compat_r; lra|].
    rewrite <- Raux.bpow_plus. replace (k - 1 + - (k - 1))%Z with 0%Z by lia. reflexivity.
  - replace 10 with (Raux.bpow radix10 k * Raux.bpow radix10 (- (k - 1))); [apply Rmult_lt_compat_r; lra|].
    rewrite <- Raux.bpow_plus. replace (k + - (k - 1))%Z with 1%Z by lia. simpl. lra.
Qed.
Lemma py_printf_prints : prints py_printf.
Proof.
  intros p x Hp. unfold py_printf, short. set (v := rounded p x). destruct (Req_EM_T v 0) as [->|Hv].
  - split; auto. split; [eauto|]. intros N. exfalso. auto.
  - destruct (Rle_dec _ _); [destruct (Rlt_dec _ _)|].
    + split; auto. split; [eauto|]. intros N. exfalso. auto.
    + split; [apply sci_number|]. split; [intros [E|E]; exfalso; auto; lra|]. intros _. do 2 eexists. split; [reflexivity|apply sci_mantissa; auto].
    + split; [apply sci_number|]. split; [intros [E|E]; exfalso; auto; lra|]. intros _. do 2 eexists. split; [reflexivity|apply sci_mantissa; auto].
Qed.
Lemma rounded_is p x e m : powerRZ 10 (e - 1) <= Rabs x < powerRZ 10 e -> Rabs (x * powerRZ 10 (Z.of_nat p - e) - IZR m) < / 2 ->
  rounded p x = IZR m * powerRZ 10 (e - Z.of_nat p).
Proof.
  rewrite <- !bpow10. intros He Hm. unfold rounded, Generic_fmt.round, Generic_fmt.scaled_mantissa, Generic_fmt.cexp, FLX.FLX_exp, Defs.F2R. cbn [Defs.Fnum Defs.Fexp].
  rewrite (Raux.mag_unique radix10 x e He). replace (- (e - Z.of_nat p))%Z with (Z.of_nat p - e)%Z by lia. rewrite (Generic_fmt.Znearest_imp _ _ m Hm). auto.
Qed.
Ltac round_it e m := erewrite (rounded_is _ _ e m); [|rewrite Rabs_right by lra; simpl; lra|apply Rabs_def1; simpl; lra].
Lemma round_104 : rounded 2 (104 / 100) = 1 /\ rounded 4 (104 / 100) = 104 / 100.
Proof. split; [round_it 1%Z 10%Z|round_it 1%Z 1040%Z]; simpl; lra. Qed.
Lemma round_100 : rounded 2 100 = 100.
Proof. round_it 3%Z 10%Z; simpl; lra. Qed.
Lemma round_3 : rounded 2 3 = 3 /\ rounded 4 3 = 3.
Proof. split; [round_it 1%Z 30%Z|round_it 1%Z 3000%Z]; simpl; lra. Qed.
Lemma round_1 : rounded 2 1 = 1.
Proof. round_it 1%Z 10%Z; simpl; lra. Qed.
Lemma round_half : rounded 2 (- (1 / 2)) = - (1 / 2).
Proof. rewrite rounded_opp. f_equal. round_it 0%Z 50%Z; simpl; lra. Qed.

Lemma id_keeps {A} : keeps_all (fun l : list A => l).
Proof. intros l. auto. Qed.
Lemma mono_canonical (e : expv R) c : exp_canon e -> c <> 0 -> canonical [(e, c)].
Proof. intros He Hc. split; [apply NoDup_singleton|]. intros e' c' [[= <- <-]|[]]. auto. Qed.
Lemma single_canon k x : x <> 0 -> exp_canon {[k := x]}.
Proof. intros Hx j y Hj. apply lookup_singleton_Some in Hj as [_ <-]. auto. Qed.

(** 3 x / sqrt(y) + 1.04 / y *)
Definition ex_latex : hmap R := [({[1%nat := 1; 2%nat := - (1 / 2)]}, 3); ({[2%nat := - (1 / 2)]}, 104 / 100)].
Example C105_reads_nonvacuous env : positive_point env ->
  read env (latex py_printf (fun l => l) (@rev _) ex_latex) = Some (eval env ex_latex).
Proof.
  destruct round_3 as [R32 R34]. destruct round_104 as [R2 R4]. intros He.
  assert (K : forall k x, ({[1%nat := 1; 2%nat := - (1 / 2)]} : expv R) !! k = Some x -> x = 1 \/ x = - (1 / 2)).
  { intros k x Hk. apply lookup_insert_Some in Hk as [[_ <-]|[_ Hk]]; auto. apply lookup_singleton_Some in Hk as [_ <-]. auto. }
  assert (L : forall k x, ({[2%nat := - (1 / 2)]} : expv R) !! k = Some x -> x = - (1 / 2)) by (intros k x Hk; apply lookup_singleton_Some in Hk as [_ <-]; auto).
  rewrite C105_reads_partial; auto using py_printf_prints, @id_keeps.
  - do 2 f_equal. unfold to_digits, ex_latex. cbn [map]. rewrite R34, R4. rewrite fmap_insert, !map_fmap_singleton, round_1, round_half. auto.
  - intros l. symmetry. apply Permutation_rev.
  - split.
    + cbn [ex_latex dkeys map fst]. constructor; [|apply NoDup_singleton]. intros Hin. apply elem_of_list_singleton in Hin.
      apply (f_equal (fun e : expv R => e !! 1%nat)) in Hin. rewrite lookup_insert, lookup_singleton_ne in Hin by auto. discriminate.
    + intros e c [[= <- <-]|[[= <- <-]|[]]]; (split; [|lra]).
      * intros k x Hk. destruct (K k x Hk) as [->| ->]; lra.
      * intros k x Hk. rewrite (L k x Hk). lra.
  - split.
    + intros e c k x Hin Hk. assert (x = 1 \/ x = - (1 / 2)) as [->| ->] by (destruct Hin as [[= <- _]|[[= <- _]|[]]]; eauto).
      * rewrite round_1, Rabs_R1. lra.
      * rewrite round_half, Rabs_Ropp, Rabs_right by lra. lra.
    + intros e c [[= <- <-]|[[= <- <-]|[]]] Hp.
      * rewrite R32, R34. auto.
      * destruct Hp as (k & x & Hk & Hx). rewrite (L k x Hk) in Hx. lra.
Qed.

(** The LaTeX of 1.04 x is that of x. *)
Theorem C105_ones_refuted : ~ C105_reads_for short_exponents.
Proof.
  intros C. set (h := [({[1%nat := 1]}, 104 / 100)] : hmap R). destruct round_104 as [R2 R4].
  assert (Hc : canonical h) by (apply mono_canonical; [apply single_canon|]; lra).
  assert (Hs : short_exponents h).
  { intros e c k x [[= <- <-]|[]] Hk. apply lookup_singleton_Some in Hk as [_ <-]. rewrite round_1, Rabs_R1. lra. }
  assert (He : positive_point (fun _ => 1)) by (intros v; lra).
  specialize (C py_printf (fun l => l) (fun l => l) h (fun _ => 1) py_printf_prints id_keeps id_keeps Hc ltac:(discriminate) Hs He).
  rewrite (latex_reads py_printf py_printf_prints (fun _ => 1) He _ id_keeps _ id_keeps h ltac:(discriminate)) in C; [|intros e c Hin; apply Hc in Hin; apply Hin|apply short_fine; auto].
  injection C as C. unfold h, shown_all, to_digits in C. cbn [map eval] in C. rewrite !map_fmap_singleton in C.
  replace (shown _ _) with 1 in C.
  - rewrite R4, round_1, mono_val_singleton in C by lra. lra.
  - unfold shown. replace (has_pos _) with true; [rewrite R2, bool_decide_eq_true_2 by auto; auto|]. symmetry. apply has_pos_iff. exists 1%nat, 1. split; [apply lookup_singleton|lra].
Qed.
Print Assumptions C105_ones_refuted.
(** That of 3 x^100 has "1e+02" as exponent. *)
Theorem C105_exponents_refuted : ~ C105_reads_for plain_ones.
Proof.
  intros C. set (h := [({[1%nat := 100]}, 3)] : hmap R). destruct round_3 as [R32 R34].
  assert (Hc : canonical h) by (apply mono_canonical; [apply single_canon|]; lra).
  assert (Hs : plain_ones h). { intros e c [[= <- <-]|[]] _ _. rewrite R32, R34. auto. }
  assert (He : positive_point (fun _ => 1)) by (intros v; lra).
  specialize (C py_printf (fun l => l) (fun l => l) h (fun _ => 1) py_printf_prints id_keeps id_keeps Hc ltac:(discriminate) Hs He).
  assert (P : pos_vars ({[1%nat := 100]} : expv R) = [(1%nat, 100)]).
  { unfold pos_vars. rewrite map_to_list_singleton. cbn [List.filter snd]. unfold is_pos. change (nltb n0 100) with (Rltb 0 100). unfold Rltb. destruct (Rlt_dec 0 100); auto. lra. }
  assert (N : neg_vars ({[1%nat := 100]} : expv R) = []).
  { unfold neg_vars. rewrite map_to_list_singleton. cbn [List.filter snd]. unfold is_neg. change (nltb 100 n0) with (Rltb 100 0). unfold Rltb. destruct (Rlt_dec 100 0); auto. lra. }
  unfold latex, h in C. cbn [map join_terms] in C. rewrite P, N in C. unfold term_latex in C. cbn [map join_factors factor] in C.
  destruct (py_printf_prints 2%nat 100 two_pos) as (_ & _ & H2). destruct H2 as (m & z & H2 & _).
  { rewrite round_100. intros [E|E]; [lra|]. rewrite Rabs_right in E by lra. simpl in E. lra. }
  rewrite H2 in C. cbn [is_digits join_factors] in C. unfold coefficient_text in C. cbn [andb] in C.
  destruct (short_one 2 two_pos) as [S1 S2].
  destruct (is_digits (py_printf 2 3) n1) eqn:D1; [apply (is_digits_iff _ py_printf_prints 2 3 1 two_pos S1) in D1; lra|].
  destruct (is_digits (py_printf 2 3) (nopp n1)) eqn:D2; [apply (is_digits_iff _ py_printf_prints 2 3 (-1) two_pos S2) in D2; lra|].
  destruct (py_printf 4 3); cbn in C; discriminate.
Qed.
Print Assumptions C105_exponents_refuted.
