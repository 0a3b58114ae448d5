(** C52: the printed text of an expression (Print.v), read as in PrintSpec.v. *)
From Verif Require Import Base HashVec Nomial NomialSem NomialProofs CanonProofs Print PrintSpec PrintProofs.
Open Scope R_scope.

(** The text says what the expression denotes, whatever (positive) numbers the names stand for. *)
Definition C52_reads_for (d : demands) : Prop :=
  forall P, sane P -> forall se e o, run_obj se e = Ok o -> good P d o ->
  forall rho, (forall t, 0 < rho t) -> reads (p_num P) rho (str P o) (denote (fun x => rho (p_name P x)) e).
(** Expressions with the same text denote the same function. *)
Definition C52_differs_for (d : demands) : Prop :=
  forall P, sane P -> forall se e1 e2 o1 o2, run_obj se e1 = Ok o1 -> run_obj se e2 = Ok o2 -> good P d o1 -> good P d o2 ->
  str P o1 = str P o2 -> forall env, positive_point env -> denote env e1 = denote env e2.

Definition all_demands : demands := Demands true true true true.

Theorem C52_texts_are_read_back_partial : C52_reads_for all_demands.
Proof. intros P HP se e o Ho Hg rho Hrho. exact (reads_run P HP rho Hrho se e o Ho Hg). Qed.
Print Assumptions C52_texts_are_read_back_partial.

Lemma reads_unique num rho s v v' : reads num rho s v -> reads num rho s v' -> v = v'.
Proof.
  intros [n H] [n' H']. specialize (H (Nat.max n n') ltac:(lia)). specialize (H' (Nat.max n n') ltac:(lia)). congruence.
Qed.
Lemma denote_ext (env env' : nat -> R) e : (forall x, env x = env' x) -> denote env e = denote env' e.
Proof. intros H. induction e; cbn [denote]; congruence. Qed.

Theorem C52_texts_differ_partial : C52_differs_for all_demands.
Proof.
  intros P HP se e1 e2 o1 o2 H1 H2 G1 G2 E env Henv.
  pose (rho := fun t => env (p_unname P t)).
  assert (Hrho : forall t, 0 < rho t) by (intros t; apply Henv).
  pose proof (C52_texts_are_read_back_partial P HP se e1 o1 H1 G1 rho Hrho) as R1.
  pose proof (C52_texts_are_read_back_partial P HP se e2 o2 H2 G2 rho Hrho) as R2.
  rewrite <- E in R2. pose proof (reads_unique _ _ _ _ _ R1 R2) as R3.
  assert (Hx : forall x, rho (p_name P x) = env x) by (intros x; unfold rho; destruct HP as [-> _]; reflexivity).
  rewrite (denote_ext _ env e1 Hx), (denote_ext _ env e2 Hx) in R3. exact R3.
Qed.
Print Assumptions C52_texts_differ_partial.

(** The trees do not change what expressions are (Nomial.v). *)
Theorem C52_trees_are_of_the_values : forall se (e : expr R), rmap obj_value (run_obj se e) = run se e.
Proof. exact run_obj_value. Qed.
Print Assumptions C52_trees_are_of_the_values.

(** ** A printer *)
Definition digit (c : R) : text :=
  [if decide (c = 0) then 48%N else if decide (c = 1) then 49%N else if decide (c = 2) then 50%N else 51%N].
Definition toy : printer := {|
  p_name := fun x => repeat 120%N (S x); p_unname := fun t => pred (length t);
  p_fmt := digit; p_xfmt := digit; p_plain := fun _ => [];
  p_num := fun t => match t with [c] => IZR (Z.of_N c - 48) | _ => 0 end |}.
Lemma toy_sane : sane toy.
Proof.
  split; [intros x; cbn; rewrite repeat_length; reflexivity|]. split; [|reflexivity].
  intros x. split; [|split; [reflexivity|discriminate]]. cbn [toy p_name]. generalize (S x). intros n. induction n as [|n IH]; [reflexivity|exact IH].
Qed.

(** Trees of positive expressions *)
Definition okn (e : expr R) (o : obj R) : Prop := run_obj false e = Ok o /\ exists h, obj_value o = VNom h /\ pos_value (VNom h).
Lemma okn_var x : okn (EVar x) (OVar x).
Proof.
  split; [reflexivity|]. eexists; split; [reflexivity|]. split; [|discriminate]. intros e c [[= <- <-]|[]]. cbn. lra.
Qed.
Lemma okn_add a b oa ob : okn a oa -> okn b ob -> exists h, okn (EAdd a b) (OAdd h oa ob).
Proof.
  intros [Ra (ha & Ea & Pa)] [Rb (hb & Eb & Pb)]. destruct (py_add_total _ _ Pa Pb) as (v & Ev & Pv).
  destruct v as [c|h].
  - exfalso. cbn [py_add] in Ev. destruct hb as [|t hb]; [destruct Pb; congruence|]. unfold signomial_init in Ev. destruct (_ && _); discriminate.
  - exists h. split; [|exists h; split; [reflexivity|exact Pv]]. cbn [run_obj]. rewrite Ra, Rb. cbn [rbind]. unfold o_add. rewrite Ea, Eb, Ev. reflexivity.
Qed.
Lemma okn_add_const a c oa : okn a oa -> 0 < c -> exists h, okn (EAdd a (EConst c)) (OAdd h oa (ONum c)).
Proof.
  intros [Ra (ha & Ea & Pa)] Hc. destruct (py_add_total (VNom ha) (VNum c) Pa Hc) as (v & Ev & Pv).
  destruct v as [c'|h].
  - exfalso. cbn [py_add] in Ev. unfold nom_add_num, signomial_init in Ev. destruct (decide _); destruct (_ && _); discriminate.
  - exists h. split; [|exists h; split; [reflexivity|exact Pv]]. cbn [run_obj]. rewrite Ra. cbn [rbind]. unfold o_add. rewrite Ea. cbn [obj_value]. rewrite Ev.
    cbn [with_ast rmap is_zero orb]. rewrite bool_decide_eq_false_2; [reflexivity|]. cbn. lra.
Qed.
Lemma okn_mul a b oa ob : okn a oa -> okn b ob -> exists h, okn (EMul a b) (OMul h oa ob).
Proof.
  intros [Ra (ha & Ea & Pa)] [Rb (hb & Eb & Pb)]. destruct (py_mul_total _ _ Pa Pb) as (v & Ev & Pv).
  destruct v as [c|h].
  - exfalso. cbn [py_mul] in Ev. unfold signomial_init in Ev. destruct (_ && _); discriminate.
  - exists h. split; [|exists h; split; [reflexivity|exact Pv]]. cbn [run_obj]. rewrite Ra, Rb. cbn [rbind]. unfold o_mul. rewrite Ea, Eb, Ev. reflexivity.
Qed.
Lemma okn_const_mul c b ob : 0 < c -> okn b ob -> exists h, okn (EMul (EConst c) b) (OMul h (ONum c) ob).
Proof.
  intros Hc [Rb (hb & Eb & Pb)]. destruct (py_mul_total (VNum c) (VNom hb) Hc Pb) as (v & Ev & Pv).
  destruct v as [c'|h].
  - exfalso. cbn [py_mul] in Ev. destruct (decide _) as [E|_]; [cbn in E; lra|]. unfold signomial_init in Ev. destruct (_ && _); discriminate.
  - exists h. split; [|exists h; split; [reflexivity|exact Pv]]. cbn [run_obj]. rewrite Rb. cbn [rbind]. unfold o_mul. rewrite Eb. cbn [obj_value]. rewrite Ev. reflexivity.
Qed.
Lemma mul_nom (h h' : hmap R) v : py_mul false (VNom h) (VNom h') = Ok v -> exists h'', v = VNom h''.
Proof. cbn [py_mul]. unfold signomial_init. destruct (_ && _); [discriminate|]. intros [= <-]. eauto. Qed.
Lemma okn_pow a oa n : okn a oa -> (2 <= n <= 3)%nat ->
  exists h, okn (EPowZ a (Z.of_nat n)) (OPow h oa (if is_mono oa then nofZ (Z.of_nat n) else nofZ 0)).
Proof.
  intros [Ra (ha & Ea & Pa)] Hn.
  assert (exists h, py_powz false (VNom ha) (Z.of_nat n) = Ok (VNom h) /\ pos_value (VNom h)) as (h & Ev & Pv).
  { unfold py_powz. destruct (decide _) as [E|_].
    - apply classify_CMonomial in E as (e & c & -> & Hc). cbn [mono_pow rbind].
      assert (Hp : forall ee, all_positive [(ee : expv R, npow c (nofZ (Z.of_nat n)))]).
      { intros ee e' c' [[= <- <-]|[]]. cbn. rewrite Rpow_pos by auto. apply exp_pos. }
      rewrite init_pos by apply Hp. eexists; split; [reflexivity|]. split; [apply Hp|discriminate].
    - destruct (Z.ltb_spec (Z.of_nat n) 0); [lia|]. destruct (Z.eqb_spec (Z.of_nat n) 0); [lia|]. rewrite Nat2Z.id.
      destruct (py_mul_total (VNum 1) (VNom ha)) as (v1 & E1 & P1); [cbn; lra|exact Pa|].
      assert (exists h1, v1 = VNom h1) as [h1 ->].
      { cbn [py_mul] in E1. destruct (decide _) as [E|_]; [cbn in E; lra|]. unfold signomial_init in E1. destruct (_ && _); [discriminate|]. injection E1 as <-. eauto. }
      destruct (py_mul_total (VNom h1) (VNom ha) P1 Pa) as (v2 & E2 & P2). destruct (mul_nom _ _ _ E2) as [h2 ->].
      destruct (py_mul_total (VNom h2) (VNom ha) P2 Pa) as (v3 & E3 & P3). destruct (mul_nom _ _ _ E3) as [h3 ->].
      assert (n = 2 \/ n = 3)%nat as [-> | ->] by lia; cbn [pow_loop]; change (VNum n1) with (VNum 1); rewrite E1; cbn [rbind]; rewrite E2; cbn [rbind]; [eauto|].
      rewrite E3. cbn [rbind]. eauto. }
  exists h. split; [|exists h; split; [reflexivity|exact Pv]]. cbn [run_obj]. rewrite Ra. cbn [rbind]. unfold o_powz. rewrite Ea, Ev. reflexivity.
Qed.

(** ** "xxx²·(xx + 2)" *)
Lemma toy_two : exact (p_num toy) (p_fmt toy 2) 2.
Proof.
  left. cbn [toy p_num p_fmt]. unfold digit. rewrite (decide_False (P := 2 = 0)), (decide_False (P := 2 = 1)), decide_True by lra.
  split; [split; reflexivity|reflexivity].
Qed.
Lemma sup2 : superscript (IZR 2) = Some 178%N.
Proof.
  unfold superscript. cbn -[IZR]. rewrite bool_decide_eq_true_2 by reflexivity. reflexivity.
Qed.
Lemma var_mono x : is_mono (OVar x : obj R) = true.
Proof.
  unfold is_mono. cbn [obj_value]. apply bool_decide_eq_true. apply classify_CMonomial. exists {[x := n1]}, n1. split; [reflexivity|]. cbn. lra.
Qed.
Example C52_nonvacuous : let e := EMul (EPowZ (EVar 2) 2) (EAdd (EVar 1) (EConst 2)) in
  exists o, run_obj false e = Ok o /\ good toy all_demands o /\ str toy o = [120; 120; 120; 178; 183; 40; 120; 120; 32; 43; 32; 50; 41]%N.
Proof.
  destruct (okn_pow _ _ 2 (okn_var 2) ltac:(lia)) as [h1 O1]. rewrite var_mono in O1.
  destruct (okn_add_const _ 2 _ (okn_var 1) ltac:(lra)) as [h2 O2].
  destruct (okn_mul _ _ _ _ O1 O2) as [h3 O3]. eexists. split; [apply O3|].
  assert (T2 : str toy (ONum 2) = [50]%N).
  { unfold str. cbn [strify toy p_fmt]. unfold digit. rewrite (decide_False (P := 2 = 0)), (decide_False (P := 2 = 1)), decide_True by lra. reflexivity. }
  assert (T1 : str toy (OPow h1 (OVar 2) (nofZ (Z.of_nat 2))) = [120; 120; 120; 178]%N).
  { unfold str. cbn [strify]. change (superscript (nofZ (Z.of_nat 2))) with (superscript (IZR 2)). rewrite sup2. reflexivity. }
  assert (T3 : str toy (OAdd h2 (OVar 1) (ONum 2)) = [120; 120; 32; 43; 32; 50]%N).
  { unfold str in *. cbn [strify]. cbn [strify] in T2. rewrite T2. reflexivity. }
  split.
  - cbn [good]. split; [split; [exact I|]|].
    + split; [intros _ _; split; intros _; reflexivity|]. split; [intros _; apply var_mono|]. split; [intros _; discriminate|].
      intros _. change (superscript (nofZ (Z.of_nat 2))) with (superscript (IZR 2)). rewrite sup2. discriminate.
    + split; [split; [exact I|intros _; exact toy_two]|]. intros _. rewrite T1, T3. split; [|intros E; discriminate E].
      intros _. split; [intros _; reflexivity|discriminate].
  - unfold str in *. cbn [strify] in *. rewrite T1, T3. reflexivity.
Qed.

(** ** Each demand is needed *)
Lemma xy_not_mono (h : hmap R) : okn (EAdd (EVar 0) (EVar 1)) (OAdd h (OVar 0) (OVar 1)) -> is_mono (OAdd h (OVar 0) (OVar 1)) = false.
Proof.
  intros [H _]. unfold is_mono. cbn [obj_value]. apply bool_decide_eq_false. intros E.
  apply classify_CMonomial in E as (e & c & -> & _).
  assert (Hv : run false (EAdd (EVar 0) (EVar 1)) = Ok (VNom [(e, c)])) by (rewrite <- run_obj_value, H; reflexivity).
  cbn [run rbind] in Hv. cbn [py_add] in Hv. unfold var_hmap at 1 2, signomial_init in Hv. destruct (_ && _ && _); [discriminate|].
  apply (f_equal (fun r => match r with Ok (VNom h) => length h | _ => 0%nat end)) in Hv. revert Hv.
  cbn [rmap rbind].
  assert (Ek : ({[1%nat := n1]} : gmap nat R) <> {[0%nat := n1]}).
  { intros Ek. assert (Hl : ({[0%nat := n1]} : gmap nat R) !! 1%nat = Some n1) by (rewrite <- Ek; apply lookup_singleton).
    rewrite lookup_singleton_ne in Hl by lia. discriminate. }
  assert (E : hv_add (var_hmap 0) (var_hmap 1) = [({[0%nat := n1]}, n1); ({[1%nat := n1]}, n1)] :> hmap R).
  { unfold hv_add, var_hmap. cbn [fold_left]. unfold hv_add_item. cbn [dget]. rewrite decide_False by exact Ek. cbn [dset]. rewrite decide_False by exact Ek. reflexivity. }
  unfold hmap in *. rewrite E. discriminate.
Qed.

(** Powers of posynomials: (x+y)**2 and (x+y)**3 are both printed as "(x + y)^0". *)
Theorem C52_powers_of_posynomials_refuted : ~ C52_differs_for (Demands true false true true).
Proof.
  intros H.
  destruct (okn_add _ _ _ _ (okn_var 0) (okn_var 1)) as [h O1].
  destruct (okn_pow _ _ 2 O1 ltac:(lia)) as [h2 O2]. destruct (okn_pow _ _ 3 O1 ltac:(lia)) as [h3 O3].
  rewrite (xy_not_mono h O1) in O2, O3.
  assert (X0 : exact (p_num toy) (p_xfmt toy 0) 0).
  { left. cbn [toy p_num p_xfmt]. unfold digit. rewrite decide_True by reflexivity. split; [split; reflexivity|reflexivity]. }
  assert (G : forall h', good toy (Demands true false true true) (OPow h' (OAdd h (OVar 0) (OVar 1)) (nofZ 0))).
  { intros h'. cbn [good]. split; [split; exact I|]. split; [intros _ E; discriminate E|]. split; [discriminate|]. split; [intros _; discriminate|].
    intros _ _. exact X0. }
  specialize (H toy toy_sane false _ _ _ _ (proj1 O2) (proj1 O3) (G h2) (G h3) eq_refl (fun _ => 1) ltac:(intros x; lra)).
  cbn [denote] in H. rewrite <- !pow_powerRZ in H. cbn [Rpow_def.pow] in H. lra.
Qed.
Print Assumptions C52_powers_of_posynomials_refuted.

(** Parentheses: ((a+b)*x + (c+d)*y)*z and (a+b)*x + (c+d)*y*z are both printed as "(a + b)·x + (c + d)·y·z". *)
Theorem C52_parentheses_left_out_refuted : ~ C52_differs_for (Demands false true true true).
Proof.
  intros H.
  destruct (okn_add _ _ _ _ (okn_var 0) (okn_var 1)) as [h1 O1]. destruct (okn_add _ _ _ _ (okn_var 2) (okn_var 3)) as [h2 O2].
  destruct (okn_mul _ _ _ _ O1 (okn_var 4)) as [h3 O3]. destruct (okn_mul _ _ _ _ O2 (okn_var 5)) as [h4 O4].
  destruct (okn_add _ _ _ _ O3 O4) as [h5 O5]. destruct (okn_mul _ _ _ _ O5 (okn_var 6)) as [h6 O6].
  destruct (okn_mul _ _ _ _ O4 (okn_var 6)) as [h7 O7]. destruct (okn_add _ _ _ _ O3 O7) as [h8 O8].
  specialize (H toy toy_sane false _ _ _ _ (proj1 O6) (proj1 O8)).
  specialize (H ltac:(cbn; intuition congruence) ltac:(cbn; intuition congruence) eq_refl).
  specialize (H (fun x => if Nat.eqb x 6 then 2 else 1) ltac:(intros x; destruct (Nat.eqb x 6); lra)). cbn in H. lra.
Qed.
Print Assumptions C52_parentheses_left_out_refuted.

(** Numbers: wherever two numbers have the same text, as 1.0001 and 1.0002 have with three digits. *)
Theorem C52_rounded_numbers_refuted : forall P c c', sane P -> 0 < c -> 0 < c' -> c <> c' -> p_fmt P c = p_fmt P c' ->
  (trusted (p_fmt P c) true false /\ trusted (p_name P 0) true false) -> ~ C52_differs_for (Demands true true true false).
Proof.
  intros P c c' HP Hc Hc' Hne Ef Ht H.
  destruct (okn_const_mul c _ _ Hc (okn_var 0)) as [h1 O1]. destruct (okn_const_mul c' _ _ Hc' (okn_var 0)) as [h2 O2].
  specialize (H P HP false _ _ _ _ (proj1 O1) (proj1 O2)).
  assert (G1 : good P (Demands true true true false) (OMul h1 (ONum c) (OVar 0))).
  { cbn [good]. split; [discriminate|]. split; [exact I|]. intros _. exact Ht. }
  assert (G2 : good P (Demands true true true false) (OMul h2 (ONum c') (OVar 0))).
  { cbn [good]. split; [discriminate|]. split; [exact I|]. intros _. unfold str. cbn [strify]. rewrite <- Ef. exact Ht. }
  specialize (H G1 G2 ltac:(unfold str; cbn [strify]; rewrite Ef; reflexivity) (fun _ => 1) ltac:(intros x; lra)).
  cbn in H. lra.
Qed.
Print Assumptions C52_rounded_numbers_refuted.
Example C52_rounded_nonvacuous : p_fmt toy 3 = p_fmt toy 4 /\ trusted (p_fmt toy 3) true false /\ trusted (p_name toy 0) true false.
Proof.
  assert (E : forall c, 3 <= c -> p_fmt toy c = [51%N]).
  { intros c Hc. cbn [toy p_fmt]. unfold digit. rewrite (decide_False (P := c = 0)), (decide_False (P := c = 1)), (decide_False (P := c = 2)) by lra. reflexivity. }
  rewrite !E by lra. repeat split; reflexivity || discriminate.
Qed.

(** Signs: (-(-x - x))**2 is 4x², and is printed as "-(-x - x)²", which says -4x². *)
Lemma neg_x : py_neg true (VNom (var_hmap 0) : value R) = Ok (VNom [({[0%nat := 1]}, 1 * - 1)]).
Proof. cbn [py_neg py_mul]. rewrite decide_False by (cbn; lra). unfold signomial_init. rewrite andb_false_r. reflexivity. Qed.
Theorem C52_signs_of_bases_refuted : ~ C52_reads_for (Demands true true false true).
Proof.
  intros H. pose (e1 := ({[0%nat := 1]} : expv R)).
  pose (x2 := EPowZ (ENeg (ESub (ENeg (EVar 0)) (EVar 0))) 2 : expr R).
  pose (nx := ONeg [(e1, 1 * - 1)] (OVar 0) : obj R).
  assert (N1 : o_neg true (OVar 0) = Ok nx) by (unfold o_neg; cbn [obj_value]; rewrite neg_x; reflexivity).
  pose (s := OAdd [(e1, 1 * - 1 + 1 * - 1)] nx nx).
  assert (S1 : o_sub true nx (OVar 0) = Ok s).
  { unfold o_sub, nx at 1. rewrite N1. cbn [rbind]. unfold o_add. cbn [nx obj_value py_add is_zero orb]. unfold signomial_init. rewrite andb_false_r. cbn [rmap rbind with_ast].
    unfold hv_add, hv_add_item. cbn [fold_left dget]. rewrite decide_True by reflexivity. rewrite decide_False by (cbn; lra). cbn [dset]. rewrite decide_True by reflexivity. reflexivity. }
  pose (b := ONeg [(e1, (1 * - 1 + 1 * - 1) * - 1)] s).
  assert (B1 : o_neg true s = Ok b).
  { unfold o_neg. cbn [s obj_value py_neg py_mul]. rewrite decide_False by (cbn; lra). unfold signomial_init. rewrite andb_false_r. reflexivity. }
  assert (M : is_mono b = true).
  { unfold is_mono. cbn [b obj_value]. apply bool_decide_eq_true, classify_CMonomial. do 2 eexists. split; [reflexivity|]. lra. }
  assert (exists h, o_powz true b 2 = Ok (OPow h b 2)) as [h Hp].
  { unfold o_powz. rewrite M. cbn [b obj_value]. unfold py_powz. rewrite decide_True.
    - cbn [mono_pow rbind]. unfold signomial_init. rewrite andb_false_r. eexists. reflexivity.
    - unfold is_mono in M. cbn [b obj_value] in M. apply bool_decide_eq_true in M. exact M. }
  assert (R1 : run_obj true x2 = Ok (OPow h b 2)).
  { cbn [x2 run_obj rbind]. rewrite N1. cbn [rbind]. rewrite S1. cbn [rbind]. rewrite B1. exact Hp. }
  assert (T : str toy (OPow h b 2) = [45; 40; 45; 120; 32; 45; 32; 120; 41; 178]%N).
  { unfold str. cbn [strify]. change 2 with (IZR 2). rewrite sup2. reflexivity. }
  specialize (H toy toy_sane true x2 _ R1). specialize (H ltac:(cbn [good nx s b]; rewrite sup2; repeat split; try discriminate; try (intros _); try discriminate; try exact M; try reflexivity)).
  specialize (H (fun _ => 1) ltac:(intros t; lra)). rewrite T in H. destruct H as [n H]. specialize (H (S (S n)) ltac:(lia)).
  revert H. cbn -[IZR powerRZ]. intros [= H]. revert H. cbn. lra.
Qed.
Print Assumptions C52_signs_of_bases_refuted.
