(** C104: the value of an expression.
    Specification vocabulary: NomialSem.v, [override] of SubSem.v. *)
From Verif Require Import Base HashVec Nomial NomialSem NomialProofs CanonProofs Sub SubSem SubProofs SubExtra MonoProofs ConstraintProofs SolRead PropsSolRead NomValue.
Open Scope R_scope.

(** ** Specification *)

(** The numbers the variables of an expression have been given. *)
Definition numbers_of (values : nat -> described R) (h : hmap R) (fixed : gmap nat R) : Prop :=
  forall k, fixed !! k = if in_vks h k then match values k with ANumber x => Some x | _ => None end else None.
Definition all_given (values : nat -> described R) (h : hmap R) : Prop := forall k, in_vks h k = true -> exists x, values k = ANumber x.

(** ** Proofs *)

Lemma constant_values_numbers values h : numbers_of values h (constant_values values h).
Proof.
  intros k. unfold constant_values.
  assert (G : forall ks, fold_right (fun k fixed => match values k with ANumber x => <[k := x]> fixed | _ => fixed end) (∅ : expv R) ks !! k =
    if in_dec Nat.eq_dec k ks then match values k with ANumber x => Some x | _ => None end else None).
  { induction ks as [|j ks IH]; [apply lookup_empty|]. cbn [fold_right]. destruct (decide (j = k)) as [->|Hne].
    - destruct (in_dec Nat.eq_dec k (k :: ks)) as [_|N]; [|exfalso; apply N; left; auto].
      destruct (values k) as [|x| |] eqn:E; [|apply lookup_insert| |]; rewrite IH; destruct (in_dec _ _ _); auto.
    - assert (E : (match values j with ANumber x => <[j := x]> (fold_right (fun k fixed => match values k with ANumber x => <[k := x]> fixed | _ => fixed end) (∅ : expv R) ks)
        | _ => fold_right (fun k fixed => match values k with ANumber x => <[k := x]> fixed | _ => fixed end) (∅ : expv R) ks end) !! k =
        fold_right (fun k fixed => match values k with ANumber x => <[k := x]> fixed | _ => fixed end) (∅ : expv R) ks !! k).
      { destruct (values j); auto. apply lookup_insert_ne. auto. }
      rewrite E, IH. destruct (in_dec Nat.eq_dec k ks) as [i|n], (in_dec Nat.eq_dec k (j :: ks)) as [i'|n']; auto.
      + exfalso. apply n'. right. auto.
      + destruct i'; [congruence|contradiction]. }
  rewrite G. destruct (in_dec Nat.eq_dec k (vks_in h)) as [i|n].
  - apply vks_in_iff in i. rewrite i. auto.
  - destruct (in_vks h k) eqn:E; auto. exfalso. apply n, vks_in_iff. auto.
Qed.
Lemma is_fixed_iff (h : hmap R) : is_fixed h = true <-> exists c, h = [(∅, c)].
Proof.
  unfold is_fixed. split.
  - intros E. apply andb_true_iff in E as [E1 E2]. destruct h as [|[e c] [|]]; try discriminate. exists c. do 2 f_equal. apply map_eq. intros k. rewrite lookup_empty.
    destruct (e !! k) as [x|] eqn:Ek; auto. exfalso. assert (Hin : In k (vks_in [(e, c)])).
    { apply vks_in_iff, in_vks_true. exists e, c. split; [left; auto|congruence]. }
    destruct (vks_in [(e, c)]); [destruct Hin|discriminate].
  - intros (c & ->). simpl. rewrite map_to_list_empty. auto.
Qed.

(** ** C104: The value of an expression is what it is for the numbers its variables have been given *)

(** A number, if all have been given one. *)
Definition C104_number_for (cond : bool -> R -> Prop) : Prop :=
  forall inf pick se values h env, any_order pick -> canonical h -> h <> [] -> positive_point env ->
    (forall k, in_vks h k = true -> values k = ANumber (env k)) -> (exists k, in_vks h k = true) -> cond se (eval env h) ->
    nom_value inf pick se values h = Ok (inl (eval env h)).

Lemma value_number inf pick se values h env : any_order pick -> canonical h -> h <> [] -> positive_point env ->
  (forall k, in_vks h k = true -> values k = ANumber (env k)) -> (exists k, in_vks h k = true) ->
  nom_value inf pick se values h = let! p := signomial_init se true (num_hmap (eval env h)) in Ok (inl (eval env h)).
Proof.
  intros Hp Hc Hne He Hk (k0 & Hk0). unfold nom_value. destruct (is_fixed h) eqn:Ef.
  { exfalso. apply is_fixed_iff in Ef as (c & ->). apply in_vks_true in Hk0 as (e & c' & [[= <- <-]|[]] & Hm). apply Hm, lookup_empty. }
  set (fixed := constant_values values h). assert (Hf := constant_values_numbers values h : numbers_of values h fixed).
  destruct (sub_constant inf h fixed (pick fixed h) (proj1 Hc) Hne) as (st & Es & Est).
  - intros k v Hv. rewrite Hf in Hv. destruct (in_vks h k) eqn:E; [|discriminate]. rewrite (Hk k E) in Hv. injection Hv as <-. apply He.
  - intros k Hv. apply in_vks_true in Hv. rewrite Hf, Hv, (Hk k Hv). discriminate.
  - apply Hp.
  - rewrite Es. simpl rbind. rewrite Est.
    assert (Ev : eval (override (fun _ => 1) fixed) h = eval env h).
    { apply eval_agree. intros k Hv. unfold override. rewrite Hf, Hv, (Hk k Hv). auto. }
    rewrite Ev. change [(e_empty, eval env h)] with (num_hmap (eval env h)). unfold signomial_init. destruct (_ && _); auto.
Qed.
(** Missing: values that are not positive, without SignomialsEnabled. *)
Theorem C104_number_partial : C104_number_for (fun se x => se = true \/ 0 < x).
Proof.
  intros inf pick se values h env Hp Hc Hne He Hk Hex Hx. rewrite (value_number inf pick se values h env); auto.
  unfold signomial_init, any_nonpositive, num_hmap. cbn [existsb snd]. destruct (nleb (eval env h) n0) eqn:E; auto. destruct Hx as [->|Hx]; auto.
  change (Rleb (eval env h) 0 = true) in E. apply Rleb_true in E. lra.
Qed.
Print Assumptions C104_number_partial.
(** They raise an error. *)
Theorem C104_not_positive : forall inf pick values h env, any_order pick -> canonical h -> h <> [] -> positive_point env ->
  (forall k, in_vks h k = true -> values k = ANumber (env k)) -> (exists k, in_vks h k = true) -> eval env h <= 0 ->
  nom_value inf pick false values h = Err InvalidPosynomialE.
Proof.
  intros inf pick values h env Hp Hc Hne He Hk Hex Hx. rewrite (value_number inf pick false values h env); auto.
  unfold signomial_init, any_nonpositive, num_hmap. cbn [existsb snd]. replace (nleb (eval env h) n0) with true by (symmetry; apply Rleb_true; auto). auto.
Qed.
Print Assumptions C104_not_positive.

(** Of posynomials, whichever of their variables have been given numbers: the value has the others, and is a number when there are none. *)
Theorem C104_posynomials : forall inf pick se values h fixed, any_order pick -> canonical h -> h <> [] -> all_positive h ->
  numbers_of values h fixed -> (forall k x, fixed !! k = Some x -> 0 < x) ->
  exists r, nom_value inf pick se values h = Ok r /\
    (forall env, positive_point env -> match r with inl x => x | inr p => eval env p end = eval (override env fixed) h) /\
    (all_given values h <-> exists x, r = inl x) /\
    (forall p, r = inr p -> all_positive p /\ forall k, in_vks p k = true -> in_vks h k = true /\ fixed !! k = None).
Proof.
  intros inf pick se values h fixed Hp Hc Hne Hpos Hn Hf.
  assert (E : constant_values values h = fixed).
  { apply map_eq. intros k. rewrite (constant_values_numbers values h k), Hn. auto. }
  unfold nom_value. destruct (is_fixed h) eqn:Ef.
  - apply is_fixed_iff in Ef as (c & ->). simpl. exists (inl c). split; auto. split; [|split].
    + intros env He. cbn [eval]. unfold mono_val. rewrite map_fold_empty. lra.
    + split; [eauto|]. intros _ k Hk. exfalso. apply in_vks_true in Hk as (e & c' & [[= <- <-]|[]] & Hm). apply Hm, lookup_empty.
    + discriminate.
  - rewrite E. destruct (sub_posy inf h fixed (pick fixed h) Hc Hpos Hne Hf (Hp fixed h)) as (st & Es & Hcan & Hpst & Hnst & Hclear & Hev).
    rewrite Es. cbn [rbind].
    assert (Hsi : signomial_init se true (s_cp st) = Ok (s_cp st)).
    { unfold signomial_init. destruct (any_nonpositive (s_cp st)) eqn:Ea; auto. exfalso. apply existsb_exists in Ea as ([e c] & Hin & Hle).
      change (Rleb c 0 = true) in Hle. apply Rleb_true in Hle. specialize (Hpst e c Hin). lra. }
    rewrite Hsi. cbn [rbind].
    assert (Hcoef := fun e0 => final_coef inf h fixed (proj1 Hc) (positive_defined fixed h Hf) _ st e0 (Hp fixed h) Es).
    assert (Hvars : forall k, in_vks (s_cp st) k = true -> in_vks h k = true /\ fixed !! k = None).
    { intros k Hk. apply in_vks_true in Hk as (e & c & Hin & Hek). split.
      - destruct (in_vks h k) eqn:Ek; auto. exfalso. assert (Hc0 := Hpst e c Hin). specialize (Hcoef e). unfold coef in Hcoef.
        rewrite (In_dget (s_cp st) e c) in Hcoef; [|apply Hcan|auto].
        assert (Z : lsum (fun t => if decide (surviving fixed (fst t) = e) then snd t * subval fixed (fst t) else 0) h = 0).
        { transitivity (lsum (fun _ : expv R * R => 0) h); [|apply lsum_zero]. apply lsum_ext. intros [o co] Ho. cbn [fst snd].
          destruct (decide _) as [D|]; auto. exfalso. apply Hek. rewrite <- D. unfold surviving. apply lookup_difference_None. left.
          destruct (o !! k) eqn:Eo; auto. exfalso. assert (in_vks h k = true) by (apply in_vks_true; exists o, co; split; auto; congruence). congruence. }
        rewrite Z in Hcoef. lra.
      - destruct (fixed !! k) as [v|] eqn:Ev; auto. exfalso. apply Hek. apply (Hclear e k v); auto. apply in_map_iff. exists (e, c). auto. }
    assert (Hkeep : forall e c k, In (e, c) h -> e !! k <> None -> fixed !! k = None -> in_vks (s_cp st) k = true).
    { intros e c k Hin Hek Hfk. specialize (Hcoef (surviving fixed e)). unfold coef in Hcoef.
      assert (Hsum : 0 < lsum (fun t => if decide (surviving fixed (fst t) = surviving fixed e) then snd t * subval fixed (fst t) else 0) h).
      { assert (Hsv : forall o, 0 < subval fixed o).
        { intros o. rewrite subval_mono_valp. assert (P1 : positive_point (override (fun _ => 1) fixed)) by (apply override_positive; auto; intros ?; lra).
          assert (X := evalp_pos _ [(o, 1)] P1). cbn [evalp eval] in X. assert (Y := mono_val_pos (override (fun _ => 1) fixed) o). lra. }
        assert (Hnn : forall l : hmap R, all_positive l -> 0 <= lsum (fun t => if decide (surviving fixed (fst t) = surviving fixed e) then snd t * subval fixed (fst t) else 0) l).
        { induction l as [|[o co] l IHl]; intros Hl; cbn [lsum fst snd]; [lra|]. assert (0 < co) by (apply (Hl o); left; auto).
          assert (0 < co * subval fixed o) by (apply Rmult_lt_0_compat; auto). assert (IHl' := IHl (fun o' c' Hi => Hl o' c' (or_intror Hi))). destruct (decide _); lra. }
        clear -Hin Hpos Hsv Hnn. revert Hpos Hin. induction h as [|[o co] l IHl]; intros Hl Hin; [destruct Hin|]. cbn [lsum fst snd].
        assert (Hl' : all_positive l) by (intros o' c' Hi; apply (Hl o'); right; auto).
        assert (0 < co) by (apply (Hl o); left; auto). assert (0 < co * subval fixed o) by (apply Rmult_lt_0_compat; auto). specialize (Hnn l Hl').
        destruct Hin as [[= -> ->]|Hin]; [rewrite decide_True by auto; lra|]. specialize (IHl Hl' Hin). destruct (decide _); lra. }
      destruct (dget (s_cp st) (surviving fixed e)) as [c'|] eqn:Eg; [|lra]. apply dget_In in Eg. apply in_vks_true. exists (surviving fixed e), c'. split; auto.
      unfold surviving. intros D. apply lookup_difference_None in D as [D|D]; [contradiction|]. rewrite Hfk in D. destruct D as (? & D). discriminate. }
    assert (Hgiven : forall k, in_vks h k = true -> (fixed !! k = None <-> ~ exists x, values k = ANumber x)).
    { intros k Hk. rewrite Hn, Hk. destruct (values k); split; intros X; try discriminate; auto; try (intros (y & Y); discriminate).
      exfalso. apply X. eauto. }
    destruct (is_fixed (s_cp st)) eqn:Est.
    + apply is_fixed_iff in Est as (c & Ec). rewrite Ec. exists (inl c). split; auto. split; [|split].
      * intros env He. rewrite <- (Hev env He), Ec. cbn [eval]. unfold mono_val. rewrite map_fold_empty. lra.
      * split; [eauto|]. intros _ k Hk. destruct (values k) eqn:Ek; eauto; exfalso; apply in_vks_true in Hk as (e & c' & Hin & Hek);
          (assert (Hno : in_vks (s_cp st) k = true); [apply (Hkeep e c' k Hin Hek); apply Hgiven; [apply in_vks_true; exists e, c'; auto|intros (y & Y); congruence]|]);
          rewrite Ec in Hno; apply in_vks_true in Hno as (e1 & c1 & [[= <- <-]|[]] & Hm); apply Hm, lookup_empty.
      * discriminate.
    + exists (inr (s_cp st)). split; auto. split; [|split].
      * exact Hev.
      * split; [|intros (x & [=])]. intros Hall. exfalso.
        assert (Hall0 : forall e c, In (e, c) (s_cp st) -> e = ∅).
        { intros e c Hin. apply map_eq. intros k. rewrite lookup_empty. destruct (e !! k) as [y|] eqn:Ek; auto. exfalso.
          destruct (Hvars k) as [Hk Hfk]. { apply in_vks_true. exists e, c. split; auto. congruence. }
          apply Hgiven in Hfk; auto. }
        destruct (s_cp st) as [|[e1 c1] [|[e2 c2] rest]].
        -- congruence.
        -- rewrite (Hall0 e1 c1 (or_introl eq_refl)) in Est. assert (is_fixed [(∅ : expv R, c1)] = true) by (apply is_fixed_iff; eauto). congruence.
        -- destruct Hcan as [Hnd _]. cbn [dkeys map fst] in Hnd. inversion Hnd as [|? ? Hno _]. apply Hno.
           rewrite (Hall0 e1 c1 (or_introl eq_refl)), (Hall0 e2 c2 (or_intror (or_introl eq_refl))). left.
      * intros p [= <-]. auto.
Qed.
Print Assumptions C104_posynomials.

(** *** Cases that meet the hypotheses, and cases that refute the full claims *)
Definition ex_values (x : R) (k : nat) : described R := match k with 2%nat => ANumber (ex_env x 2%nat) | 4%nat => ANumber (ex_env x 4%nat) | 5%nat => AFunction | _ => NoValue end.
Lemma ex_vars h k : in_vks h k = true -> h = ex_expr \/ h = ex_minus -> k = 2%nat \/ k = 4%nat.
Proof.
  intros Hk Hh. apply in_vks_true in Hk as (e & c & Hin & Hk). assert (He : e = {[2%nat := 1]} \/ e = {[4%nat := 1]}).
  { destruct Hh as [->| ->]; destruct Hin as [[= <- _]|[[= <- _]|[]]]; auto. }
  destruct He as [->| ->].
  - destruct (decide (k = 2%nat)); auto. rewrite lookup_singleton_ne in Hk by auto. congruence.
  - destruct (decide (k = 4%nat)); auto. rewrite lookup_singleton_ne in Hk by auto. congruence.
Qed.
Lemma ex_given x h k : h = ex_expr \/ h = ex_minus -> in_vks h k = true -> ex_values x k = ANumber (ex_env x k).
Proof. intros Hh Hk. destruct (ex_vars h k Hk Hh) as [->| ->]; reflexivity. Qed.
Example C104_number_nonvacuous : nom_value 0 std_schedule false (ex_values 1) ex_expr = Ok (inl (4 * 1)) /\
  nom_value 0 std_schedule true (ex_values 1) ex_minus = Ok (inl (-2)).
Proof.
  assert (P := ex_positive 1 Rlt_0_1). assert (V := ex_expr_value 1 Rlt_0_1). assert (W := ex_minus_value). split.
  - rewrite <- V. apply C104_number_partial; auto using std_any, ex_expr_canonical; try discriminate.
    + intros k. apply ex_given. auto.
    + exists 2%nat. reflexivity.
    + right. rewrite V. lra.
  - rewrite <- W. apply C104_number_partial; auto using std_any, ex_minus_canonical; try discriminate.
    + intros k. apply ex_given. auto.
    + exists 2%nat. reflexivity.
Qed.
Theorem C104_number_refuted : ~ C104_number_for (fun _ _ => True).
Proof.
  intros C. assert (P := ex_positive 1 Rlt_0_1). assert (W := ex_minus_value).
  assert (X : (exists k, in_vks ex_minus k = true)) by (exists 2%nat; reflexivity).
  assert (G : forall k, in_vks ex_minus k = true -> ex_values 1 k = ANumber (ex_env 1 k)) by (intros k; apply ex_given; auto).
  assert (E := C104_not_positive 0 std_schedule (ex_values 1) ex_minus (ex_env 1) std_any ex_minus_canonical ltac:(discriminate) P G X ltac:(rewrite W; lra)).
  rewrite (C 0 std_schedule false (ex_values 1) ex_minus (ex_env 1) std_any ex_minus_canonical ltac:(discriminate) P G X I) in E. discriminate.
Qed.
Print Assumptions C104_number_refuted.

(** A variable whose number is 0 *)
Definition C104_variable_for (cond : R -> Prop) : Prop :=
  forall inf pick se values k x, any_order pick -> values k = ANumber x -> cond x -> nom_value inf pick se values (var_hmap k) = Ok (inl x).
Lemma var_canonical k : canonical (var_hmap (T := R) k).
Proof.
  split; [apply NoDup_singleton|]. intros e c [[= <- <-]|[]]. split; [|change (1 <> 0); lra]. intros j x Hk. apply lookup_singleton_Some in Hk as [_ <-]. change (1 <> 0). lra.
Qed.
Lemma var_only k j : in_vks (var_hmap (T := R) k) j = true <-> j = k.
Proof.
  rewrite in_vks_true. split.
  - intros (e & c & [[= <- <-]|[]] & Hk). destruct (decide (j = k)); auto. rewrite lookup_singleton_ne in Hk by auto. congruence.
  - intros ->. eexists _, _. split; [left; reflexivity|]. rewrite lookup_singleton. discriminate.
Qed.
Theorem C104_variable_partial : C104_variable_for (fun x => 0 < x).
Proof.
  intros inf pick se values k x Hp Hv Hx. assert (E : eval (fun _ => x) (var_hmap k) = x) by (apply (eval_var (fun _ => x)); auto).
  transitivity (Ok (inl (B := hmap R) (eval (fun _ => x) (var_hmap k)))); [|rewrite E; auto]. apply C104_number_partial; auto using var_canonical; try discriminate.
  - intros j. auto.
  - intros j Hj. apply var_only in Hj. subst j. auto.
  - exists k. apply var_only. auto.
  - right. rewrite E. auto.
Qed.
Print Assumptions C104_variable_partial.
Theorem C104_variable_refuted : ~ C104_variable_for (fun x => x = 0).
Proof.
  intros C. specialize (C 0 std_schedule false (fun _ => ANumber 0) 2%nat 0 std_any eq_refl eq_refl). revert C. unfold nom_value.
  destruct (is_fixed (var_hmap 2%nat)) eqn:Ef.
  { apply is_fixed_iff in Ef as (c & Ef). discriminate. }
  assert (Hf : constant_values (fun _ => ANumber 0) (var_hmap 2%nat) = {[2%nat := 0]}).
  { apply map_eq. intros k. rewrite (constant_values_numbers _ _ k). destruct (in_vks (var_hmap 2%nat) k) eqn:Ek.
    - apply var_only in Ek. subst k. rewrite lookup_singleton. auto.
    - destruct (decide (k = 2%nat)) as [->|]; [|rewrite lookup_singleton_ne by auto; auto]. assert (in_vks (var_hmap (T := R) 2%nat) 2%nat = true) by (apply var_only; auto). congruence. }
  rewrite Hf. destruct (zero_removes 0 (var_hmap 2%nat) 2%nat (std_schedule {[2%nat := 0]} (var_hmap 2%nat)) (var_canonical 2%nat)) as (st & Es & Hz).
  - intros e c x [[= <- _]|[]] Hx. rewrite lookup_singleton in Hx. injection Hx as <-. change (0 < 1). lra.
  - apply std_any.
  - rewrite Es. simpl rbind. destruct (s_cp st) as [|[e c] l]; [discriminate|]. specialize (Hz e). rewrite (coef_get _ e c) in Hz by (cbn [dget]; rewrite decide_True by auto; auto).
    assert (c = 0) as ->. { destruct (decide _) as [He|_]; auto. rewrite Hz. apply coef_none. cbn. destruct (decide _) as [D|]; auto. exfalso. rewrite D in He. rewrite lookup_singleton in He. discriminate. }
    unfold signomial_init, any_nonpositive. cbn [existsb snd]. replace (nleb 0 n0) with true by (symmetry; apply Rleb_true; change (0 <= 0); lra). discriminate.
Qed.
Print Assumptions C104_variable_refuted.

(** Some of the variables are given: what is left has the others. *)
Example C104_posynomials_nonvacuous : exists r, nom_value 0 std_schedule false (fun k => if Nat.eqb k 2 then ANumber 1 else AFunction) ex_expr = Ok r /\
  ~ all_given (fun k => if Nat.eqb k 2 then ANumber 1 else AFunction) ex_expr /\
  forall env, positive_point env -> match r with inl x => x | inr p => eval env p end = eval (override env {[2%nat := 1]}) ex_expr.
Proof.
  destruct (C104_posynomials 0 std_schedule false (fun k => if Nat.eqb k 2 then ANumber 1 else AFunction) ex_expr {[2%nat := 1]}) as (r & Er & Hv & _).
  - apply std_any.
  - apply ex_expr_canonical.
  - discriminate.
  - intros e c [[= <- <-]|[[= <- <-]|[]]]; change (0 < 1) || change (0 < 2) || idtac; lra.
  - intros k. destruct (in_vks ex_expr k) eqn:Ek.
    + destruct (ex_vars ex_expr k Ek (or_introl eq_refl)) as [->| ->]; [rewrite lookup_singleton|rewrite lookup_singleton_ne by discriminate]; auto.
    + rewrite lookup_singleton_ne; auto. intros <-. discriminate.
  - intros k x Hx. apply lookup_singleton_Some in Hx as [_ <-]. lra.
  - exists r. split; auto. split; auto. intros G. destruct (G 4%nat eq_refl) as (x & [=]).
Qed.
