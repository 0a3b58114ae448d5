(** Lemmas about array sums and products. *)
From Verif Require Import Base HashVec HashVecProofs Nomial NomialSem NomialProofs CanonProofs
  DiffProofs Constraint ConstraintSem ConstraintProofs Units UnitsSem UnitsProofs Array.
Open Scope R_scope.

Section A.
Variable reg : nat -> unitdef R.
Hypothesis Hreg : registry_ok reg.

(** The value of an element in root units, and its units. *)
Definition elem_val (env : point) (a : elem R) : R :=
  match a with ElNum c => c | ElNom a => phys reg env a end.
Definition elem_units (a : elem R) : option (gmap nat R) :=
  match a with ElNum _ => None | ElNom a => uu a end.
Fixpoint rprod {A} (f : A -> R) (l : list A) : R :=
  match l with [] => 1 | a :: l' => f a * rprod f l' end.

Lemma eval_dset_empty env (h : hmap R) c : 
  eval env (dset h e_empty (c + match dget h e_empty with Some v => v | None => 0 end)) = eval env h + c.
Proof. rewrite eval_dset, mono_val_empty. unfold coef. destruct (dget h e_empty); lra. Qed.

Lemma sum_step_val env acc p s : sum_step reg acc p = Ok s -> phys reg env s = phys reg env acc + elem_val env p.
Proof.
  destruct p as [c|a]; cbn [sum_step elem_val].
  - intros E. apply rbind_ok in E as (c' & Ec & [= <-]). unfold phys. cbn [uh uu].
    assert (Hc : c' * scale_of reg (uu acc) = c).
    { destruct (uu acc) as [u|]; [|injection Ec as <-; cbn; lra].
      destruct (decide (c = n0)) as [->|Hc].
      - injection Ec as <-. cbn [n0 R_num]. lra.
      - destruct (float_of reg u) as [f|] eqn:F; [|discriminate]. injection Ec as <-.
        apply (float_some reg Hreg) in F as [-> _]. pose proof (scale_pos reg (Some u)).
        unfold ndiv. cbn [nmul ninv R_num]. field. lra. }
    rewrite <- Hc. rewrite (eval_dset_empty env (uh acc) c'). lra.
  - intros E. apply (nm_add_phys reg Hreg env) in E as (E & _ & _). rewrite E.
    destruct acc as [h u]. destruct h; cbn [uh]; [unfold phys; cbn; lra|auto].
Qed.

Lemma sum_loop_val env l : forall acc s, sum_loop reg acc l = Ok s ->
  phys reg env s = phys reg env acc + lsum (elem_val env) l.
Proof.
  induction l as [|p l IH]; intros acc s; cbn [sum_loop lsum]; [intros [= <-]; lra|].
  intros E. apply rbind_ok in E as (a & E1 & E2). apply (sum_step_val env) in E1. apply IH in E2. lra.
Qed.

Lemma array_sum_val se env l s : array_sum reg se l = Ok s -> phys reg env s = lsum (elem_val env) l.
Proof.
  unfold array_sum. destruct l as [|p l]; [discriminate|]. intros E.
  apply rbind_ok in E as (a & E1 & E2). apply usig_ok in E2 as ->.
  apply (sum_loop_val env) in E1. rewrite E1. unfold phys. cbn [uh eval]. lra.
Qed.

(** ** Products *)
Lemma elem_mul_val se env a b s : elem_mul reg se a b = Ok s -> elem_val env s = elem_val env a * elem_val env b.
Proof.
  destruct a as [x|a], b as [y|b]; cbn [elem_mul].
  - intros [= <-]. reflexivity.
  - destruct (decide (x = n0)) as [->|]; [intros [= <-]; cbn; lra|].
    intros E. apply rmap_ok in E as (v & E & ->). apply (sig_mul_num_phys reg Hreg se env) in E as [E _].
    cbn [elem_val]. rewrite E. cbn [scale_of]. lra.
  - destruct (decide (y = n0)) as [->|]; [intros [= <-]; cbn; lra|].
    intros E. apply rmap_ok in E as (v & E & ->). apply (sig_mul_num_phys reg Hreg se env) in E as [E _].
    cbn [elem_val]. rewrite E. cbn [scale_of]. lra.
  - intros E. apply rmap_ok in E as (v & E & ->). apply (sig_mul_phys reg Hreg se env) in E as [E _]. exact E.
Qed.

Lemma stepwise_mul_val se env l s : stepwise (elem_mul reg se) l = Ok s -> elem_val env s = rprod (elem_val env) l.
Proof.
  assert (H : forall l acc s, fold_elems (elem_mul reg se) acc l = Ok s ->
            elem_val env s = elem_val env acc * rprod (elem_val env) l).
  { clear l s. intros l. induction l as [|a l IH]; intros acc s; cbn [fold_elems rprod]; [intros [= <-]; lra|].
    intros E. apply rbind_ok in E as (v & E1 & E2). apply IH in E2. apply (elem_mul_val se env) in E1.
    rewrite E2, E1. lra. }
  destruct l as [|a l]; [discriminate|]. intros E. apply H in E. exact E.
Qed.

Lemma prod_loop_val env l : forall c e u c' e' u', prod_loop c e u l = Some (c', e', u') ->
  c' * mono_val env e' * scale_of reg u' = c * mono_val env e * scale_of reg u * rprod (elem_val env) l /\
  forall d, dim_of reg u' d = dim_of reg u d + lsum (fun a => dim_of reg (elem_units a) d) l.
Proof.
  induction l as [|p l IH]; intros c e u c' e' u'; cbn [prod_loop rprod lsum].
  - intros [= <- <- <-]. split; [lra|intros; lra].
  - destruct p as [x|[[|[me mc] [|? ?]] mu]]; try discriminate.
    intros E. apply IH in E as [E1 E2]. split.
    + rewrite E1. rewrite mono_val_add. cbn [nmul R_num elem_val]. unfold phys. cbn [uh uu eval].
      assert (Hs : scale_of reg (match mu with Some v => Some (match u with Some w => exp_add w v | None => v end) | None => u end)
                   = scale_of reg u * scale_of reg mu).
      { destruct mu as [v|], u as [w|]; try (cbn [scale_of]; lra). apply scale_add. }
      rewrite Hs. ring.
    + intros d. rewrite E2. cbn [elem_units uu].
      destruct mu as [v|], u as [w|]; rewrite ?(dim_add reg) by auto; cbn [dim_of]; lra.
Qed.

Lemma array_prod_val se env l s : array_prod reg se l = Ok s -> elem_val env s = rprod (elem_val env) l.
Proof.
  unfold array_prod. destruct l as [|a l0] eqn:El; [discriminate|]. rewrite <- El. clear a l0 El.
  destruct (prod_loop n1 e_empty None l) as [[[c e] u]|] eqn:E; [|apply stepwise_mul_val].
  intros Es. apply rmap_ok in Es as (v & Ev & ->). apply usig_ok in Ev as ->.
  apply (prod_loop_val env) in E as [E _]. cbn [elem_val]. unfold phys. cbn [uh uu eval].
  rewrite mono_val_empty in E. cbn [scale_of n1 R_num] in E. lra.
Qed.

(** ** When the sum succeeds *)

(** Positive elements: positive numbers and posynomials. *)
Definition positive_elem (a : elem R) : Prop :=
  match a with ElNum c => 0 < c | ElNom a => all_positive (uh a) /\ uh a <> [] end.

Lemma hv_add_pos_r (l : hmap R) : forall acc, all_positive l -> l <> [] -> all_positive acc ->
  all_positive (hv_add acc l) /\ hv_add acc l <> [].
Proof.
  induction l as [|t l IH]; intros acc Hl Hn Hacc; [congruence|]. unfold hv_add. cbn [fold_left].
  assert (Ht : all_positive (hv_add_item acc t) /\ hv_add_item acc t <> []).
  { apply add_item_pos; auto. destruct t as [e c]. cbn. apply (Hl e c). left; auto. }
  destruct l as [|t2 l]; [exact Ht|]. apply IH; [|discriminate|apply Ht].
  intros e c Hin. apply (Hl e c). right; auto.
Qed.

Lemma nm_add_pos a b s : all_positive (uh a) -> all_positive (uh b) -> uh b <> [] -> nm_add reg a b = Ok s ->
  all_positive (uh s) /\ uh s <> [].
Proof.
  intros Ha Hb Hne. unfold nm_add. destruct (qeqb _ _ _); cbn [rbind].
  - intros [= <-]. cbn [uh]. apply hv_add_pos_r; auto.
  - destruct (uu a) as [ua|], (uu b) as [ub|]; cbn [rbind]; try discriminate.
    destruct (float_of reg (exp_sub ub ua)) as [f|] eqn:F; cbn [rbind]; [|discriminate].
    apply (float_some reg Hreg) in F as [-> _]. intros [= <-]. cbn [uh].
    assert (Hf : 0 < scale_of reg (Some (exp_sub ub ua))) by apply scale_pos.
    destruct (hv_mul_pos (uh b) (scale_of reg (Some (exp_sub ub ua))) Hf Hb Hne) as [Hm1 Hm2].
    apply hv_add_pos_r; auto.
Qed.

Definition pos_umap (a : umap R) : Prop := all_positive (uh a) /\ uh a <> [].

Lemma sum_step_total acc p : pos_umap acc -> proper reg (uu acc) -> positive_elem p -> proper reg (elem_units p) ->
  (forall d, dim_of reg (uu acc) d = dim_of reg (elem_units p) d) ->
  exists s, sum_step reg acc p = Ok s /\ pos_umap s /\ uu s = uu acc.
Proof.
  intros [Ha1 Ha2] Hpa Hp Hpp Hd. destruct p as [c|b]; cbn [sum_step elem_units positive_elem] in *.
  - destruct (uu acc) as [u|] eqn:Eu.
    + destruct Hpa as [d Hpa]. elim Hpa. rewrite Hd. reflexivity.
    + cbn [rbind]. eexists. split; [reflexivity|]. split; [|auto]. split; cbn [uh].
      * apply all_positive_dset; auto. cbn [nadd R_num]. destruct (dget (uh acc) e_empty) as [v|] eqn:E; [|cbn; lra].
        pose proof (all_positive_get _ _ _ Ha1 E). lra.
      * apply dset_nonempty.
  - replace (match uh acc with [] => UM [] (uu b) | _ :: _ => acc end) with acc by (destruct (uh acc); congruence).
    destruct (nm_add_dim reg Hreg acc b Hpa Hpp Hd) as [s Hs]. exists s. split; auto.
    split; [eapply nm_add_pos; [| | |exact Hs]; try apply Hp; auto|].
    apply (nm_add_phys reg Hreg (fun _ => 1)) in Hs. apply Hs.
Qed.

Lemma sum_loop_total l : forall acc, pos_umap acc -> proper reg (uu acc) ->
  Forall positive_elem l -> Forall (fun p => proper reg (elem_units p)) l ->
  (forall p, In p l -> forall d, dim_of reg (uu acc) d = dim_of reg (elem_units p) d) ->
  exists s, sum_loop reg acc l = Ok s /\ pos_umap s /\ uu s = uu acc.
Proof.
  induction l as [|p l IH]; intros acc Ha Hpa Hp Hpp Hd; cbn [sum_loop]; [eauto|].
  inversion Hp; inversion Hpp; subst.
  destruct (sum_step_total acc p) as (s & Es & Hs & Hu); auto. { intros d. apply Hd. left; auto. }
  rewrite Es. cbn [rbind]. destruct (IH s) as (t & Et & Ht & Hut); auto.
  - rewrite Hu. auto.
  - intros q Hq d. rewrite Hu. apply Hd. right; auto.
  - exists t. split; auto. split; auto. congruence.
Qed.

Lemma array_sum_total se l : l <> [] -> Forall positive_elem l -> Forall (fun p => proper reg (elem_units p)) l ->
  (forall p q, In p l -> In q l -> forall d, dim_of reg (elem_units p) d = dim_of reg (elem_units q) d) ->
  exists s, array_sum reg se l = Ok s.
Proof.
  intros Hne Hp Hpp Hd. destruct l as [|p l]; [congruence|]. unfold array_sum.
  inversion Hp as [|? ? Hp1 Hp2]; inversion Hpp as [|? ? Hpp1 Hpp2]; subst.
  assert (H1 : exists a, sum_step reg (UM [] None) p = Ok a /\ pos_umap a /\ uu a = elem_units p).
  { destruct p as [c|b]; cbn [sum_step uu uh elem_units rbind positive_elem] in *.
    - eexists. split; [reflexivity|]. split; [|auto]. cbn [dget dset uh]. split; [|discriminate].
      intros e x [[= <- <-]|[]]. cbn. lra.
    - destruct (nm_add_dim reg Hreg (UM [] (uu b)) b Hpp1 Hpp1) as [s Hs]; [auto|]. exists s. split; auto.
      split; [eapply nm_add_pos; [| | |exact Hs]; try apply Hp1; intros e c []|].
      apply (nm_add_phys reg Hreg (fun _ => 1)) in Hs. apply Hs. }
  destruct H1 as (a & Ea & Ha & Hu). cbn [sum_loop]. rewrite Ea. cbn [rbind].
  destruct (sum_loop_total l a) as (s & Es & Hs & Hus); auto.
  - rewrite Hu. auto.
  - intros q Hq d. rewrite Hu. apply Hd; [left; auto|right; auto].
  - rewrite Es. cbn [rbind]. unfold usig. destruct Hs as [Hs _].
    assert (Hi : signomial_init se true (uh s) = Ok (uh s)).
    { unfold signomial_init. rewrite (proj2 (any_nonpositive_false (uh s)) Hs). reflexivity. }
    rewrite Hi. cbn [rbind]. eauto.
Qed.

(** Adding one by one succeeds only on like quantities. *)
Lemma elem_add_inv se a b s : positive_elem a -> positive_elem b -> elem_add reg se a b = Ok s ->
  positive_elem s /\ (forall d, dim_of reg (elem_units a) d = dim_of reg (elem_units b) d) /\
  (forall d, dim_of reg (elem_units s) d = dim_of reg (elem_units a) d).
Proof.
  intros Ha Hb. destruct a as [x|a], b as [y|b]; cbn [elem_add positive_elem elem_units] in *.
  - intros [= <-]. split; [cbn; lra|auto].
  - intros E. apply rmap_ok in E as (v & E & ->). pose proof E as E'.
    apply (sig_add_num_phys reg Hreg se (fun _ => 1)) in E' as (_ & Hu & [Hz|Hd]); [lra|].
    cbn [positive_elem elem_units]. split.
    + unfold sig_add_num in E. destruct (decide _) as [Ez|]; [cbn in Ez; lra|].
      apply rbind_ok in E as (w & E & Ew). apply usig_ok in Ew as ->.
      eapply nm_add_pos; [| | |exact E]; [apply Hb| |discriminate]. intros e c [[= <- <-]|[]]. auto.
    + split; intros d; [symmetry; apply Hd|]. rewrite Hu. apply Hd.
  - intros E. apply rmap_ok in E as (v & E & ->). pose proof E as E'.
    apply (sig_add_num_phys reg Hreg se (fun _ => 1)) in E' as (_ & Hu & [Hz|Hd]); [lra|].
    cbn [positive_elem elem_units]. split.
    + unfold sig_add_num in E. destruct (decide _) as [Ez|]; [cbn in Ez; lra|].
      apply rbind_ok in E as (w & E & Ew). apply usig_ok in Ew as ->.
      eapply nm_add_pos; [| | |exact E]; [apply Ha| |discriminate]. intros e c [[= <- <-]|[]]. auto.
    + split; intros d; [apply Hd|]. rewrite Hu. auto.
  - intros E. apply rmap_ok in E as (v & E & ->). pose proof E as E'.
    apply (sig_add_phys reg Hreg se (fun _ => 1)) in E' as (_ & Hu & Hd).
    cbn [positive_elem elem_units]. split.
    + unfold sig_add in E. destruct (uh b) eqn:Eb; [destruct Hb; congruence|].
      apply rbind_ok in E as (w & E & Ew). apply usig_ok in Ew as ->.
      eapply nm_add_pos; [| | |exact E]; rewrite ?Eb; try apply Hb; apply Ha.
    + split; [auto|]. intros d. destruct Hu as [-> | ->]; auto.
Qed.

Lemma fold_add_inv se l : forall acc s, positive_elem acc -> Forall positive_elem l ->
  fold_elems (elem_add reg se) acc l = Ok s ->
  forall p, In p l -> forall d, dim_of reg (elem_units acc) d = dim_of reg (elem_units p) d.
Proof.
  induction l as [|a l IH]; intros acc s Hacc Hl; cbn [fold_elems]; [intros _ p []|].
  inversion Hl; subst. intros E. apply rbind_ok in E as (v & E1 & E2).
  apply elem_add_inv in E1 as (Hv & Hd1 & Hd2); auto.
  intros p [<-|Hin] d; [apply Hd1|]. rewrite <- Hd2. eapply IH; eauto.
Qed.

Lemma stepwise_add_val se env l s : Forall positive_elem l ->
  stepwise (elem_add reg se) l = Ok s -> elem_val env s = lsum (elem_val env) l.
Proof.
  assert (H : forall l acc s, positive_elem acc -> Forall positive_elem l ->
     fold_elems (elem_add reg se) acc l = Ok s -> elem_val env s = elem_val env acc + lsum (elem_val env) l).
  { clear l s. intros l. induction l as [|a l IH]; intros acc s Hacc Hl; cbn [fold_elems lsum]; [intros [= <-]; lra|].
    inversion Hl; subst. intros E. apply rbind_ok in E as (v & E1 & E2). pose proof E1 as E1'.
    apply elem_add_inv in E1' as (Hv & _ & _); auto. apply IH in E2; auto. rewrite E2.
    enough (elem_val env v = elem_val env acc + elem_val env a) by lra.
    destruct acc as [x|acc], a as [y|a]; cbn [elem_add elem_val] in *.
    - injection E1 as <-. reflexivity.
    - apply rmap_ok in E1 as (w & E1 & ->). apply (sig_add_num_phys reg Hreg se env) in E1 as (E1 & _). cbn [elem_val].
      rewrite E1. cbn [scale_of]. lra.
    - apply rmap_ok in E1 as (w & E1 & ->). apply (sig_add_num_phys reg Hreg se env) in E1 as (E1 & _). cbn [elem_val].
      rewrite E1. cbn [scale_of]. lra.
    - apply rmap_ok in E1 as (w & E1 & ->). apply (sig_add_phys reg Hreg se env) in E1 as (E1 & _). exact E1. }
  intros Hl. destruct l as [|a l]; [discriminate|]. inversion Hl; subst. apply H; auto.
Qed.

Lemma array_sum_stepwise se l s : Forall positive_elem l -> Forall (fun p => proper reg (elem_units p)) l ->
  stepwise (elem_add reg se) l = Ok s -> exists t, array_sum reg se l = Ok t.
Proof.
  intros Hp Hpp Hs. destruct l as [|a l]; [discriminate|]. cbn [stepwise] in Hs.
  inversion Hp; subst. pose proof (fold_add_inv se l a s) as HD.
  apply array_sum_total; [discriminate|exact Hp|exact Hpp|].
  assert (Ha : forall p, In p (a :: l) -> forall d, dim_of reg (elem_units a) d = dim_of reg (elem_units p) d).
  { intros p [<-|Hin] d; [auto|]. apply HD; auto. }
  intros p q Hin Hq d. rewrite <- (Ha p Hin), <- (Ha q Hq). reflexivity.
Qed.

End A.

Section P.
Variable reg : nat -> unitdef R.

Lemma prod_loop_pos l : forall (c : R) e u c' e' u', 0 < c -> Forall positive_elem l ->
  prod_loop c e u l = Some (c', e', u') -> 0 < c'.
Proof.
  induction l as [|p l IH]; intros c e u c' e' u' Hc Hl; cbn [prod_loop]; [intros [= <- _ _]; auto|].
  inversion Hl as [|? ? Hp Hl']; subst.
  destruct p as [x|[[|[me mc] [|? ?]] mu]]; try discriminate.
  apply IH; auto. cbn [nmul R_num]. destruct Hp as [Hp _].
  assert (0 < mc) by (apply (Hp me mc); left; auto). nra.
Qed.

Lemma array_prod_stepwise se l s : Forall positive_elem l ->
  stepwise (elem_mul reg se) l = Ok s -> exists t, array_prod reg se l = Ok t.
Proof.
  intros Hl Hs. unfold array_prod. destruct l as [|a l0] eqn:El; [discriminate|]. rewrite <- El in *. clear a l0 El.
  destruct (prod_loop n1 e_empty None l) as [[[c e] u]|] eqn:E; [|eauto].
  apply prod_loop_pos in E; [|cbn; lra|auto].
  unfold usig, signomial_init. cbn [uh any_nonpositive existsb snd].
  assert (Hc : nleb c n0 = false) by (apply Rleb_false; cbn; lra).
  rewrite Hc. cbn [orb andb rbind rmap]. eauto.
Qed.
End P.
