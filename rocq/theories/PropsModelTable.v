(** C110: sensitivities of models. *)
From Coq Require Import Strings.String Strings.Ascii Reals Lra Lia Sorting.Sorted Permutation DecimalNat.
From Flocq Require Import Core.Core.
From Verif Require Import Base Globals Lookup VarKeyProofs ModelTable.
Local Open Scope list_scope.
Open Scope R_scope.

(** *** Specification *)
Definition total (l : list R) : R := fold_right Rplus 0 l.
(** What the constraints and variables of a model add up to *)
Definition sens_of (l : lineage) (items : list (lineage * R)) : R :=
  total (map (fun lx => Rabs (snd lx)) (List.filter (fun lx => bool_decide (fst lx = l)) items)).
(** The average *)
Definition average (l : list R) (a : R) : Prop := a * INR (length l) = total l.
(** What is printed is true of the sensitivities, to the precision that is printed. *)
Definition true_of (l : list R) (s : shown) : Prop :=
  match s with
  | Below e => Forall (fun x => x < powerRZ 10 e) l
  | Zero => Forall (fun x => x = 0) l
  | Number t => exists x, l = [x] /\ Rabs (x - IZR t / 10) <= 1 / 20
  | Mean t ds => exists a, average l a /\ Rabs (a - IZR t / 10) <= 1 / 20 /\
      Forall2 (fun x d => match d with Some k => Rabs (x - a - IZR k / 10) <= 1 / 20 | None => Rabs (x - a) < 1 / 10 end) l ds
  end.
Definition named (data : list (string * value)) : list (string * value) := List.filter (fun kv => negb (bool_decide (fst kv = EmptyString))) data.

(** *** Names of models *)
Lemma split_run (P : ascii -> Prop) d1 : forall d2 a x1 b x2, Forall P d1 -> Forall P d2 -> ~ P a -> ~ P b ->
  d1 ++ a :: x1 = d2 ++ b :: x2 -> d1 = d2 /\ a :: x1 = b :: x2.
Proof.
  induction d1 as [|c d1 IH]; intros [|c' d2] a x1 b x2 H1 H2 Ha Hb E; simpl in *; auto.
  - injection E as -> _. inversion H2; contradiction.
  - injection E as <- _. inversion H1; contradiction.
  - injection E as <- E. inversion H1; inversion H2; subst. destruct (IH d2 a x1 b x2) as [-> E']; auto.
Qed.
(** Names without dots that do not end in digits *)
Definition clear_name (s : string) : Prop := free "." s /\ exists s' c, s = (s' ++ String c EmptyString)%string /\ ~ is_digit c.
Definition clear (l : lineage) : Prop := forall name num, In (name, num) l -> clear_name name.
Definition part (p : string * nat) : string := if (snd p =? 0)%nat then fst p else (fst p ++ show_nat (snd p))%string.
Lemma part_chars p : chars (part p) = chars (fst p) ++ (if (snd p =? 0)%nat then [] else chars (show_nat (snd p))).
Proof. unfold part. destruct (snd p =? 0)%nat; [rewrite app_nil_r; auto|apply chars_app]. Qed.
Lemma number_inj a b : (if (a =? 0)%nat then [] else chars (show_nat a)) = (if (b =? 0)%nat then [] else chars (show_nat b)) -> a = b.
Proof.
  assert (N : forall n, n <> 0%nat -> chars (show_nat n) <> []).
  { intros n Hn E. change (@nil ascii) with (chars EmptyString) in E. apply chars_inj in E. change EmptyString with (digits Decimal.Nil) in E.
    apply digits_inj in E. apply (f_equal Nat.of_uint) in E. rewrite Unsigned.of_to in E. simpl in E. auto. }
  destruct (Nat.eqb_spec a 0), (Nat.eqb_spec b 0); intros E.
  - congruence.
  - exfalso. apply (N b); auto.
  - exfalso. apply (N a); auto.
  - apply show_nat_chars_inj; auto.
Qed.
Lemma part_inj p q : clear_name (fst p) -> clear_name (fst q) -> part p = part q -> p = q.
Proof.
  intros [_ (s & c & Hs & Hc)] [_ (s' & c' & Hs' & Hc')] E. apply (f_equal chars) in E. rewrite !part_chars, Hs, Hs', !chars_app in E.
  apply (f_equal (@rev ascii)) in E. rewrite !rev_app_distr in E. simpl in E.
  assert (D : forall n, Forall is_digit (rev (if (n =? 0)%nat then [] else chars (show_nat n)))).
  { intros n. apply List.Forall_forall. intros x Hx. apply in_rev in Hx. destruct (n =? 0)%nat; [destruct Hx|]. unfold show_nat in Hx. eapply digits_digits; eauto. }
  apply (split_run is_digit) in E as [E1 E2]; auto. apply (f_equal (@rev ascii)) in E1. rewrite !rev_involutive in E1. apply number_inj in E1.
  injection E2 as -> E2. apply (f_equal (@rev ascii)) in E2. rewrite !rev_involutive in E2. apply chars_inj in E2. destruct p, q; simpl in *. congruence.
Qed.
Lemma part_nodot p : free "." (fst p) -> ~ In "."%char (chars (part p)).
Proof.
  intros Hf. rewrite part_chars. intros Hi. apply in_app_or in Hi as [Hi|Hi]; [auto|]. destruct (snd p =? 0)%nat; [destruct Hi|]. revert Hi. apply show_nat_free. not_digit.
Qed.
Lemma path_cons p l : path (p :: l) = match l with [] => part p | _ => (part p ++ "." ++ path l)%string end.
Proof. unfold path, part. destruct l; reflexivity. Qed.
Lemma part_ne p : clear_name (fst p) -> part p <> EmptyString.
Proof.
  intros [_ (s & c & Hs & _)] E. apply (f_equal chars) in E. rewrite part_chars, Hs, chars_app in E. simpl in E. apply app_eq_nil in E as [E _].
  apply app_eq_nil in E as [_ E]. discriminate.
Qed.
Lemma path_inj l1 : forall l2, clear l1 -> clear l2 -> path l1 = path l2 -> l1 = l2.
Proof.
  assert (NE : forall p l, clear_name (fst p) -> path (p :: l) <> EmptyString).
  { intros p l Hp E. rewrite path_cons in E. destruct l; [apply (part_ne p Hp E)|]. apply (f_equal chars) in E. rewrite chars_app in E. simpl in E.
    apply app_eq_nil in E as [E _]. change (@nil ascii) with (chars EmptyString) in E. apply chars_inj in E. apply (part_ne p Hp E). }
  induction l1 as [|p l1 IH]; intros [|q l2] H1 H2 E; auto.
  - exfalso. apply (NE q l2); auto. destruct q as [a b]. apply (H2 a b). left. auto.
  - exfalso. apply (NE p l1); auto. destruct p as [a b]. apply (H1 a b). left. auto.
  - assert (Hp : clear_name (fst p)) by (destruct p as [a b]; apply (H1 a b); left; auto).
    assert (Hq : clear_name (fst q)) by (destruct q as [a b]; apply (H2 a b); left; auto).
    assert (H1' : clear l1) by (intros a b Hi; apply (H1 a b); right; auto). assert (H2' : clear l2) by (intros a b Hi; apply (H2 a b); right; auto).
    rewrite !path_cons in E. destruct l1 as [|p' l1], l2 as [|q' l2].
    + apply part_inj in E; auto. congruence.
    + exfalso. apply (f_equal chars) in E. rewrite !chars_app in E. apply (part_nodot p); [apply Hp|]. rewrite E. apply in_or_app. right. left. auto.
    + exfalso. apply (f_equal chars) in E. rewrite !chars_app in E. apply (part_nodot q); [apply Hq|]. rewrite <- E. apply in_or_app. right. left. auto.
    + apply (f_equal chars) in E. rewrite !chars_app in E. change (chars ".") with ["."%char] in E. cbn [app] in E.
      apply split_first in E as [E1 E2]; try (apply part_nodot; first [apply Hp|apply Hq]). apply chars_inj in E1, E2. apply part_inj in E1; auto. subst q.
      f_equal. apply IH; auto.
Qed.

(** *** Sums by model *)
Definition name_sum (s : string) (items : list (lineage * R)) : R :=
  total (map (fun lx => Rabs (snd lx)) (List.filter (fun lx => bool_decide (path (fst lx) = s)) items)).
Lemma bump_all items : forall d s, 
  dget (fold_left bump items d) s =
  match dget d s with
  | Some y => Some (y + name_sum s items)
  | None => if existsb (fun lx => bool_decide (path (fst lx) = s)) items then Some (name_sum s items) else None
  end.
Proof.
  induction items as [|[l x] items IH]; intros d s; cbn [fold_left existsb].
  - unfold name_sum. simpl. destruct (dget d s); auto. f_equal. lra.
  - rewrite IH. unfold bump. cbn [fst snd]. unfold name_sum. cbn [List.filter fst]. destruct (decide (path l = s)) as [<-|Hne].
    + rewrite bool_decide_eq_true_2 by auto. rewrite dget_dset_eq. cbn [map total fold_right snd orb]. fold (total (map (fun lx : lineage * R => Rabs (snd lx)) (List.filter (fun lx : lineage * R => bool_decide (path (fst lx) = path l)) items))).
      destruct (dget d (path l)); f_equal; lra.
    + rewrite bool_decide_eq_false_2 by auto. rewrite dget_dset_ne by congruence. cbn [orb]. destruct (dget d s); auto.
Qed.

(** The sensitivity by the name of a model is that of the model. *)
Definition C110_models_for (cond : list lineage -> Prop) : Prop :=
  forall constraints variables l, cond (map fst (constraints ++ variables)) -> In l (map fst (constraints ++ variables)) ->
    dget (m_senss constraints variables) (path l) = Some (sens_of l (constraints ++ variables)).
Theorem C110_models_partial : C110_models_for (fun ls => forall l, In l ls -> clear l).
Proof.
  intros cs vs l Hc Hl. unfold m_senss. rewrite <- fold_left_app, bump_all. cbn [dget]. revert Hc Hl. generalize (cs ++ vs) as items. intros items Hc Hl.
  replace (existsb _ items) with true.
  - f_equal. unfold name_sum, sens_of. do 2 f_equal. apply List.filter_ext_in. intros [l' x] Hi. simpl. apply bool_decide_ext. split; [|congruence].
    apply path_inj; apply Hc; auto. apply in_map_iff. exists (l', x). auto.
  - symmetry. apply existsb_exists. apply in_map_iff in Hl as ([l' x] & <- & Hi). exists (l', x). split; auto. apply bool_decide_eq_true_2. auto.
Qed.
Print Assumptions C110_models_partial.
(** The second [Wing], and the first [Wing1] *)
Theorem C110_models_refuted : ~ C110_models_for (fun _ => True).
Proof.
  intros Hc. specialize (Hc [([("Wing"%string, 1%nat)], 1); ([("Wing1"%string, 0%nat)], 1)] [] [("Wing"%string, 1%nat)] I ltac:(left; auto)).
  unfold m_senss in Hc. rewrite <- fold_left_app, bump_all in Hc. cbn [dget] in Hc. unfold sens_of, name_sum in Hc. cbn [app existsb fst] in Hc.
  rewrite bool_decide_eq_true_2 in Hc by auto. cbn [orb List.filter fst] in Hc. rewrite !(bool_decide_eq_true_2 (path _ = _)) in Hc by reflexivity.
  rewrite (bool_decide_eq_true_2 (_ = _ :> lineage)) in Hc by auto. rewrite (bool_decide_eq_false_2 (_ = _ :> lineage)) in Hc by discriminate.
  injection Hc as Hc. simpl in Hc. rewrite !Rabs_R1 in Hc. lra.
Qed.
Print Assumptions C110_models_refuted.

(** *** Cells *)
Lemma max_ge l x : In x l -> x <= maximum l.
Proof.
  destruct l as [|y l]; [intros []|]. simpl. intros [<-|Hi].
  - induction l as [|z l IH]; simpl; [lra|]. eapply Rle_trans; [apply IH|apply Rmax_r].
  - induction l as [|z l IH]; simpl in *; [destruct Hi|]. destruct Hi as [->|Hi]; [apply Rmax_l|]. eapply Rle_trans; [apply IH; auto|apply Rmax_r].
Qed.
Lemma max_in l : l <> [] -> In (maximum l) l.
Proof.
  destruct l as [|y l]; [congruence|]. intros _. simpl. induction l as [|z l IH]; simpl; auto. destruct (Rle_dec z (fold_right Rmax y l)).
  - rewrite Rmax_right by auto. tauto.
  - rewrite Rmax_left by lra. tauto.
Qed.
Lemma ln10 : 0 < ln 10.
Proof. rewrite <- ln_1. apply ln_increasing; lra. Qed.
Lemma log10_le m e : 0 < m -> log10 m <= IZR e <-> m <= powerRZ 10 e.
Proof.
  intros Hm. pose proof ln10 as H10. rewrite (powerRZ_Rpower 10 e) by lra. unfold log10, Rpower. split; intros H.
  - rewrite <- (exp_ln m) by auto. destruct (Rle_lt_or_eq_dec _ _ H) as [L|L].
    + left. apply exp_increasing. apply (Rmult_lt_compat_r (ln 10)) in L; auto. unfold Rdiv in L. rewrite Rmult_assoc, Rinv_l in L by lra. lra.
    + right. f_equal. rewrite <- L. field. lra.
  - apply (Rmult_le_reg_r (ln 10)); auto. unfold Rdiv. rewrite Rmult_assoc, Rinv_l, Rmult_1_r by lra.
    rewrite <- (ln_exp (IZR e * ln 10)). destruct H as [H|H]; [left; apply ln_increasing; auto|right; congruence].
Qed.
Lemma ten_pos e : 0 < powerRZ 10 e.
Proof. apply powerRZ_lt. lra. Qed.
(** The power that is printed *)
Lemma power_of m : 0 < m -> m < 1 / 10 -> (Ztrunc (log10 m) <= -1)%Z /\ powerRZ 10 (Ztrunc (log10 m) - 1) < m <= powerRZ 10 (Ztrunc (log10 m)).
Proof.
  intros Hm Hl. assert (H1 : log10 m <= IZR (-1)). { apply log10_le; auto. change (powerRZ 10 (-1)) with (/ (10 * 1)). lra. }
  rewrite Ztrunc_ceil by lra. split; [apply Zceil_glb; auto|]. split.
  - apply Rnot_le_lt. intros H. apply log10_le in H; auto. apply Zceil_glb in H. lia.
  - apply log10_le; auto. apply Zceil_ub.
Qed.
Lemma tenths_near x : Rabs (x - IZR (tenths x) / 10) <= 1 / 20.
Proof.
  unfold tenths. pose proof (Znearest_half (fun x => negb (Z.even x)) (x * 10)) as H. change (Znearest (fun x => negb (Z.even x))) with ZnearestE in H. set (t := ZnearestE (x * 10)) in *.
  replace (x - IZR t / 10) with ((x * 10 - IZR t) * / 10) by field. rewrite Rabs_mult, (Rabs_pos_eq (/ 10)) by lra. lra.
Qed.
Lemma mean_average l : l <> [] -> average l (mean l).
Proof. intros Hl. unfold average, mean, total. field. apply not_0_INR. destruct l; [congruence|discriminate]. Qed.
Lemma all_small l : forallb (fun x => if Rlt_dec x (1 / 10) then true else false) l = true -> Forall (fun x => x < 1 / 10) l.
Proof. intros H. apply List.Forall_forall. intros x Hx. eapply forallb_forall in H; eauto. simpl in H. destruct (Rlt_dec x (1 / 10)); [auto|discriminate]. Qed.
Lemma cell_big v : values v <> [] -> forallb (fun x => if Rlt_dec x (1 / 10) then true else false) (values v) = false -> true_of (values v) (cell v).
Proof.
  intros Hv E. unfold cell. rewrite E. destruct v as [x|xs]; simpl in *.
  - exists x. split; auto. apply tenths_near.
  - exists (mean xs). split; [apply mean_average; auto|]. split; [apply tenths_near|]. clear E Hv. generalize (mean xs) as a. intros a.
    induction xs as [|x xs IH]; simpl; constructor; auto. destruct (Rle_dec (1 / 10) (Rabs (x - a))); [apply tenths_near|lra].
Qed.

(** What is printed is true. *)
Definition C110_cells_for (cond : list R -> Prop) : Prop :=
  forall v, values v <> [] -> Forall (fun x => 0 <= x) (values v) -> cond (values v) -> true_of (values v) (cell v).
Theorem C110_cells_partial : C110_cells_for (fun l => forall e, ~ In (powerRZ 10 e) l).
Proof.
  intros v Hv Hp Hc. destruct (forallb (fun x => if Rlt_dec x (1 / 10) then true else false) (values v)) eqn:E; [|apply cell_big; auto].
  unfold cell. rewrite E. apply all_small in E. pose proof (max_in _ Hv) as Hm. rewrite List.Forall_forall in E, Hp. destruct (Req_EM_T (maximum (values v)) 0) as [H0|H0].
  - simpl. apply List.Forall_forall. intros x Hx. apply Rle_antisym; [rewrite <- H0; apply max_ge; auto|apply Hp; auto].
  - simpl. destruct (power_of (maximum (values v))) as (_ & _ & H); [pose proof (Hp _ Hm); lra|apply E; auto|]. apply List.Forall_forall. intros x Hx.
    apply (Rle_lt_trans _ (maximum (values v))); [apply max_ge; auto|]. destruct H as [H|H]; auto. exfalso. apply (Hc (Ztrunc (log10 (maximum (values v))))). rewrite <- H. auto.
Qed.
Print Assumptions C110_cells_partial.
(** Small sensitivities: the power of ten is the least that none of them exceeds. *)
Theorem C110_power v e : values v <> [] -> Forall (fun x => 0 <= x) (values v) -> cell v = Below e ->
  (e <= -1)%Z /\ Forall (fun x => x <= powerRZ 10 e) (values v) /\ exists x, In x (values v) /\ powerRZ 10 (e - 1) < x.
Proof.
  intros Hv Hp Hc. unfold cell in Hc. destruct (forallb (fun x => if Rlt_dec x (1 / 10) then true else false) (values v)) eqn:E; [|destruct v; discriminate].
  apply all_small in E. pose proof (max_in _ Hv) as Hm. rewrite List.Forall_forall in E, Hp. destruct (Req_EM_T (maximum (values v)) 0) as [H0|H0]; [discriminate|]. injection Hc as <-.
  destruct (power_of (maximum (values v))) as (H1 & H2 & H3); [pose proof (Hp _ Hm); lra|apply E; auto|]. split; auto. split; [|eauto].
  apply List.Forall_forall. intros x Hx. eapply Rle_trans; [apply max_ge; eauto|auto].
Qed.
Print Assumptions C110_power.
(** 0.01 is said to be less than 1E-2. *)
Lemma cell_hundredth : cell (Single (1 / 100)) = Below (-2).
Proof.
  unfold cell. simpl. destruct (Rlt_dec (1 / 100) (1 / 10)); [|lra]. simpl. destruct (Req_EM_T (1 / 100) 0); [lra|]. f_equal.
  destruct (power_of (1 / 100)) as (H1 & H2 & H3); [lra|lra|]. set (e := Ztrunc (log10 (1 / 100))) in *.
  assert (P2 : powerRZ 10 (-2) = 1 / 100) by (simpl; lra).
  assert (M : forall a b, (a <= b)%Z -> powerRZ 10 a <= powerRZ 10 b). { intros a b H. rewrite !powerRZ_Rpower by lra. apply Rle_Rpower; [lra|apply IZR_le; auto]. }
  destruct (Z.lt_trichotomy e (-2)) as [L|[L|L]]; auto; exfalso.
  - assert (powerRZ 10 e <= powerRZ 10 (-3)) by (apply M; lia). assert (powerRZ 10 (-3) = 1 / 1000) by (simpl; lra). lra.
  - assert (powerRZ 10 (-2) <= powerRZ 10 (e - 1)) by (apply M; lia). lra.
Qed.
Theorem C110_cells_refuted : ~ C110_cells_for (fun _ => True).
Proof.
  intros Hc. specialize (Hc (Single (1 / 100)) ltac:(discriminate) ltac:(repeat constructor; lra) I). rewrite cell_hundredth in Hc. simpl in Hc. inversion Hc. lra.
Qed.
Print Assumptions C110_cells_refuted.

(** *** Lines *)
Lemma insert_perm x l : Permutation (insert x l) (x :: l).
Proof. induction l as [|y l IH]; simpl; auto. destruct (Rle_dec _ _); auto. etransitivity; [apply perm_skip, IH|]. apply perm_swap. Qed.
Lemma sorted_perm l : Permutation (sorted l) l.
Proof. induction l as [|x l IH]; simpl; auto. etransitivity; [apply insert_perm|]. apply perm_skip. auto. Qed.
Definition down (a b : string * value) : Prop := mean (values (snd b)) <= mean (values (snd a)).
Lemma insert_sorted x l : StronglySorted down l -> StronglySorted down (insert x l).
Proof.
  induction l as [|y l IH]; intros Hl; simpl; [repeat constructor|]. inversion Hl as [|? ? Hs Hf]; subst. destruct (Rle_dec _ _) as [H|H].
  - constructor; auto. constructor; auto. rewrite List.Forall_forall in *. intros z Hz. specialize (Hf z Hz). unfold down in *. lra.
  - constructor; auto. rewrite List.Forall_forall in *. intros z Hz. apply (Permutation_in _ (insert_perm x l)) in Hz as [<-|Hz]; auto. unfold down. lra.
Qed.
Lemma sorted_sorted l : StronglySorted down (sorted l).
Proof. induction l as [|x l IH]; simpl; [constructor|apply insert_sorted; auto]. Qed.
Lemma lines_named l : flat_map (fun '(model, v) => match model with EmptyString => [] | _ => [(cell v, model)] end) l =
  map (fun kv => (cell (snd kv), fst kv)) (named l).
Proof. induction l as [|[k v] l IH]; auto. unfold named in *. cbn [flat_map List.filter fst]. destruct k; simpl; [auto|]. f_equal. auto. Qed.
Lemma filter_perm {A} (f : A -> bool) l l' : Permutation l l' -> Permutation (List.filter f l) (List.filter f l').
Proof. induction 1; simpl; auto; repeat (destruct (f _)); auto using perm_swap. etransitivity; eauto. Qed.
Lemma filter_sorted {A} (R : A -> A -> Prop) (f : A -> bool) l : StronglySorted R l -> StronglySorted R (List.filter f l).
Proof.
  induction 1 as [|x l Hs IH Hf]; simpl; [constructor|]. destruct (f x); auto. constructor; auto. rewrite List.Forall_forall in *. intros y Hy. apply filter_In in Hy as [Hy _]. auto.
Qed.
(** The table has the named models, the most sensitive first, if there are two. *)
Theorem C110_lines data : (2 <= length (named data))%nat -> Forall (fun kv => values (snd kv) <> []) data ->
  exists rows, Permutation rows (named data) /\ msenss_table data = map (fun kv => (cell (snd kv), fst kv)) rows /\
    forall i j ki vi kj vj a b, (i < j)%nat -> nth_error rows i = Some (ki, vi) -> nth_error rows j = Some (kj, vj) -> average (values vi) a -> average (values vj) b -> b <= a.
Proof.
  intros H2 Hne. exists (named (sorted data)). assert (P : Permutation (named (sorted data)) (named data)) by (apply filter_perm, sorted_perm). split; auto. split.
  - unfold msenss_table. rewrite lines_named, map_length, (Permutation_length P). destruct (Nat.ltb_spec 1 (length (named data))); [auto|lia].
  - assert (S : StronglySorted down (named (sorted data))) by (apply filter_sorted, sorted_sorted).
    assert (U : forall k v a, In (k, v) (named (sorted data)) -> average (values v) a -> a = mean (values v)).
    { intros k v a Hi Ha. apply (Permutation_in _ P), filter_In in Hi as [Hi _]. rewrite List.Forall_forall in Hne. specialize (Hne _ Hi). simpl in Hne.
      pose proof (mean_average _ Hne) as Hb. unfold average in *. apply (Rmult_eq_reg_r (INR (length (values v)))); [congruence|]. apply not_0_INR. destruct (values v); [congruence|discriminate]. }
    revert S U. generalize (named (sorted data)) as rows. clear. intros rows S U i j ki vi kj vj a b Hij Hi Hj Ha Hb.
    rewrite (U ki vi a), (U kj vj b); auto; try (eapply nth_error_In; eauto). clear U Ha Hb.
    revert i j Hij Hi Hj. induction S as [|x l Hs IH Hf]; intros i j Hij Hi Hj; [destruct i; discriminate|].
    destruct j as [|j]; [lia|]. destruct i as [|i].
    + simpl in *. injection Hi as ->. rewrite List.Forall_forall in Hf. apply (Hf (kj, vj)). eapply nth_error_In; eauto.
    + apply (IH i j); auto. lia.
Qed.
Print Assumptions C110_lines.
(** Every named model has a line that is its own. *)
Definition C110_shown_for (cond : list (string * value) -> Prop) : Prop :=
  forall data name v, NoDup (dkeys data) -> cond data -> In (name, v) data -> name <> EmptyString ->
    forall s, In (s, name) (msenss_table data) <-> s = cell v.
Theorem C110_shown_partial : C110_shown_for (fun data => (2 <= length (named data))%nat).
Proof.
  intros data name v Hn H2 Hi Hne s. assert (P : Permutation (named (sorted data)) (named data)) by (apply filter_perm, sorted_perm).
  unfold msenss_table. rewrite lines_named, map_length, (Permutation_length P). destruct (Nat.ltb_spec 1 (length (named data))) as [_|L]; [|lia].
  rewrite in_map_iff. split.
  - intros ([k w] & [= <- ->] & Hk). apply (Permutation_in _ P), filter_In in Hk as [Hk _]. f_equal.
    apply (In_dget _ _ _ Hn) in Hi, Hk. congruence.
  - intros ->. exists (name, v). split; auto. apply (Permutation_in _ (Permutation_sym P)), filter_In. split; auto. simpl. rewrite bool_decide_eq_false_2; auto.
Qed.
Print Assumptions C110_shown_partial.
(** If only one model has a name, it is not shown. *)
Theorem C110_shown_refuted : ~ C110_shown_for (fun _ => True).
Proof.
  intros Hc. specialize (Hc [("Wing"%string, Single 1); (EmptyString, Single 2)] "Wing"%string (Single 1)). destruct (Hc ltac:(apply (bool_decide_unpack _); vm_compute; exact I) I ltac:(left; auto) ltac:(discriminate) (cell (Single 1))) as [_ H].
  specialize (H eq_refl). revert H. unfold msenss_table. rewrite lines_named, map_length. unfold named.
  rewrite (Permutation_length (filter_perm _ _ _ (sorted_perm _))). simpl. auto.
Qed.
Print Assumptions C110_shown_refuted.

(** *** Cases *)
Example C110_models_nonvacuous : (forall l, In l [[("Wing"%string, 0%nat)]; [("Wing"%string, 1%nat); ("Spar"%string, 0%nat)]; [("Wing"%string, 0%nat)]] -> clear l) /\
  m_senss [([("Wing"%string, 0%nat)], 1); ([("Wing"%string, 1%nat); ("Spar"%string, 0%nat)], 2)] [([("Wing"%string, 0%nat)], 3)] =
  [("Wing"%string, 0 + Rabs 1 + Rabs 3); ("Wing1.Spar"%string, 0 + Rabs 2)].
Proof.
  split; [|reflexivity].
  assert (W : clear_name "Wing"). { split; [unfold free; simpl; intuition discriminate|]. exists "Win"%string, "g"%char. split; [reflexivity|not_digit]. }
  assert (S : clear_name "Spar"). { split; [unfold free; simpl; intuition discriminate|]. exists "Spa"%string, "r"%char. split; [reflexivity|not_digit]. }
  intros l [<-|[<-|[<-|[]]]] name num Hi; simpl in Hi; intuition congruence.
Qed.
Example C110_cells_nonvacuous : let v := Swept [1 / 2; 3 / 2] in
  values v <> [] /\ Forall (fun x => 0 <= x) (values v) /\ (forall e, ~ In (powerRZ 10 e) (values v)) /\ exists t d1 d2, cell v = Mean t [Some d1; Some d2].
Proof.
  simpl. split; [discriminate|]. split; [repeat constructor; lra|]. split.
  - assert (M : forall a b, (a <= b)%Z -> powerRZ 10 a <= powerRZ 10 b). { intros a b H. rewrite !powerRZ_Rpower by lra. apply Rle_Rpower; [lra|apply IZR_le; auto]. }
    intros e [E|[E|[]]].
    + destruct (Z.le_gt_cases e (-1)) as [L|L]; [specialize (M e (-1)%Z L)|specialize (M 0%Z e ltac:(lia))]; simpl in M; lra.
    + destruct (Z.le_gt_cases e 0) as [L|L]; [specialize (M e 0%Z L)|specialize (M 1%Z e ltac:(lia))]; simpl in M; lra.
  - unfold cell. simpl. destruct (Rlt_dec (1 / 2) (1 / 10)); [lra|]. simpl. unfold mean. simpl. 
    destruct (Rle_dec _ (Rabs (1 / 2 - _))) as [_|N]; [|exfalso; apply N; rewrite Rabs_left; lra].
    destruct (Rle_dec _ (Rabs (3 / 2 - _))) as [_|N]; [|exfalso; apply N; rewrite Rabs_right; lra]. eauto.
Qed.
Example C110_power_nonvacuous : values (Single (1 / 100)) <> [] /\ Forall (fun x => 0 <= x) (values (Single (1 / 100))) /\ cell (Single (1 / 100)) = Below (-2).
Proof. split; [discriminate|]. split; [repeat constructor; lra|apply cell_hundredth]. Qed.
Example C110_lines_nonvacuous : let data := [("Wing"%string, Single 1); (EmptyString, Single 2); ("Tail"%string, Single 3)] in
  (2 <= length (named data))%nat /\ Forall (fun kv => values (snd kv) <> []) data /\ NoDup (dkeys data) /\
  msenss_table data = [(cell (Single 3), "Tail"%string); (cell (Single 1), "Wing"%string)].
Proof.
  split; [simpl; lia|]. split; [repeat constructor; discriminate|]. split; [apply (bool_decide_unpack _); vm_compute; exact I|].
  unfold msenss_table. simpl. unfold mean. simpl. repeat (destruct (Rle_dec _ _); unfold mean in *; simpl in *; try lra). reflexivity.
Qed.
