(** C107: the text of expressions that have no syntax tree. *)
From Coq Require Import Reals Lra Permutation.
From Flocq Require Core.
Require Flocq.Prop.Relative.
From Verif Require Import Base HashVec Nomial NomialSem NomialProofs DiffProofs Latex LatexSem LatexProofs PropsLatex PlainStr.
Open Scope R_scope.

(** *** Reading such a text: sums of products of numbers and powers of variables, with a sign in front of a product *)
Section Read.
Variable env : point.
(** A factor, and what is behind it *)
Definition pfactor (ts : list (ptoken R)) : option (R * list (ptoken R)) :=
  match ts with
  | PNum n :: r => Some (number n, r)
  | PName x :: PSuper z :: r => Some (Rpower (env x) (IZR z), r)
  | PName x :: PCaret n :: r => Some (Rpower (env x) (number n), r)
  | PName x :: r => Some (env x, r)
  | _ => None
  end.
(** Products; each round reads a token at least. *)
Fixpoint pproduct (fuel : nat) (ts : list (ptoken R)) : option R :=
  match fuel with
  | O => None
  | S fuel =>
      match pfactor ts with
      | Some (a, []) => Some a
      | Some (a, PDot :: r) | Some (a, PStar :: r) => omul a (pproduct fuel r)
      | _ => None
      end
  end.
Definition pterm (ts : list (ptoken R)) : option R :=
  match ts with PMinus :: r => option_map Ropp (pproduct (length r) r) | _ => pproduct (length ts) ts end.
Fixpoint pterms (ts : list (ptoken R)) : list (list (ptoken R)) :=
  match ts with
  | [] => [[]]
  | PPlus :: r => [] :: pterms r
  | t :: r => match pterms r with s :: ss => (t :: s) :: ss | [] => [[t]] end
  end.
Definition pread (ts : list (ptoken R)) : option R := total (map pterm (pterms ts)).
End Read.

(** *** Sums *)
Definition no_pplus (t : list (ptoken R)) : Prop := forall x, In x t -> x <> PPlus.
Lemma pterms_one t : no_pplus t -> pterms t = [t].
Proof.
  induction t as [|x t IH]; auto. intros Hn. assert (IH' := IH (fun y Hy => Hn y (or_intror Hy))). cbn [pterms]. rewrite IH'.
  destruct x; auto. exfalso. apply (Hn PPlus); auto. left. auto.
Qed.
Lemma pterms_app t r : no_pplus t -> pterms (t ++ PPlus :: r) = t :: pterms r.
Proof.
  induction t as [|x t IH]; auto. intros Hn. assert (IH' := IH (fun y Hy => Hn y (or_intror Hy))). cbn [pterms app]. rewrite IH'.
  destruct x; auto. exfalso. apply (Hn PPlus); auto. left. auto.
Qed.
Lemma pterms_join ts : ts <> [] -> (forall t, In t ts -> no_pplus t) -> pterms (pjoin PPlus ts) = ts.
Proof.
  induction ts as [|t ts IH]; [congruence|]. intros _ Hn. destruct ts as [|t' ts].
  - cbn [pjoin]. apply pterms_one, Hn. left. auto.
  - change (pjoin PPlus (t :: t' :: ts)) with (t ++ PPlus :: pjoin PPlus (t' :: ts)). rewrite pterms_app by (apply Hn; left; auto).
    rewrite IH; [auto|discriminate|]. intros s Hs. apply Hn. right. auto.
Qed.

(** *** Products *)
Section Env.
Variable env : point.
Hypothesis Henv : positive_point env.
Variable windows : bool.
Variable printf : nat -> R -> numeral R.
Hypothesis Hprintf : prints printf.
(** A text of one factor *)
Definition one_factor (f : list (ptoken R)) (a : R) : Prop :=
  f <> [] /\ no_pplus f /\ hd_error f <> Some PMinus /\ (forall m r, m = PDot \/ m = PStar -> pfactor env (f ++ m :: r) = Some (a, m :: r)) /\ pfactor env f = Some (a, []).
Lemma no_pplus_2 (a b : ptoken R) : a <> PPlus -> b <> PPlus -> no_pplus [a; b].
Proof. intros Ha Hb x [<-|[<-|[]]]; auto. Qed.
Lemma num_factor n : one_factor [PNum n] (number n).
Proof. repeat split; try discriminate. intros x [<-|[]]; discriminate. Qed.
Lemma small_int_some x z : small_int x = Some z -> x = IZR z.
Proof. unfold small_int. intros Hf. apply find_some in Hf as [_ Hf]. apply bool_decide_eq_true in Hf. auto. Qed.
Lemma rounded_small x z : small_int x = Some z -> rounded 2 x = x.
Proof.
  intros Hf. rewrite (small_int_some x z Hf). unfold small_int in Hf. apply find_some in Hf as [Hf _].
  assert (Hz : (2 <= z <= 9)%Z) by (simpl in Hf; lia). clear Hf.
  assert (2 <= IZR z <= 9) by (split; apply IZR_le; lia).
  rewrite (rounded_is 2 (IZR z) 1 (z * 10)); rewrite ?mult_IZR; [simpl; lra|rewrite Rabs_right by lra; simpl; lra|apply Rabs_def1; simpl; lra].
Qed.
Lemma var_factor k x : one_factor (varstr windows printf (k, x)) (Rpower (env k) (rounded 2 x)).
Proof.
  unfold varstr. destruct (if windows then None else small_int x) as [z|] eqn:Ez.
  - destruct windows; [discriminate|]. rewrite (rounded_small x z Ez), (small_int_some x z Ez).
    repeat split; try discriminate. apply no_pplus_2; discriminate.
  - destruct (bool_decide (x = n1)) eqn:E1.
    + apply bool_decide_eq_true in E1. subst x. change n1 with 1. rewrite round_1, Rpower_1 by apply Henv.
      repeat split; try discriminate; [intros y [<-|[]]; discriminate|]. intros m r [->| ->]; auto.
    + destruct (Hprintf 2%nat x two_pos) as (Hn & _). rewrite <- Hn. repeat split; try discriminate. apply no_pplus_2; discriminate.
Qed.
Definition is_mul (m : ptoken R) : Prop := m = PDot \/ m = PStar.
Lemma factor_length f a : one_factor f a -> (1 <= length f)%nat.
Proof. intros (Hne & _). destruct f; [congruence|simpl; lia]. Qed.
Lemma pjoin_product m fs vs : is_mul m -> fs <> [] -> Forall2 one_factor fs vs ->
  forall fuel, (length (pjoin m fs) <= fuel)%nat -> pproduct env fuel (pjoin m fs) = Some (fold_right Rmult 1 vs).
Proof.
  intros Hm Hne HF. induction HF as [|f a fs vs Hf HF IH]; [congruence|]. intros fuel Hl. clear Hne.
  assert (Lf := factor_length f a Hf). destruct Hf as (_ & _ & _ & Happ & Hlast). destruct HF as [|f' a' fs vs Hf' HF].
  - cbn [pjoin] in *. destruct fuel; [lia|]. cbn [pproduct]. rewrite Hlast. simpl. f_equal. lra.
  - change (pjoin m (f :: f' :: fs)) with (f ++ m :: pjoin m (f' :: fs)) in *. rewrite app_length in Hl. cbn [length] in Hl.
    destruct fuel; [lia|]. cbn [pproduct]. rewrite Happ by auto. rewrite IH by (discriminate || lia). destruct Hm as [->| ->]; reflexivity.
Qed.
Lemma pjoin_no_pplus m fs vs : is_mul m -> Forall2 one_factor fs vs -> no_pplus (pjoin m fs).
Proof.
  intros Hm HF. induction HF as [|f a fs vs Hf HF IH]; [intros x []|]. destruct Hf as (_ & Hn & _). destruct HF as [|f' a' fs vs Hf' HF]; auto.
  change (pjoin m (f :: f' :: fs)) with (f ++ m :: pjoin m (f' :: fs)). intros x Hx. apply in_app_or in Hx as [Hx|[<-|Hx]]; auto.
  destruct Hm as [->| ->]; discriminate.
Qed.
Lemma pjoin_head m fs vs : Forall2 one_factor fs vs -> hd_error (pjoin m fs) <> Some PMinus.
Proof.
  intros HF. destruct HF as [|f a fs vs Hf HF]; [discriminate|]. destruct Hf as (Hne & _ & Hh & _). destruct f as [|t f]; [congruence|].
  destruct fs; auto.
Qed.
Lemma pterm_join m fs vs : is_mul m -> fs <> [] -> Forall2 one_factor fs vs -> pterm env (pjoin m fs) = Some (fold_right Rmult 1 vs).
Proof.
  intros Hm Hne HF. assert (Hh := pjoin_head m fs vs HF). unfold pterm. destruct (pjoin m fs) as [|t r] eqn:E; [|destruct t]; try (exfalso; apply Hh; reflexivity);
    rewrite <- E; eapply pjoin_product; eauto.
Qed.

(** *** Terms *)
Variable sort : list (list (ptoken R)) -> list (list (ptoken R)).
Hypothesis Hsort : keeps_all sort.
Lemma product_perm l l' : Permutation l l' -> fold_right Rmult 1 l = fold_right Rmult 1 l'.
Proof. induction 1; simpl; try lra; congruence. Qed.
Lemma vars_factors (vs : list (nat * R)) : exists ws, Forall2 one_factor (sort (map (varstr windows printf) vs)) ws /\ fold_right Rmult 1 ws = vars_value env vs.
Proof.
  assert (HF : Forall2 one_factor (map (varstr windows printf) vs) (map (fun v => Rpower (env (fst v)) (rounded 2 (snd v))) vs)).
  { induction vs as [|[k x] vs IH]; constructor; auto. apply var_factor. }
  destruct (Permutation_Forall2 (Permutation_sym (Hsort _)) HF) as (ws & Hp & Hw). exists ws. split; auto.
  rewrite <- (product_perm _ _ Hp). clear. induction vs as [|v vs IH]; auto. simpl. rewrite IH. auto.
Qed.
Lemma mstr_reads e c : exp_canon e ->
  pterm env (mstr windows printf sort (e, c)) = Some (rounded 3 c * vars_value env (map_to_list e)) /\ no_pplus (mstr windows printf sort (e, c)).
Proof.
  intros He. unfold mstr.
  assert (Ef : List.filter (fun v => negb (bool_decide (snd v = n0))) (map_to_list e) = map_to_list e).
  { assert (A : forall v, In v (map_to_list e) -> snd v <> 0).
    { intros [k x] Hin. apply elem_of_list_In, elem_of_map_to_list in Hin. apply (He k x Hin). }
    induction (map_to_list e) as [|v l IH]; auto. cbn [List.filter]. rewrite bool_decide_eq_false_2 by (apply A; left; auto). cbn [negb]. rewrite IH; auto.
    intros w Hw. apply A. right. auto. }
  rewrite Ef. destruct (vars_factors (map_to_list e)) as (ws & HF & Hw). rewrite <- Hw.
  assert (P3 : (0 < 3)%nat) by lia. destruct (Hprintf 3%nat c P3) as (Hn & _). destruct (short_one 3 P3) as [S1 S2].
  set (fs := sort (map (varstr windows printf) (map_to_list e))) in *.
  assert (HM : is_mul (MUL windows)) by (unfold MUL, is_mul; destruct windows; auto).
  assert (HD : is_mul PDot) by (left; auto).
  destruct (is_digits (printf 3%nat c) (nopp n1)) eqn:E2; cbn [andb].
  - apply (is_digits_iff printf Hprintf 3 c (-1) P3 S2) in E2. destruct fs as [|f fs'] eqn:Efs; cbn [negb].
    + inversion HF; subst. rewrite orb_true_r. cbn [app]. rewrite (pterm_join _ [[PNum (printf 3%nat c)]] [number (printf 3%nat c)]); [|auto|discriminate|constructor; [apply num_factor|constructor]].
      split; [rewrite <- Hn; reflexivity|]. eapply pjoin_no_pplus; [exact HM|constructor; [apply num_factor|constructor]].
    + split.
      * cbn [pterm]. rewrite (pjoin_product PDot (f :: fs') ws) by (auto; discriminate). cbn [option_map]. f_equal. rewrite E2. lra.
      * intros x [<-|Hx]; [discriminate|]. eapply pjoin_no_pplus; eauto.
  - destruct (is_digits (printf 3%nat c) n1) eqn:E1; cbn [negb orb].
    + apply (is_digits_iff printf Hprintf 3 c 1 P3 S1) in E1. destruct fs as [|f fs'] eqn:Efs; cbn [app].
      * inversion HF; subst. rewrite (pterm_join _ [[PNum (printf 3%nat c)]] [number (printf 3%nat c)]); [|auto|discriminate|constructor; [apply num_factor|constructor]].
        split; [rewrite <- Hn; reflexivity|]. eapply pjoin_no_pplus; [exact HM|constructor; [apply num_factor|constructor]].
      * rewrite (pterm_join _ (f :: fs') ws) by (auto; discriminate). split; [f_equal; rewrite E1; lra|]. eapply pjoin_no_pplus; eauto.
    + assert (HF' : Forall2 one_factor ([[PNum (printf 3%nat c)]] ++ fs) (number (printf 3%nat c) :: ws)) by (constructor; [apply num_factor|auto]).
      assert (Hne : [[PNum (printf 3%nat c)]] ++ fs <> []) by discriminate.
      rewrite (pterm_join _ _ _ HM Hne HF'). split; [cbn [fold_right]; rewrite Hn; auto|]. eapply pjoin_no_pplus; eauto.
Qed.
End Env.

(** Read as mathematics, the text is the expression, with three digits of each coefficient and two of each exponent. *)
Theorem C107_reads : forall windows printf sf st h env, prints printf -> keeps_all sf -> keeps_all st -> canonical h -> h <> [] -> positive_point env ->
  pread env (plain_str windows printf sf st h) = Some (eval env (to_digits 3 2 h)).
Proof.
  intros windows printf sf st h env Hp Hf Ht [_ Hc] Hne He. unfold pread, plain_str.
  assert (P := Ht (map (mstr windows printf sf) h)).
  assert (M : forall e c, In (e, c) h -> exp_canon e) by (intros e c Hin; apply (Hc e c Hin)). clear Hc.
  rewrite pterms_join.
  - rewrite (total_perm _ (map (pterm env) (map (mstr windows printf sf) h))) by (apply Permutation_map, P). clear P Hne.
    induction h as [|[e c] h IH]; auto. cbn [map total to_digits eval].
    rewrite IH by (intros e' c' Hi; apply (M e' c'); right; auto). fold (to_digits 3 2 h).
    destruct (mstr_reads env He windows printf Hp sf Hf e c (M e c (or_introl eq_refl))) as [-> _]. rewrite mono_val_list. reflexivity.
  - intros E. rewrite E in P. apply Permutation_nil in P. destruct h; [congruence|discriminate].
  - intros t Hin. apply (Permutation_in _ P) in Hin. apply in_map_iff in Hin as ((e & c) & <- & Hin).
    apply (mstr_reads env He windows printf Hp sf Hf e c (M e c Hin)).
Qed.
Print Assumptions C107_reads.

(** Coefficients are within half a percent, and exponents within five percent, of those of the expression. *)
Theorem C107_close : forall x, Rabs (rounded 3 x - x) <= / 200 * Rabs x /\ Rabs (rounded 2 x - x) <= / 20 * Rabs x.
Proof.
  intros x. unfold rounded. split; (eapply Rle_trans; [apply Relative.relative_error_N_FLX; lia|]); apply Req_le; f_equal; simpl; lra.
Qed.
Print Assumptions C107_close.

(** *** Windows, where "·" and superscripts are avoided *)
Definition ascii (t : ptoken R) : Prop := match t with PDot | PSuper _ => False | _ => True end.
Definition C107_windows_for (cond : (nat -> R -> numeral R) -> hmap R -> Prop) : Prop :=
  forall printf sf st h, prints printf -> keeps_all sf -> keeps_all st -> canonical h -> cond printf h -> Forall ascii (plain_str true printf sf st h).
(** Terms whose coefficient is -1 have one variable at most. *)
Definition no_negative_products (h : hmap R) : Prop := forall e c, In (e, c) h -> rounded 3 c = -1 -> (length (map_to_list e) <= 1)%nat.
Lemma pjoin_forall (P : ptoken R -> Prop) m fs : P m -> Forall (Forall P) fs -> Forall P (pjoin m fs).
Proof.
  intros Hm HF. induction HF as [|f fs Hf HF IH]; [constructor|]. destruct fs as [|f' fs]; auto.
  change (pjoin m (f :: f' :: fs)) with (f ++ m :: pjoin m (f' :: fs)). apply Forall_app. auto.
Qed.
Lemma perm_forall {A} (P : A -> Prop) l l' : Permutation l' l -> Forall P l -> Forall P l'.
Proof. rewrite !List.Forall_forall. intros Hp HF x Hx. apply HF. apply (Permutation_in _ Hp Hx). Qed.
Lemma length_filter_le {A} (f : A -> bool) l : (length (List.filter f l) <= length l)%nat.
Proof. induction l as [|x l IH]; simpl; auto. destruct (f x); simpl; lia. Qed.
Theorem C107_windows_partial : C107_windows_for (fun _ => no_negative_products).
Proof.
  intros printf sf st h Hp Hf Ht _ Hno. unfold plain_str. apply pjoin_forall; [exact I|]. eapply perm_forall; [apply Ht|].
  apply List.Forall_forall. intros t Hin. apply in_map_iff in Hin as ((e & c) & <- & Hin). unfold mstr.
  assert (V : forall vs, Forall (Forall ascii) (sf (map (varstr true printf) vs))).
  { intros vs. eapply perm_forall; [apply Hf|]. apply List.Forall_forall. intros f Hi. apply in_map_iff in Hi as ((k & x) & <- & _). unfold varstr.
    destruct (bool_decide _); repeat constructor. }
  set (vs := List.filter _ (map_to_list e)). destruct (is_digits _ (nopp n1) && _) eqn:E.
  - constructor; [exact I|]. apply andb_true_iff in E as [E _]. assert (P3 : (0 < 3)%nat) by lia. destruct (short_one 3 P3) as [_ S2].
    apply (is_digits_iff printf Hp 3 c (-1) P3 S2) in E. assert (L := Hno e c Hin E).
    assert (L' : (length (sf (map (varstr true printf) vs)) <= 1)%nat).
    { rewrite (Permutation_length (Hf _)), map_length. unfold vs. eapply Nat.le_trans; [apply length_filter_le|auto]. }
    specialize (V vs). destruct (sf (map (varstr true printf) vs)) as [|f [|f' fs]]; [constructor|inversion V; auto|simpl in L'; lia].
  - apply pjoin_forall; [exact I|]. apply Forall_app. split; auto. destruct (_ || _); repeat constructor.
Qed.
Print Assumptions C107_windows_partial.

Lemma round_m1 : rounded 3 (-1) = -1.
Proof. replace (-1) with (- (1)) by lra. rewrite rounded_opp. f_equal. round_it 1%Z 100%Z; simpl; lra. Qed.
(** -x y *)
Definition ex_xy : expv R := {[1%nat := 1; 2%nat := 1]}.
Lemma ex_xy_canon : exp_canon ex_xy.
Proof.
  intros k x Hk. unfold ex_xy in Hk. apply lookup_insert_Some in Hk as [[_ <-]|[_ Hk]]; [lra|]. apply lookup_singleton_Some in Hk as [_ <-]. lra.
Qed.
Theorem C107_windows_refuted : ~ C107_windows_for (fun _ _ => True).
Proof.
  intros Hw. specialize (Hw py_printf (fun l => l) (fun l => l) [(ex_xy, -1)] py_printf_prints id_keeps id_keeps (mono_canonical ex_xy (-1) ex_xy_canon ltac:(lra)) I).
  unfold plain_str, mstr in Hw. cbn [map pjoin] in Hw.
  assert (P3 : (0 < 3)%nat) by lia. destruct (short_one 3 P3) as [_ S2].
  change (nopp n1) with (-1) in Hw. rewrite (proj2 (is_digits_iff py_printf py_printf_prints 3 (-1) (-1) P3 S2) round_m1) in Hw.
  assert (Em : map_to_list ex_xy ≡ₚ [(1%nat, 1); (2%nat, 1)]).
  { unfold ex_xy. rewrite map_to_list_insert by (apply lookup_singleton_ne; auto). rewrite map_to_list_singleton. auto. }
  assert (A : forall v, In v (map_to_list ex_xy) -> bool_decide (snd v = n0) = false).
  { intros v Hv. apply (Permutation_in _ Em) in Hv. apply bool_decide_eq_false. destruct Hv as [<-|[<-|[]]]; cbn; change n0 with 0; lra. }
  assert (L := Permutation_length Em). destruct (map_to_list ex_xy) as [|v1 [|v2 [|]]]; try discriminate L. cbn [List.filter] in Hw.
  rewrite (A v1) in Hw by (left; auto). rewrite (A v2) in Hw by (right; left; auto). cbn [negb map pjoin andb] in Hw.
  inversion Hw as [|? ? _ Hw']; subst. apply List.Forall_app in Hw' as [_ Hw']. inversion Hw' as [|? ? Hd _]. exact Hd.
Qed.
Print Assumptions C107_windows_refuted.

(** *** Cases *)
(** -x y + 3 / sqrt(x) *)
Example C107_reads_nonvacuous env : positive_point env ->
  pread env (plain_str false py_printf (@rev _) (fun l => l) [(ex_xy, -1); ({[1%nat := - (1 / 2)]}, 3)]) = Some (- (Rpower (env 1%nat) 1 * Rpower (env 2%nat) 1) + 3 * Rpower (env 1%nat) (- (1 / 2))).
Proof.
  intros He. rewrite C107_reads; [|apply py_printf_prints|intros l; symmetry; apply Permutation_rev|apply id_keeps| |discriminate|auto].
  - assert (R3 : rounded 3 3 = 3) by (round_it 1%Z 300%Z; simpl; lra). unfold to_digits, ex_xy. cbn [map]. rewrite R3, round_m1, fmap_insert, !map_fmap_singleton, round_1, round_half.
    assert (S : forall k a, mono_val env {[k := a]} = Rpower (env k) a).
    { intros k a. change ({[k := a]} : expv R) with (<[k := a]> ∅ : expv R). rewrite mono_val_insert by apply lookup_empty. unfold mono_val. rewrite map_fold_empty. change (@n1 R _) with 1. lra. }
    f_equal. cbn [eval]. rewrite mono_val_insert by (apply lookup_singleton_ne; auto). rewrite !S. lra.
  - split.
    + cbn [dkeys map fst]. constructor; [|apply NoDup_singleton]. intros Hin. apply elem_of_list_singleton in Hin.
      apply (f_equal (fun e : expv R => e !! 2%nat)) in Hin. unfold ex_xy in Hin. rewrite lookup_insert_ne, lookup_singleton, lookup_singleton_ne in Hin by auto. discriminate.
    + intros e c [[= <- <-]|[[= <- <-]|[]]]; (split; [|lra]); [apply ex_xy_canon|apply single_canon; lra].
Qed.
Example C107_windows_nonvacuous : no_negative_products [(ex_xy, 3); ({[1%nat := 2]}, -1)].
Proof.
  assert (R3 : rounded 3 3 = 3) by (round_it 1%Z 300%Z; simpl; lra).
  intros e c [[= <- <-]|[[= <- <-]|[]]]; [rewrite R3; lra|]. intros _. rewrite map_to_list_singleton. auto.
Qed.
