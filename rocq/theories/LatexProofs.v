(** Proofs about Latex.v. *)
From Coq Require Import Reals Lra Permutation.
From Flocq Require Core.
From Verif Require Import Base HashVec Nomial NomialSem NomialProofs Latex LatexSem.
Open Scope R_scope.

(** *** Sums *)
Lemma total_perm l l' : Permutation l l' -> total l = total l'.
Proof.
  induction 1 as [|o l l' _ IH|a b l|]; auto; cbn [total].
  - rewrite IH. auto.
  - destruct a, b, (total l); auto. f_equal. lra.
  - congruence.
Qed.
Definition no_plus (t : list (token R)) : Prop := forall x, In x t -> x <> Plus.
Lemma terms_one t : no_plus t -> terms t = [t].
Proof.
  induction t as [|x t IH]; auto. intros Hn. assert (IH' := IH (fun y Hy => Hn y (or_intror Hy))). cbn [terms]. rewrite IH'.
  destruct x; auto. exfalso. apply (Hn Plus); auto. left. auto.
Qed.
Lemma terms_app t r : no_plus t -> terms (t ++ Plus :: r) = t :: terms r.
Proof.
  induction t as [|x t IH]; auto. intros Hn. assert (IH' := IH (fun y Hy => Hn y (or_intror Hy))). cbn [terms app]. rewrite IH'.
  destruct x; auto. exfalso. apply (Hn Plus); auto. left. auto.
Qed.
Lemma terms_join ts : ts <> [] -> (forall t, In t ts -> no_plus t) -> terms (join_terms ts) = ts.
Proof.
  induction ts as [|t ts IH]; [congruence|]. intros _ Hn. destruct ts as [|t' ts].
  - cbn [join_terms]. apply terms_one, Hn. left. auto.
  - change (join_terms (t :: t' :: ts)) with (t ++ Plus :: join_terms (t' :: ts)). rewrite terms_app by (apply Hn; left; auto).
    rewrite IH; [auto|discriminate|]. intros s Hs. apply Hn. right. auto.
Qed.

(** *** Products *)
Definition plain_factor (f : list (atom R)) : Prop := exists x, f = [Name x] \/ exists a, f = [Name x; Sup (Plain a)].
Definition omul2 (a b : option R) : option R := match a, b with Some x, Some y => Some (x * y) | _, _ => None end.
Fixpoint prod_all (os : list (option R)) : option R := match os with [] => Some 1 | o :: os' => omul2 o (prod_all os') end.
Lemma prod_perm l l' : Permutation l l' -> prod_all l = prod_all l'.
Proof.
  induction 1 as [|o l l' _ IH|a b l|]; auto; cbn [prod_all].
  - rewrite IH. auto.
  - destruct a, b, (prod_all l); auto. simpl. f_equal. lra.
  - congruence.
Qed.
Section Env.
Variable env : point.
Lemma factor_space f r : plain_factor f -> factors env (f ++ Space :: r) = omul2 (factors env f) (factors env r).
Proof.
  intros (x & [->|(a & ->)]); cbn [app factors omul option_map]; destruct (factors env r); simpl; auto; f_equal; lra.
Qed.
Lemma join_value fs : (forall f, In f fs -> plain_factor f) -> factors env (join_factors fs) = prod_all (map (factors env) fs).
Proof.
  induction fs as [|f fs IH]; auto. intros Hf. destruct fs as [|f' fs].
  - cbn [join_factors map prod_all]. destruct (factors env f); simpl; auto. f_equal. lra.
  - change (join_factors (f :: f' :: fs)) with (f ++ Space :: join_factors (f' :: fs)). rewrite factor_space by (apply Hf; left; auto).
    rewrite IH by (intros g Hg; apply Hf; right; auto). reflexivity.
Qed.
(** Texts that start with a variable *)
Lemma join_head fs : fs <> [] -> (forall f, In f fs -> plain_factor f) -> exists x r, join_factors fs = Name x :: r.
Proof.
  destruct fs as [|f fs]; [congruence|]. intros _ Hf. destruct (Hf f (or_introl eq_refl)) as (x & Hx). exists x.
  destruct fs; cbn [join_factors]; destruct Hx as [->|(a & ->)]; simpl; eauto.
Qed.
Lemma product_name x r : product env (Name x :: r) = factors env (Name x :: r).
Proof. reflexivity. Qed.
Lemma digits_name v x r : product env (Digits v :: Name x :: r) = omul v (factors env (Name x :: r)).
Proof. reflexivity. Qed.
Lemma sci_name v z x r : product env (Digits v :: Times10 z :: Name x :: r) = omul (v * powerRZ 10 z) (factors env (Name x :: r)).
Proof. reflexivity. Qed.
Lemma minus_name x r : product env (Minus :: Name x :: r) = option_map Ropp (factors env (Name x :: r)).
Proof. reflexivity. Qed.
Lemma leading_app l r : leading_atoms (map Atom l ++ r) = (l ++ fst (leading_atoms r), snd (leading_atoms r)).
Proof. induction l as [|a l IH]; simpl; [destruct (leading_atoms r); auto|]. rewrite IH. auto. Qed.
Lemma read_atoms l : read_term env (map Atom l) = product env l.
Proof. unfold read_term. replace (map Atom l) with (map Atom l ++ []) by apply app_nil_r. rewrite leading_app. simpl. rewrite app_nil_r. auto. Qed.
Lemma read_frac l n d : read_term env (map Atom l ++ [Frac n d]) =
  match signed env l, product env n, product env d with Some c, Some a, Some b => Some (c * (a / b)) | _, _, _ => None end.
Proof. unfold read_term. rewrite leading_app. simpl. rewrite app_nil_r. auto. Qed.
End Env.

(** *** Numbers *)
Section Printf.
Variable printf : nat -> R -> numeral R.
Hypothesis Hprintf : prints printf.
Lemma is_digits_iff p c v : (0 < p)%nat -> short p v -> is_digits (printf p c) v = true <-> rounded p c = v.
Proof.
  intros Hp Hv. destruct (Hprintf p c Hp) as (Hn & Hs & Hl). unfold is_digits. split.
  - destruct (printf p c) as [w|m z] eqn:E; [|discriminate]. intros Hw. apply bool_decide_eq_true in Hw. rewrite <- Hn. auto.
  - intros <-. destruct (Hs Hv) as (w & Ew). rewrite Ew in *. apply bool_decide_eq_true. auto.
Qed.
Lemma short_one p : (0 < p)%nat -> short p 1 /\ short p (-1).
Proof.
  intros Hp. assert (1 < powerRZ 10 (Z.of_nat p)). { rewrite <- pow_powerRZ. apply Rlt_pow_R1; [lra|auto]. }
  split; right; [rewrite Rabs_R1|rewrite Rabs_left by lra]; split; lra.
Qed.
Lemma two_pos : (0 < 2)%nat. Proof. auto. Qed.
Lemma four_pos : (0 < 4)%nat. Proof. auto. Qed.

Definition shown (c : R) (pos : bool) : R :=
  if pos && (bool_decide (rounded 2 c = 1) || bool_decide (rounded 2 c = -1)) then rounded 2 c else rounded 4 c.

Section Env.
Variable env : point.
Hypothesis Henv : positive_point env.
Definition fine (x : R) : Prop := short 2 (rounded 2 x).
Lemma factor_plain k a : fine a -> plain_factor (factor printf (k, a)) /\ factors env (factor printf (k, a)) = Some (Rpower (env k) (rounded 2 a)).
Proof.
  intros Ha. unfold factor. destruct (is_digits _ _) eqn:E.
  - apply (is_digits_iff 2 a 1 two_pos) in E; [|apply short_one, two_pos]. split; [exists k; auto|]. simpl. rewrite E, Rpower_1 by apply Henv. f_equal. lra.
  - destruct (Hprintf 2%nat a two_pos) as (Hn & Hs & _). destruct (Hs Ha) as (v & Ev). rewrite Ev in *. simpl in Hn. subst v.
    split; [exists k; eauto|]. simpl. f_equal. lra.
Qed.
(** The value of a list of variables *)
Definition vars_value (vs : list (nat * R)) : R := fold_right (fun x acc => Rpower (env (fst x)) (rounded 2 (snd x)) * acc) 1 vs.
Variable sort : list (list (atom R)) -> list (list (atom R)).
Hypothesis Hsort : forall l, Permutation (sort l) l.
Lemma vars_text (vs : list (nat * R)) : vs <> [] -> (forall x, In x vs -> fine (snd x)) ->
  factors env (join_factors (sort (map (factor printf) vs))) = Some (vars_value vs) /\
  exists x r, join_factors (sort (map (factor printf) vs)) = Name x :: r.
Proof.
  intros Hne Hf. assert (Hp : forall f, In f (sort (map (factor printf) vs)) -> plain_factor f).
  { intros f Hin. apply (Permutation_in _ (Hsort _)) in Hin. apply in_map_iff in Hin as ((k & a) & <- & Hin). apply factor_plain. apply (Hf (k, a) Hin). }
  split.
  - rewrite join_value by auto. rewrite (prod_perm _ (map (factors env) (map (factor printf) vs))) by (apply Permutation_map, Hsort).
    clear Hne Hp. induction vs as [|[k a] vs IH]; auto. cbn [map prod_all vars_value fold_right fst snd].
    destruct (factor_plain k a (Hf (k, a) (or_introl eq_refl))) as [_ ->]. rewrite IH by (intros x Hx; apply Hf; right; auto). auto.
  - apply join_head; auto. intros E. assert (P := Hsort (map (factor printf) vs)). rewrite E in P. apply Permutation_nil in P. destruct vs; [congruence|discriminate].
Qed.
Lemma vars_value_pos vs : 0 < vars_value vs.
Proof. induction vs as [|x vs IH]; simpl; [lra|]. apply Rmult_lt_0_compat; auto. apply exp_pos. Qed.

(** *** Terms *)
Lemma coefficient_reads c pos r x : let l := coefficient_text printf c pos in
  product env (l ++ Name x :: r) = omul (shown c pos) (factors env (Name x :: r)) /\ (pos = true -> signed env l = Some (shown c pos)) /\ (pos = false -> product env l = Some (shown c pos)).
Proof.
  intros l. unfold l, coefficient_text, shown. destruct (short_one 2 two_pos) as [S1 S2].
  destruct (is_digits (printf 2 c) n1) eqn:E1; [|destruct (is_digits (printf 2 c) (nopp n1)) eqn:E2].
  - apply (is_digits_iff 2 c 1 two_pos S1) in E1. rewrite (bool_decide_eq_true_2 _ E1). destruct pos; cbn [andb orb].
    + rewrite E1. cbn [app]. rewrite product_name. split; [|split; [reflexivity|discriminate]]. destruct (factors env _); simpl; auto. f_equal. lra.
    + destruct (Hprintf 4%nat c four_pos) as (Hn & _). destruct (printf 4 c) as [v|m z]; cbn [app number] in *; rewrite <- Hn.
      * rewrite digits_name. split; auto. split; [discriminate|]. intros _. cbn. f_equal. lra.
      * rewrite sci_name. split; auto. split; [discriminate|]. intros _. cbn -[powerRZ]. f_equal. lra.
  - apply (is_digits_iff 2 c (-1) two_pos S2) in E2. rewrite (bool_decide_eq_true_2 (rounded 2 c = -1) E2), orb_true_r. destruct pos; cbn [andb].
    + rewrite E2. cbn [app]. rewrite minus_name. split; [|split; [intros _; cbn; f_equal; lra|discriminate]]. destruct (factors env _); simpl; auto. f_equal. lra.
    + destruct (Hprintf 4%nat c four_pos) as (Hn & _). destruct (printf 4 c) as [v|m z]; cbn [app number] in *; rewrite <- Hn.
      * rewrite digits_name. split; auto. split; [discriminate|]. intros _. cbn. f_equal. lra.
      * rewrite sci_name. split; auto. split; [discriminate|]. intros _. cbn -[powerRZ]. f_equal. lra.
  - assert (N1 : rounded 2 c <> 1) by (intros N; apply (is_digits_iff 2 c 1 two_pos S1) in N; change n1 with 1 in E1; congruence).
    assert (N2 : rounded 2 c <> -1) by (intros N; apply (is_digits_iff 2 c (-1) two_pos S2) in N; change (nopp n1) with (-1) in E2; congruence).
    rewrite (bool_decide_eq_false_2 _ N1), (bool_decide_eq_false_2 _ N2). cbn [orb]. rewrite !andb_false_r.
    destruct (Hprintf 4%nat c four_pos) as (Hn & _). destruct (printf 4 c) as [v|m z]; cbn [app number] in *; rewrite <- Hn.
    + rewrite digits_name. split; auto. split; intros _; cbn; f_equal; lra.
    + rewrite sci_name. split; auto. split; intros _; cbn -[powerRZ]; f_equal; lra.
Qed.

Definition somev (vs : list (nat * R)) : bool := match vs with [] => false | _ => true end.
Lemma rounded_opp p x : rounded p (- x) = - rounded p x.
Proof. unfold rounded. apply Round_NE.round_NE_opp. Qed.
Lemma neg_vars_value vs : vars_value (map (fun x => (fst x, - snd x)) vs) = / vars_value vs.
Proof.
  induction vs as [|[k a] vs IH]; simpl; [field|]. rewrite IH, rounded_opp, Rpower_Ropp. assert (P := vars_value_pos vs).
  assert (0 < Rpower (env k) (rounded 2 a)) by apply exp_pos. field. lra.
Qed.
Lemma neg_text vs : map (fun x : nat * R => factor printf (fst x, nopp (snd x))) vs = map (factor printf) (map (fun x => (fst x, - snd x)) vs).
Proof. rewrite map_map. auto. Qed.
Lemma fine_opp x : fine x -> fine (- x).
Proof. unfold fine, short. rewrite rounded_opp, Rabs_Ropp. intros [->|H]; [left; lra|auto]. Qed.
Lemma term_reads c pos neg : (forall x, In x pos -> fine (snd x)) -> (forall x, In x neg -> fine (snd x)) ->
  read_term env (term_latex printf sort c pos neg) = Some (shown c (somev pos) * (vars_value pos * vars_value neg)).
Proof.
  intros Hp Hn. unfold term_latex. rewrite neg_text.
  assert (Hn' : forall x, In x (map (fun x => (fst x, - snd x)) neg) -> fine (snd x)).
  { intros x Hx. apply in_map_iff in Hx as (y & <- & Hy). simpl. apply fine_opp. auto. }
  assert (Vn := neg_vars_value neg). assert (Pn := vars_value_pos neg).
  destruct pos as [|p ps]; destruct neg as [|q qs].
  - rewrite read_atoms. cbn [somev vars_value fold_right]. destruct (coefficient_reads c false [] 0) as (_ & _ & ->); auto. f_equal. lra.
  - destruct (vars_text (map (fun x => (fst x, - snd x)) (q :: qs))) as (E & x & r & Et); [discriminate|auto|].
    change (Frac (coefficient_text printf c false) ?d :: []) with (map Atom (@nil (atom R)) ++ [Frac (coefficient_text printf c false) d]).
    rewrite read_frac. destruct (coefficient_reads c false [] 0) as (_ & _ & ->); auto. rewrite Et in *. rewrite product_name, E. cbn [signed factors somev].
    f_equal. rewrite Vn. cbn [vars_value fold_right]. unfold Rdiv. rewrite Rinv_inv. fold (vars_value (q :: qs)). cbn [vars_value fold_right]. lra.
  - destruct (vars_text (p :: ps)) as (E & x & r & Et); [discriminate|auto|]. rewrite Et in *. rewrite read_atoms.
    destruct (coefficient_reads c true r x) as (-> & _ & _). rewrite E. cbn [omul option_map somev]. f_equal. cbn [vars_value fold_right]. lra.
  - destruct (vars_text (p :: ps)) as (E & x & r & Et); [discriminate|auto|]. rewrite Et in *.
    destruct (vars_text (map (fun x => (fst x, - snd x)) (q :: qs))) as (E' & x' & r' & Et'); [discriminate|auto|]. rewrite Et' in *.
    rewrite read_frac. destruct (coefficient_reads c true r x) as (_ & -> & _); auto. rewrite !product_name, E, E'. f_equal. rewrite Vn. unfold Rdiv. rewrite Rinv_inv. cbn [somev]. lra.
Qed.
Lemma term_no_plus c pos neg : no_plus (term_latex printf sort c pos neg).
Proof.
  intros x Hx. assert (A : forall l, In x (map Atom l) -> x <> Plus) by (intros l Hl; apply in_map_iff in Hl as (a & <- & _); discriminate).
  unfold term_latex in Hx. destruct pos, neg; eauto.
  - destruct Hx as [<-|[]]. discriminate.
  - apply in_app_or in Hx as [Hx|[<-|[]]]; eauto; discriminate.
Qed.

(** *** Exponents *)
Lemma filter_split (l : list (nat * R)) : (forall x, In x l -> snd x <> 0) ->
  vars_value l = vars_value (List.filter (fun x => is_pos (snd x)) l) * vars_value (List.filter (fun x => is_neg (snd x)) l).
Proof.
  induction l as [|[k a] l IH]; intros Hl; [simpl; lra|]. cbn [List.filter]. assert (a <> 0) by (apply (Hl (k, a)); left; auto).
  assert (E : vars_value ((k, a) :: l) = Rpower (env k) (rounded 2 a) * vars_value l) by reflexivity.
  rewrite E, IH by (intros x Hx; apply Hl; right; auto). cbn [snd].
  assert (C : (is_pos a = true /\ is_neg a = false) \/ (is_pos a = false /\ is_neg a = true)).
  { unfold is_pos, is_neg. change (nltb n0 a) with (Rltb 0 a). change (nltb a n0) with (Rltb a 0). unfold Rltb. destruct (Rlt_dec 0 a), (Rlt_dec a 0); auto; exfalso; lra. }
  destruct C as [[-> ->]|[-> ->]].
  - set (l1 := List.filter _ l). set (l2 := List.filter _ l). change (vars_value ((k, a) :: l1)) with (Rpower (env k) (rounded 2 a) * vars_value l1). ring.
  - set (l1 := List.filter _ l). set (l2 := List.filter (fun x => is_neg _) l). change (vars_value ((k, a) :: l2)) with (Rpower (env k) (rounded 2 a) * vars_value l2). ring.
Qed.
Lemma vars_value_perm l l' : Permutation l l' -> vars_value l = vars_value l'.
Proof. induction 1; simpl; auto; [rewrite IHPermutation; auto|lra|congruence]. Qed.
Lemma mono_val_list (e : expv R) : mono_val env (rounded 2 <$> e) = vars_value (map_to_list e).
Proof.
  induction e as [|k a e Hk IH] using map_ind.
  - rewrite fmap_empty, map_to_list_empty. unfold mono_val. rewrite map_fold_empty. auto.
  - rewrite fmap_insert. unfold mono_val. rewrite map_fold_insert_L.
    + fold (mono_val env (rounded 2 <$> e)). rewrite IH. rewrite (vars_value_perm (map_to_list (<[k:=a]> e)) ((k, a) :: map_to_list e)) by (apply map_to_list_insert; auto). reflexivity.
    + intros. lra.
    + rewrite lookup_fmap, Hk. auto.
Qed.
Definition has_pos (e : expv R) : bool := somev (pos_vars e).
Lemma has_pos_iff e : has_pos e = true <-> exists k x, e !! k = Some x /\ 0 < x.
Proof.
  unfold has_pos, pos_vars. assert (A : forall l, somev (List.filter (fun x => is_pos (snd x)) l) = true <-> exists x : nat * R, In x l /\ 0 < snd x).
  { intros l. split.
    - destruct (List.filter _ l) as [|y l'] eqn:E; [discriminate|]. intros _. exists y. assert (I : In y (List.filter (fun x => is_pos (snd x)) l)) by (rewrite E; left; auto).
      apply filter_In in I as [Hi Hy]. split; auto. unfold is_pos in Hy. change (Rltb 0 (snd y) = true) in Hy. unfold Rltb in Hy. destruct (Rlt_dec 0 (snd y)); auto. discriminate.
    - intros (x & Hx & Hp). destruct (List.filter _ l) as [|y l'] eqn:E; auto. exfalso. assert (I : In x (List.filter (fun x => is_pos (snd x)) l)); [|rewrite E in I; auto].
      apply filter_In. split; auto. unfold is_pos. change (Rltb 0 (snd x) = true). unfold Rltb. destruct (Rlt_dec 0 (snd x)); auto. }
  rewrite A. split.
  - intros ((k & x) & Hin & Hp). exists k, x. split; auto. apply elem_of_map_to_list, elem_of_list_In. auto.
  - intros (k & x & He & Hp). exists (k, x). split; auto. apply elem_of_list_In, elem_of_map_to_list. auto.
Qed.

(** *** Expressions *)
Definition shown_all (h : hmap R) : hmap R := map (fun '(e, c) => (rounded 2 <$> e, shown c (has_pos e))) h.
Variable sort_terms : list (list (token R)) -> list (list (token R)).
Hypothesis Hsort_terms : forall l, Permutation (sort_terms l) l.
Theorem latex_reads h : h <> [] -> (forall e c, In (e, c) h -> exp_canon e) -> (forall e c k x, In (e, c) h -> e !! k = Some x -> fine x) ->
  read env (latex printf sort sort_terms h) = Some (eval env (shown_all h)).
Proof.
  intros Hne Hc Hf. unfold read, latex. set (tl := fun '(e, c) => term_latex printf sort c (pos_vars e) (neg_vars e)).
  assert (P := Hsort_terms (map tl h)). rewrite terms_join.
  - rewrite (total_perm _ (map (read_term env) (map tl h))) by (apply Permutation_map, P). clear P Hne.
    induction h as [|[e c] h IH]; auto. cbn [map total shown_all eval].
    rewrite IH; [|intros e' c' Hi; apply (Hc e' c'); right; auto|intros e' c' k x Hi; apply (Hf e' c' k x); right; auto]. fold (shown_all h).
    assert (L : forall k a, In (k, a) (map_to_list e) -> e !! k = Some a) by (intros k a Hin; apply elem_of_map_to_list, elem_of_list_In; auto).
    unfold tl at 1. rewrite term_reads.
    + f_equal. f_equal. unfold has_pos. f_equal. rewrite mono_val_list. symmetry. apply filter_split. intros [k a] Hin. apply (Hc e c (or_introl eq_refl) k). apply L; auto.
    + intros [k a] Hin. apply filter_In in Hin as [Hin _]. apply (Hf e c k a (or_introl eq_refl)). apply L; auto.
    + intros [k a] Hin. apply filter_In in Hin as [Hin _]. apply (Hf e c k a (or_introl eq_refl)). apply L; auto.
  - intros E. rewrite E in P. apply Permutation_nil in P. destruct h; [congruence|discriminate].
  - intros t Ht. apply (Permutation_in _ P) in Ht. apply in_map_iff in Ht as ((e & c) & <- & _). apply term_no_plus.
Qed.
End Env.
End Printf.
