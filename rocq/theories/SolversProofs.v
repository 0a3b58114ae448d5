(** Proofs about the problems handed to solvers. *)
From Verif Require Import Base Solvers SolversSpec.
Open Scope R_scope.

Lemma sum_app (l l' : list R) : sum (l ++ l') = sum l + sum l'.
Proof. induction l as [|a l IH]; simpl; [lra|]. unfold sum in *; simpl. rewrite IH. lra. Qed.
Lemma sum_cons a (l : list R) : sum (a :: l) = a + sum l.
Proof. reflexivity. Qed.
Lemma dot_app r r' x : dot (r ++ r') x = dot r x + dot r' x.
Proof. induction r as [|a r IH]; simpl; [lra|]. rewrite IH. lra. Qed.
Lemma dot_agree (r : row) x y : Forall (fun ja => x (fst ja) = y (fst ja)) r -> dot r x = dot r y.
Proof. induction 1 as [|a r E _ IH]; simpl; [reflexivity|]. rewrite E, IH. reflexivity. Qed.

Lemma mval_exp x m : 0 < fst m -> mval x m = exp (dot (snd m) x + ln (fst m)).
Proof. intros H. unfold mval. rewrite exp_plus, (exp_ln _ H). ring. Qed.
Lemma mval_pos x m : 0 < fst m -> 0 < mval x m.
Proof. intros H. rewrite (mval_exp _ _ H). apply exp_pos. Qed.
Lemma sum_pos (l : list R) : l <> [] -> Forall (fun v => 0 < v) l -> 0 < sum l.
Proof.
  intros Hn F. destruct l as [|a l]; [congruence|]. clear Hn. revert a F. induction l as [|b l IH]; intros a F; inversion F; subst.
  - unfold sum; simpl. lra.
  - unfold sum in *. simpl in *. specialize (IH b H2). lra.
Qed.
Lemma pval_pos x p : p <> [] -> Forall (fun m => 0 < fst m) p -> 0 < pval x p.
Proof.
  intros Hn F. unfold pval. apply sum_pos.
  - destruct p; [congruence|discriminate].
  - apply Forall_map. eapply Forall_impl; [exact F|]. intros m. apply mval_pos.
Qed.

(** ** Lists and places *)
Lemma filter_map {X Y} (f : Y -> bool) (g : X -> Y) l : List.filter f (map g l) = map g (List.filter (fun a => f (g a)) l).
Proof. induction l as [|a l IH]; simpl; [reflexivity|]. rewrite IH. destruct (f (g a)); reflexivity. Qed.
Lemma filter_ext_in {X} (f g : X -> bool) l : (forall a, In a l -> f a = g a) -> List.filter f l = List.filter g l.
Proof. induction l as [|a l IH]; simpl; intros H; [reflexivity|]. rewrite (H a) by auto. rewrite IH by auto. reflexivity. Qed.

Lemma select_filter {X} (f : nat -> bool) (p : list nat) (l : list X) d : length p = length l ->
  map (fun i => List.nth i l d) (List.filter (fun i => f (List.nth i p 0%nat)) (seq 0 (length p))) =
  map snd (List.filter (fun pl => f (fst pl)) (combine p l)).
Proof.
  revert l. induction p as [|a p IH]; intros [|b l] H; try discriminate; simpl; [reflexivity|].
  assert (E : map (fun i => List.nth i (b :: l) d) (List.filter (fun i => f (List.nth i (a :: p) 0%nat)) (seq 1 (length p))) =
              map snd (List.filter (fun pl => f (fst pl)) (combine p l))).
  { rewrite <- seq_shift, filter_map, map_map. simpl. apply IH. simpl in H. congruence. }
  destruct (f a); simpl; rewrite <- E; simpl; reflexivity.
Qed.

Definition enum {X} (b : nat) (l : list X) : list (nat * X) := combine (seq b (length l)) l.
Definition tags {X} (b : nat) (l : list (list X)) : list nat := flat_map (fun ip => repeat (fst ip) (length (snd ip))) (enum b l).

Lemma enum_nth {X} (d : X) b l : enum b l = map (fun i => (i, List.nth (i - b) l d)) (seq b (length l)).
Proof.
  unfold enum. revert b. induction l as [|a l IH]; intros b; simpl; [reflexivity|]. f_equal; [f_equal; rewrite Nat.sub_diag; reflexivity|].
  rewrite (IH (S b)). apply map_ext_in. intros i Hi. apply in_seq in Hi. f_equal.
  replace (i - b)%nat with (S (i - S b)) by lia. reflexivity.
Qed.
Lemma tags_length {X} b (l : list (list X)) : length (tags b l) = length (concat l).
Proof.
  unfold tags, enum. revert b. induction l as [|a l IH]; intros b; simpl; [reflexivity|].
  rewrite !app_length, repeat_length. f_equal. apply IH.
Qed.
Lemma combine_tags {X} b (l : list (list X)) :
  combine (tags b l) (concat l) = concat (map (fun ip => map (pair (fst ip)) (snd ip)) (enum b l)).
Proof.
  unfold tags, enum. revert b. induction l as [|a l IH]; intros b; simpl; [reflexivity|].
  rewrite <- IH. clear. generalize (flat_map (fun ip : nat * list X => repeat ip.1 (length ip.2)) (combine (seq (S b) (length l)) l)).
  induction a as [|c a IH]; intros t; simpl; [reflexivity|]. f_equal. apply IH.
Qed.
Lemma filter_tags {X} (f : nat -> bool) b (l : list (list X)) :
  map snd (List.filter (fun pl => f (fst pl)) (combine (tags b l) (concat l))) = concat (map snd (List.filter (fun ip => f (fst ip)) (enum b l))).
Proof.
  rewrite combine_tags. generalize (enum b l). clear. induction l as [|[i a] l IH]; simpl; [reflexivity|].
  rewrite List.filter_app, map_app, IH, filter_map, map_map. simpl.
  destruct (f i) eqn:E; simpl.
  - f_equal. clear. induction a as [|c a IH]; simpl; [reflexivity|]. rewrite IH. reflexivity.
  - replace (List.filter (fun _ : X => false) a) with (@nil X); [reflexivity|]. clear. induction a; simpl; congruence.
Qed.

(** selecting by the constraint they belong to *)
Lemma select_tags {X} (f : nat -> bool) (l : list (list X)) d :
  map (fun i => List.nth i (concat l) d) (List.filter (fun i => f (List.nth i (tags 0 l) 0%nat)) (seq 0 (length (concat l)))) =
  concat (map (fun i => List.nth i l []) (List.filter f (seq 0 (length l)))).
Proof.
  rewrite <- (tags_length 0), (select_filter f _ _ d (tags_length 0 l)), filter_tags. f_equal.
  rewrite (enum_nth []), filter_map, map_map. simpl. apply map_ext_in. intros i _. f_equal. lia.
Qed.
Lemma filter_one (n p : nat) : (p < n)%nat -> List.filter (fun i => Nat.eqb i p) (seq 0 n) = [p].
Proof.
  intros H. replace n with (p + (1 + (n - p - 1)))%nat by lia. rewrite seq_app, seq_app, !List.filter_app. simpl. rewrite Nat.eqb_refl.
  assert (E : forall a k, (a > p \/ a + k <= p)%nat -> List.filter (fun i => Nat.eqb i p) (seq a k) = []).
  { clear. intros a k. revert a. induction k as [|k IH]; intros a Ha; simpl; [reflexivity|].
    destruct (Nat.eqb_spec a p); [lia|]. apply IH. lia. }
  rewrite (E 0%nat p) by lia. rewrite (E (p + 1)%nat) by lia. reflexivity.
Qed.
Lemma select_tag {X} (l : list (list X)) d p : (p < length l)%nat ->
  map (fun i => List.nth i (concat l) d) (List.filter (fun i => Nat.eqb (List.nth i (tags 0 l) 0%nat) p) (seq 0 (length (concat l)))) = List.nth p l [].
Proof. intros H. rewrite (select_tags (fun i => Nat.eqb i p)), filter_one by exact H. simpl. apply app_nil_r. Qed.

Lemma nth_map {X Y} (f : X -> Y) l i d d' : (i < length l)%nat -> List.nth i (map f l) d' = f (List.nth i l d).
Proof. revert i. induction l as [|a l IH]; intros [|i] H; simpl in *; try lia; [reflexivity|]. apply IH. lia. Qed.
Lemma select_map {X Y} (f : X -> Y) (d : X) d' l idxs : Forall (fun i => (i < length l)%nat) idxs ->
  select d' (map f l) idxs = map f (select d l idxs).
Proof. unfold select. intros F. rewrite map_map. apply map_ext_in. intros i Hi. apply nth_map. exact (proj1 (List.Forall_forall _ _) F i Hi). Qed.

(** monomials by place *)
Lemma nth_concat {X} (l : list (list X)) d i : (i < length l)%nat ->
  map (fun j => List.nth j (concat l) d) (seq (list_sum (firstn i (map length l))) (List.nth i (map length l) 0%nat)) = List.nth i l [].
Proof.
  revert i. induction l as [|a l IH]; intros [|i] H; simpl in *; try lia.
  - clear. generalize (concat l). intros t. induction a as [|b a IH]; simpl; [reflexivity|]. f_equal.
    rewrite <- seq_shift, map_map. simpl. exact IH.
  - rewrite <- (IH i) by lia. clear. generalize (list_sum (firstn i (map length l))), (List.nth i (map length l) 0%nat). intros s n.
    revert s. induction n as [|n IHn]; intros s; simpl; [reflexivity|]. f_equal.
    + rewrite app_nth2 by lia. f_equal. lia.
    + rewrite <- (IHn (S s)). f_equal. f_equal. lia.
Qed.
Lemma place_bound {X} (l : list (list X)) i : (i < length l)%nat ->
  (list_sum (firstn i (map length l)) + List.nth i (map length l) 0 <= length (concat l))%nat.
Proof.
  revert i. induction l as [|a l IH]; intros [|i] H; simpl in *; try lia; rewrite app_length; [lia|].
  specialize (IH i). lia.
Qed.

(** the extra zeros change nothing *)
Lemma pad_dot maxcol (M : matrix) : M <> [] -> Forall2 (fun r r' => forall x, dot r x = dot r' x) (pad maxcol M) M.
Proof.
  destruct M as [|r M]; [congruence|]. intros _. simpl. constructor.
  - intros x. rewrite dot_app. simpl. lra.
  - induction M; constructor; auto.
Qed.
Lemma chunks_concat {X} (l : list (list X)) : chunks (map length l) (concat l) = l.
Proof.
  induction l as [|a l IH]; simpl; [reflexivity|]. rewrite take_app, drop_app, IH. reflexivity.
Qed.

(** ** CVXOPT *)
Inductive kind := KLse | KLin | KLeq | KSkip.
Definition kind_eqb (a b : kind) : bool := match a, b with KLse, KLse | KLin, KLin | KLeq, KLeq | KSkip, KSkip => true | _, _ => false end.
Lemma kind_eqb_spec a b : kind_eqb a b = true <-> a = b.
Proof. destruct a, b; simpl; split; congruence. Qed.

Section Cvx.
  Context (ps : list posy) (all first : list nat) (use_leqs : bool).

  Definition cls (i : nat) : kind :=
    if use_leqs && bool_decide (place ps i ∈ all) then (if bool_decide (place ps i ∈ first) then KLeq else KSkip)
    else if negb (Nat.eqb i 0) && Nat.eqb (List.nth i (k_of ps) 0%nat) 1 then KLin else KLse.
  Definition sub (kd : kind) (l : list nat) : list nat := List.filter (fun i => kind_eqb (cls i) kd) l.
  Definition mons (i : nat) : list nat := seq (place ps i) (List.nth i (k_of ps) 0%nat).

  Lemma classify_fold l pt : fold_left (classify1 (k_of ps) all first use_leqs) l pt =
    Parts (lse_mons pt ++ flat_map mons (sub KLse l)) (lin_mons pt ++ flat_map mons (sub KLin l)) (leq_mons pt ++ flat_map mons (sub KLeq l))
          (lse_posys pt ++ sub KLse l) (lin_posys pt ++ sub KLin l) (leq_posys pt ++ sub KLeq l).
  Proof.
    revert pt. induction l as [|i l IH]; intros pt; simpl.
    - rewrite !app_nil_r. destruct pt; reflexivity.
    - rewrite IH. clear IH. unfold classify1, cls, mons. fold (place ps i).
      destruct (use_leqs && bool_decide (place ps i ∈ all)); [destruct (bool_decide (place ps i ∈ first))|
        destruct (negb (Nat.eqb i 0) && Nat.eqb (List.nth i (k_of ps) 0%nat) 1)]; simpl; rewrite <- ?app_assoc; reflexivity.
  Qed.
  Definition of (kd : kind) : list nat := sub kd (seq 0 (length ps)).
  Lemma classify_eq : classify (k_of ps) all first use_leqs =
    Parts (flat_map mons (of KLse)) (flat_map mons (of KLin)) (flat_map mons (of KLeq)) (of KLse) (of KLin) (of KLeq).
  Proof. unfold classify. rewrite classify_fold. simpl. unfold of, k_of. rewrite map_length. reflexivity. Qed.

  Lemma of_In kd i : In i (of kd) <-> (i < length ps)%nat /\ cls i = kd.
  Proof. unfold of, sub. rewrite List.filter_In, in_seq, kind_eqb_spec. lia || (split; intros [H1 H2]; split; auto; lia). Qed.
  Lemma of_lt kd : Forall (fun i => (i < length ps)%nat) (of kd).
  Proof. apply List.Forall_forall. intros i Hi. apply of_In in Hi. tauto. Qed.
  Lemma of_NoDup kd : List.NoDup (of kd).
  Proof. apply List.NoDup_filter, seq_NoDup. Qed.

  Definition posys (idxs : list nat) : list posy := map (fun i => List.nth i ps []) idxs.
  Lemma select_mons idxs d : Forall (fun i => (i < length ps)%nat) idxs -> select d (concat ps) (flat_map mons idxs) = concat (posys idxs).
  Proof.
    unfold select, posys. induction 1 as [|i idxs Hi _ IH]; simpl; [reflexivity|]. rewrite map_app. f_equal; [|exact IH].
    unfold mons, place, k_of. apply nth_concat. exact Hi.
  Qed.
  Lemma mons_lt idxs : Forall (fun i => (i < length ps)%nat) idxs -> Forall (fun j => (j < length (concat ps))%nat) (flat_map mons idxs).
  Proof.
    induction 1 as [|i idxs Hi _ IH]; simpl; [constructor|]. apply Forall_app. split; [|exact IH].
    apply List.Forall_forall. intros j Hj. apply in_seq in Hj. pose proof (place_bound ps i Hi). unfold place, k_of in *. lia.
  Qed.
  Lemma select_A idxs : Forall (fun i => (i < length ps)%nat) idxs -> select [] (A_of ps) (flat_map mons idxs) = map snd (concat (posys idxs)).
  Proof. intros F. unfold A_of. rewrite (select_map (@snd R row) ((0, []) : mono)) by (apply mons_lt; exact F). rewrite select_mons by exact F. reflexivity. Qed.
  Lemma select_c idxs : Forall (fun i => (i < length ps)%nat) idxs ->
    select 0 (map ln (c_of ps)) (flat_map mons idxs) = map (fun m => ln (fst m)) (concat (posys idxs)).
  Proof.
    intros F. unfold c_of. rewrite map_map, (select_map (fun m : mono => ln (fst m)) ((0, []) : mono)) by (apply mons_lt; exact F).
    rewrite select_mons by exact F. reflexivity.
  Qed.
  Lemma select_k idxs : Forall (fun i => (i < length ps)%nat) idxs -> select 0%nat (k_of ps) idxs = map length (posys idxs).
  Proof. intros F. unfold k_of. rewrite (select_map length []) by exact F. reflexivity. Qed.

  Context (maxcol : nat).
  Definition part (idxs : list nat) : option (matrix * list R) :=
    match flat_map mons idxs with
    | [] => None
    | _ => Some (pad maxcol (map snd (concat (posys idxs))), map (fun m => - ln (fst m)) (concat (posys idxs)))
    end.
  Lemma cvx_problem_eq : cvx_problem (c_of ps) (A_of ps) (k_of ps) all first use_leqs maxcol =
    Cvx (map length (posys (of KLse))) (pad maxcol (map snd (concat (posys (of KLse))))) (map (fun m => ln (fst m)) (concat (posys (of KLse))))
        (part (of KLin)) (part (of KLeq)).
  Proof.
    unfold cvx_problem. rewrite classify_eq. cbn [lse_mons lin_mons leq_mons lse_posys lin_posys leq_posys].
    rewrite (select_k _ (of_lt _)), !(select_A _ (of_lt _)), !(select_c _ (of_lt _)). unfold part. rewrite !map_map. reflexivity.
  Qed.

  Lemma flat_mons_nil idxs : Forall (fun i => (i < length ps)%nat) idxs -> flat_map mons idxs = [] -> concat (posys idxs) = [].
  Proof. intros F E. rewrite <- (select_mons idxs (0, []) F), E. reflexivity. Qed.
  Lemma flat_mons_length idxs : Forall (fun i => (i < length ps)%nat) idxs -> length (flat_map mons idxs) = length (concat (posys idxs)).
  Proof. intros F. rewrite <- (select_mons idxs (0, []) F). unfold select. rewrite map_length. reflexivity. Qed.

  Lemma part_holds rel idxs x : Forall (fun i => (i < length ps)%nat) idxs ->
    rows_hold rel (part idxs) x <-> Forall (fun m => rel (dot (snd m) x) (- ln (fst m))) (concat (posys idxs)).
  Proof.
    intros F. unfold part. pose proof (flat_mons_length idxs F) as L. destruct (flat_map mons idxs) as [|j js] eqn:E.
    - destruct (concat (posys idxs)); [|discriminate]. simpl. split; [constructor|auto].
    - destruct (concat (posys idxs)) as [|m M]; [discriminate|]. clear. unfold rows_hold.
      assert (H : forall M, Forall2 (fun r b => rel (dot r x) b) (map snd M) (map (fun m : mono => - ln (fst m)) M) <->
                            Forall (fun m => rel (dot (snd m) x) (- ln (fst m))) M).
      { clear. induction M as [|m M IH]; simpl; split; intros H; constructor; inversion H; subst; auto; apply IH; auto. }
      rewrite <- H. clear H. simpl. split; intros H; inversion H; subst; constructor; auto.
      + rewrite dot_app in *. simpl in *. replace (dot m.2 x) with (dot m.2 x + (0 * x maxcol + 0)) by lra. exact H3.
      + rewrite dot_app in *. simpl in *. replace (dot m.2 x + (0 * x maxcol + 0)) with (dot m.2 x) by lra. exact H3.
  Qed.

  Definition term (m : mono) : row * R := (snd m, ln (fst m)).
  Lemma chunks_rel {X Y} (rel : X -> Y -> Prop) K l l' : Forall2 rel l l' -> Forall2 (Forall2 rel) (chunks K l) (chunks K l').
  Proof.
    revert l l'. induction K as [|n K IH]; intros l l' F; simpl; constructor.
    - apply Forall2_take. exact F.
    - apply IH, Forall2_drop. exact F.
  Qed.
  Lemma lse_rel x (b b' : list (row * R)) : Forall2 (fun p q => (forall x, dot (fst p) x = dot (fst q) x) /\ snd p = snd q) b b' -> lse x b = lse x b'.
  Proof.
    intros F. unfold lse. f_equal. induction F as [|p q b b' [E1 E2] _ IH]; simpl; [reflexivity|]. rewrite E1, E2. unfold sum in *. simpl. rewrite IH. reflexivity.
  Qed.
  Lemma lse_term x p : Forall (fun m => 0 < fst m) p -> lse x (map term p) = ln (pval x p).
  Proof.
    intros F. unfold lse, pval. f_equal. rewrite map_map. f_equal. apply map_ext_in. intros m Hin.
    rewrite (mval_exp x m); [reflexivity|]. exact (proj1 (List.Forall_forall _ _) F m Hin).
  Qed.

  Context (Hp : proper ps).
  Lemma posys_In idxs p : Forall (fun i => (i < length ps)%nat) idxs -> In p (posys idxs) -> In p ps.
  Proof.
    intros F H. apply in_map_iff in H. destruct H as (i & <- & Hi). apply nth_In. exact (proj1 (List.Forall_forall _ _) F i Hi).
  Qed.
  Lemma proper_In p : In p ps -> p <> [] /\ Forall (fun m => 0 < fst m) p.
  Proof. intros H. destruct Hp as [_ F]. exact (proj1 (List.Forall_forall _ _) F p H). Qed.
  Context (Hm : meq_pairs ps all first).

  Lemma cls_0 : cls 0 = KLse.
  Proof.
    unfold cls. destruct Hm as [H1 H2]. destruct Hp as [Hn _].
    assert (L : (0 < length ps)%nat) by (destruct ps; [congruence|simpl; lia]).
    destruct use_leqs; simpl; [|reflexivity]. case_bool_decide as Ha; simpl; [|reflexivity].
    case_bool_decide as Hf.
    - destruct (H1 0%nat L Ha Hf) as (? & ? & ? & _). congruence.
    - destruct (H2 0%nat L Ha Hf) as (? & ? & _). lia.
  Qed.
  Lemma of_lse : of KLse = 0%nat :: sub KLse (seq 1 (length ps - 1)).
  Proof.
    assert (L : length ps = S (length ps - 1)) by (destruct Hp as [Hn _]; destruct ps; [congruence|simpl; lia]).
    unfold of. rewrite L at 1. simpl. rewrite cls_0. reflexivity.
  Qed.

  Lemma first_nonempty : concat (posys (of KLse)) <> [].
  Proof.
    rewrite of_lse. simpl. assert (H : List.nth 0 ps [] <> []); [|destruct (List.nth 0 ps []); [congruence|discriminate]].
    apply proper_In, nth_In. destruct Hp as [Hn _]. destruct ps; [congruence|simpl; lia].
  Qed.

  Lemma cvx_blocks_rel : Forall2 (Forall2 (fun p q => (forall x, dot (fst p) x = dot (fst q) x) /\ snd p = snd q))
    (cvx_blocks (cvx_problem (c_of ps) (A_of ps) (k_of ps) all first use_leqs maxcol)) (map (map term) (posys (of KLse))).
  Proof.
    rewrite cvx_problem_eq. unfold cvx_blocks. cbn [q_K q_F q_g].
    replace (map (map term) (posys (of KLse))) with (chunks (map length (posys (of KLse))) (map term (concat (posys (of KLse))))).
    2:{ rewrite <- (chunks_concat (map (map term) (posys (of KLse)))). rewrite concat_map. f_equal. rewrite !map_map. apply map_ext. intros. rewrite map_length. reflexivity. }
    apply chunks_rel. pose proof first_nonempty as Hne. destruct (concat (posys (of KLse))) as [|m M]; [congruence|]. simpl. constructor.
    - split; [|reflexivity]. intros x. simpl. rewrite dot_app. simpl. lra.
    - clear. induction M as [|m M IH]; simpl; constructor; auto.
  Qed.

  Lemma lse_blocks x : map (lse x) (cvx_blocks (cvx_problem (c_of ps) (A_of ps) (k_of ps) all first use_leqs maxcol)) =
    map (fun p => ln (pval x p)) (posys (of KLse)).
  Proof.
    pose proof cvx_blocks_rel as F.
    assert (G : Forall (Forall (fun m => 0 < fst m)) (posys (of KLse))).
    { apply List.Forall_forall. intros p Hip. apply proper_In. exact (posys_In _ _ (of_lt _) Hip). }
    revert F G. generalize (cvx_blocks (cvx_problem (c_of ps) (A_of ps) (k_of ps) all first use_leqs maxcol)), (posys (of KLse)).
    intros bs L. revert bs. induction L as [|p L IH]; intros bs F G; simpl in *; inversion F as [|b q bs' L' Hb Fb]; subst; [reflexivity|].
    inversion G; subst. simpl. f_equal; [|apply IH; auto]. rewrite (lse_rel x _ _ Hb). apply lse_term. assumption.
  Qed.

  Lemma ln_le_0 v : 0 < v -> ln v <= 0 <-> v <= 1.
  Proof.
    intros H. rewrite <- ln_1. split; intros L.
    - destruct (Rle_or_lt v 1) as [|C]; [assumption|]. pose proof (ln_increasing 1 v). lra.
    - destruct (Rle_lt_or_eq_dec v 1 L) as [C| -> ]; [|lra]. pose proof (ln_increasing v 1 H C). lra.
  Qed.
  Lemma mval_le x m : 0 < fst m -> dot (snd m) x <= - ln (fst m) <-> mval x m <= 1.
  Proof.
    intros H. rewrite <- (ln_le_0 _ (mval_pos x m H)). rewrite (mval_exp _ _ H), ln_exp. lra.
  Qed.
  Lemma pval_one x m : pval x [m] = mval x m.
  Proof. unfold pval, sum. simpl. lra. Qed.

  (** which kinds there are *)
  Lemma cls_lin i : (i < length ps)%nat -> cls i = KLin -> i <> 0%nat /\ exists m, List.nth i ps [] = [m].
  Proof.
    unfold cls. intros L H. destruct (use_leqs && bool_decide (place ps i ∈ all)); [destruct (bool_decide (place ps i ∈ first)); discriminate|].
    destruct (Nat.eqb_spec i 0); simpl in H; [discriminate|]. split; [assumption|].
    unfold k_of in H. rewrite (nth_map length ps i []) in H by exact L.
    destruct (Nat.eqb _ 1) eqn:E in H; [|discriminate]. apply Nat.eqb_eq in E. clear H.
    match goal with |- exists m, ?t = _ => change (length t = 1%nat) in E; destruct t as [|m [|m2 t']] end;
      [discriminate E|exists m; reflexivity|discriminate E].
  Qed.
  Lemma lookup_nth (l : list posy) i p : l !! i = Some p -> List.nth i l [] = p.
  Proof. intros H. apply nth_lookup_Some. exact H. Qed.
  Lemma cls_leq i : (i < length ps)%nat -> cls i = KLeq ->
    i <> 0%nat /\ (i + 1 < length ps)%nat /\ cls (i + 1) = KSkip /\
    exists m m', List.nth i ps [] = [m] /\ List.nth (i + 1) ps [] = [m'] /\ reciprocal m m'.
  Proof.
    unfold cls at 1. intros L H. destruct use_leqs eqn:Eu; simpl in H; [|destruct (_ && _); discriminate].
    case_bool_decide as Ha; [|destruct (_ && _); discriminate]. case_bool_decide as Hf; [|discriminate].
    destruct Hm as [H1 _]. destruct (H1 i L Ha Hf) as (m & m' & Hi & E1 & E2 & Hr & Ha' & Hf').
    split; [exact Hi|]. split; [exact (lookup_lt_Some _ _ _ E2)|]. split.
    - unfold cls. rewrite Eu. simpl. rewrite !bool_decide_true, bool_decide_false by assumption. reflexivity.
    - exists m, m'. split; [exact (lookup_nth _ _ _ E1)|]. split; [exact (lookup_nth _ _ _ E2)|exact Hr].
  Qed.
  Lemma cls_skip i : (i < length ps)%nat -> cls i = KSkip -> exists i', i = (i' + 1)%nat /\ cls i' = KLeq.
  Proof.
    unfold cls at 1. intros L H. destruct use_leqs eqn:Eu; simpl in H; [|destruct (_ && _); discriminate].
    case_bool_decide as Ha; [|destruct (_ && _); discriminate]. case_bool_decide as Hf; [discriminate|].
    destruct Hm as [_ H2]. destruct (H2 i L Ha Hf) as (i' & E & Ha' & Hf'). exists i'. split; [exact E|].
    unfold cls. rewrite Eu. simpl. rewrite !bool_decide_true by assumption. reflexivity.
  Qed.

  Lemma nth_pos i m : (i < length ps)%nat -> List.nth i ps [] = [m] -> 0 < fst m.
  Proof.
    intros L E. destruct (proper_In (List.nth i ps []) (nth_In _ _ L)) as [_ F]. rewrite E in F. inversion F; assumption.
  Qed.
  Lemma pair_iff x m m' : 0 < fst m -> reciprocal m m' -> dot (snd m) x = - ln (fst m) <-> mval x m <= 1 /\ mval x m' <= 1.
  Proof.
    intros H [E1 E2]. assert (H' : 0 < fst m') by (rewrite E1; apply Rinv_0_lt_compat; exact H).
    rewrite <- (mval_le x m H), <- (mval_le x m' H'), E1, E2, ln_Rinv by exact H. lra.
  Qed.

  Lemma gp_feasible_nth x : gp_feasible ps x <-> forall i, (0 < i < length ps)%nat -> pval x (List.nth i ps []) <= 1.
  Proof.
    unfold gp_feasible. rewrite List.Forall_forall. split.
    - intros H i Hi. apply H. destruct ps as [|p l]; simpl in *; [lia|]. destruct i as [|i]; [lia|]. apply nth_In. lia.
    - intros H p Hip. destruct ps as [|p0 l]; simpl in *; [tauto|]. apply (In_nth _ _ []) in Hip. destruct Hip as (i & Hi & <-).
      pose proof (H (S i)) as H'. simpl in H'. apply H'. lia.
  Qed.

  Lemma cvx_feasible_iff x : cvx_feasible (cvx_problem (c_of ps) (A_of ps) (k_of ps) all first use_leqs maxcol) x <-> gp_feasible ps x.
  Proof.
    unfold cvx_feasible.
    assert (E1 : Forall (fun b => lse x b <= 0) (tl (cvx_blocks (cvx_problem (c_of ps) (A_of ps) (k_of ps) all first use_leqs maxcol))) <->
                 forall i, (0 < i < length ps)%nat -> cls i = KLse -> pval x (List.nth i ps []) <= 1).
    { rewrite <- (Forall_map (lse x) (fun v => v <= 0)).
      replace (map (lse x) (tl _)) with (tl (map (lse x) (cvx_blocks (cvx_problem (c_of ps) (A_of ps) (k_of ps) all first use_leqs maxcol))))
        by (destruct (cvx_blocks _); reflexivity).
      rewrite lse_blocks, of_lse. simpl. unfold posys. rewrite map_map, Forall_map, List.Forall_forall.
      assert (B : forall i, In i (sub KLse (seq 1 (length ps - 1))) <-> (0 < i < length ps)%nat /\ cls i = KLse).
      { intros i. unfold sub. rewrite List.filter_In, in_seq, kind_eqb_spec. split; intros [? ?]; split; auto; lia. }
      split.
      - intros H i Hi C. apply ln_le_0; [|exact (H i (proj2 (B i) (conj Hi C)))].
        destruct (proper_In (List.nth i ps [])) as [A1 A2]; [apply nth_In; lia|]. apply pval_pos; assumption.
      - intros H i Hi. apply B in Hi. destruct Hi as [Hi C]. apply ln_le_0; [|exact (H i Hi C)].
        destruct (proper_In (List.nth i ps [])) as [A1 A2]; [apply nth_In; lia|]. apply pval_pos; assumption. }
    rewrite E1. rewrite cvx_problem_eq. cbn [q_G q_A]. rewrite !part_holds by apply of_lt. rewrite gp_feasible_nth.
    rewrite !List.Forall_forall.
    assert (C1 : forall i m, cls i = KLin -> (i < length ps)%nat -> List.nth i ps [] = [m] -> In m (concat (posys (of KLin)))).
    { intros i m C L E. apply in_concat. exists [m]. split; [|left; reflexivity]. apply in_map_iff. exists i. split; [exact E|]. apply of_In; auto. }
    assert (C2 : forall i m, cls i = KLeq -> (i < length ps)%nat -> List.nth i ps [] = [m] -> In m (concat (posys (of KLeq)))).
    { intros i m C L E. apply in_concat. exists [m]. split; [|left; reflexivity]. apply in_map_iff. exists i. split; [exact E|]. apply of_In; auto. }
    split.
    - intros (H1 & H2 & H3) i Hi. destruct (cls i) eqn:C.
      + apply H1; auto.
      + destruct (cls_lin i ltac:(lia) C) as (_ & m & Em). rewrite Em, pval_one. apply mval_le; [exact (nth_pos i m ltac:(lia) Em)|].
        apply H2. eapply C1; eauto; lia.
      + destruct (cls_leq i ltac:(lia) C) as (_ & _ & _ & m & m' & Em & _ & Hr). rewrite Em, pval_one.
        apply (pair_iff x m m' (nth_pos i m ltac:(lia) Em) Hr). apply H3. eapply C2; eauto; lia.
      + destruct (cls_skip i ltac:(lia) C) as (i' & -> & C'). assert (L : (i' < length ps)%nat) by lia.
        destruct (cls_leq i' L C') as (_ & _ & _ & m & m' & Em & Em' & Hr). rewrite Em', pval_one.
        apply (pair_iff x m m' (nth_pos i' m L Em) Hr). apply H3. eapply C2; eauto.
    - intros H. split; [intros i Hi _; exact (H i Hi)|]. split.
      + intros m Hin. apply in_concat in Hin. destruct Hin as (p & Hin & Hmp). apply in_map_iff in Hin. destruct Hin as (i & E & Hi).
        apply of_In in Hi. destruct Hi as [L C]. destruct (cls_lin i L C) as (Hi0 & m0 & Em). rewrite Em in E. subst p.
        destruct Hmp as [<-|[]]. apply mval_le; [exact (nth_pos i m0 L Em)|]. rewrite <- pval_one, <- Em. apply H. lia.
      + intros m Hin. apply in_concat in Hin. destruct Hin as (p & Hin & Hmp). apply in_map_iff in Hin. destruct Hin as (i & E & Hi).
        apply of_In in Hi. destruct Hi as [L C]. destruct (cls_leq i L C) as (Hi0 & L' & _ & m0 & m' & Em & Em' & Hr). rewrite Em in E. subst p.
        destruct Hmp as [<-|[]]. apply (pair_iff x m0 m' (nth_pos i m0 L Em) Hr). split.
        * rewrite <- pval_one, <- Em. apply H. lia.
        * rewrite <- pval_one, <- Em'. apply H. lia.
  Qed.

  Lemma cvx_cost_eq x : exp (cvx_cost (cvx_problem (c_of ps) (A_of ps) (k_of ps) all first use_leqs maxcol) x) = gp_cost ps x.
  Proof.
    unfold cvx_cost, gp_cost. pose proof (lse_blocks x) as E. rewrite of_lse in E. unfold posys in E. simpl in E.
    destruct (cvx_blocks _) as [|b bs]; [discriminate|]. simpl in E. injection E as E _. simpl. rewrite E.
    destruct Hp as [Hn F]. destruct ps as [|p l]; [congruence|]. inversion F as [|? ? [A1 A2] _]; subst. simpl. apply exp_ln, pval_pos; assumption.
  Qed.

  Lemma cvx_sizes_ok : cvx_sizes (cvx_problem (c_of ps) (A_of ps) (k_of ps) all first use_leqs maxcol).
  Proof.
    rewrite cvx_problem_eq. unfold cvx_sizes. cbn [q_K q_F q_g q_G q_A].
    assert (P : forall M : list mono, M <> [] -> length (pad maxcol (map snd M)) = length M).
    { intros [|m M] H; [congruence|]. simpl. rewrite map_length. reflexivity. }
    rewrite (P _ first_nonempty), map_length. split; [reflexivity|]. split.
    { generalize (posys (of KLse)). induction l as [|a l IH]; simpl; [reflexivity|]. rewrite app_length, IH. reflexivity. }
    assert (Q : forall idxs M b, Forall (fun i => (i < length ps)%nat) idxs -> part idxs = Some (M, b) -> length M = length b).
    { intros idxs M b F E. unfold part in E. pose proof (flat_mons_length idxs F) as L. destruct (flat_map mons idxs); [discriminate|].
      injection E as <- <-. rewrite map_length. apply P. intros C. rewrite C in L. discriminate. }
    split; intros M b; apply Q, of_lt.
  Qed.

  (** multipliers *)
  Definition flipped (py : nat * R) : nat * R := if Rle_dec 0 (snd py) then py else ((fst py + 1)%nat, - snd py).
  Definition put (a : list R) (iv : nat * R) : list R := <[fst iv := snd iv]> a.
  Definition puts (out : cvx_out) : list (nat * R) :=
    combine (of KLin) (o_zl out) ++ combine (of KLse) (1 :: o_znl out) ++ map flipped (combine (of KLeq) (o_y out)).
  Lemma cvx_la_eq out : length (of KLin) = length (o_zl out) -> length (of KLse) = S (length (o_znl out)) ->
    cvx_la (k_of ps) all first use_leqs out = Ok (fold_left put (puts out) (repeat 0 (length ps))).
  Proof.
    intros E1 E2. unfold cvx_la. rewrite classify_eq. cbn [lin_posys lse_posys leq_posys]. unfold scatter.
    rewrite decide_True by exact E1. simpl rbind. rewrite decide_True by exact E2. simpl rbind. f_equal. unfold k_of. rewrite map_length.
    unfold puts. rewrite !fold_left_app. fold put. generalize (fold_left put (combine (of KLse) (1 :: o_znl out)) (fold_left put (combine (of KLin) (o_zl out)) (repeat 0 (length ps)))).
    generalize (combine (of KLeq) (o_y out)). intros l. induction l as [|py l IH]; intros a; simpl; [reflexivity|]. rewrite <- IH. f_equal.
    unfold flip1, put, flipped. destruct (Rle_dec 0 py.2); reflexivity.
  Qed.

  Lemma map_fst_combine {X Y} (l : list X) (l' : list Y) : length l = length l' -> map fst (combine l l') = l.
  Proof. revert l'. induction l as [|a l IH]; intros [|b l'] E; try discriminate; simpl; [reflexivity|]. f_equal. apply IH. simpl in E. congruence. Qed.
  Lemma flipped_fst py : fst (flipped py) = fst py \/ fst (flipped py) = (fst py + 1)%nat.
  Proof. unfold flipped. destruct (Rle_dec _ _); auto. Qed.
  Lemma fst_combine_In {X Y} (l : list X) (l' : list Y) a : In a (map fst (combine l l')) -> In a l.
  Proof. intros H. apply in_map_iff in H. destruct H as ([i v] & <- & H). exact (in_combine_l _ _ _ _ H). Qed.

  Lemma flipped_NoDup (l : list (nat * R)) : List.NoDup (map fst l) -> (forall i, In i (map fst l) -> In i (of KLeq)) -> List.NoDup (map fst (map flipped l)).
  Proof.
    induction l as [|py l IH]; simpl; intros N H; [constructor|]. inversion N as [|? ? N1 N2]; subst. constructor.
    - intros C. rewrite map_map in C. apply in_map_iff in C. destruct C as (qz & E & Hin).
      assert (Hq : In (fst qz) (map fst l)) by (apply in_map; exact Hin).
      pose proof (H (fst py) (or_introl eq_refl)) as K1. pose proof (H (fst qz) (or_intror Hq)) as K2.
      apply of_In in K1, K2. destruct K1 as [L1 C1], K2 as [L2 C2].
      destruct (cls_leq _ L1 C1) as (_ & _ & S1 & _). destruct (cls_leq _ L2 C2) as (_ & _ & S2 & _).
      destruct (flipped_fst py) as [F1|F1], (flipped_fst qz) as [F2|F2]; rewrite F1, F2 in E.
      + rewrite <- E in N1. auto.
      + rewrite E in S2. congruence.
      + rewrite <- E in S1. congruence.
      + apply N1. replace (fst py) with (fst qz) by lia. exact Hq.
    - apply IH; auto.
  Qed.

  Lemma NoDup_app_list (l l' : list nat) : List.NoDup l -> List.NoDup l' -> (forall i, In i l -> ~ In i l') -> List.NoDup (l ++ l').
  Proof.
    induction l as [|a l IH]; simpl; intros N N' H; [exact N'|]. inversion N; subst. constructor.
    - intros C. apply in_app_or in C. destruct C as [C|C]; [auto|]. exact (H a (or_introl eq_refl) C).
    - apply IH; auto.
  Qed.
  Lemma puts_NoDup out : length (of KLin) = length (o_zl out) -> length (of KLse) = S (length (o_znl out)) -> length (of KLeq) = length (o_y out) ->
    List.NoDup (map fst (puts out)) /\ Forall (fun i => (i < length ps)%nat) (map fst (puts out)).
  Proof.
    intros E1 E2 E3. unfold puts. rewrite !map_app, !map_fst_combine by (simpl; assumption || congruence).
    assert (B : forall i, In i (map fst (map flipped (combine (of KLeq) (o_y out)))) -> (i < length ps)%nat /\ (cls i = KLeq \/ cls i = KSkip)).
    { intros i Hi. rewrite map_map in Hi. apply in_map_iff in Hi. destruct Hi as (py & <- & Hi).
      assert (Hq : In (fst py) (of KLeq)) by (apply (fst_combine_In _ (o_y out)); apply in_map; exact Hi).
      apply of_In in Hq. destruct Hq as [L C]. destruct (cls_leq _ L C) as (_ & L' & S' & _).
      destruct (flipped_fst py) as [-> | ->]; auto. }
    split.
    - apply NoDup_app_list; [apply of_NoDup| |].
      + apply NoDup_app_list; [apply of_NoDup| |].
        * apply flipped_NoDup; rewrite map_fst_combine by exact E3; [apply of_NoDup|auto].
        * intros i Hi C. apply of_In in Hi. apply B in C. destruct C as [_ [C|C]]; destruct Hi; congruence.
      + intros i Hi C. apply of_In in Hi. apply in_app_or in C. destruct C as [C|C].
        * apply of_In in C. destruct Hi, C; congruence.
        * apply B in C. destruct C as [_ [C|C]]; destruct Hi; congruence.
    - apply List.Forall_forall. intros i Hi. apply in_app_or in Hi. destruct Hi as [Hi|Hi]; [apply of_In in Hi; tauto|].
      apply in_app_or in Hi. destruct Hi as [Hi|Hi]; [apply of_In in Hi; tauto|apply B in Hi; tauto].
  Qed.

  Lemma one_each kd : (forall i, In i (of kd) -> exists m, List.nth i ps [] = [m]) -> forall vs rel_x,
    length (of kd) = length vs ->
    excess (part (of kd)) vs rel_x = sum (map (fun iv => snd iv * ln (pval rel_x (List.nth (fst iv) ps []))) (combine (of kd) vs)) /\
    rows_of (part (of kd)) = length (of kd).
  Proof.
    intros H vs x E.
    assert (Hlen : length (flat_map mons (of kd)) = length (of kd)).
    { rewrite flat_mons_length by apply of_lt. unfold posys. clear E. induction (of kd) as [|i l IH]; simpl; [reflexivity|].
      destruct (H i (or_introl eq_refl)) as (m & ->). simpl. f_equal. apply IH. intros j Hj. apply H. right. exact Hj. }
    unfold part. destruct (flat_map mons (of kd)) as [|j js] eqn:Ef.
    - destruct (of kd); [|discriminate]. split; [|reflexivity]. reflexivity.
    - assert (Hne : concat (posys (of kd)) <> []).
      { intros C. pose proof (flat_mons_length (of kd) (of_lt kd)) as L. rewrite Ef, C in L. discriminate. }
      split.
      + unfold excess.
        assert (Gp : forall l ws, Forall (fun i => In i (of kd)) l -> length l = length ws ->
          sum (zip_with (fun v rb => v * (dot (fst rb) x - snd rb)) ws (combine (map snd (concat (posys l))) (map (fun m => - ln (fst m)) (concat (posys l))))) =
          sum (map (fun iv => snd iv * ln (pval x (List.nth (fst iv) ps []))) (combine l ws))).
        { clear Ef Hlen Hne E vs. induction l as [|i l IH]; intros [|w ws] F L; try discriminate; [reflexivity|].
          inversion F as [|? ? Hi F']; subst. destruct (H i Hi) as (m & Em). unfold posys in *. cbn [map]. rewrite Em. simpl. unfold sum in *. simpl.
          rewrite IH by (auto; simpl in L; congruence). f_equal. rewrite Em, pval_one.
          assert (Lt : (i < length ps)%nat) by (apply of_In in Hi; tauto).
          rewrite mval_exp, ln_exp by exact (nth_pos i m Lt Em). f_equal. lra. }
        rewrite <- (Gp (of kd) vs) by (try apply List.Forall_forall; auto). clear Gp.
        destruct (concat (posys (of kd))) as [|m M]; [congruence|]. simpl. destruct vs as [|v vs]; [reflexivity|]. simpl. unfold sum. simpl.
        rewrite dot_app. simpl. f_equal. f_equal. lra.
      + simpl. rewrite <- Hlen, <- Ef, flat_mons_length by apply of_lt. destruct (concat (posys (of kd))) as [|m M]; [congruence|]. simpl. rewrite map_length. reflexivity.
  Qed.
End Cvx.

Fixpoint wsum (phi : nat -> R) (b : nat) (la : list R) : R := match la with [] => 0 | v :: la' => v * phi b + wsum phi (S b) la' end.
Lemma wsum_put phi b la iv : (fst iv < length la)%nat -> wsum phi b (put la iv) = wsum phi b la + (snd iv - List.nth (fst iv) la 0) * phi (b + fst iv)%nat.
Proof.
  unfold put. destruct iv as [i v]. simpl. revert b i. induction la as [|w la IH]; intros b [|i] H; simpl in *; try lia.
  - rewrite Nat.add_0_r. ring.
  - rewrite IH by lia. replace (S b + i)%nat with (b + S i)%nat by lia. ring.
Qed.
Lemma put_other la iv i : i <> fst iv -> List.nth i (put la iv) 0 = List.nth i la 0.
Proof.
  unfold put. destruct iv as [j v]. simpl. revert i j. induction la as [|w la IH]; intros [|i] [|j] H; simpl; try congruence; try reflexivity.
  apply IH. congruence.
Qed.
Lemma put_length la iv : length (put la iv) = length la.
Proof. unfold put. apply insert_length. Qed.
Lemma wsum_puts phi U : forall la, List.NoDup (map fst U) -> Forall (fun i => (i < length la)%nat) (map fst U) ->
  (forall i, In i (map fst U) -> List.nth i la 0 = 0) ->
  wsum phi 0 (fold_left put U la) = wsum phi 0 la + sum (map (fun iv => snd iv * phi (fst iv)) U).
Proof.
  induction U as [|iv U IH]; intros la N F Z; simpl; [unfold sum; simpl; lra|]. inversion N as [|? ? N1 N2]; subst. inversion F as [|? ? F1 F2]; subst.
  rewrite IH.
  - rewrite wsum_put by exact F1. rewrite (Z (fst iv)) by (left; reflexivity). unfold sum. simpl. ring.
  - exact N2.
  - eapply Forall_impl; [exact F2|]. intros i. simpl. rewrite put_length. auto.
  - intros i Hi. rewrite put_other; [apply Z; right; exact Hi|]. intros ->. auto.
Qed.
Lemma wsum_zip (phi : posy -> R) la ps : length la = length ps -> wsum (fun i => phi (List.nth i ps [])) 0 la = sum (zip_with (fun v p => v * phi p) la ps).
Proof.
  assert (G : forall la ps pre, length la = length ps -> wsum (fun i => phi (List.nth i (pre ++ ps) [])) (length pre) la = sum (zip_with (fun v p => v * phi p) la ps)).
  { clear. induction la as [|v la IH]; intros [|p ps] pre E; try discriminate; [reflexivity|]. simpl. unfold sum in *. simpl.
    rewrite app_nth2, Nat.sub_diag by lia. simpl. f_equal. specialize (IH ps (pre ++ [p])). rewrite app_length, <- app_assoc in IH. simpl in IH.
    rewrite Nat.add_comm in IH. simpl in IH. apply IH. simpl in E. congruence. }
  intros E. exact (G la ps [] E).
Qed.
Lemma puts_length U la : length (fold_left put U la) = length la.
Proof. revert la. induction U as [|iv U IH]; intros la; simpl; [reflexivity|]. rewrite IH. apply put_length. Qed.
Lemma puts_nonneg U la : Forall (fun v => 0 <= v) la -> Forall (fun iv => 0 <= snd iv) U -> Forall (fun v => 0 <= v) (fold_left put U la).
Proof.
  revert la. induction U as [|iv U IH]; intros la F G; simpl; [exact F|]. inversion G; subst. apply IH; [|assumption].
  unfold put. apply Forall_insert; assumption.
Qed.
Lemma wsum_zero phi b n : wsum phi b (repeat 0 n) = 0.
Proof. revert b. induction n as [|n IH]; intros b; simpl; [reflexivity|]. rewrite IH. lra. Qed.
Lemma puts_get U la i v : List.NoDup (map fst U) -> In (i, v) U -> (i < length la)%nat -> List.nth i (fold_left put U la) 0 = v.
Proof.
  revert la. induction U as [|iv U IH]; intros la N Hin L; simpl in *; [tauto|]. inversion N as [|? ? N1 N2]; subst. destruct Hin as [-> |Hin].
  - clear IH N. simpl in N1.
    assert (G : forall la, List.nth i (fold_left put U la) 0 = List.nth i la 0).
    { clear L N2 la. induction U as [|ju U IH]; intros la; simpl; [reflexivity|]. simpl in N1. rewrite IH by tauto. apply put_other. intros ->. tauto. }
    rewrite G. unfold put. simpl. rewrite nth_lookup, list_lookup_insert by exact L. reflexivity.
  - apply IH; auto. rewrite put_length. exact L.
Qed.

Section Lagrangian.
  Context (ps : list posy) (all first : list nat) (use_leqs : bool) (maxcol : nat) (Hp : proper ps) (Hm : meq_pairs ps all first).
  Let q := cvx_problem (c_of ps) (A_of ps) (k_of ps) all first use_leqs maxcol.
  Notation of := (of ps all first use_leqs).
  Notation cls := (cls ps all first use_leqs).

  Lemma one_lin i : In i (of KLin) -> exists m, List.nth i ps [] = [m].
  Proof. intros H. apply of_In in H. destruct (cls_lin ps all first use_leqs i (proj1 H) (proj2 H)) as [_ G]. exact G. Qed.
  Lemma one_leq i : In i (of KLeq) -> exists m, List.nth i ps [] = [m].
  Proof. intros H. apply of_In in H. destruct (cls_leq ps all first use_leqs Hm i (proj1 H) (proj2 H)) as (_ & _ & _ & m & m' & E & _). eauto. Qed.

  Lemma of_kd_length kd : (forall i, In i (of kd) -> exists m, List.nth i ps [] = [m]) -> rows_of (part ps maxcol (of kd)) = length (of kd).
  Proof.
    intros H. destruct (one_each ps all first use_leqs maxcol Hp kd H (map (fun _ => 0) (of kd)) (fun _ => 0)) as [_ E].
    - rewrite map_length. reflexivity.
    - exact E.
  Qed.

  Lemma fits_lengths out : fits q out -> length (of KLin) = length (o_zl out) /\ length (of KLse) = S (length (o_znl out)) /\ length (of KLeq) = length (o_y out).
  Proof.
    unfold fits, q. rewrite cvx_problem_eq. cbn [q_K q_G q_A]. rewrite map_length. unfold posys. rewrite map_length.
    rewrite (of_kd_length KLin one_lin), (of_kd_length KLeq one_leq). intros (E1 & E2 & E3). auto.
  Qed.

  Lemma flipped_phi x l : (forall i, In i (map fst l) -> In i (of KLeq)) ->
    sum (map (fun iv => snd iv * ln (pval x (List.nth (fst iv) ps []))) (map flipped l)) = sum (map (fun iv => snd iv * ln (pval x (List.nth (fst iv) ps []))) l).
  Proof.
    induction l as [|iv l IH]; intros H; simpl; [reflexivity|]. unfold sum in *. simpl. rewrite IH by (intros i Hi; apply H; right; exact Hi). f_equal.
    unfold flipped. destruct (Rle_dec 0 iv.2); [reflexivity|]. simpl.
    pose proof (H (fst iv) (or_introl eq_refl)) as Hi. apply of_In in Hi. destruct Hi as [L C].
    destruct (cls_leq ps all first use_leqs Hm _ L C) as (_ & L' & _ & m & m' & E1 & E2 & [R1 R2]). rewrite E1, E2, !pval_one.
    pose proof (nth_pos ps Hp _ _ L E1) as Hpos. pose proof (nth_pos ps Hp _ _ L' E2) as Hpos'.
    rewrite !mval_exp, !ln_exp, R1, R2, ln_Rinv by assumption. lra.
  Qed.

  Lemma lagrangian_eq out : fits q out -> exists la, cvx_la (k_of ps) all first use_leqs out = Ok la /\ length la = length ps /\
    List.nth 0 la 0 = 1 /\
    (Forall (fun v => 0 <= v) (o_zl out) -> Forall (fun v => 0 <= v) (o_znl out) -> Forall (fun v => 0 <= v) la) /\
    forall x, gp_lagrangian ps la x = cvx_lagrangian q out x.
  Proof.
    intros Hf. destruct (fits_lengths out Hf) as (E1 & E2 & E3).
    destruct (puts_NoDup ps all first use_leqs Hm out E1 E2 E3) as [N F].
    assert (L0 : (0 < length ps)%nat) by (destruct Hp as [Hn _]; destruct ps; [congruence|simpl; lia]).
    exists (fold_left put (puts ps all first use_leqs out) (repeat 0 (length ps))).
    assert (Ll : length (fold_left put (puts ps all first use_leqs out) (repeat 0 (length ps))) = length ps) by (rewrite puts_length, repeat_length; reflexivity).
    split; [apply cvx_la_eq; assumption|]. split; [exact Ll|]. split; [|split].
    - apply puts_get; [exact N| |rewrite repeat_length; exact L0]. unfold puts. apply in_or_app. right. apply in_or_app. left.
      rewrite (of_lse ps all first use_leqs Hp Hm). left. reflexivity.
    - intros P1 P2. apply puts_nonneg.
      + clear. induction (length ps); simpl; constructor; auto; lra.
      + unfold puts. apply List.Forall_forall. intros [i v] Hin. simpl. apply in_app_or in Hin. destruct Hin as [Hin|Hin].
        { apply in_combine_r in Hin. exact (proj1 (List.Forall_forall _ _) P1 v Hin). }
        apply in_app_or in Hin. destruct Hin as [Hin|Hin].
        { apply in_combine_r in Hin. destruct Hin as [<-|Hin]; [lra|]. exact (proj1 (List.Forall_forall _ _) P2 v Hin). }
        apply in_map_iff in Hin. destruct Hin as (py & E & _). unfold flipped in E. destruct (Rle_dec 0 py.2); subst; simpl in *; [assumption|].
        injection E as _ <-. lra.
    - intros x. unfold gp_lagrangian. rewrite <- (wsum_zip (fun p => ln (pval x p))) by exact Ll.
      rewrite wsum_puts; [|exact N|eapply Forall_impl; [exact F|]; intros i; simpl; rewrite repeat_length; auto|].
      2:{ intros i Hi. generalize (length ps). intros n. clear. revert i. induction n as [|n IH]; intros [|i]; simpl; auto. }
      rewrite wsum_zero. unfold puts. rewrite !map_app, !sum_app, flipped_phi.
      2:{ intros i Hi. rewrite map_fst_combine in Hi by exact E3. exact Hi. }
      unfold cvx_lagrangian, cvx_cost. pose proof (lse_blocks ps all first use_leqs maxcol Hp Hm x) as B. fold q in B. unfold posys in B. rewrite map_map in B.
      rewrite (of_lse ps all first use_leqs Hp Hm) in *. destruct (cvx_blocks q) as [|b bs]; [discriminate|]. simpl in B. injection B as B0 B.
      destruct (one_each ps all first use_leqs maxcol Hp KLin one_lin (o_zl out) x E1) as [X1 _].
      destruct (one_each ps all first use_leqs maxcol Hp KLeq one_leq (o_y out) x E3) as [X2 _].
      rewrite <- X1, <- X2. unfold q at 1 2. rewrite cvx_problem_eq. cbn [q_G q_A]. simpl hd. simpl tl. rewrite B0. simpl in E2.
      cbn [combine map]. rewrite sum_cons.
      assert (X3 : sum (zip_with (fun v b => v * lse x b) (o_znl out) bs) =
        sum (map (fun iv => snd iv * ln (pval x (List.nth (fst iv) ps []))) (combine (sub ps all first use_leqs KLse (seq 1 (length ps - 1))) (o_znl out)))).
      { revert B E2. generalize (sub ps all first use_leqs KLse (seq 1 (length ps - 1))), (o_znl out). clear. intros idxs zs. revert bs zs.
        induction idxs as [|i idxs IH]; intros [|b bs] [|z zs] B E; try discriminate; [reflexivity|]. simpl in B. injection B as B0 B.
        simpl. unfold sum in *. simpl. rewrite B0, (IH bs zs) by (auto; simpl in E; congruence). reflexivity. }
      rewrite X3. simpl. ring.
  Qed.
End Lagrangian.

(** ** MOSEK *)
Lemma lookup_map {X Y} (f : X -> Y) (l : list X) i : map f l !! i = f <$> l !! i.
Proof. exact (list_lookup_fmap f l i). Qed.
Lemma triple_lookup {X} (a b c : X) n k v : concat (repeat [a; b; c] n) !! k = Some v ->
  exists i, (i < n)%nat /\ ((k = 3 * i /\ v = a) \/ (k = 3 * i + 1 /\ v = b) \/ (k = 3 * i + 2 /\ v = c))%nat.
Proof.
  revert k. induction n as [|n IH]; intros k; simpl; [rewrite lookup_nil; discriminate|].
  destruct k as [|[|[|k]]]; simpl; intros H.
  - exists 0%nat. injection H as <-. split; [lia|]. left. split; [lia|reflexivity].
  - exists 0%nat. injection H as <-. split; [lia|]. right; left. split; [lia|reflexivity].
  - exists 0%nat. injection H as <-. split; [lia|]. right; right. split; [lia|reflexivity].
  - destruct (IH k H) as (i & Hi & C). exists (S i). split; [lia|]. destruct C as [[? ?]|[[? ?]|[? ?]]]; [left|right; left|right; right]; split; auto; lia.
Qed.
Lemma triple_mid {X} (a b c : X) n i : (i < n)%nat -> concat (repeat [a; b; c] n) !! (3 * i + 1)%nat = Some b.
Proof.
  revert i. induction n as [|n IH]; intros [|i] H; try lia; simpl; [reflexivity|].
  replace (i + S (i + S (i + 0)) + 1)%nat with (S (S (3 * i + 1)))%nat by lia. simpl. apply IH. lia.
Qed.
Lemma triple_length {X} (a b c : X) n : length (concat (repeat [a; b; c] n)) = (3 * n)%nat.
Proof. induction n as [|n IH]; simpl; [reflexivity|]. rewrite IH. lia. Qed.

Section Msk.
  Context (ps : list posy) (m : nat) (Hp : proper ps).
  Context (Hc : bounded_columns ps m).

  Notation lin := (msk_lin (k_of ps)).
  Notation lses := (msk_lse (k_of ps)).
  Lemma ps_length : length ps = S (length (tl ps)).
  Proof. destruct Hp as [Hn _]. destruct ps; [congruence|reflexivity]. Qed.

  Lemma lin_In i : In i lin <-> (0 < i < length ps)%nat /\ (List.nth i (k_of ps) 0 <= 1)%nat.
  Proof.
    unfold msk_lin. pose proof ps_length as L. unfold k_of. destruct ps as [|p l]; [discriminate|]. simpl tl. rewrite in_map_iff. split.
    - intros (j & <- & H). apply List.filter_In in H. destruct H as [H1 H2]. apply in_seq in H1. rewrite map_length in H1. simpl.
      destruct (Nat.ltb_spec 1 (List.nth j (map length l) 0%nat)); [discriminate|]. lia.
    - intros [H1 H2]. destruct i as [|j]; [lia|]. exists j. split; [reflexivity|]. apply List.filter_In. simpl in *. split.
      + apply in_seq. rewrite map_length. lia.
      + destruct (Nat.ltb_spec 1 (List.nth j (map length l) 0%nat)); [lia|reflexivity].
  Qed.
  Lemma lses_filter : lses = List.filter (fun i => negb (bool_decide (i ∈ lin))) (seq 0 (length ps)).
  Proof.
    pose proof ps_length as L. rewrite L. simpl seq. simpl List.filter.
    rewrite bool_decide_false. 2:{ rewrite elem_of_list_In. intros C. apply lin_In in C. lia. }
    simpl. unfold msk_lse. f_equal. rewrite <- seq_shift, filter_map. f_equal. unfold k_of.
    replace (length (tl (map length ps))) with (length (tl ps)) by (destruct ps; simpl; [|rewrite map_length]; reflexivity).
    apply filter_ext_in. intros i Hi. apply in_seq in Hi.
    assert (E : S i ∈ lin <-> (List.nth i (tl (map length ps)) 0 <= 1)%nat).
    { rewrite elem_of_list_In, lin_In. unfold k_of. destruct ps as [|p l]; [discriminate|]. simpl. simpl in Hi. split; [tauto|]. intros. split; [lia|assumption]. }
    destruct (Nat.ltb_spec 1 (List.nth i (tl (map length ps)) 0%nat)).
    - rewrite bool_decide_false; [reflexivity|]. rewrite E. lia.
    - rewrite bool_decide_true; [reflexivity|]. rewrite E. lia.
  Qed.
  Lemma lin_filter : lin = List.filter (fun i => bool_decide (i ∈ lin)) (seq 0 (length ps)).
  Proof.
    pose proof ps_length as L. rewrite L at 1. simpl seq. simpl List.filter.
    rewrite bool_decide_false. 2:{ rewrite elem_of_list_In. intros C. apply lin_In in C. lia. }
    unfold msk_lin at 1. rewrite <- seq_shift, filter_map. f_equal. unfold k_of at 1 2.
    replace (length (tl (map length ps))) with (length (tl ps)) by (destruct ps; simpl; [|rewrite map_length]; reflexivity).
    apply filter_ext_in. intros i Hi. apply in_seq in Hi.
    assert (E : S i ∈ lin <-> (List.nth i (tl (map length ps)) 0 <= 1)%nat).
    { rewrite elem_of_list_In, lin_In. unfold k_of. destruct ps as [|p l]; [discriminate|]. simpl. simpl in Hi. split; [tauto|]. intros. split; [lia|assumption]. }
    destruct (Nat.ltb_spec 1 (List.nth i (tl (map length ps)) 0%nat)).
    - rewrite bool_decide_false; [reflexivity|]. rewrite E. lia.
    - rewrite bool_decide_true; [reflexivity|]. rewrite E. lia.
  Qed.
  Lemma lses_lt : Forall (fun i => (i < length ps)%nat) lses.
  Proof. rewrite lses_filter. apply List.Forall_forall. intros i H. apply List.filter_In in H. destruct H as [H _]. apply in_seq in H. lia. Qed.
  Lemma lin_lt : Forall (fun i => (i < length ps)%nat) lin.
  Proof. apply List.Forall_forall. intros i H. apply lin_In in H. lia. Qed.
  Lemma posys_all : posys ps (seq 0 (length ps)) = ps.
  Proof.
    unfold posys. clear. induction ps as [|p l IH]; simpl; [reflexivity|]. f_equal. rewrite <- seq_shift, map_map. exact IH.
  Qed.

  Notation L := (posys ps lses).
  Notation M := (concat L).
  Notation N := (concat (posys ps lin)).

  Lemma tags_eq : p_of ps = tags 0 ps.
  Proof. reflexivity. Qed.
  Lemma lse_monos : select ((0, []) : mono) (concat ps) (lse_idxs (p_of ps) lin) = M.
  Proof.
    unfold select, lse_idxs. rewrite tags_eq, tags_length. etransitivity; [exact (select_tags (fun p => negb (bool_decide (p ∈ lin))) ps (0, []))|]. rewrite <- lses_filter. reflexivity.
  Qed.
  Lemma lin_monos : select ((0, []) : mono) (concat ps) (lin_idxs (p_of ps) lin) = N.
  Proof.
    unfold select, lin_idxs. rewrite tags_eq, tags_length. etransitivity; [exact (select_tags (fun p => bool_decide (p ∈ lin)) ps (0, []))|]. rewrite <- lin_filter. reflexivity.
  Qed.
  Lemma lse_idxs_lt : Forall (fun j => (j < length (concat ps))%nat) (lse_idxs (p_of ps) lin).
  Proof. unfold lse_idxs. rewrite tags_eq, tags_length. apply List.Forall_forall. intros j H. apply List.filter_In in H. destruct H as [H _]. apply in_seq in H. lia. Qed.
  Lemma lin_idxs_lt : Forall (fun j => (j < length (concat ps))%nat) (lin_idxs (p_of ps) lin).
  Proof. unfold lin_idxs. rewrite tags_eq, tags_length. apply List.Forall_forall. intros j H. apply List.filter_In in H. destruct H as [H _]. apply in_seq in H. lia. Qed.
  Lemma lses_all : lin = [] -> L = ps.
  Proof.
    intros E. rewrite lses_filter, E. transitivity (posys ps (seq 0 (length ps))); [|apply posys_all]. f_equal.
    generalize (seq 0 (length ps)). intros s. induction s as [|a s IH]; simpl; [reflexivity|]. f_equal. exact IH.
  Qed.

  Definition cone_rows : list (row * bkey) :=
    map (fun i => (List.nth i (map snd M) [] ++ [((m + 3 * i + 2)%nat, -1)] ++ [((m + 3 * length M + List.nth i (tags 0 L) 0)%nat, -1)],
                   Fixed (- List.nth i (map (fun mo => ln (fst mo)) M) 0))) (seq 0 (length M)).
  Definition sum_rows : list (row * bkey) :=
    map (fun p => (map (fun i => ((m + 3 * i)%nat, 1)) (List.filter (fun i => Nat.eqb (List.nth i (tags 0 L) 0%nat) p) (seq 0 (length M))), Up 1)) (seq 0 (length L)).
  Definition lin_rows : list (row * bkey) := map (fun mo : mono => (snd mo, Up (- ln (fst mo)))) N.

  Lemma expand_tags (l : list posy) : expand (map length l) = tags 0 l.
  Proof.
    unfold expand, tags, enum. rewrite map_length. generalize 0%nat. induction l as [|p l IH]; intros b; simpl; [reflexivity|]. f_equal. apply IH.
  Qed.
  Lemma sum_lengths (l : list posy) : list_sum (map length l) = length (concat l).
  Proof. induction l as [|p l IH]; simpl; [reflexivity|]. rewrite app_length, IH. reflexivity. Qed.

  Lemma msk_problem_eq : msk_problem (c_of ps) (A_of ps) (k_of ps) (p_of ps) m =
    Conic (repeat Free m ++ concat (repeat [Free; Fixed 1; Free] (length M)) ++ [Free] ++ repeat (Up 0) (length L - 1))
          (cone_rows ++ sum_rows ++ lin_rows) (map (fun i => m + 3 * i)%nat (seq 0 (length M))) (m + 3 * length M)%nat.
  Proof.
    unfold msk_problem. rewrite (select_k ps lses lses_lt), sum_lengths, expand_tags, map_length.
    assert (EA : match lin with [] => A_of ps | _ => select [] (A_of ps) (lse_idxs (p_of ps) lin) end = map snd M).
    { destruct lin eqn:E; [rewrite (lses_all E); reflexivity|]. rewrite <- E. unfold A_of.
      rewrite (select_map (@snd R row) ((0, []) : mono)) by apply lse_idxs_lt. rewrite lse_monos. reflexivity. }
    assert (EC : match lin with [] => map ln (c_of ps) | _ => select 0 (map ln (c_of ps)) (lse_idxs (p_of ps) lin) end = map (fun mo : mono => ln (fst mo)) M).
    { unfold c_of. rewrite map_map. destruct lin eqn:E; [rewrite (lses_all E); reflexivity|]. rewrite <- E.
      rewrite (select_map (fun mo : mono => ln (fst mo)) ((0, []) : mono)) by apply lse_idxs_lt. rewrite lse_monos. reflexivity. }
    rewrite EA, EC. f_equal. f_equal. f_equal. unfold lin_rows. destruct lin eqn:E.
    - reflexivity.
    - rewrite <- E. unfold A_of, c_of. rewrite map_map.
      rewrite (select_map (@snd R row) ((0, []) : mono)) by apply lin_idxs_lt.
      rewrite (select_map (fun mo : mono => ln (fst mo)) ((0, []) : mono)) by apply lin_idxs_lt.
      rewrite lin_monos. generalize N. clear. intros l. induction l as [|a l IH]; simpl; [reflexivity|]. f_equal. exact IH.
  Qed.

  Notation P := (msk_problem (c_of ps) (A_of ps) (k_of ps) (p_of ps) m).
  Lemma cones_length : length cone_rows = length M.
  Proof. unfold cone_rows. rewrite map_length, seq_length. reflexivity. Qed.

  Lemma moved_eq dz dl : length dz = (length L - 1)%nat -> length dl = length N ->
    moved P dz dl =
    Conic (repeat Free m ++ concat (repeat [Free; Fixed 1; Free] (length M)) ++ [Free] ++ map (fun d => Up (0 + d)) dz)
          (cone_rows ++ sum_rows ++ zip_with (fun (mo : mono) d => (snd mo, Up (- ln (fst mo) + d))) N dl)
          (map (fun i => m + 3 * i)%nat (seq 0 (length M))) (m + 3 * length M)%nat.
  Proof.
    intros Ez El. rewrite msk_problem_eq. unfold moved. cbn [m_vars m_rows m_cones m_obj]. f_equal.
    - assert (X : repeat Free m ++ concat (repeat [Free; Fixed 1; Free] (length M)) ++ [Free] ++ repeat (Up 0) (length L - 1) =
                  (repeat Free m ++ concat (repeat [Free; Fixed 1; Free] (length M)) ++ [Free]) ++ repeat (Up 0) (length L - 1)) by (rewrite <- !app_assoc; reflexivity).
      rewrite X. clear X.
      assert (E : S (m + 3 * length M) = length (repeat Free m ++ concat (repeat [Free; Fixed 1; Free] (length M)) ++ [Free])).
      { rewrite !app_length, repeat_length, triple_length. simpl. lia. }
      rewrite E, take_app, drop_app. rewrite <- !app_assoc. do 3 f_equal. rewrite <- Ez. clear. induction dz as [|d dz IH]; simpl; [reflexivity|].
      f_equal. exact IH.
    - rewrite !app_assoc.
      assert (E : (length ((cone_rows ++ sum_rows) ++ lin_rows) - length dl)%nat = length (cone_rows ++ sum_rows)).
      { rewrite app_length, El. unfold lin_rows. rewrite map_length. lia. }
      rewrite E, take_app, drop_app. f_equal. unfold lin_rows. clear E Ez. revert El. generalize N. clear. intros l. revert dl.
      induction l as [|a l IH]; intros [|d dl] E; try discriminate; simpl; [reflexivity|]. f_equal. apply IH. simpl in E. congruence.
  Qed.

  Lemma M_cols i : (i < length M)%nat -> Forall (fun ja => (fst ja < m)%nat) (snd (List.nth i M (0, []))).
  Proof.
    intros H. pose proof (nth_In M (0, []) H) as Hin. apply in_concat in Hin. destruct Hin as (p & Hpin & Hmo).
    apply (posys_In ps _ _ lses_lt) in Hpin. pose proof (proj1 (List.Forall_forall _ _) Hc p Hpin) as F. exact (proj1 (List.Forall_forall _ _) F _ Hmo).
  Qed.
  Lemma M_pos i : (i < length M)%nat -> 0 < fst (List.nth i M (0, [])).
  Proof.
    intros H. pose proof (nth_In M (0, []) H) as Hin. apply in_concat in Hin. destruct Hin as (p & Hpin & Hmo).
    apply (posys_In ps _ _ lses_lt) in Hpin. destruct (proper_In ps Hp p Hpin) as [_ F]. exact (proj1 (List.Forall_forall _ _) F _ Hmo).
  Qed.
  Lemma N_In mo : In mo N -> Forall (fun ja => (fst ja < m)%nat) (snd mo) /\ 0 < fst mo.
  Proof.
    intros Hin. apply in_concat in Hin. destruct Hin as (p & Hpin & Hmo). apply (posys_In ps _ _ lin_lt) in Hpin. split.
    - pose proof (proj1 (List.Forall_forall _ _) Hc p Hpin) as F. exact (proj1 (List.Forall_forall _ _) F _ Hmo).
    - destruct (proper_In ps Hp p Hpin) as [_ F]. exact (proj1 (List.Forall_forall _ _) F _ Hmo).
  Qed.
  Definition idx_of (p : nat) : list nat := List.filter (fun i => Nat.eqb (List.nth i (tags 0 L) 0%nat) p) (seq 0 (length M)).
  Lemma idx_of_In p i : In i (idx_of p) <-> (i < length M)%nat /\ List.nth i (tags 0 L) 0%nat = p.
  Proof. unfold idx_of. rewrite List.filter_In, in_seq, Nat.eqb_eq. split; intros [? ?]; split; auto; lia. Qed.

  Lemma feas_iff dz dl w : length dz = (length L - 1)%nat -> length dl = length N ->
    conic_feasible (moved P dz dl) w <->
    (forall i, (i < length M)%nat -> w (m + 3 * i + 1)%nat = 1) /\
    (forall j, (j < length dz)%nat -> w (m + 3 * length M + 1 + j)%nat <= List.nth j dz 0) /\
    (forall i, (i < length M)%nat ->
       w (m + 3 * i + 2)%nat = dot (snd (List.nth i M (0, []))) w + ln (fst (List.nth i M (0, []))) - w (m + 3 * length M + List.nth i (tags 0 L) 0)%nat) /\
    (forall p, (p < length L)%nat -> sum (map (fun i => w (m + 3 * i)%nat) (idx_of p)) <= 1) /\
    Forall2 (fun mo d => dot (snd mo) w <= - ln (fst mo) + d) N dl /\
    (forall i, (i < length M)%nat -> in_pexp (w (m + 3 * i)%nat) (w (m + 3 * i + 1)%nat) (w (m + 3 * i + 2)%nat)).
  Proof.
    intros Ez El. rewrite moved_eq by assumption. unfold conic_feasible. cbn [m_vars m_rows m_cones].
    assert (Q1 : (forall i b, (repeat Free m ++ concat (repeat [Free; Fixed 1; Free] (length M)) ++ [Free] ++ map (fun d => Up (0 + d)) dz) !! i = Some b -> within b (w i)) <->
      (forall i, (i < length M)%nat -> w (m + 3 * i + 1)%nat = 1) /\ (forall j, (j < length dz)%nat -> w (m + 3 * length M + 1 + j)%nat <= List.nth j dz 0)).
    { split.
      - intros H. split.
        + intros i Hi. apply (H (m + 3 * i + 1)%nat (Fixed 1)). rewrite lookup_app_r by (rewrite repeat_length; lia). rewrite repeat_length.
          rewrite lookup_app_l by (rewrite triple_length; lia). replace (m + 3 * i + 1 - m)%nat with (3 * i + 1)%nat by lia. apply triple_mid. exact Hi.
        + intros j Hj. rewrite <- (Rplus_0_l (List.nth j dz 0)). apply (H (m + 3 * length M + 1 + j)%nat (Up (0 + List.nth j dz 0))).
          rewrite lookup_app_r by (rewrite repeat_length; lia). rewrite repeat_length.
          rewrite lookup_app_r by (rewrite triple_length; lia). rewrite triple_length.
          replace (m + 3 * length M + 1 + j - m - 3 * length M)%nat with (S j) by lia.
          change (map (fun d => Up (0 + d)) dz !! j = Some (Up (0 + List.nth j dz 0))).
          rewrite (lookup_map (fun d => Up (0 + d)) dz j).
          destruct (lookup_lt_is_Some_2 dz j Hj) as [d Ed]. rewrite Ed. simpl. rewrite (nth_lookup_Some dz j 0 d Ed). reflexivity.
      - intros [H1 H2] i b E. destruct (decide (i < m)%nat) as [Hi|Hi].
        { rewrite lookup_app_l in E by (rewrite repeat_length; exact Hi). apply elem_of_list_lookup_2, elem_of_list_In, repeat_spec in E. subst b. exact I. }
        rewrite lookup_app_r in E by (rewrite repeat_length; lia). rewrite repeat_length in E.
        destruct (decide (i - m < 3 * length M)%nat) as [Hi'|Hi'].
        { rewrite lookup_app_l in E by (rewrite triple_length; exact Hi'). apply triple_lookup in E. destruct E as (k & Hk & [[E ->]|[[E ->]|[E ->]]]); try exact I.
          simpl. replace i with (m + 3 * k + 1)%nat by lia. apply H1. exact Hk. }
        rewrite lookup_app_r in E by (rewrite triple_length; lia). rewrite triple_length in E.
        destruct (i - m - 3 * length M)%nat as [|j] eqn:Ej; [injection E as <-; exact I|]. change (map (fun d => Up (0 + d)) dz !! j = Some b) in E.
        rewrite (lookup_map (fun d => Up (0 + d)) dz j) in E. destruct (dz !! j) as [d|] eqn:Ed; [|discriminate]. injection E as <-. simpl. rewrite Rplus_0_l.
        replace i with (m + 3 * length M + 1 + j)%nat by lia. rewrite <- (nth_lookup_Some dz j 0 d Ed). apply H2. apply lookup_lt_Some in Ed. exact Ed. }
    rewrite Q1. clear Q1. rewrite !Forall_app.
    assert (Q2 : Forall (fun rb => within (snd rb) (dot (fst rb) w)) cone_rows <->
      (forall i, (i < length M)%nat -> w (m + 3 * i + 2)%nat = dot (snd (List.nth i M (0, []))) w + ln (fst (List.nth i M (0, []))) - w (m + 3 * length M + List.nth i (tags 0 L) 0)%nat)).
    { unfold cone_rows. rewrite Forall_map, List.Forall_forall. split.
      - intros H i Hi. specialize (H i ltac:(apply in_seq; lia)). simpl in H. rewrite (nth_map (@snd R row) M i (0, [])), (nth_map (fun mo : mono => ln (fst mo)) M i (0, [])) in H by exact Hi.
        rewrite dot_app in H. simpl in H. simpl. lra.
      - intros H i Hi. apply in_seq in Hi. specialize (H i ltac:(lia)). simpl in H. simpl.
        rewrite (nth_map (@snd R row) M i (0, [])), (nth_map (fun mo : mono => ln (fst mo)) M i (0, [])) by lia. rewrite dot_app. simpl. lra. }
    rewrite Q2. clear Q2.
    assert (Q3 : Forall (fun rb => within (snd rb) (dot (fst rb) w)) sum_rows <->
      (forall p, (p < length L)%nat -> sum (map (fun i => w (m + 3 * i)%nat) (idx_of p)) <= 1)).
    { unfold sum_rows. rewrite Forall_map, List.Forall_forall.
      assert (D : forall s : list nat, dot (map (fun i => ((m + 3 * i)%nat, 1)) s) w = sum (map (fun i => w (m + 3 * i)%nat) s)).
      { clear. intros s. induction s as [|a s IH]; [reflexivity|]. cbn [map]. rewrite sum_cons, <- IH. unfold dot. cbn [fold_right fst snd]. lra. }
      split; intros H p.
      - intros Hq. specialize (H p ltac:(apply in_seq; lia)). cbn [fst snd within] in H. rewrite D in H. exact H.
      - intros Hq. apply in_seq in Hq. cbn [fst snd within]. rewrite D. apply H. lia. }
    rewrite Q3. clear Q3.
    assert (Q4 : Forall (fun rb => within (snd rb) (dot (fst rb) w)) (zip_with (fun (mo : mono) d => (snd mo, Up (- ln (fst mo) + d))) N dl) <->
      Forall2 (fun mo d => dot (snd mo) w <= - ln (fst mo) + d) N dl).
    { clear Ez. revert El. generalize N. clear. intros l. revert dl. induction l as [|a l IH]; intros [|d dl] E; try discriminate; simpl.
      - split; constructor.
      - simpl in E. specialize (IH dl ltac:(congruence)). split; intros H; inversion H; subst; constructor; auto; apply IH; auto. }
    rewrite Q4. clear Q4.
    assert (Q5 : Forall (fun i => in_pexp (w i) (w (i + 1)%nat) (w (i + 2)%nat)) (map (fun i => m + 3 * i)%nat (seq 0 (length M))) <->
      (forall i, (i < length M)%nat -> in_pexp (w (m + 3 * i)%nat) (w (m + 3 * i + 1)%nat) (w (m + 3 * i + 2)%nat))).
    { rewrite Forall_map, List.Forall_forall. split; intros H i Hi; apply H; [apply in_seq|apply in_seq in Hi]; lia. }
    rewrite Q5. tauto.
  Qed.

  Lemma sum_idx x p : (p < length L)%nat -> pval x (List.nth p L []) = sum (map (fun i => mval x (List.nth i M (0, []))) (idx_of p)).
  Proof.
    intros H. unfold pval. rewrite <- (select_tag L (0, []) p H), map_map. reflexivity.
  Qed.
  Lemma sum_le_map {X} (f g : X -> R) l : (forall a, In a l -> f a <= g a) -> sum (map f l) <= sum (map g l).
  Proof.
    induction l as [|a l IH]; intros H; [simpl; lra|]. cbn [map]. rewrite !sum_cons. pose proof (H a (or_introl eq_refl)). specialize (IH (fun b Hb => H b (or_intror Hb))). lra.
  Qed.
  Lemma sum_scale {X} (f : X -> R) c l : sum (map (fun a => c * f a) l) = c * sum (map f l).
  Proof. induction l as [|a l IH]; [unfold sum; simpl; lra|]. cbn [map]. rewrite !sum_cons, IH. lra. Qed.

  Lemma L_pos x p : (p < length L)%nat -> 0 < pval x (List.nth p L []).
  Proof.
    intros H. pose proof (nth_In L [] H) as Hin. apply (posys_In ps _ _ lses_lt) in Hin. destruct (proper_In ps Hp _ Hin). apply pval_pos; assumption.
  Qed.

  Lemma conic_iff dz dl x v : length dz = (length L - 1)%nat -> length dl = length N ->
    (exists w, conic_feasible (moved P dz dl) w /\ (forall j, (j < m)%nat -> w j = x j) /\ w (m_obj P) = v) <->
    pval x (List.nth 0 L []) <= exp v /\
    (forall j, (j < length dz)%nat -> pval x (List.nth (S j) L []) <= exp (List.nth j dz 0)) /\
    Forall2 (fun mo d => mval x mo <= exp d) N dl.
  Proof.
    intros Ez El.
    assert (Lp : (0 < length L)%nat) by (unfold posys; rewrite map_length; unfold msk_lse; simpl; lia).
    assert (Lin : forall mo d, In mo N -> dot (snd mo) x <= - ln (fst mo) + d <-> mval x mo <= exp d).
    { intros mo d Hin. destruct (N_In mo Hin) as [_ Hpos]. rewrite mval_exp by exact Hpos. split; intros H.
      - destruct (Rle_lt_or_eq_dec (dot mo.2 x + ln mo.1) d) as [C|C]; [lra| |].
        + left. apply exp_increasing. exact C.
        + right. rewrite C. reflexivity.
      - destruct (Rle_or_lt (dot mo.2 x + ln mo.1) d) as [C|C]; [lra|]. apply exp_increasing in C. lra. }
    assert (Obj : m_obj P = (m + 3 * length M)%nat) by (rewrite msk_problem_eq; reflexivity).
    rewrite Obj. split.
    - intros (w & Fw & Hx & Hv). apply feas_iff in Fw; [|assumption|assumption]. destruct Fw as (V1 & V2 & R1 & R2 & R3 & K).
      assert (D : forall i, (i < length M)%nat -> dot (snd (List.nth i M (0, []))) w = dot (snd (List.nth i M (0, []))) x).
      { intros i Hi. apply dot_agree. eapply Forall_impl; [exact (M_cols i Hi)|]. intros ja Hja. apply Hx. exact Hja. }
      assert (B : forall p, (p < length L)%nat -> pval x (List.nth p L []) <= exp (w (m + 3 * length M + p)%nat)).
      { intros p Hq. rewrite (sum_idx x p Hq).
        apply Rle_trans with (sum (map (fun i => exp (w (m + 3 * length M + p)%nat) * w (m + 3 * i)%nat) (idx_of p))).
        - apply sum_le_map. intros i Hi. apply idx_of_In in Hi. destruct Hi as [Hi Et]. specialize (K i Hi). specialize (R1 i Hi). rewrite Et, (D i Hi) in R1.
          rewrite (V1 i Hi) in K. destruct K as [[_ K]|[K _]]; [|lra]. unfold Rdiv in K. rewrite Rinv_1, Rmult_1_r in K.
          rewrite Rmult_1_l in K. rewrite mval_exp by exact (M_pos i Hi).
          replace (dot (snd (List.nth i M (0, []))) x + ln (fst (List.nth i M (0, [])))) with (w (m + 3 * length M + p)%nat + w (m + 3 * i + 2)%nat) by lra.
          rewrite exp_plus. apply Rmult_le_compat_l; [left; apply exp_pos|exact K].
        - rewrite sum_scale. pose proof (R2 p Hq). pose proof (exp_pos (w (m + 3 * length M + p)%nat)) as E.
          replace (exp (w (m + 3 * length M + p)%nat)) with (exp (w (m + 3 * length M + p)%nat) * 1) at 2 by lra. apply Rmult_le_compat_l; lra. }
      split; [|split].
      + pose proof (B 0%nat Lp) as B0. rewrite Nat.add_0_r, Hv in B0. exact B0.
      + intros j Hj. eapply Rle_trans; [apply B; lia|]. specialize (V2 j Hj). replace (m + 3 * length M + S j)%nat with (m + 3 * length M + 1 + j)%nat by lia.
        destruct (Rle_lt_or_eq_dec _ _ V2) as [C| -> ]; [left; apply exp_increasing; exact C|lra].
      + assert (G : forall l ds, (forall mo, In mo l -> In mo N) -> Forall2 (fun (mo : mono) d => dot (snd mo) w <= - ln (fst mo) + d) l ds -> Forall2 (fun mo d => mval x mo <= exp d) l ds).
        { clear R3. induction l as [|a l IH]; intros ds Hin F; inversion F; subst; constructor.
          - apply Lin; [apply Hin; left; reflexivity|]. rewrite <- (dot_agree (snd a) w x); [assumption|].
            eapply Forall_impl; [exact (proj1 (N_In a (Hin a (or_introl eq_refl))))|]. intros ja Hja. apply Hx. exact Hja.
          - apply IH; [intros mo Hmo; apply Hin; right; exact Hmo|assumption]. }
        exact (G N dl (fun mo H => H) R3).
    - intros (H0 & Hz & Hl).
      set (z := fun p => match p with 0%nat => v | S _ => ln (pval x (List.nth p L [])) end).
      set (t2 := fun i => dot (snd (List.nth i M (0, []))) x + ln (fst (List.nth i M (0, []))) - z (List.nth i (tags 0 L) 0%nat)).
      set (w := fun j => if (j <? m)%nat then x j else if (j <? m + 3 * length M)%nat
                         then match ((j - m) mod 3)%nat with 0%nat => exp (t2 ((j - m) / 3)%nat) | 1%nat => 1 | _ => t2 ((j - m) / 3)%nat end
                         else z (j - (m + 3 * length M))%nat).
      assert (W0 : forall j, (j < m)%nat -> w j = x j).
      { intros j Hj. unfold w. destruct (Nat.ltb_spec j m); [reflexivity|lia]. }
      assert (WT : forall i r, (i < length M)%nat -> (r < 3)%nat -> w (m + 3 * i + r)%nat = match r with 0%nat => exp (t2 i) | 1%nat => 1 | _ => t2 i end).
      { intros i r Hi Hr. unfold w. destruct (Nat.ltb_spec (m + 3 * i + r) m); [lia|]. destruct (Nat.ltb_spec (m + 3 * i + r) (m + 3 * length M)); [|lia].
        replace (m + 3 * i + r - m)%nat with (r + i * 3)%nat by lia. rewrite Nat.mod_add, Nat.div_add by lia. rewrite (Nat.mod_small r 3), (Nat.div_small r 3) by exact Hr. reflexivity. }
      assert (WZ : forall p, w (m + 3 * length M + p)%nat = z p).
      { intros p. unfold w. destruct (Nat.ltb_spec (m + 3 * length M + p) m); [lia|]. destruct (Nat.ltb_spec (m + 3 * length M + p) (m + 3 * length M)); [lia|].
        f_equal. lia. }
      assert (W3 : forall i, (i < length M)%nat -> w (m + 3 * i)%nat = exp (t2 i)).
      { intros i Hi. replace (m + 3 * i)%nat with (m + 3 * i + 0)%nat by lia. apply (WT i 0%nat Hi). lia. }
      exists w. split; [|split; [exact W0|]].
      2:{ pose proof (WZ 0%nat) as E. rewrite Nat.add_0_r in E. exact E. }
      apply feas_iff; [assumption|assumption|].
      assert (ZB : forall p, (p < length L)%nat -> pval x (List.nth p L []) <= exp (z p)).
      { intros [|p] Hq; [exact H0|]. unfold z. rewrite exp_ln by apply L_pos, Hq. lra. }
      split; [|split; [|split; [|split; [|split]]]].
      + intros i Hi. exact (WT i 1%nat Hi ltac:(lia)).
      + intros j Hj. replace (m + 3 * length M + 1 + j)%nat with (m + 3 * length M + S j)%nat by lia. rewrite WZ. unfold z.
        pose proof (Hz j Hj) as H1. pose proof (L_pos x (S j) ltac:(lia)) as H2. rewrite <- (ln_exp (List.nth j dz 0)).
        destruct (Rle_lt_or_eq_dec _ _ H1) as [C| -> ]; [left; apply ln_increasing; assumption|lra].
      + intros i Hi. rewrite (WT i 2%nat Hi ltac:(lia)), WZ. unfold t2. rewrite (dot_agree _ w x); [reflexivity|].
        eapply Forall_impl; [exact (M_cols i Hi)|]. intros ja Hja. apply W0. exact Hja.
      + intros p Hq. assert (E : sum (map (fun i => w (m + 3 * i)%nat) (idx_of p)) = exp (- z p) * pval x (List.nth p L [])).
        { rewrite (sum_idx x p Hq), <- sum_scale. f_equal. apply map_ext_in. intros i Hi. apply idx_of_In in Hi. destruct Hi as [Hi Et].
          rewrite (W3 i Hi), mval_exp, <- exp_plus by exact (M_pos i Hi). unfold t2. rewrite Et. f_equal. lra. }
        rewrite E. replace 1 with (exp (- z p) * exp (z p)) by (rewrite <- exp_plus, Rplus_opp_l, exp_0; reflexivity).
        apply Rmult_le_compat_l; [left; apply exp_pos|apply ZB, Hq].
      + assert (G : forall l ds, (forall mo, In mo l -> In mo N) -> Forall2 (fun (mo : mono) d => mval x mo <= exp d) l ds -> Forall2 (fun mo d => dot (snd mo) w <= - ln (fst mo) + d) l ds).
        { clear Hl. induction l as [|a l IH]; intros ds Hin F; inversion F; subst; constructor.
          - rewrite (dot_agree (snd a) w x).
            + apply Lin; [apply Hin; left; reflexivity|assumption].
            + eapply Forall_impl; [exact (proj1 (N_In a (Hin a (or_introl eq_refl))))|]. intros ja Hja. apply W0. exact Hja.
          - apply IH; [intros mo Hmo; apply Hin; right; exact Hmo|assumption]. }
        exact (G N dl (fun mo H => H) Hl).
      + intros i Hi. rewrite (W3 i Hi), (WT i 1%nat Hi ltac:(lia)), (WT i 2%nat Hi ltac:(lia)). left. split; [lra|].
        unfold Rdiv. rewrite Rinv_1, Rmult_1_r. lra.
  Qed.

  Lemma lin_one i : In i lin -> exists mo, List.nth i ps [] = [mo].
  Proof.
    intros H. apply lin_In in H. destruct H as [H1 H2]. unfold k_of in H2. rewrite (nth_map (@length mono) ps i []) in H2 by lia.
    destruct (proper_In ps Hp (List.nth i ps []) (nth_In _ _ (proj2 H1))) as [Hn _].
    destruct (List.nth i ps []) as [|mo [|mo' t]]; [congruence|exists mo; reflexivity|simpl in H2; lia].
  Qed.
  Lemma N_length : length N = length lin.
  Proof.
    assert (G : forall l, (forall i, In i l -> exists mo, List.nth i ps [] = [mo]) -> length (concat (posys ps l)) = length l).
    { unfold posys. induction l as [|i l IH]; intros H; simpl; [reflexivity|]. destruct (H i (or_introl eq_refl)) as (mo & ->). simpl. f_equal.
      apply IH. intros j Hj. apply H. right. exact Hj. }
    apply G. exact lin_one.
  Qed.
  Lemma L_length : length L = length lses.
  Proof. unfold posys. apply map_length. Qed.

  Definition D (dz dl : list R) : list (nat * R) := combine (tl lses) dz ++ combine lin dl.
  Lemma lses_cons : lses = 0%nat :: tl lses.
  Proof. reflexivity. Qed.
  Lemma tl_lses_In i : In i (tl lses) <-> (0 < i < length ps)%nat /\ ~ In i lin.
  Proof.
    assert (A : In i lses <-> (i < length ps)%nat /\ ~ In i lin).
    { rewrite lses_filter, List.filter_In, in_seq. rewrite <- elem_of_list_In. case_bool_decide; simpl; split; intros [? ?]; split; auto; try lia; try discriminate; try tauto. }
    assert (N0 : ~ In 0%nat (tl lses)).
    { unfold msk_lse. simpl. intros C. apply in_map_iff in C. destruct C as (j & C & _). discriminate. }
    rewrite lses_cons in A. simpl in A. simpl. split.
    - intros H. destruct (proj1 A (or_intror H)) as [B1 B2]. split; [|exact B2]. split; [|exact B1]. destruct i; [contradiction|lia].
    - intros [H1 H2]. destruct (proj2 A) as [<-|B]; [split; [lia|exact H2]|lia|exact B].
  Qed.
  Lemma tl_lses_length (dz : list R) : length dz = (length L - 1)%nat -> length (tl lses) = length dz.
  Proof. rewrite L_length. unfold msk_lse. cbn [tl length]. lia. Qed.
  Lemma D_ok dz dl : length dz = (length L - 1)%nat -> length dl = length lin ->
    map fst (D dz dl) = tl lses ++ lin /\ List.NoDup (map fst (D dz dl)) /\ (forall i, In i (map fst (D dz dl)) <-> (0 < i < length ps)%nat).
  Proof.
    intros Ez El. rewrite L_length in Ez. assert (E : map fst (D dz dl) = tl lses ++ lin).
    { unfold D. rewrite map_app, !map_fst_combine by (try congruence; rewrite lses_cons in Ez; simpl in Ez; simpl; lia). reflexivity. }
    split; [exact E|]. rewrite E. split.
    - apply NoDup_app_list.
      + unfold msk_lse. simpl. apply FinFun.Injective_map_NoDup; [intros ? ? ?; congruence|]. apply List.NoDup_filter, seq_NoDup.
      + unfold msk_lin. apply FinFun.Injective_map_NoDup; [intros ? ? ?; congruence|]. apply List.NoDup_filter, seq_NoDup.
      + intros i Hi. apply tl_lses_In in Hi. tauto.
    - intros i. rewrite in_app_iff, tl_lses_In, lin_In. split; [tauto|]. intros H. destruct (decide (List.nth i (k_of ps) 0 <= 1)%nat); tauto.
  Qed.

  Lemma clip_id d : Forall (fun v => 0 <= v) d -> clip d = d.
  Proof. induction 1 as [|v d Hv _ IH]; simpl; [reflexivity|]. rewrite IH. destruct (Rlt_dec v 0); [lra|reflexivity]. Qed.

  Lemma msk_la_ok dz dl : length dz = (length L - 1)%nat -> length dl = length lin -> Forall (fun v => 0 <= v) dz -> Forall (fun v => 0 <= v) dl ->
    exists la, msk_la (k_of ps) dz dl = Ok la /\ length la = length (tl ps) /\
      forall i, (i < length (tl ps))%nat -> In (S i, List.nth i la 0) (D dz dl).
  Proof.
    intros Ez El Fz Fl. destruct (D_ok dz dl Ez El) as (E & ND & In_iff). pose proof ps_length as Lps.
    assert (Cov : forall i, (i < length (tl ps))%nat -> exists b, In (S i, b) (D dz dl)).
    { intros i Hi. assert (H : In (S i) (map fst (D dz dl))) by (apply In_iff; lia). apply in_map_iff in H. destruct H as ([j b] & Ej & H). simpl in Ej. subst j. eauto. }
    unfold msk_la. rewrite !clip_id by assumption. destruct lin as [|l0 lr] eqn:El0.
    - exists dz. split; [reflexivity|]. split.
      + assert (X : length (tl lses) = length (tl ps)).
        { pose proof (lses_all El0) as X. apply (f_equal length) in X. rewrite L_length, lses_cons in X. cbn [length] in X. lia. }
        rewrite <- X. symmetry. apply tl_lses_length. exact Ez.
      + intros i Hi. destruct (Cov i Hi) as (b & Hb). replace (List.nth i dz 0) with b; [exact Hb|].
        unfold D in Hb. rewrite El0 in Hb. apply in_app_or in Hb. destruct Hb as [Hb|[]].
        assert (Xs : tl lses = seq 1 (length (tl ps))).
        { pose proof lses_filter as Y. rewrite El0, Lps in Y. simpl in Y. rewrite Y. simpl. generalize (seq 1 (length (tl ps))). intros s. clear.
          induction s as [|a s IH]; simpl; [reflexivity|]. f_equal. exact IH. }
        rewrite Xs in Hb. clear -Hb.
        assert (G : forall n s dz, In (S i, b) (combine (seq (S s) n) dz) -> (s <= i)%nat /\ List.nth (i - s) dz 0 = b).
        { clear. induction n as [|n IH]; intros s [|d dz] H; simpl in H; try contradiction. destruct H as [H|H].
          - injection H as <- <-. rewrite Nat.sub_diag. simpl. split; [lia|reflexivity].
          - destruct (IH (S s) dz H) as [H1 H2]. split; [lia|]. replace (i - s)%nat with (S (i - S s)) by lia. exact H2. }
        destruct (G _ _ _ Hb) as [_ X]. rewrite Nat.sub_0_r in X. symmetry. exact X.
    - rewrite <- El0 in *.
      pose proof (tl_lses_length dz Ez) as X1.
      exists (tl (fold_left put (D dz dl) (repeat 0 (length ps)))). unfold scatter. rewrite decide_True by exact X1. simpl rbind.
      rewrite decide_True by (symmetry; exact El). simpl rbind. unfold D. rewrite fold_left_app.
      replace (length (k_of ps)) with (length ps) by (unfold k_of; rewrite map_length; reflexivity). split; [reflexivity|].
      pose proof (puts_length (D dz dl) (repeat 0 (length ps))) as PL. rewrite repeat_length in PL. unfold D in PL. rewrite fold_left_app in PL.
      split.
      + rewrite Lps in PL at 2. destruct (fold_left put (combine lin dl) _); [discriminate|]. simpl in *. lia.
      + intros i Hi. destruct (Cov i Hi) as (b & Hb).
        pose proof (puts_get (D dz dl) (repeat 0 (length ps)) (S i) b ND Hb) as G. rewrite repeat_length in G. specialize (G ltac:(lia)).
        unfold D in G. rewrite fold_left_app in G. destruct (fold_left put (combine lin dl) _) as [|a t]; simpl in *.
        * lia.
        * rewrite G. exact Hb.
  Qed.

  Lemma D_iff x dz dl : length dz = (length L - 1)%nat -> length dl = length lin ->
    (forall j, (j < length dz)%nat -> pval x (List.nth (S j) L []) <= exp (List.nth j dz 0)) /\ Forall2 (fun mo d => mval x mo <= exp d) N dl <->
    (forall i b, In (i, b) (D dz dl) -> pval x (List.nth i ps []) <= exp b).
  Proof.
    intros Ez El.
    assert (G1 : (forall j, (j < length dz)%nat -> pval x (List.nth (S j) L []) <= exp (List.nth j dz 0)) <->
                 (forall i b, In (i, b) (combine (tl lses) dz) -> pval x (List.nth i ps []) <= exp b)).
    { pose proof (tl_lses_length dz Ez) as El2.
      assert (EL : forall j, (j < length dz)%nat -> List.nth (S j) L [] = List.nth (List.nth j (tl lses) 0%nat) ps []).
      { intros j Hj. unfold posys. rewrite lses_cons. cbn [map List.nth tl]. apply nth_map with (f := fun i => List.nth i ps []). rewrite El2. exact Hj. }
      split.
      - intros H i b Hin. apply (In_nth _ _ (0%nat, 0)) in Hin. destruct Hin as (j & Hj & Ej). rewrite combine_length, El2 in Hj.
        rewrite combine_nth in Ej by exact El2. injection Ej as <- <-. specialize (H j ltac:(lia)). rewrite EL in H by lia. exact H.
      - intros H j Hj. rewrite EL by exact Hj. apply H. rewrite <- combine_nth by exact El2. apply nth_In. rewrite combine_length, El2. lia. }
    assert (G2 : Forall2 (fun mo d => mval x mo <= exp d) N dl <-> (forall i b, In (i, b) (combine lin dl) -> pval x (List.nth i ps []) <= exp b)).
    { assert (G : forall l ds, (forall i, In i l -> exists mo, List.nth i ps [] = [mo]) -> length l = length ds ->
        Forall2 (fun (mo : mono) d => mval x mo <= exp d) (concat (posys ps l)) ds <-> (forall i b, In (i, b) (combine l ds) -> pval x (List.nth i ps []) <= exp b)).
      { unfold posys. induction l as [|i l IH]; intros [|d ds] H E; try discriminate; simpl.
        - split; [intros _ ? ? []|constructor].
        - destruct (H i (or_introl eq_refl)) as (mo & Emo). rewrite Emo. simpl. specialize (IH ds (fun j Hj => H j (or_intror Hj)) ltac:(simpl in E; congruence)). split.
          + intros F j b [Ej|Hin].
            * injection Ej as <- <-. rewrite Emo, pval_one. inversion F; assumption.
            * inversion F; subst. apply IH; assumption.
          + intros F. constructor.
            * rewrite <- pval_one, <- Emo. apply F. left. reflexivity.
            * apply IH. intros j b Hin. apply F. right. exact Hin. }
      apply G; [exact lin_one|congruence]. }
    rewrite G1, G2. unfold D. split.
    - intros [H1 H2] i b Hin. apply in_app_or in Hin. destruct Hin; auto.
    - intros H. split; intros i b Hin; apply H, in_or_app; auto.
  Qed.

  Lemma moved_iff dz dl x v : length dz = (length L - 1)%nat -> length dl = length lin -> Forall (fun d => 0 <= d) dz -> Forall (fun d => 0 <= d) dl ->
    exists la, msk_la (k_of ps) dz dl = Ok la /\ length la = length (tl ps) /\
    ((exists w, conic_feasible (moved P dz dl) w /\ (forall j, (j < m)%nat -> w j = x j) /\ w (m_obj P) = v) <->
     gp_cost ps x <= exp v /\ Forall2 (fun p d => pval x p <= exp d) (tl ps) la).
  Proof.
    intros Ez El Fz Fl. destruct (msk_la_ok dz dl Ez El Fz Fl) as (la & E & Ll & G). exists la. split; [exact E|]. split; [exact Ll|].
    rewrite conic_iff by (try exact Ez; rewrite N_length; exact El). rewrite (D_iff x dz dl Ez El).
    destruct (D_ok dz dl Ez El) as (_ & ND & In_iff). pose proof ps_length as Lps.
    assert (C : pval x (List.nth 0 L []) = gp_cost ps x).
    { unfold gp_cost, posys. rewrite lses_cons. simpl. destruct ps; reflexivity. }
    rewrite C. apply and_iff_compat_l.
    assert (F2 : forall l la, length la = length l -> Forall2 (fun p d => pval x p <= exp d) l la <-> forall i, (i < length l)%nat -> pval x (List.nth i l []) <= exp (List.nth i la 0)).
    { clear. induction l as [|p l IH]; intros [|d la] E; try discriminate; simpl.
      - split; [intros _ i Hi; lia|constructor].
      - specialize (IH la ltac:(simpl in E; congruence)). split.
        + intros F [|i] Hi; inversion F; subst; simpl; [assumption|]. apply IH; [assumption|lia].
        + intros F. constructor; [exact (F 0%nat ltac:(lia))|]. apply IH. intros i Hi. exact (F (S i) ltac:(lia)). }
    rewrite (F2 (tl ps) la Ll).
    assert (T : forall i, List.nth (S i) ps [] = List.nth i (tl ps) []) by (intros i; destruct ps; [destruct i|]; reflexivity).
    split.
    - intros H i Hi. rewrite <- T. apply H. apply G. exact Hi.
    - intros H i b Hin. assert (Hi : (0 < i < length ps)%nat) by (apply In_iff; apply in_map_iff; exists (i, b); auto).
      destruct i as [|i]; [lia|]. specialize (G i ltac:(lia)). rewrite T.
      replace b with (List.nth i la 0); [apply H; lia|]. clear -ND G Hin. revert ND G Hin. generalize (D dz dl), (List.nth i la 0). clear. intros l a ND G H.
      induction l as [|[j c] l IH]; simpl in *; [tauto|]. inversion ND as [|? ? N1 N2]; subst.
      destruct G as [G|G], H as [H|H]; try congruence.
      + injection G as -> ->. exfalso. apply N1. apply in_map_iff. exists (S i, b). auto.
      + injection H as -> ->. exfalso. apply N1. apply in_map_iff. exists (S i, a). auto.
      + auto.
  Qed.

  Lemma moved_zero w : conic_feasible (moved P (repeat 0 (length L - 1)) (repeat 0 (length lin))) w <-> conic_feasible P w.
  Proof.
    rewrite moved_eq by (rewrite repeat_length; rewrite ?N_length; reflexivity). rewrite msk_problem_eq. unfold conic_feasible. cbn [m_vars m_rows m_cones].
    replace (map (fun d => Up (0 + d)) (repeat 0 (length L - 1))) with (repeat (Up 0) (length L - 1)).
    2:{ generalize (length L - 1)%nat. intros n. induction n as [|n IH]; simpl; [reflexivity|]. rewrite IH, Rplus_0_l. reflexivity. }
    replace (zip_with (fun (mo : mono) d => (snd mo, Up (- ln (fst mo) + d))) N (repeat 0 (length lin))) with lin_rows; [reflexivity|].
    unfold lin_rows. rewrite <- N_length. generalize N. clear. intros l. induction l as [|a l IH]; simpl; [reflexivity|]. rewrite IH, Rplus_0_r. reflexivity.
  Qed.
  Lemma zero_nonneg n : Forall (fun d => 0 <= d) (repeat 0 n).
  Proof. induction n; simpl; constructor; auto; lra. Qed.

  Lemma base_iff x v : (exists w, conic_feasible P w /\ (forall j, (j < m)%nat -> w j = x j) /\ w (m_obj P) = v) <-> gp_feasible ps x /\ gp_cost ps x <= exp v.
  Proof.
    destruct (moved_iff (repeat 0 (length L - 1)) (repeat 0 (length lin)) x v) as (la & E & Ll & H); try apply repeat_length; try apply zero_nonneg.
    assert (X : (exists w, conic_feasible P w /\ (forall j, (j < m)%nat -> w j = x j) /\ w (m_obj P) = v) <->
                (exists w, conic_feasible (moved P (repeat 0 (length L - 1)) (repeat 0 (length lin))) w /\ (forall j, (j < m)%nat -> w j = x j) /\ w (m_obj P) = v)).
    { split; intros (w & H1 & H2); exists w; (split; [apply moved_zero; exact H1|exact H2]). }
    rewrite X, H. clear X H.
    assert (Z : la = repeat 0 (length (tl ps))).
    { destruct (msk_la_ok (repeat 0 (length L - 1)) (repeat 0 (length lin))) as (la' & E' & Ll' & G); try apply repeat_length; try apply zero_nonneg.
      assert (la' = la) as -> by congruence. clear E E'. rewrite <- Ll. apply Forall_eq_repeat. apply List.Forall_forall. intros b Hb.
      apply (In_nth _ _ 0) in Hb. destruct Hb as (i & Hi & Eb). rewrite Ll in Hi. specialize (G i Hi). rewrite Eb in G. unfold D in G. apply in_app_or in G.
      destruct G as [G|G]; apply in_combine_r, repeat_spec in G; congruence. }
    rewrite Z. unfold gp_feasible. rewrite (and_comm (gp_cost ps x <= exp v)). apply and_iff_compat_r.
    generalize (tl ps). clear. induction l as [|p l IH]; simpl; split; intros F; constructor; inversion F; subst; rewrite ?exp_0 in *; auto; apply IH; auto.
  Qed.
End Msk.
