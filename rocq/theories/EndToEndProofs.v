(** Proofs for EndToEnd.v: the arrays that [gen] makes are those of a GP as SolversSpec.v lays them out, and its posynomials
    stand for the constraints as written. *)
From Verif Require Import Base HashVec Nomial NomialSem NomialProofs CanonProofs Sub SubSem SubProofs Mono Constraint ConstraintSem
  ConstraintProofs PropsConstraint GPGen GPGenProofs PropsGP Solvers SolversSpec SolversProofs EndToEnd EndToEndSpec.
Open Scope R_scope.

(** ** The arrays *)
Section Arrays.
Variable f : nat -> R * row.
Fixpoint cut (s : nat) (hs : list (bool * hmap R)) : list (list (R * row)) :=
  match hs with [] => [] | bh :: hs' => map f (seq s (length (snd bh))) :: cut (s + length (snd bh))%nat hs' end.
Lemma cut_concat hs : forall s, concat (cut s hs) = map f (seq s (length (terms hs))).
Proof.
  induction hs as [|[b h] hs IH]; intros s; [reflexivity|]. cbn [cut concat snd]. rewrite IH. unfold terms. cbn [flat_map snd].
  rewrite app_length, seq_app, map_app. reflexivity.
Qed.
Lemma cut_k hs : forall s, k_of (cut s hs) = map (fun bh => length (snd bh)) hs.
Proof. induction hs as [|[b h] hs IH]; intros s; [reflexivity|]. cbn. unfold k_of in IH. rewrite IH, map_length, seq_length. reflexivity. Qed.
Lemma cut_length hs : forall s, length (cut s hs) = length hs.
Proof. induction hs as [|bh hs IH]; intros s; [reflexivity|]. cbn. rewrite IH. reflexivity. Qed.
Lemma cut_p hs : forall s n, flat_map (fun ip => repeat (fst ip) (length (snd ip))) (combine (seq n (length hs)) (cut s hs))
  = flat_map (fun ph => repeat (fst ph) (length (snd (snd ph)))) (combine (seq n (length hs)) hs).
Proof.
  induction hs as [|[b h] hs IH]; intros s n; [reflexivity|]. cbn [cut length seq combine flat_map fst snd]. rewrite IH, map_length, seq_length. reflexivity.
Qed.
Lemma cut_lookup hs : forall s i b h, hs !! i = Some (b, h) -> cut s hs !! i = Some (map f (seq (s + length (terms (take i hs))) (length h))).
Proof.
  induction hs as [|[b0 h0] hs IH]; intros s [|i] b h E; try discriminate.
  - injection E as -> ->. cbn. rewrite Nat.add_0_r. reflexivity.
  - cbn in E. change (cut (s + length h0) hs !! i = Some (map f (seq (s + length (h0 ++ terms (take i hs))) (length h)))).
    rewrite (IH _ _ _ _ E), app_length, Nat.add_assoc. reflexivity.
Qed.
Lemma cut_place hs i : forall s, place (cut s hs) i = length (terms (take i hs)).
Proof.
  revert i. induction hs as [|[b h] hs IH]; intros [|i] s; try reflexivity.
  unfold place in *. cbn [cut]. unfold k_of in *. cbn [map firstn]. cbn [list_sum fold_right]. fold (list_sum (firstn i (map length (cut (s + length (snd (b, h))) hs)))).
  rewrite IH, map_length, seq_length. unfold terms. cbn [firstn flat_map snd]. rewrite app_length. reflexivity.
Qed.
End Arrays.

Definition term_of (g : gpdata R) (i : nat) : R * row := (List.nth i (g_cs g) 0, row_of g i).
Definition posys_of (ord : var_order R) (hs : list (bool * hmap R)) : list posy := cut (term_of (gen ord hs)) 0 hs.

Lemma dot_row g i x : dot (row_of g i) x = coo_dot (g_coo g) x i.
Proof.
  rewrite coo_dot_lsum. unfold row_of, coo_row, dot. induction (g_coo g) as [|t l IH]; [reflexivity|]. cbn [List.filter lsum].
  destruct (Nat.eqb (fst (fst t)) i) eqn:E; cbn [map fold_right fst snd]; rewrite IH; lra.
Qed.

Lemma in_tl {X} (l : list X) x : In x (tl l) <-> exists i, l !! S i = Some x.
Proof.
  destruct l as [|a l]; [split; [intros []|intros (i & E); discriminate]|]. cbn. rewrite <- elem_of_list_In. apply elem_of_list_lookup.
Qed.
Lemma hd_lookup {X} (l : list (list X)) p : l !! 0%nat = Some p -> hd [] l = p.
Proof. destruct l; [discriminate|]. intros [= ->]. reflexivity. Qed.

Section Gen.
Variable ord : var_order R.
Hypothesis Hord : any_order ord.
Variable hs : list (bool * hmap R).
Let g := gen ord hs.
Let ps := posys_of ord hs.
Lemma gen_cs : g_cs g = map snd (terms hs) /\ g_exps g = map fst (terms hs) /\ g_pidxs g = pidx_spec hs /\ g_k g = map (fun bh => length (snd bh)) hs.
Proof.
  pose proof (gen_loop_inv ord Hord hs (map (fun mh => length (snd mh)) hs)) as HI. unfold g. rewrite gen_eq. cbn [g_cs g_exps g_pidxs g_k].
  rewrite (gi_cs _ _ HI), (gi_exps _ _ HI), (gi_pidxs _ _ HI), gen_loop_k. auto.
Qed.
Lemma arrays : g_cs g = c_of ps /\ matrix_of g = A_of ps /\ g_k g = k_of ps /\ g_pidxs g = p_of ps.
Proof.
  destruct gen_cs as (E1 & E2 & E3 & E4). unfold ps, posys_of, c_of, A_of. rewrite cut_concat, cut_k, E4. split; [|split; [|split]].
  - rewrite map_map. unfold term_of. cbn [fst]. fold g.
    assert (L : length (terms hs) = length (g_cs g)) by (rewrite E1, map_length; reflexivity). rewrite L.
    generalize (g_cs g). intros l. induction l as [|a l IH]; [reflexivity|]. cbn [length seq map List.nth]. f_equal.
    rewrite <- seq_shift, map_map. cbn [List.nth]. exact IH.
  - rewrite map_map. unfold matrix_of. fold g. rewrite E1, map_length. reflexivity.
  - reflexivity.
  - rewrite E3. unfold p_of, pidx_spec, enumerate. rewrite cut_length. symmetry. apply cut_p.
Qed.
Lemma bounded : bounded_columns ps (columns g).
Proof.
  unfold bounded_columns. apply List.Forall_forall. intros p Hp. apply List.Forall_forall. intros mo Hm. apply List.Forall_forall. intros [j a] Hj.
  assert (Hin : In mo (concat ps)) by (apply in_concat; eauto). unfold ps, posys_of in Hin. rewrite cut_concat in Hin.
  apply in_map_iff in Hin as (i & <- & _). cbn [snd term_of] in Hj. unfold row_of in Hj. apply in_map_iff in Hj as ([[i' j'] d] & [= -> ->] & Hj).
  apply filter_In in Hj as [Hj _]. fold g in Hj. unfold columns, coo_shape. cbn [fst]. destruct (g_coo g) as [|t0 l] eqn:E; [destruct Hj|].
  cbn [snd]. apply le_n_S. rewrite <- E in *.
  pose proof (proj1 (list_max_le (map (fun t : nat * nat * R => snd (fst t)) (g_coo g)) _) (Nat.le_refl _)) as F.
  rewrite List.Forall_forall in F. apply F. apply in_map_iff. exists (i', j, a). auto.
Qed.
Lemma columns_pos : terms hs <> [] -> (0 < columns g)%nat.
Proof.
  intros Hn. unfold columns, coo_shape. destruct (g_coo g) as [|t l] eqn:E; [|cbn; lia].
  pose proof (rows_shape ord Hord hs) as Hr. fold g in Hr. rewrite E in Hr. cbn in Hr. destruct (terms hs); [congruence|cbn in Hr; lia].
Qed.
(** what posynomials are worth *)
Definition agrees (x : nat -> R) (env : point) : Prop := forall v j, varidx g v = Some j -> env v = exp (x j).
Lemma pval_eval i b h x env : hs !! i = Some (b, h) -> agrees x env -> exists p, ps !! i = Some p /\ pval x p = eval env h.
Proof.
  intros E Ha. eexists. split; [eapply cut_lookup; exact E|]. cbn [Nat.add].
  destruct (C26_rows_evaluate_posynomials ord hs Hord) as [_ H]. destruct (H i b h E) as [_ H']. rewrite <- (H' x env Ha). clear H H'.
  unfold pval, sum, mval, terms. generalize (seq (length (flat_map snd (take i hs))) (length h)). intros l. induction l as [|n l IH]; [reflexivity|].
  cbn [map fold_right lsum fst snd]. rewrite <- IH. unfold term_of at 1 2. cbn [fst snd]. rewrite dot_row. reflexivity.
Qed.
Lemma feasible_sat x env : agrees x env -> (gp_feasible ps x <-> sat env (map snd (tl hs))).
Proof.
  intros Ha. unfold gp_feasible, sat. rewrite List.Forall_forall. split.
  - intros H u Hu. apply in_map_iff in Hu as ([b h] & <- & Hin). apply in_tl in Hin as (i & Hi).
    destruct (pval_eval _ _ _ _ _ Hi Ha) as (p & Ep & Ev). cbn [snd]. rewrite <- Ev. apply H. apply in_tl. eauto.
  - intros H p Hp. apply in_tl in Hp as (i & Hi).
    assert (L : (S i < length hs)%nat) by (rewrite <- (cut_length (term_of g) hs 0); apply lookup_lt_Some in Hi; exact Hi).
    destruct (lookup_lt_is_Some_2 _ _ L) as ([b h] & E). destruct (pval_eval _ _ _ _ _ E Ha) as (p' & Ep & Ev).
    assert (p' = p) as -> by congruence. rewrite Ev. apply H. apply in_map_iff. exists (b, h). split; [reflexivity|]. apply in_tl. eauto.
Qed.
Lemma cost_eval x env b h : hs !! 0%nat = Some (b, h) -> agrees x env -> gp_cost ps x = eval env h.
Proof.
  intros E Ha. destruct (pval_eval _ _ _ _ _ E Ha) as (p & Ep & Ev). unfold gp_cost. rewrite (hd_lookup _ _ Ep). exact Ev.
Qed.
Lemma posys_proper : hs <> [] -> (forall b h, In (b, h) hs -> is_posy h) -> proper ps.
Proof.
  intros Hn H. split.
  { intros E. apply Hn. apply nil_length_inv. rewrite <- (cut_length (term_of g) hs 0). fold ps. unfold ps, posys_of in E. fold g in E. rewrite E. reflexivity. }
  apply List.Forall_forall. intros p Hp. apply elem_of_list_In, elem_of_list_lookup in Hp as (i & Hi).
  assert (L : (i < length hs)%nat) by (rewrite <- (cut_length (term_of g) hs 0); apply lookup_lt_Some in Hi; exact Hi).
  destruct (lookup_lt_is_Some_2 _ _ L) as ([b h] & E). pose proof (cut_lookup (term_of g) hs 0 _ _ _ E) as E'.
  fold g in E'. unfold ps, posys_of in Hi. fold g in Hi. rewrite E' in Hi. injection Hi as <-.
  destruct (H b h) as (Hc & Hpos & Hne); [apply elem_of_list_In, elem_of_list_lookup; eauto|]. split.
  - destruct h; [congruence|discriminate].
  - apply List.Forall_forall. intros mo Hm. apply in_map_iff in Hm as (n & <- & Hn'). apply in_seq in Hn'. cbn [fst term_of].
    assert (Hl : terms hs !! n = h !! (n - length (terms (take i hs)))%nat).
    { transitivity ((terms (take i hs) ++ h ++ terms (drop (S i) hs)) !! n); [rewrite <- (terms_slice hs i b h E); reflexivity|].
      rewrite lookup_app_r by lia. apply lookup_app_l. unfold hmap in *. lia. }
    destruct (lookup_lt_is_Some_2 h (n - length (terms (take i hs)))%nat) as ([e c] & Ec); [unfold hmap in *; lia|].
    destruct gen_cs as (Ecs & _). rewrite Ecs. unfold hmap in *.
    assert (En : map snd (terms hs) !! n = Some c) by (rewrite list_lookup_fmap, Hl, Ec; reflexivity).
    rewrite (nth_lookup_Some _ _ 0 c En). apply (Hpos e c). apply elem_of_list_In, elem_of_list_lookup. eauto.
Qed.
Lemma row_mono i b e c x env : hs !! i = Some (b, [(e, c)]) -> agrees x env ->
  ps !! i = Some [term_of g (length (terms (take i hs)))] /\ fst (term_of g (length (terms (take i hs)))) = c /\
  exp (dot (snd (term_of g (length (terms (take i hs))))) x) = mono_val env e.
Proof.
  intros E Ha. split; [apply (cut_lookup (term_of g) hs 0 _ _ _ E)|].
  assert (Hl : terms hs !! length (terms (take i hs)) = Some (e, c)).
  { transitivity ((terms (take i hs) ++ [(e, c)] ++ terms (drop (S i) hs)) !! length (terms (take i hs))); [rewrite <- (terms_slice hs i b _ E); reflexivity|].
    rewrite lookup_app_r by lia. rewrite Nat.sub_diag. reflexivity. }
  destruct gen_cs as (Ecs & Eex & _). unfold hmap in *. split.
  - cbn [fst term_of]. rewrite Ecs. apply nth_lookup_Some. rewrite list_lookup_fmap, Hl. reflexivity.
  - cbn [snd term_of]. rewrite dot_row. apply gen_row; auto. fold g. rewrite Eex, list_lookup_fmap, Hl. reflexivity.
Qed.
End Gen.

(** ** Equalities come in pairs *)
Definition recip (h1 h2 : hmap R) : Prop := length h1 = 1%nat /\ length h2 = 1%nat /\ forall env, positive_point env -> eval env h1 * eval env h2 = 1.
Inductive pairs : nat -> list (bool * hmap R) -> list nat -> list nat -> Prop :=
| p_nil s : pairs s [] [] []
| p_plain s (h : hmap R) hs f a : h <> [] -> pairs (s + length h) hs f a -> pairs s ((false, h) :: hs) f a
| p_pair s h1 h2 hs f a : recip h1 h2 -> pairs (s + 2) hs f a -> pairs s ((true, h1) :: (true, h2) :: hs) (s :: f) (s :: S s :: a).
Lemma pairs_app hs1 : forall s f1 a1 hs2, pairs s hs1 f1 a1 -> (exists f2 a2, pairs (s + length (terms hs1)) hs2 f2 a2) ->
  exists f a, pairs s (hs1 ++ hs2) f a.
Proof.
  intros s f1 a1 hs2 H. revert hs2. induction H as [s|s h hs f a Hn H IH|s h1 h2 hs f a Hr H IH]; intros hs2 (f2 & a2 & H2).
  - cbn in H2. rewrite Nat.add_0_r in H2. eauto.
  - destruct (IH hs2) as (f' & a' & H').
    { exists f2, a2. unfold terms in *. cbn [flat_map snd] in H2. rewrite app_length in H2. rewrite <- Nat.add_assoc. exact H2. }
    exists f', a'. constructor; assumption.
  - destruct Hr as (L1 & L2 & Hr). destruct (IH hs2) as (f' & a' & H').
    { exists f2, a2. unfold terms in *. cbn [flat_map snd] in H2. rewrite !app_length, L1, L2 in H2. rewrite <- Nat.add_assoc. exact H2. }
    eexists _, _. cbn. constructor; [repeat split; assumption|exact H'].
Qed.
Lemma pairs_blocks s hs f a : pairs s hs f a -> forall start f0 a0, blocks start f0 a0 -> s = length (terms start) -> blocks (start ++ hs) (f0 ++ f) (a0 ++ a).
Proof.
  intros H. induction H as [s|s h hs f a Hn H IH|s h1 h2 hs f a (L1 & L2 & Hr) H IH]; intros start f0 a0 HB Es.
  - rewrite !app_nil_r. exact HB.
  - change (start ++ (false, h) :: hs) with (start ++ [(false, h)] ++ hs). rewrite app_assoc. apply IH; [constructor; exact HB|].
    rewrite terms_snoc, app_length, Es. reflexivity.
  - change (start ++ (true, h1) :: (true, h2) :: hs) with (start ++ [(true, h1); (true, h2)] ++ hs). rewrite app_assoc.
    change (s :: f) with ([s] ++ f). change (s :: S s :: a) with ([s; S s] ++ a). rewrite !(app_assoc _ _ f), !(app_assoc _ _ a). apply IH.
    + rewrite Es. constructor; assumption.
    + rewrite terms_app, app_length. unfold terms at 2. cbn [flat_map snd]. rewrite !app_length, L1, L2, Es. reflexivity.
Qed.
Lemma pairs_ge s hs f a : pairs s hs f a -> (forall i, In i f -> (s <= i)%nat) /\ (forall i, In i a -> (s <= i)%nat).
Proof.
  intros H. induction H as [s|s h hs f a Hn H IH|s h1 h2 hs f a Hr H IH]; [split; intros i []| |].
  - destruct IH as [A B]. split; intros i Hi; [specialize (A i Hi)|specialize (B i Hi)]; lia.
  - destruct IH as [A B]. split; intros i Hi; [destruct Hi as [E|Hi]; [lia|specialize (A i Hi); lia]|destruct Hi as [E|[E|Hi]]; [lia|lia|specialize (B i Hi); lia]].
Qed.
Lemma pairs_places s hs f a : pairs s hs f a -> forall i, (i < length hs)%nat ->
  let pl j := (s + length (terms (take j hs)))%nat in
  (In (pl i) a -> In (pl i) f -> exists h1 h2, hs !! i = Some (true, h1) /\ hs !! (i + 1)%nat = Some (true, h2) /\ recip h1 h2 /\
     In (pl (i + 1)%nat) a /\ ~ In (pl (i + 1)%nat) f) /\
  (In (pl i) a -> ~ In (pl i) f -> exists i', i = (i' + 1)%nat /\ In (pl i') a /\ In (pl i') f).
Proof.
  intros H. induction H as [s|s h hs f a Hn H IH|s h1 h2 hs f a Hr H IH]; intros i Hi pl.
  - cbn in Hi. lia.
  - destruct (pairs_ge _ _ _ _ H) as [Gf Ga]. assert (Lh : (0 < length h)%nat) by (destruct h; [congruence|cbn; lia]).
    assert (Epl : forall j, pl (S j) = (s + length h + length (terms (take j hs)))%nat).
    { intros j. unfold pl, terms. cbn [firstn flat_map snd]. rewrite app_length. unfold hmap in *. lia. }
    destruct i as [|i].
    + assert (E0 : pl 0%nat = s) by (unfold pl; cbn; lia). split; intros Ha; rewrite E0 in Ha; specialize (Ga _ Ha); unfold hmap in *; lia.
    + cbn in Hi. specialize (IH i ltac:(lia)). cbv zeta in IH. destruct IH as [I1 I2]. cbn [Nat.add]. split.
      * rewrite !Epl. intros Ha Hf. destruct (I1 Ha Hf) as (x1 & x2 & A & B & C & D & E). exists x1, x2. exact (conj A (conj B (conj C (conj D E)))).
      * rewrite Epl. intros Ha Hf. destruct (I2 Ha Hf) as (i' & -> & A & B). exists (S i'). split; [lia|]. rewrite Epl. auto.
  - destruct (pairs_ge _ _ _ _ H) as [Gf Ga]. pose proof Hr as (L1 & L2 & _).
    assert (Epl : forall j, pl (S (S j)) = (s + 2 + length (terms (take j hs)))%nat).
    { intros j. unfold pl, terms. cbn [firstn flat_map snd]. rewrite !app_length. unfold hmap in *. lia. }
    assert (E0 : pl 0%nat = s) by (unfold pl; cbn; lia).
    assert (E1 : pl 1%nat = S s) by (unfold pl, terms; cbn [firstn flat_map snd]; rewrite !app_length; unfold hmap in *; cbn; lia).
    destruct i as [|[|i]]; cbn [Nat.add].
    + rewrite E0, E1. split.
      * intros _ _. exists h1, h2. split; [reflexivity|]. split; [reflexivity|]. split; [exact Hr|]. split; [right; left; reflexivity|].
        intros [E|Hf]; [lia|specialize (Gf _ Hf); lia].
      * intros _ Hf. destruct Hf. left. reflexivity.
    + rewrite E1. split.
      * intros _ [E|Hf]; [lia|specialize (Gf _ Hf); lia].
      * intros _ _. exists 0%nat. rewrite E0. split; [reflexivity|]. split; left; reflexivity.
    + cbn in Hi. specialize (IH i ltac:(lia)). cbv zeta in IH. destruct IH as [I1 I2].
      assert (Ia : forall j, In (pl (S (S j))) (s :: S s :: a) <-> In (s + 2 + length (terms (take j hs)))%nat a).
      { intros j. rewrite Epl. cbn [In]. split; [intros [E|[E|Hin]]; [lia|lia|exact Hin]|auto]. }
      assert (If : forall j, In (pl (S (S j))) (s :: f) <-> In (s + 2 + length (terms (take j hs)))%nat f).
      { intros j. rewrite Epl. cbn [In]. split; [intros [E|Hin]; [lia|exact Hin]|auto]. }
      split.
      * intros Ha Hf. apply Ia in Ha. apply If in Hf. destruct (I1 Ha Hf) as (x1 & x2 & A & B & C & D & E). exists x1, x2.
        split; [exact A|]. split; [exact B|]. split; [exact C|]. split; [apply Ia; exact D|]. intros Hx. apply E, If. exact Hx.
      * intros Ha Hf. apply Ia in Ha. destruct (I2 Ha (fun X => Hf (proj2 (If i) X))) as (i' & -> & A & B).
        exists (S (S i')). split; [lia|]. split; [apply Ia; exact A|apply If; exact B].
Qed.

Section Meq.
Variable ord : var_order R.
Hypothesis Hord : any_order ord.
Lemma meq_ok h0 hs f a : pairs 0 ((false, h0) :: hs) f a ->
  let g := gen ord ((false, h0) :: hs) in meq_pairs (posys_of ord ((false, h0) :: hs)) (g_all g) (g_first g).
Proof.
  intros H g. set (hs' := (false, h0) :: hs) in *.
  assert (Efa : g_first g = f /\ g_all g = a).
  { unfold g. rewrite gen_eq. cbn [g_first g_all]. apply gen_blocks; [exact Hord|].
    apply (pairs_blocks _ _ _ _ H [] [] []); [constructor|reflexivity]. }
  destruct Efa as [-> ->]. pose proof (pairs_places _ _ _ _ H) as HP. cbv zeta in HP. cbn [Nat.add] in HP.
  unfold meq_pairs, posys_of. fold g. split; intros i Hi Ha Hf; rewrite cut_length in Hi; rewrite cut_place in *; rewrite elem_of_list_In in *.
  - destruct (HP i Hi) as [P1 _]. destruct (P1 Ha Hf) as (h1 & h2 & E1 & E2 & (L1 & L2 & Hr) & Ha' & Hf').
    destruct h1 as [|[e1 c1] [|]]; try (cbn in L1; lia). destruct h2 as [|[e2 c2] [|]]; try (cbn in L2; lia).
    set (n1 := length (terms (take i hs'))). set (n2 := length (terms (take (i + 1) hs'))).
    exists (term_of g n1), (term_of g n2). split; [destruct i; [discriminate|lia]|].
    (* any x is a point's logarithms *)
    set (env := fun x : nat -> R => (fun v => match varidx g v with Some j => exp (x j) | None => 1 end) : point).
    assert (Ha2 : forall x, agrees ord hs' x (env x)) by (intros x v j E; unfold env; fold g in E; rewrite E; reflexivity).
    assert (Hpos : forall x, positive_point (env x)) by (intros x v; unfold env; destruct (varidx g v); [apply exp_pos|lra]).
    pose proof (fun x => row_mono ord Hord hs' i true e1 c1 x (env x) E1 (Ha2 x)) as R1.
    pose proof (fun x => row_mono ord Hord hs' (i + 1) true e2 c2 x (env x) E2 (Ha2 x)) as R2.
    cbv zeta in R1, R2. fold g n1 in R1. fold g n2 in R2.
    destruct (R1 (fun _ => 0)) as (A1 & B1 & _). destruct (R2 (fun _ => 0)) as (A2 & B2 & _).
    split; [exact A1|]. split; [exact A2|]. split.
    2:{ rewrite ?elem_of_list_In. split; [exact Ha'|rewrite ?elem_of_list_In; exact Hf']. }
    assert (Hc : c1 * c2 = 1).
    { specialize (Hr (fun _ => 1) (fun _ => Rlt_0_1)). cbn in Hr. rewrite !mono_val_ones in Hr. lra. }
    assert (N1 : c1 <> 0) by (intros ->; lra).
    split.
    + rewrite B1, B2. apply (Rmult_eq_reg_l c1); [|exact N1]. rewrite Hc, Rinv_r by exact N1. reflexivity.
    + intros x. destruct (R1 x) as (_ & _ & C1). destruct (R2 x) as (_ & _ & C2). specialize (Hr (env x) (Hpos x)). cbn in Hr. rewrite !Rplus_0_r in Hr.
      rewrite <- C1, <- C2 in Hr. set (d1 := dot _ x) in *. set (d2 := dot (snd (term_of g n2)) x) in *.
      assert (E : exp (d1 + d2) = exp 0).
      { rewrite exp_plus, exp_0. replace (c1 * exp d1 * (c2 * exp d2)) with (c1 * c2 * (exp d1 * exp d2)) in Hr by ring. rewrite Hc in Hr. lra. }
      apply exp_inv in E. lra.
  - destruct (HP i Hi) as [_ P2]. destruct (P2 Ha Hf) as (i' & -> & Ha' & Hf'). exists i'. split; [reflexivity|]. rewrite cut_place, !elem_of_list_In. auto.
Qed.
End Meq.

(** ** Constraints as written *)
Section Chain.
Variable inf : R.
Variable pick : hmap R -> schedule.
Variable fixed : gmap nat R.
Hypothesis Hs : subs_ok fixed pick.

Lemma override_at q : (forall k v, fixed !! k = Some v -> q k = v) -> forall h, eval (override q fixed) h = eval q h.
Proof.
  intros Hq h. apply eval_agree. intros k _. unfold override. destruct (fixed !! k) as [v|] eqn:E; [symmetry; apply Hq; exact E|reflexivity].
Qed.
Lemma override_pos q : positive_point q -> positive_point (override q fixed).
Proof. intros Hq k. unfold override. destruct (fixed !! k) as [v|] eqn:E; [apply (proj1 Hs k v E)|apply Hq]. Qed.
Lemma override_shows q k v : fixed !! k = Some v -> override q fixed k = v.
Proof. intros E. unfold override. rewrite E. reflexivity. Qed.

Lemma one_out st (u : hmap R) st' out : is_mono u -> as_hmapslt1 inf pick fixed st [u] = Ok (st', out) ->
  out = [] \/ exists h, out = [h] /\ length h = 1%nat /\ forall env, positive_point env -> eval env h = eval (override env fixed) u.
Proof.
  intros (e & c & -> & He & Hc) E.
  assert (Hcan : canonical [(e, c)]).
  { split; [apply NoDup_singleton|]. intros e' c' [[= <- <-]|[]]. split; [exact He|lra]. }
  assert (Hpos : all_positive [(e, c)]) by (intros e' c' [[= <- <-]|[]]; exact Hc).
  cbn [as_hmapslt1] in E.
  destruct (sub_posy inf [(e, c)] fixed (pick [(e, c)]) Hcan Hpos ltac:(discriminate) (proj1 Hs) (proj2 Hs _)) as (sst & Es & Hcn & Hp & Hne & _ & Hev).
  rewrite Es in E. cbn [rbind] in E.
  pose proof (nm_sub_length inf fixed [(e, c)] _ sst Es ltac:(discriminate)) as Hl. cbn in Hl.
  assert (L : length (s_cp sst) = 1%nat) by lia.
  destruct (simplify (s_cp sst)) as [[h'|]|] eqn:Esi; cbn [rbind] in E; [| |discriminate].
  - destruct (any_nonpositive h'); [discriminate|]. cbn [as_hmapslt1 rbind fst snd] in E. injection E as _ <-. right.
    destruct (simplify_some (fun _ => 1) _ _ (proj1 Hcn) Esi) as [[_ ->]|(c' & _ & _ & _ & H1 & _)]; [|lia].
    exists (s_cp sst). auto.
  - cbn [as_hmapslt1] in E. injection E as _ <-. left. reflexivity.
Qed.
Lemma meq_pair st (l r : hmap R) us st' out : is_mono l -> is_mono r -> meq_unsubbed false l r = Ok us ->
  as_hmapslt1 inf pick fixed st us = Ok (st', out) -> forall s, exists f a, pairs s (map (pair true) out) f a.
Proof.
  intros Hl Hr Em Eo s. pose proof (C20_monomial_equality inf pick fixed st false l r Hs Hl Hr) as C. cbv zeta in C. rewrite Em, Eo in C.
  destruct C as (_ & _ & [[L2 _]|[E0 _]]); [|rewrite E0; eexists _, _; constructor].
  destruct Hl as (el & cl & El & Hel & Hcl). destruct Hr as (er & cr & Er & Her & Hcr). subst l r.
  unfold meq_unsubbed in Em. rewrite !gen_mono in Em by assumption.
  destruct (decide (el = er)) as [Ee|Ne].
  { subst er. destruct (decide (el = el)); [|congruence]. destruct (Rle_dec (cl / cr) (1 + tolerance)); cbn in Em; [|discriminate].
    destruct (Rle_dec (cr / cl) (1 + tolerance)); cbn in Em; [|discriminate]. injection Em as <-. cbn in Eo. injection Eo as _ <-. cbn in L2. lia. }
  destruct (decide (er = el)); [congruence|]. cbn in Em. injection Em as <-.
  assert (M1 : is_mono [(exp_sub el er, cl / cr)]) by (eexists _, _; split; [reflexivity|]; split; [apply exp_canon_sub; assumption|apply Rdiv_lt_0_compat; assumption]).
  assert (M2 : is_mono [(exp_sub er el, cr / cl)]) by (eexists _, _; split; [reflexivity|]; split; [apply exp_canon_sub; assumption|apply Rdiv_lt_0_compat; assumption]).
  rewrite as_hmapslt1_cons in Eo.
  destruct (as_hmapslt1 inf pick fixed st _) as [[st1 l1]|] eqn:E1; [|discriminate].
  destruct (as_hmapslt1 inf pick fixed st1 _) as [[st2 l2]|] eqn:E2; [|discriminate].
  injection Eo as _ <-.
  destruct (one_out _ _ _ _ M1 E1) as [-> |(h1 & -> & K1 & V1)], (one_out _ _ _ _ M2 E2) as [-> |(h2 & -> & K2 & V2)]; try (cbn in L2; lia).
  cbn [map app]. eexists _, _. constructor; [|constructor]. split; [exact K1|]. split; [exact K2|]. intros env He. rewrite (V1 env He), (V2 env He).
  pose proof (eval_divterm (override env fixed) er cr [(el, cl)] ltac:(lra)) as D1. 
  pose proof (eval_divterm (override env fixed) el cl [(er, cr)] ltac:(lra)) as D2. etransitivity; [apply f_equal2; [exact D1|exact D2]|].
  cbn [eval]. pose proof (mono_val_pos (override env fixed) el). pose proof (mono_val_pos (override env fixed) er). field. repeat split; lra.
Qed.

Lemma plain_pairs out : (forall v, In v out -> is_posy v) -> forall s, exists f a, pairs s (map (pair false) out) f a.
Proof.
  induction out as [|v out IH]; intros H s; [eexists _, _; constructor|]. destruct (IH (fun x Hx => H x (or_intror Hx)) (s + length v)%nat) as (f & a & HP).
  exists f, a. cbn. constructor; [apply (H v); left; reflexivity|exact HP].
Qed.

Definition near (env : point) (w : written) : Prop := holds_at (override env fixed) w \/ constant_ratio fixed w.
Definition stands (w : list written) (hs : list (bool * hmap R)) : Prop :=
  (forall b v, In (b, v) hs -> is_posy v /\ forall k, in_vks v k = true -> fixed !! k = None) /\
  (forall env, positive_point env -> Forall (holds_at (override env fixed)) w -> sat env (map snd hs)) /\
  (forall env, positive_point env -> sat env (map snd hs) -> Forall (near env) w) /\
  forall s, exists f a, pairs s hs f a.
Definition never (ws : list written) : Prop := forall env, positive_point env -> ~ Forall (holds_at (override env fixed)) ws.

Lemma map_snd_pair (b : bool) (out : list (hmap R)) : map snd (map (pair b) out) = out.
Proof. rewrite map_map. cbn. apply map_id. Qed.
Lemma one_stands w : geometric w ->
  match make w with
  | Err _ => never [w]
  | Ok c => match constr_hmaps inf pick false fixed c with Err _ => never [w] | Ok hs => stands [w] hs end
  end.
Proof.
  destruct w as [l op r|l r]; intros Hg; unfold make.
  - destruct Hg as (Ho & Hl & Hg & Hc).
    pose proof (C18_posynomial_inequality_partial inf pick fixed (CS None None) l r op Hs Ho Hl Hg Hc) as C. cbv zeta in C.
    destruct (posy_ineq false l op r) as [us|e]; cbn [rmap].
    2:{ intros env He F. inversion F as [|? ? F1 _]; subst. apply (C (override env fixed)). exact F1. }
    unfold constr_hmaps. destruct (as_hmapslt1 inf pick fixed (CS None None) us) as [[st out]|e]; cbn [rmap].
    2:{ intros env He F. inversion F as [|? ? F1 _]; subst. apply (C env He). exact F1. }
    destruct C as (W & I1 & I2). cbn [snd]. split; [|split; [|split]].
    + intros b v Hin. apply in_map_iff in Hin as (v' & [= <- <-] & Hin). apply (W v' Hin).
    + intros env He F. rewrite map_snd_pair. inversion F as [|? ? F1 _]; subst. apply (I1 env He). exact F1.
    + intros env He F. rewrite map_snd_pair in F. constructor; [|constructor]. destruct I2 as [I2|(-> & c & I2)]; [left; apply (I2 env He F)|].
      right. exists c. split; [apply (I2 _ He)|]. intros q Hq Hf. destruct (I2 q Hq) as [E _]. rewrite !(override_at q Hf) in E. exact E.
    + apply plain_pairs. intros v Hv. apply (W v Hv).
  - destruct Hg as (Hl & Hr).
    pose proof (C20_monomial_equality inf pick fixed (CS None None) false l r Hs Hl Hr) as C. cbv zeta in C.
    destruct (meq_unsubbed false l r) as [us|e] eqn:Em; cbn [rmap].
    2:{ intros env He F. inversion F as [|? ? F1 _]; subst. apply (C (override env fixed)). exact F1. }
    unfold constr_hmaps. destruct (as_hmapslt1 inf pick fixed (CS None None) us) as [[st out]|e] eqn:Eo; cbn [rmap].
    2:{ intros env He F. inversion F as [|? ? F1 _]; subst. apply (C env He). exact F1. }
    destruct C as (W & I1 & I2). cbn [snd]. split; [|split; [|split]].
    + intros b v Hin. apply in_map_iff in Hin as (v' & [= <- <-] & Hin). apply (W v' Hin).
    + intros env He F. rewrite map_snd_pair. inversion F as [|? ? F1 _]; subst. apply (I1 env He). exact F1.
    + intros env He F. rewrite map_snd_pair in F. constructor; [|constructor]. destruct I2 as [[_ I2]|(-> & c & Hc1 & Hc2 & I2)]; [left; apply (I2 env He F)|].
      right. exists c. split; [exact Hc1|]. split; [exact Hc2|]. intros q Hq Hf. pose proof (I2 q Hq) as E. rewrite !(override_at q Hf) in E. exact E.
    + apply (meq_pair _ _ _ _ _ _ Hl Hr Em Eo).
Qed.

Lemma stands_app w ws a b : stands [w] a -> stands ws b -> stands (w :: ws) (a ++ b).
Proof.
  intros (A1 & A2 & A3 & A4) (B1 & B2 & B3 & B4). split; [|split; [|split]].
  - intros f v Hin. apply in_app_or in Hin as [Hin|Hin]; eauto.
  - intros env He F. inversion F as [|? ? F1 F2]; subst. intros u Hu. rewrite map_app in Hu. apply in_app_or in Hu as [Hu|Hu].
    + apply (A2 env He); auto.
    + apply (B2 env He); auto.
  - intros env He F. rewrite map_app in F.
    assert (Fa : Forall (near env) [w]) by (apply A3; [exact He|]; intros u Hu; apply F, in_or_app; auto).
    inversion Fa as [|? ? F1 _]; subst. constructor; [exact F1|]. apply B3; [exact He|]. intros u Hu. apply F, in_or_app. auto.
  - intros s. destruct (A4 s) as (f1 & a1 & P1). eapply pairs_app; [exact P1|]. apply B4.
Qed.
Lemma chain_stands ws : Forall geometric ws ->
  match make_all ws with
  | Err _ => never ws
  | Ok cs => match chain_hmaps inf pick false fixed cs with Err _ => never ws | Ok hs => stands ws hs end
  end.
Proof.
  induction ws as [|w ws IH]; intros F.
  { cbn. split; [intros b v []|]. split; [intros env _ _ u []|]. split; [intros; constructor|]. intros s. eexists _, _. constructor. }
  inversion F as [|? ? Fw Fs]; subst. specialize (IH Fs). pose proof (one_stands w Fw) as Hw.
  assert (N1 : never [w] -> never (w :: ws)).
  { intros N env He G. inversion G as [|? ? G1 _]; subst. apply (N env He). constructor; [exact G1|constructor]. }
  assert (N2 : never ws -> never (w :: ws)).
  { intros N env He G. inversion G as [|? ? _ G2]; subst. apply (N env He). exact G2. }
  cbn [make_all]. destruct (make w) as [c|e]; cbn [rbind]; [|apply N1; exact Hw].
  destruct (make_all ws) as [cs|e]; cbn [rbind]; [|apply N2; exact IH]. cbn [chain_hmaps].
  destruct (constr_hmaps inf pick false fixed c) as [a|e]; cbn [rbind]; [|apply N1; exact Hw].
  destruct (chain_hmaps inf pick false fixed cs) as [b|e]; cbn [rbind]; [|apply N2; exact IH]. apply stands_app; assumption.
Qed.
End Chain.
