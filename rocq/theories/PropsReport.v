(** C62-C65: printing, listing, comparing and saving solutions. *)
From Verif Require Import Base Report ReportSpec ReportProofs.
From Coq Require Import Permutation.
Open Scope nat_scope.

(** ** C62: printing does not change a solution *)

(** Whatever a user prints, the sensitivities stay what they were. *)
Definition C62_for {T} `{Num T} (ok : table T -> Prop) : Prop :=
  forall lineage included excluded arrange calls (sens : table T), NoDup (map fst sens) -> ok sens ->
  fst (prints lineage included excluded arrange calls sens) = sens.
(** Printing again prints the same. *)
Definition C62_again_for {T} `{Num T} (ok : table T -> Prop) : Prop :=
  forall lineage included excluded arrange showvars tables (sens : table T), NoDup (map fst sens) -> ok sens ->
  let '(sens', out) := print lineage included excluded arrange showvars tables sens in
  snd (print lineage included excluded arrange showvars tables sens') = out.

Theorem C62_unchanged_partial : C62_for unmixed.
Proof. intros lin inc exc arr calls sens Hn Hu. apply prints_same; auto. Qed.
Print Assumptions C62_unchanged_partial.

Theorem C62_again_partial : C62_again_for unmixed.
Proof.
  intros lin inc exc arr sv ts sens Hn Hu. pose proof (print_same lin inc exc arr sv ts sens Hn Hu) as H1.
  destruct (print lin inc exc arr sv ts sens) as [s' out] eqn:E. simpl in H1. subst s'. rewrite E. auto.
Qed.
Print Assumptions C62_again_partial.

(** Without that condition: scalars and elements over 0.001 stay, and an element that does not stay becomes nan. *)
Theorem C62_only_small_elements : forall lineage included excluded arrange calls (sens : table R), NoDup (map fst sens) ->
  Forall2 (fun kv kv' => fst kv' = fst kv /\ value_kept (snd kv) (snd kv')) sens (fst (prints lineage included excluded arrange calls sens)).
Proof. intros lin inc exc arr calls sens Hn. apply prints_kept. auto. Qed.
Print Assumptions C62_only_small_elements.

(** Seven constants, one of them a vector with a sensitivity that matters and one that does not. [summary()] turns the latter into nan, *)
Definition report_senss : table Q := map (fun k => (k, One (Some (1 # 2)%Q))) (seq 1 6) ++ [(7, Many [Some 1%Q; Some (1 # 2000)%Q])].
Definition report_summary : list (asked Q) := summary_tables (seq 1 7) [] 5.

Theorem C62_unchanged_refuted : ~ C62_for (T := Q) (fun _ => True).
Proof.
  intros Hf. specialize (Hf (fun _ => 0) [] [] (fun l => l) [([], report_summary)] report_senss).
  assert (E : fst (prints (fun _ => 0) [] [] (fun l => l) [([], report_summary)] report_senss)
    = map (fun k => (k, One (Some (1 # 2)%Q))) (seq 1 6) ++ [(7, Many [Some 1%Q; None])]) by (vm_compute; reflexivity).
  rewrite E in Hf. assert (Hn : NoDup (map fst report_senss)) by (apply (bool_decide_unpack _); vm_compute; exact I).
  specialize (Hf Hn I). apply (f_equal (fun l => List.last l (0, One None))) in Hf. vm_compute in Hf. discriminate Hf.
Qed.
Print Assumptions C62_unchanged_refuted.

(** and the next [summary()] leaves the vector out, which was its first row before. *)
Theorem C62_again_refuted : ~ C62_again_for (T := Q) (fun _ => True).
Proof.
  intros Hf. specialize (Hf (fun _ => 0) [] [] (fun l => l) [] report_summary report_senss).
  assert (Hn : NoDup (map fst report_senss)) by (apply (bool_decide_unpack _); vm_compute; exact I).
  specialize (Hf Hn I).
  assert (E : print (fun _ => 0) [] [] (fun l => l) [] report_summary report_senss
    = (map (fun k => (k, One (Some (1 # 2)%Q))) (seq 1 6) ++ [(7, Many [Some 1%Q; None])],
       [map (fun k => (k, One (Some (1 # 2)%Q))) (seq 3 4) ++ [(7, Many [Some 1%Q; None])]])) by (vm_compute; reflexivity).
  rewrite E in Hf.
  apply (f_equal (fun l => length (List.filter (fun kv => fst kv =? 7) (concat l)))) in Hf. vm_compute in Hf. discriminate Hf.
Qed.
Print Assumptions C62_again_refuted.

(** Non-vacuity: scalars, and a vector with sensitivities that all matter. *)
Example C62_nonvacuous : unmixed [(1, One (Some (1/2000)%R)); (2, Many [Some 1%R; Some 2%R])] /\
  NoDup (map fst [(1, One (Some (1/2000)%R)); (2, Many [Some 1%R; Some 2%R])]).
Proof.
  split; [|apply (bool_decide_unpack _); vm_compute; exact I].
  intros k cs x y [E|[E|[]]] Hx Hy Hs; [discriminate E|]. injection E as <- <-. unfold small in *. exfalso.
  destruct Hx as [Hx|[Hx|[]]]; injection Hx as <-; rewrite Rabs_right in Hs by lra; lra.
Qed.

(** ** C63: the tables of sensitivities show what they say *)

(** The table of top sensitivities, for values and numbers of rows that meet the conditions. *)
Definition C63_for (value_ok : value R -> Prop) (nvars_ok : Z -> Prop) : Prop :=
  forall (sens : table R) showvars nvars, NoDup (map fst sens) -> (forall k v, In (k, v) sens -> value_ok v) -> nvars_ok nvars ->
  let '(top, shown) := topsenss_filter sens showvars nvars in top_ok sens showvars nvars top shown.

Theorem C63_most_sensitive_partial : C63_for complete (fun n => 1 <= n)%Z.
Proof.
  intros sens sv n Hn Hc H1. pose proof (topsenss_ok sens sv n Hn Hc H1) as Hok. destruct (topsenss_filter sens sv n). exact Hok.
Qed.
Print Assumptions C63_most_sensitive_partial.

(** Asked for none, the table has them all. *)
Theorem C63_no_rows_refuted : ~ C63_for complete (fun n => 0 <= n)%Z.
Proof.
  intros Hf. specialize (Hf [(1, One (Some 1%R))] [] 0%Z). cbn in Hf.
  assert (Hn : NoDup [1]) by (apply (bool_decide_unpack _); vm_compute; exact I).
  specialize (Hf Hn). destruct Hf as [_ _ _ Hl _ _]; [|lia|].
  - intros k v [E|[]]. injection E as <- <-. split; simpl; [discriminate|]. intros c [<-|[]]. discriminate.
  - simpl in Hl. unfold room in Hl. simpl in Hl. lia.
Qed.
Print Assumptions C63_no_rows_refuted.

(** A vector with an element that is in no constraint is left out, however sensitive the others are. *)
Theorem C63_unused_element_refuted : ~ C63_for (fun v => exists x, number_of v x) (fun n => 1 <= n)%Z.
Proof.
  intros Hf. specialize (Hf [(1, Many [Some 1%R; None])] [] 5%Z). cbn in Hf.
  assert (Hn : NoDup [1]) by (apply (bool_decide_unpack _); vm_compute; exact I).
  specialize (Hf Hn). destruct Hf as [_ _ _ _ Hf _]; [|lia|].
  - intros k v [E|[]]. injection E as <- <-. exists 1%R. left. auto.
  - specialize (Hf eq_refl 1 _ (or_introl eq_refl)). apply Hf. intros [].
Qed.
Print Assumptions C63_unused_element_refuted.

(** The table of all sensitivities has exactly the variables (asked for, of models asked for) with an element of magnitude over 0.001. *)
Theorem C63_rows : forall lineage included excluded arrange showvars (sens : table R) k v, (forall l, Permutation (arrange l) l) ->
  In (k, v) (snd (senss_table lineage included excluded arrange showvars sens)) <->
  In (k, v) sens /\ (showvars = [] \/ In k showvars) /\ (exists x, number_of v x /\ (1/1000 < Rabs x)%R) /\
  (included = [] \/ In (lineage k) included \/ lineage k = 0) /\ ~ In (lineage k) excluded.
Proof.
  intros lin inc exc arr sv sens k v Ha. rewrite (senss_rows lin inc exc arr sv sens k v Ha).
  assert (E : (exists x, number_of v x /\ ~ small x) <-> exists x, number_of v x /\ (1/1000 < Rabs x)%R).
  { split; intros (x & Hx & Hs); exists x; (split; [exact Hx|]); unfold small in *; lra. }
  rewrite E. tauto.
Qed.
Print Assumptions C63_rows.

Lemma nltb_R (a b : R) : nltb a b = true <-> (a < b)%R.
Proof. change (nltb a b) with (Rltb a b). unfold Rltb. destruct (Rlt_dec a b); split; auto; discriminate. Qed.
Lemma mean_unique (v : value R) m : mean_magnitude v m -> has_nan v = false /\ m = mean_abs v.
Proof.
  intros Hm. split; [|apply mean_abs_mean; auto]. destruct Hm as (xs & Hc & _). unfold has_nan. rewrite Hc. clear. induction xs; auto.
Qed.
Lemma mean_of_complete (v : value R) : has_nan v = false -> cells v <> [] -> mean_magnitude v (mean_abs v).
Proof.
  intros Hn Hne. assert (E : exists xs, cells v = map Some xs).
  { unfold has_nan in Hn. clear Hne. induction (cells v) as [|[x|] l IH]; [exists []; auto| |discriminate Hn]. destruct (IH Hn) as (xs & ->). exists (x :: xs). auto. }
  destruct E as (xs & E). assert (Hx : xs <> []) by (intros ->; apply Hne; auto). set (s := fold_right Rplus 0%R (map Rabs xs)).
  assert (Hi : INR (length xs) <> 0%R) by (apply not_0_INR; destruct xs; [congruence|discriminate]).
  assert (Hm : mean_magnitude v (s / INR (length xs))%R) by (exists xs; split; auto; split; auto; unfold s; field; auto).
  pose proof (mean_abs_mean v _ Hm) as <-. auto.
Qed.
(** The table of insensitive variables has exactly those with a mean magnitude below the one given, among those with an element of magnitude over 0.001. *)
Theorem C63_insensitive_partial : forall lineage included excluded arrange maxval (sens : table R) k v, (forall l, Permutation (arrange l) l) -> (forall k v, In (k, v) sens -> cells v <> []) ->
  In (k, v) (snd (insenss_table lineage included excluded arrange maxval sens)) <->
  In (k, v) sens /\ (exists m, mean_magnitude v m /\ (m < maxval)%R) /\ (exists x, number_of v x /\ (1/1000 < Rabs x)%R) /\
  (included = [] \/ In (lineage k) included \/ lineage k = 0) /\ ~ In (lineage k) excluded.
Proof.
  intros lin inc exc arr maxval sens k v Ha Hne. unfold insenss_table. set (kept := List.filter _ sens).
  change (var_table lin inc exc arr minsens false kept) with (senss_table lin inc exc arr [] kept). rewrite C63_rows by auto.
  assert (E : In (k, v) kept <-> In (k, v) sens /\ exists m, mean_magnitude v m /\ (m < maxval)%R).
  { unfold kept. rewrite filter_In, andb_true_iff, negb_true_iff. cbn [fst snd]. split.
    - intros (Hi & Hn & Hm). split; auto. exists (mean_abs v). apply nltb_R in Hm. split; auto. apply mean_of_complete; eauto.
    - intros (Hi & m & Hm & Hlt). split; auto. destruct (mean_unique v m Hm) as [Hn ->]. split; auto. apply nltb_R. auto. }
  rewrite E. tauto.
Qed.
Print Assumptions C63_insensitive_partial.
(** So the least sensitive are not in it. *)
Theorem C63_insensitive_refuted : ~ forall lineage arrange maxval (sens : table R) k v, (forall l, Permutation (arrange l) l) -> (forall k v, In (k, v) sens -> cells v <> []) ->
  In (k, v) sens -> (exists m, mean_magnitude v m /\ (m < maxval)%R) -> In (k, v) (snd (insenss_table lineage [] [] arrange maxval sens)).
Proof.
  intros Hf. specialize (Hf (fun _ => 0) (fun l => l) (1/10)%R [(1, One (Some 0%R))] 1 (One (Some 0%R)) (fun l => Permutation_refl l)).
  assert (Hne : forall k v, In (k, v) [(1, One (Some 0%R))] -> cells v <> []) by (intros k v [[= <- <-]|[]]; discriminate).
  apply C63_insensitive_partial in Hf; auto.
  - destruct Hf as (_ & _ & (x & [Hx|[]] & Hl) & _). injection Hx as <-. rewrite Rabs_R0 in Hl. lra.
  - left. auto.
  - exists 0%R. split; [|lra]. exists [0%R]. split; auto. split; [discriminate|]. simpl. rewrite Rabs_R0. lra.
Qed.
Print Assumptions C63_insensitive_refuted.

(** Non-vacuity: of three variables, the two most sensitive. *)
Definition report_three : table R := [(1, One (Some 3%R)); (2, Many [Some (-1)%R; Some 2%R]); (3, One (Some (1/2)%R))].
Example C63_nonvacuous : NoDup (map fst report_three) /\ (forall k v, In (k, v) report_three -> complete v) /\
  exists top shown, topsenss_filter report_three [] 2 = (top, shown) /\ length top = 2 /\ ~ In 3 (map fst top).
Proof.
  assert (Hn : NoDup (map fst report_three)) by (apply (bool_decide_unpack _); vm_compute; exact I).
  assert (Hc : forall k v, In (k, v) report_three -> complete v).
  { intros k v Hi. simpl in Hi. destruct Hi as [E|[E|[E|[]]]]; injection E as <- <-; (split; [discriminate|]); intros c Hx; simpl in Hx; intuition congruence. }
  split; [exact Hn|]. split; [exact Hc|]. pose proof (topsenss_ok report_three [] 2 Hn Hc ltac:(lia)) as Hok.
  destruct (topsenss_filter report_three [] 2) as [top shown]. cbn [fst snd] in Hok. exists top, shown. split; auto.
  destruct Hok as [H1 H2 [_ H3] H4 H5 H6].
  assert (Hs : shown = []). { destruct shown as [|k l]; auto. destruct (proj1 (H3 k) (or_introl eq_refl)) as [[] _]. } subst shown. cbn in H4, H5.
  assert (Hl : length top = 2).
  { destruct (Nat.eq_dec (length top) 2) as [|Hne]; auto. exfalso. assert (Hlt : (Z.of_nat (length top) < 2)%Z) by lia. specialize (H5 Hlt).
    assert (incl (map fst report_three) (map fst top)).
    { intros k Hk. apply in_map_iff in Hk as ([k' v] & <- & Hi). apply in_map_iff. exists (k', v). split; [reflexivity|]. apply H5; auto. }
    apply NoDup_incl_length in H; [|apply NoDup_ListNoDup; auto]. rewrite !map_length in H. simpl in H. lia. }
  split; auto. intros H33.
  (* if the third were among the two, one of the others would not be *)
  apply in_map_iff in H33 as ([k3 v3] & E & Hi3). simpl in E. subst k3. destruct (H1 _ _ Hi3) as [Hi3' _].
  assert (v3 = One (Some (1/2)%R)). { simpl in Hi3'. destruct Hi3' as [E|[E|[E|[]]]]; congruence. } subst v3.
  assert (M3 : mean_magnitude (One (Some (1/2)%R)) (1/2)). { exists [(1/2)%R]. split; auto. split; [discriminate|]. simpl. rewrite Rabs_right; lra. }
  assert (M1 : mean_magnitude (One (Some 3%R)) 3). { exists [3%R]. split; auto. split; [discriminate|]. simpl. rewrite Rabs_right; lra. }
  assert (M2 : mean_magnitude (Many [Some (-1)%R; Some 2%R]) (3/2)).
  { exists [(-1)%R; 2%R]. split; auto. split; [discriminate|]. simpl. rewrite Rabs_left, Rabs_right; lra. }
  assert (Hin : forall k v m, In (k, v) report_three -> mean_magnitude v m -> (1/2 < m)%R -> In (k, v) top).
  { intros k v m Hi Hm Hlt. destruct (In_dec Nat.eq_dec k (map fst top)) as [Hk|Hk].
    - apply in_map_iff in Hk as ([k' v'] & E & Hk). simpl in E. subst k'. destruct (H1 _ _ Hk) as [Hk' _].
      apply (In_dget _ _ _ Hn) in Hk'. apply (In_dget _ _ _ Hn) in Hi. assert (v = v') by congruence. subst. auto.
    - exfalso. assert (Hni : ~ In (k, v) top). { intros Hx. apply Hk. apply in_map_iff. exists (k, v). auto. }
      pose proof (H6 _ _ _ _ _ _ Hi3 Hi (fun x => x) Hni M3 Hm). lra. }
  pose proof (Hin 1 _ _ (or_introl eq_refl) M1 ltac:(lra)) as I1.
  pose proof (Hin 2 _ _ (or_intror (or_introl eq_refl)) M2 ltac:(lra)) as I2.
  assert (Hincl : incl [1; 2; 3] (map fst top)).
  { intros k [<-|[<-|[<-|[]]]]; apply in_map_iff; [exists (1, One (Some 3%R))|exists (2, Many [Some (-1)%R; Some 2%R])|exists (3, One (Some (1/2)%R))]; (split; [reflexivity|assumption]). }
  apply NoDup_incl_length in Hincl; [|repeat constructor; simpl; intuition discriminate]. rewrite map_length in Hincl. simpl in Hincl. lia.
Qed.

(** ** C64: [almost_equal] *)

(** Solutions of the kind [kind] are found to be almost equal just if they are within the tolerances. *)
Definition C64_for (kind : solution R -> Prop) : Prop :=
  forall ord reltol abstol s o, (forall l, Permutation (ord l) l) -> (0 < reltol)%R -> (0 < abstol)%R ->
  solution_wf s -> solution_wf o -> kind s -> kind o ->
  exists b, almost_equal ord reltol abstol s o = Ok b /\ (b = true <-> alike reltol abstol s o).

Lemma ratio_close reltol x y : (0 < reltol)%R -> ratio_off reltol (Some x) (Some y) = false <-> close reltol x y.
Proof.
  intros Hr. unfold ratio_off, close. change (n0 : R) with 0%R. destruct (decide (y = 0%R)) as [->|Hy].
  - rewrite Rabs_R0, Rmult_0_r. split.
    + intros E. apply negb_false_iff, bool_decide_eq_true in E. auto.
    + intros [->|Hc]; [|pose proof (Rabs_pos (x - 0)); lra]. apply negb_false_iff, bool_decide_eq_true. auto.
  - assert (Hy' : (0 < Rabs y)%R) by (apply Rabs_pos_lt; auto).
    assert (E : nabs (nsub (ndiv x y) n1) = (Rabs (x - y) / Rabs y)%R).
    { rewrite nabs_R. unfold nsub, ndiv. simpl. replace (x * / y + - (1))%R with ((x - y) * / y)%R by (field; auto). rewrite Rabs_mult, Rabs_inv. reflexivity. }
    rewrite E. change (nleb reltol (Rabs (x - y) / Rabs y)%R) with (Rleb reltol (Rabs (x - y) / Rabs y)%R).
    assert (Hiff : (reltol <= Rabs (x - y) / Rabs y)%R <-> (reltol * Rabs y <= Rabs (x - y))%R).
    { split; intros Hl.
      - apply (Rmult_le_compat_r (Rabs y)) in Hl; [|lra]. replace (Rabs (x - y) / Rabs y * Rabs y)%R with (Rabs (x - y)) in Hl by (field; lra). auto.
      - apply (Rmult_le_reg_r (Rabs y)); auto. replace (Rabs (x - y) / Rabs y * Rabs y)%R with (Rabs (x - y)) by (field; lra). auto. }
    destruct (Rleb reltol (Rabs (x - y) / Rabs y)%R) eqn:Eb.
    + apply Rleb_true, Hiff in Eb. split; [discriminate|]. intros [->|Hc]; [|lra]. rewrite Rminus_diag_eq in Eb by auto. rewrite Rabs_R0 in Eb. nra.
    + split; auto. intros _. right. destruct (Rlt_dec (Rabs (x - y)) (reltol * Rabs y)) as [|Hn]; auto.
      exfalso. assert (Rleb reltol (Rabs (x - y) / Rabs y)%R = true); [|congruence]. apply Rleb_true, Hiff. lra.
Qed.
Lemma delta_close abstol (x y : R) : delta_off abstol (Some x) (Some y) = false <-> (Rabs (x - y) < abstol)%R.
Proof.
  unfold delta_off. rewrite nabs_R. unfold nsub. simpl. fold (Rminus x y). unfold Rleb. destruct (Rle_dec _ _); split; intros; try discriminate; try lra; auto.
Qed.
Lemma lookup_present (d : table R) k v : NoDup (map fst d) -> In (k, v) d -> lookup d k = Ok v.
Proof. intros Hn Hi. unfold lookup. rewrite (In_dget d k v Hn Hi). auto. Qed.

Theorem C64_almost_equal_partial : C64_for scalars.
Proof.
  intros ord reltol abstol s o Ho Hr Ha (Hn1 & Hn2 & Hk1) (Hn3 & Hn4 & Hk2) (Hs1 & Hs2) (Hs3 & Hs4).
  unfold almost_equal.
  assert (Hsame : forallb (fun k => bool_decide (k ∈ dkeys (s_vars o))) (dkeys (s_vars s)) &&
    forallb (fun k => bool_decide (k ∈ dkeys (s_vars s))) (dkeys (s_vars o)) = true <-> same_variables s o).
  { rewrite andb_true_iff, !forallb_forall. unfold same_variables. change (map fst (s_vars s)) with (dkeys (s_vars s)). change (map fst (s_vars o)) with (dkeys (s_vars o)).
    setoid_rewrite bool_decide_eq_true. setoid_rewrite elem_of_list_In. firstorder. }
  destruct (_ && _) eqn:E; [|exists false; split; auto; split; [discriminate|]; intros [Hx _]; apply Hsame in Hx; congruence].
  pose proof (proj1 Hsame eq_refl) as Hsv. clear Hsame.
  assert (Hloop : forall keys, (forall k, In k keys -> In k (map fst (s_vars s))) ->
    exists b, almost_loop reltol abstol s o keys = Ok b /\ (b = true <->
      forall k, In k keys -> (forall x y, In (k, One (Some x)) (s_vars s) -> In (k, One (Some y)) (s_vars o) -> close reltol x y) /\
        (forall x y, In (k, One (Some x)) (s_senss s) -> In (k, One (Some y)) (s_senss o) -> (Rabs (x - y) < abstol)%R))).
  { induction keys as [|k keys IH]; intros Hkeys; cbn [almost_loop]; [exists true; split; auto; split; auto; intros _ k []|].
    assert (Hv1 : In k (map fst (s_vars s))) by (apply Hkeys; left; auto).
    assert (Hv2 : In k (map fst (s_vars o))) by (apply Hsv; auto).
    assert (Hv3 : In k (map fst (s_senss s))) by (apply Hk1; auto).
    assert (Hv4 : In k (map fst (s_senss o))) by (apply Hk2; auto).
    apply in_map_iff in Hv1 as ([k1 v1] & E1 & Hv1); apply in_map_iff in Hv2 as ([k2 v2] & E2 & Hv2);
      apply in_map_iff in Hv3 as ([k3 v3] & E3 & Hv3); apply in_map_iff in Hv4 as ([k4 v4] & E4 & Hv4). simpl in *. subst k1 k2 k3 k4.
    destruct (Hs1 _ _ Hv1) as [x1 ->], (Hs3 _ _ Hv2) as [x2 ->], (Hs2 _ _ Hv3) as [x3 ->], (Hs4 _ _ Hv4) as [x4 ->].
    rewrite (lookup_present _ _ _ Hn1 Hv1), (lookup_present _ _ _ Hn3 Hv2). cbn [rbind truth cells].
    assert (U : forall (d : table R) x y, NoDup (map fst d) -> In (k, One (Some x)) d -> In (k, One (Some y)) d -> x = y).
    { intros d x y Hd Hx Hy. apply (In_dget d _ _ Hd) in Hx. apply (In_dget d _ _ Hd) in Hy. congruence. }
    destruct (ratio_off reltol (Some x1) (Some x2)) eqn:E1.
    { exists false. split; auto. split; [discriminate|]. intros Hx. specialize (Hx k (or_introl eq_refl)) as [Hx _]. specialize (Hx _ _ Hv1 Hv2).
      apply (ratio_close reltol x1 x2 Hr) in Hx. congruence. }
    apply (ratio_close reltol x1 x2 Hr) in E1.
    rewrite (lookup_present _ _ _ Hn2 Hv3), (lookup_present _ _ _ Hn4 Hv4). cbn [rbind truth cells].
    destruct (delta_off abstol (Some x3) (Some x4)) eqn:E2.
    { exists false. split; auto. split; [discriminate|]. intros Hx. specialize (Hx k (or_introl eq_refl)) as [_ Hx]. specialize (Hx _ _ Hv3 Hv4).
      apply delta_close in Hx. congruence. }
    apply delta_close in E2.
    destruct (IH (fun k Hk => Hkeys k (or_intror Hk))) as (b & -> & Hb). exists b. split; auto. rewrite Hb. split.
    - intros Hall k' [<-|Hk']; auto. split; intros x y Hx Hy.
      + rewrite (U _ _ _ Hn1 Hx Hv1), (U _ _ _ Hn3 Hy Hv2). auto.
      + rewrite (U _ _ _ Hn2 Hx Hv3), (U _ _ _ Hn4 Hy Hv4). auto.
    - intros Hall k' Hk'. apply Hall. right. auto. }
  assert (Hord : forall k, In k (ord (dkeys (s_vars s))) <-> In k (map fst (s_vars s))).
  { intros k. split; apply Permutation_in; [|symmetry]; apply Ho. }
  destruct (Hloop (ord (dkeys (s_vars s)))) as (b & -> & Hb); [intros k; apply Hord|]. exists b. split; auto. rewrite Hb. unfold alike, numbers_close. split.
  - intros Hall. split; auto. split.
    + intros k v v' Hv Hv'. destruct (Hs1 _ _ Hv) as [x ->], (Hs3 _ _ Hv') as [y ->]. exists x, y. split; auto. split; auto.
      apply (Hall k); auto. apply Hord. apply in_map_iff. eexists; split; [|exact Hv]; auto.
    + intros k v v' Hv Hv'. destruct (Hs2 _ _ Hv) as [x ->], (Hs4 _ _ Hv') as [y ->]. exists x, y. split; auto. split; auto.
      apply (Hall k); auto. apply Hord, Hk1. apply in_map_iff. eexists; split; [|exact Hv]; auto.
  - intros (_ & H1 & H2) k Hk. split; intros x y Hx Hy.
    + destruct (H1 _ _ _ Hx Hy) as (x' & y' & Ex & Ey & Hc). congruence.
    + destruct (H2 _ _ _ Hx Hy) as (x' & y' & Ex & Ey & Hc). congruence.
Qed.
Print Assumptions C64_almost_equal_partial.

(** With vectors the comparison raises ValueError. *)
Definition sol_of (v s : value R) : solution R := Solution [(1, v)] [(1, s)].
Lemma sol_wf v s : solution_wf (sol_of v s).
Proof.
  unfold sol_of, solution_wf. simpl. split; [apply (bool_decide_unpack _); vm_compute; exact I|].
  split; [apply (bool_decide_unpack _); vm_compute; exact I|]. tauto.
Qed.
Lemma almost_equal_one r a v s v' s' : almost_equal (fun l => l) r a (sol_of v s) (sol_of v' s') =
  (let! off := truth (ratio_off r) v v' in if off then Ok false else let! off := truth (delta_off a) s s' in if off then Ok false else Ok true).
Proof. reflexivity. Qed.
Theorem C64_vectors_refuted : ~ C64_for (fun s => forall d, d = s_vars s \/ d = s_senss s -> forall k v, In (k, v) d -> complete v).
Proof.
  intros Hf. set (s := sol_of (Many [Some 1%R; Some 1%R]) (One (Some 0%R))).
  destruct (Hf (fun l => l) 1%R 1%R s s (fun l => Permutation_refl l) ltac:(lra) ltac:(lra) (sol_wf _ _) (sol_wf _ _)) as (b & E & _).
  1, 2: intros d [-> | ->] k v [Ei|[]]; injection Ei as <- <-; (split; [discriminate|]); intros c Hc; simpl in Hc; intuition congruence.
  cbn in E. discriminate E.
Qed.
Print Assumptions C64_vectors_refuted.

(** A sensitivity that is nan passes for close to any. *)
Theorem C64_nan_refuted : ~ C64_for (fun s => forall d, d = s_vars s \/ d = s_senss s -> forall k v, In (k, v) d -> exists c, v = One c).
Proof.
  intros Hf.
  destruct (Hf (fun l => l) 1%R 1%R (sol_of (One (Some 0%R)) (One None)) (sol_of (One (Some 0%R)) (One (Some 5%R)))
    (fun l => Permutation_refl l) ltac:(lra) ltac:(lra) (sol_wf _ _) (sol_wf _ _)) as (b & E & Hb).
  1, 2: intros d [-> | ->] k v [Ei|[]]; injection Ei as <- <-; eauto.
  assert (H0 : ratio_off 1%R (Some 0%R) (Some 0%R) = false) by (apply ratio_close; [lra|left; reflexivity]).
  rewrite almost_equal_one in E. cbn [truth cells] in E. rewrite H0 in E. cbn in E. injection E as <-.
  destruct (proj1 Hb eq_refl) as (_ & _ & Hs). destruct (Hs 1 (One None) (One (Some 5%R)) (or_introl eq_refl) (or_introl eq_refl)) as (x & y & Ex & _).
  discriminate Ex.
Qed.
Print Assumptions C64_nan_refuted.

(** Which solution is asked about which matters, also with the default tolerances. *)
Definition C64_symmetric_for {T} `{Num T} (reltol abstol : T) : Prop :=
  forall s o, almost_equal (fun l => l) reltol abstol s o = Ok true -> almost_equal (fun l => l) reltol abstol o s = Ok true.
Theorem C64_symmetry_refuted : ~ C64_symmetric_for (T := Q) (1 # 1000) (1 # 100).
Proof.
  intros Hf. specialize (Hf (Solution [(1, One (Some 1%Q))] [(1, One (Some 0%Q))]) (Solution [(1, One (Some (10010005 # 10000000)%Q))] [(1, One (Some 0%Q))])).
  assert (E1 : almost_equal (fun l => l) (1 # 1000)%Q (1 # 100)%Q (Solution [(1, One (Some 1%Q))] [(1, One (Some 0%Q))])
    (Solution [(1, One (Some (10010005 # 10000000)%Q))] [(1, One (Some 0%Q))]) = Ok true) by (vm_compute; reflexivity).
  specialize (Hf E1). vm_compute in Hf. discriminate Hf.
Qed.
Print Assumptions C64_symmetry_refuted.

(** Non-vacuity *)
Example C64_nonvacuous : scalars (sol_of (One (Some 1%R)) (One (Some (1/2)%R))) /\ solution_wf (sol_of (One (Some 1%R)) (One (Some (1/2)%R))) /\
  alike (1/1000) (1/100) (sol_of (One (Some 1%R)) (One (Some (1/2)%R))) (sol_of (One (Some (10001/10000)%R)) (One (Some (1/2)%R))) /\
  ~ alike (1/1000) (1/100) (sol_of (One (Some 1%R)) (One (Some (1/2)%R))) (sol_of (One (Some 1%R)) (One (Some (2/3)%R))).
Proof.
  split; [split; intros k v [E|[]]; injection E as <- <-; eauto|]. split; [apply sol_wf|]. split.
  - split; [intros k; simpl; tauto|]. split; intros k v v' [E|[]] [E'|[]]; injection E as <- <-; injection E' as <-; eexists _, _; (split; [reflexivity|]); (split; [reflexivity|]).
    + right. rewrite Rabs_left by lra. rewrite Rabs_right by lra. lra.
    + rewrite Rminus_diag_eq, Rabs_R0 by auto. lra.
  - intros (_ & _ & Hs). destruct (Hs 1 _ _ (or_introl eq_refl) (or_introl eq_refl)) as (x & y & Ex & Ey & Hd). injection Ex as <-. injection Ey as <-.
    rewrite Rabs_left in Hd by lra. lra.
Qed.

(** ** C65: saving leaves a solution as it was *)

Section Saving.
Context {V : Type} (truthy : V -> bool).

Definition owf (h : @objects V) : Prop := NoDup (map fst h) /\ forall c d, In (c, d) h -> NoDup (map fst d).
Lemma attr_set h c a (v : V) c' a' : attr (set_attr h c a v) c' a' = if decide (c' = c /\ a' = a) then Some v else attr h c' a'.
Proof.
  unfold attr, set_attr. rewrite dget_dset. destruct (decide (c' = c)) as [->|Hc].
  - rewrite dget_dset. destruct (decide (a' = a)) as [->|Ha]; [rewrite decide_True; auto|]. rewrite decide_False by tauto. destruct (dget h c); auto.
  - rewrite decide_False by tauto. auto.
Qed.
Lemma owf_get (h : @objects V) c d : owf h -> dget h c = Some d -> NoDup (map fst d).
Proof. intros [_ Hd] E. apply dget_In in E. eauto. Qed.
Lemma attr_del (h : @objects V) c a c' a' : owf h -> attr (del_attr h c a) c' a' = if decide (c' = c /\ a' = a) then None else attr h c' a'.
Proof.
  intros Hw. unfold attr, del_attr. destruct (dget h c) as [d|] eqn:E.
  - rewrite dget_dset. destruct (decide (c' = c)) as [->|Hc].
    + destruct (decide (a' = a)) as [->|Ha].
      * rewrite decide_True by auto. apply dget_ddel_eq. eapply owf_get; eauto.
      * rewrite decide_False by tauto. rewrite E. apply dget_ddel_ne. auto.
    + rewrite decide_False by tauto. auto.
  - case_decide as Hx; auto. destruct Hx as [-> ->]. rewrite E. auto.
Qed.
Lemma owf_del (h : @objects V) c a : owf h -> owf (del_attr h c a).
Proof.
  intros [Hn Hd]. unfold del_attr. destruct (dget h c) as [d|] eqn:E; [|split; auto]. split; [apply (NoDup_dset h); auto|].
  intros c' d' Hi. apply (In_dget (dset h c (ddel d a)) c' d') in Hi; [|apply (NoDup_dset h); auto]. rewrite dget_dset in Hi.
  destruct (decide (c' = c)) as [->|Hc].
  - injection Hi as <-. apply (NoDup_ddel d a). apply dget_In in E. eauto.
  - apply dget_In in Hi. eauto.
Qed.

(** Taking one attribute: what is stored and what is left *)
Lemma take_one_spec cs a (h : @objects V) : owf h ->
  let '(h', store) := take_one truthy cs a h in owf h' /\ (forall c v, In (c, v) store -> attr h c a = Some v) /\ NoDup (map fst store) /\
  (forall c v, attr h c a = Some v -> attr h' c a = Some v \/ (attr h' c a = None /\ In (c, v) store)) /\
  (forall c, attr h c a = None -> attr h' c a = None) /\
  (forall c v, attr h' c a = Some v -> attr h c a = Some v) /\
  (forall c a', a' <> a -> attr h' c a' = attr h c a') /\
  (forall c v, In c cs -> attr h c a = Some v -> truthy v = true -> attr h' c a = None).
Proof.
  intros Hw. unfold take_one.
  set (step := fun (st : objects * list (nat * V)) (c : nat) => let '(h, store) := st in _).
  assert (G : forall cs h1 store, owf h1 -> (forall c v, dget store c = Some v -> attr h c a = Some v /\ attr h1 c a = None) -> NoDup (map fst store) ->
    (forall c, dget store c = None -> attr h1 c a = attr h c a) -> (forall c a', a' <> a -> attr h1 c a' = attr h c a') ->
    let '(h', store') := fold_left step cs (h1, store) in
    owf h' /\ (forall c v, dget store' c = Some v -> attr h c a = Some v /\ attr h' c a = None) /\ NoDup (map fst store') /\
    (forall c, dget store' c = None -> attr h' c a = attr h c a) /\ (forall c a', a' <> a -> attr h' c a' = attr h c a') /\
    (forall c v, In c cs -> attr h c a = Some v -> truthy v = true -> attr h' c a = None) /\
    (forall c, attr h1 c a = None -> attr h' c a = None)).
  { clear cs. induction cs as [|c cs IH]; intros h1 store W S1 S2 S3 S4; cbn [fold_left].
    { split; auto. split; auto. split; auto. split; auto. split; auto. split; auto. intros c v []. }
    assert (E : step (h1, store) c = match attr h1 c a with Some v => if truthy v then (del_attr h1 c a, dset store c v) else (h1, store) | None => (h1, store) end) by reflexivity.
    rewrite E. clear E. destruct (attr h1 c a) as [v|] eqn:Ea; [destruct (truthy v) eqn:Et|].
    - specialize (IH (del_attr h1 c a) (dset store c v) (owf_del _ _ _ W)).
      assert (Hs : dget store c = None). { destruct (dget store c) as [v0|] eqn:E0; auto. apply S1 in E0 as [_ E0]. congruence. }
      destruct (fold_left step cs (del_attr h1 c a, dset store c v)) as [h' store'].
      destruct IH as (I1 & I2 & I3 & I4 & I5 & I6 & I7).
      { intros c' v' Hg. rewrite dget_dset in Hg. rewrite attr_del by auto. destruct (decide (c' = c)) as [->|Hc].
        - injection Hg as <-. rewrite decide_True by auto. split; auto. rewrite <- S3; auto.
        - rewrite decide_False by tauto. auto. }
      { apply (NoDup_dset store). auto. }
      { intros c' Hg. rewrite dget_dset in Hg. rewrite attr_del by auto. destruct (decide (c' = c)) as [->|Hc]; [discriminate Hg|].
        rewrite decide_False by tauto. auto. }
      { intros c' a' Ha. rewrite attr_del by auto. rewrite decide_False by tauto. auto. }
      split; auto. split; auto. split; auto. split; auto. split; auto. split.
      + intros c' v' [<-|Hi] Hv Ht; [|eauto]. apply I7. rewrite attr_del by auto. rewrite decide_True; auto.
      + intros c' Hc'. apply I7. rewrite attr_del by auto. case_decide; auto.
    - specialize (IH h1 store W S1 S2 S3 S4). destruct (fold_left step cs (h1, store)) as [h' store'].
      destruct IH as (I1 & I2 & I3 & I4 & I5 & I6 & I7). split; auto. split; auto. split; auto. split; auto. split; auto. split; auto.
      intros c' v' [<-|Hi] Hv Ht; [|eauto]. exfalso. destruct (dget store c) as [v0|] eqn:E0; [apply S1 in E0 as [_ E0]; congruence|].
      rewrite S3 in Ea by auto. congruence.
    - specialize (IH h1 store W S1 S2 S3 S4). destruct (fold_left step cs (h1, store)) as [h' store'].
      destruct IH as (I1 & I2 & I3 & I4 & I5 & I6 & I7). split; auto. split; auto. split; auto. split; auto. split; auto. split; auto.
      intros c' v' [<-|Hi] Hv Ht; [|eauto]. auto. }
  specialize (G cs h [] Hw). destruct (fold_left step cs (h, [])) as [h' store].
  destruct G as (I1 & I2 & I3 & I4 & I5 & I6 & I7); [intros c v E; discriminate E|constructor|auto|auto|].
  split; auto. split; [intros c v Hi; apply (In_dget store c v I3) in Hi; apply I2 in Hi; tauto|]. split; auto. split.
  { intros c v Hv. destruct (dget store c) as [v0|] eqn:E0.
    - right. destruct (I2 _ _ E0) as [Hx Hy]. split; auto. apply dget_In in E0. congruence.
    - left. rewrite I4; auto. }
  split. { intros c Hv. auto. }
  split. { intros c v Hv. destruct (dget store c) as [v0|] eqn:E0; [apply I2 in E0 as [_ E0]; congruence|]. rewrite I4 in Hv; auto. }
  split; auto.
Qed.

(** Putting one attribute back *)
Lemma put_one_spec a store : forall (h : @objects V), NoDup (map fst store) ->
  let h' := fold_left (fun h cv => set_attr h (fst cv) a (snd cv)) store h in
  (forall c v, In (c, v) store -> attr h' c a = Some v) /\ (forall c, ~ In c (map fst store) -> attr h' c a = attr h c a) /\
  (forall c a', a' <> a -> attr h' c a' = attr h c a').
Proof.
  induction store as [|[c v] store IH]; intros h Hn; cbn [fold_left]; [split; [intros c v []|auto]|].
  simpl in Hn. apply NoDup_cons in Hn as [Hc Hn]. rewrite elem_of_list_In in Hc. destruct (IH (set_attr h c a v) Hn) as (H1 & H2 & H3). cbn [fst snd].
  split; [|split].
  - intros c' v' [E|Hi]; [|auto]. injection E as <- <-. rewrite H2 by auto. rewrite attr_set, decide_True; auto.
  - intros c' Hni. simpl in Hni. rewrite H2 by tauto. rewrite attr_set, decide_False; auto. intros [-> _]. tauto.
  - intros c' a' Ha. rewrite H3 by auto. rewrite attr_set, decide_False; auto. tauto.
Qed.

(** All attributes: [take] then [put_back] *)
Definition stored_ok (h0 h : @objects V) (stored : list (nat * list (nat * V))) : Prop :=
  NoDup (map fst stored) /\
  (forall a store, In (a, store) stored -> NoDup (map fst store) /\ (forall c v, In (c, v) store -> attr h0 c a = Some v) /\
    forall c v, attr h0 c a = Some v -> attr h c a = Some v \/ (attr h c a = None /\ In (c, v) store)) /\
  (forall a c, attr h0 c a = None -> attr h c a = None) /\
  (forall a c, ~ In a (map fst stored) -> attr h c a = attr h0 c a).
Lemma take_spec cs attrs : forall h0 h stored, NoDup (attrs) -> (forall a, In a attrs -> ~ In a (map fst stored)) -> owf h -> stored_ok h0 h stored ->
  let '(h', stored') := take truthy cs attrs h stored in stored_ok h0 h' stored' /\
  (forall a c v, In a attrs -> In c cs -> attr h0 c a = Some v -> truthy v = true -> attr h' c a = None) /\
  (forall a c, attr h c a = None -> attr h' c a = None).
Proof.
  induction attrs as [|a attrs IH]; intros h0 h stored Hn Hni Hw Hok; cbn [take]; [split; auto; split; auto; intros a c v []|].
  pose proof (take_one_spec cs a h Hw) as H1. destruct (take_one truthy cs a h) as [h1 store]. destruct H1 as (W1 & S1 & S2 & S3 & S4 & S5 & S6 & S7).
  destruct Hok as (K1 & K2 & K3 & K4). apply NoDup_cons in Hn as [Hna Hn]. rewrite elem_of_list_In in Hna.
  assert (Ha : ~ In a (map fst stored)) by (apply Hni; left; auto).
  assert (Hadd : dset stored a store = stored ++ [(a, store)]) by (apply dset_absent; exact Ha).
  specialize (IH h0 h1 (dset stored a store) Hn).
  assert (Hok1 : stored_ok h0 h1 (dset stored a store)).
  { split; [apply (NoDup_dset stored); auto|]. split; [|split].
    - intros a' store' Hi. rewrite Hadd in Hi. apply in_app_or in Hi as [Hi|[E|[]]].
      + destruct (K2 _ _ Hi) as (L1 & L2 & L3). split; auto. split; auto. intros c v Hv.
        assert (a' <> a). { intros ->. apply Ha. apply in_map_iff. exists (a, store'). auto. } rewrite S6 by auto. auto.
      + injection E as <- <-. split; auto. split.
        * intros c v Hi. apply S1 in Hi. rewrite K4 in Hi; auto.
        * intros c v Hv. rewrite <- K4 in Hv by auto. auto.
    - intros a' c Hv. destruct (Nat.eq_dec a' a) as [->|Hne]; [apply S4; auto|rewrite S6; auto].
    - intros a' c Hi. rewrite Hadd, map_app in Hi. assert (~ In a' (map fst stored) /\ a' <> a).
      { split; intros Hx; apply Hi; apply in_or_app; [left; auto|right; left; auto]. }
      rewrite S6 by tauto. apply K4. tauto. }
  destruct (take truthy cs attrs h1 (dset stored a store)) as [h2 stored2].
  destruct IH as (J1 & J2 & J3); auto.
  { intros a' Ha' Hi. rewrite Hadd, map_app in Hi. apply in_app_or in Hi as [Hi|[Hi|[]]]; [apply (Hni a'); [right; auto|auto]|]. simpl in Hi. subst a'. auto. }
  split; auto. split.
  - intros a' c v [<-|Hi] Hc Hv Ht; [|eauto]. apply J3. eapply S7; eauto. rewrite K4; auto.
  - intros a' c Hv. apply J3. destruct (Nat.eq_dec a' a) as [->|Hne]; [apply S4; auto|rewrite S6; auto].
Qed.
Lemma put_back_spec h0 stored : forall (h : @objects V), NoDup (map fst stored) ->
  (forall a store, In (a, store) stored -> NoDup (map fst store) /\ (forall c v, In (c, v) store -> attr h0 c a = Some v) /\
    forall c v, attr h0 c a = Some v -> attr h c a = Some v \/ (attr h c a = None /\ In (c, v) store)) ->
  (forall a c, attr h0 c a = None -> attr h c a = None) -> (forall a c, ~ In a (map fst stored) -> attr h c a = attr h0 c a) ->
  forall c a, attr (put_back stored h) c a = attr h0 c a.
Proof.
  unfold put_back. induction stored as [|[a store] stored IH]; intros h Hn Hs H0 Hr; cbn [fold_left]; [intros c a; apply Hr; intros []|].
  simpl in Hn. apply NoDup_cons in Hn as [Ha Hn]. rewrite elem_of_list_In in Ha. cbn [fst snd].
  destruct (Hs a store (or_introl eq_refl)) as (L1 & L2 & L3). pose proof (put_one_spec a store h L1) as (P1 & P2 & P3). cbn zeta in P1, P2, P3.
  set (h1 := fold_left _ store h) in *.
  assert (Hnow : forall c, attr h1 c a = attr h0 c a).
  { intros c. destruct (In_dec Nat.eq_dec c (map fst store)) as [Hi|Hi].
    - apply in_map_iff in Hi as ([c' v] & E & Hi). simpl in E. subst c'. rewrite (P1 c v Hi). symmetry. apply L2. auto.
    - rewrite P2 by auto. destruct (attr h0 c a) as [v|] eqn:E; [|apply H0; auto]. destruct (L3 _ _ E) as [|[_ Hx]]; auto.
      exfalso. apply Hi. apply in_map_iff. exists (c, v). auto. }
  apply IH; auto.
  - intros a' store' Hi. destruct (Hs a' store' (or_intror Hi)) as (M1 & M2 & M3). split; auto. split; auto. intros c v Hv.
    assert (a' <> a). { intros ->. apply Ha. apply in_map_iff. exists (a, store'). auto. } rewrite P3 by auto. auto.
  - intros a' c Hv. destruct (Nat.eq_dec a' a) as [->|Hne]; [rewrite Hnow; auto|rewrite P3; auto].
  - intros a' c Hi. destruct (Nat.eq_dec a' a) as [->|Hne]; [auto|]. rewrite P3 by auto. apply Hr. simpl. intuition.
Qed.

(** After [save], whether or not pickling raised, every attribute of every object is what it was before, and so is what is stored
    by constraint; what pickling raises is raised. *)
Theorem C65_saving_leaves_solution : forall attrs saveconstraints pickle (s : @saved V) during s' e, NoDup attrs -> owf (objs s) ->
  save truthy attrs saveconstraints pickle s = (during, s', e) ->
  (forall c a, attr (objs s') c a = attr (objs s) c a) /\ constrs s' = constrs s /\
  (constrs s <> None -> exists p, during = Some p /\ e = pickle p).
Proof.
  intros attrs sc pickle s during s' e Hn Hw E. unfold save in E. destruct (constrs s) as [cs|] eqn:Ec.
  2: { injection E as <- <- <-. split; auto. split; auto. congruence. }
  destruct sc.
  - assert (H0 : stored_ok (objs s) (objs s) []).
    { split; [constructor|]. split; [intros a store []|]. split; auto. }
    pose proof (take_spec (dkeys cs) attrs (objs s) (objs s) [] Hn (fun _ _ x => x) Hw H0) as Ht.
    destruct (take truthy (dkeys cs) attrs (objs s) []) as [h stored]. destruct Ht as ((K1 & K2 & K3 & K4) & _).
    injection E as <- <- <-. cbn [objs constrs]. split; [|split; eauto]. apply put_back_spec; auto.
  - injection E as <- <- <-. cbn [objs constrs]. split; auto. split; eauto.
Qed.

(** What is pickled lacks the attributes, or the constraints. *)
Theorem C65_what_is_saved : forall attrs saveconstraints pickle (s : @saved V) p s' e, NoDup attrs -> owf (objs s) ->
  save truthy attrs saveconstraints pickle s = (Some p, s', e) ->
  if saveconstraints
  then constrs p = constrs s /\ (forall cs c a v, constrs s = Some cs -> In c (map fst cs) -> In a attrs -> attr (objs p) c a = Some v -> truthy v = false) /\
    (forall c a, ~ In a attrs -> attr (objs p) c a = attr (objs s) c a)
  else constrs p = None /\ objs p = objs s.
Proof.
  intros attrs sc pickle s p s' e Hn Hw E. unfold save in E. destruct (constrs s) as [cs|] eqn:Ec; [|discriminate E].
  destruct sc; [|injection E as <- <- <-; auto].
  assert (H0 : stored_ok (objs s) (objs s) []).
  { split; [constructor|]. split; [intros a store []|]. split; auto. }
  pose proof (take_spec (dkeys cs) attrs (objs s) (objs s) [] Hn (fun _ _ x => x) Hw H0) as Ht.
  assert (Hst : forall attrs h stored, map fst (snd (take truthy (dkeys cs) attrs h stored)) = map fst (fold_left (fun d a => dset d a []) attrs stored)).
  { clear. induction attrs as [|a attrs IH]; intros h stored; cbn [take fold_left]; auto.
    destruct (take_one truthy (dkeys cs) a h) as [h1 st]. rewrite IH.
    assert (G : forall attrs (d d' : list (nat * list (nat * V))), map fst d = map fst d' ->
      map fst (fold_left (fun d a => dset d a []) attrs d) = map fst (fold_left (fun d a => dset d a []) attrs d')).
    { assert (D : forall (d d' : list (nat * list (nat * V))) x v v', map fst d = map fst d' -> map fst (dset d x v) = map fst (dset d' x v')).
      { intros d. induction d as [|[k w] d IHd]; intros [|[k' w'] d'] x v v' Ed; simpl in *; try discriminate Ed; auto. injection Ed as -> Ed.
        case_decide; simpl; f_equal; auto. }
      intros l. induction l as [|x l IHl]; intros d d' Ed; simpl; auto. }
    apply G. clear. induction stored as [|[k w] d IHd]; simpl; auto. case_decide; simpl; f_equal; auto. }
  specialize (Hst attrs (objs s) []).
  destruct (take truthy (dkeys cs) attrs (objs s) []) as [h stored]. destruct Ht as ((K1 & K2 & K3 & K4) & J2 & J3).
  injection E as <- <- <-. cbn [objs constrs snd] in *. split; auto. split.
  - intros cs' c a v Ecs Hc Ha Hv. injection Ecs as <-. destruct (truthy v) eqn:Et; auto. exfalso.
    destruct (attr (objs s) c a) as [v0|] eqn:E0; [|rewrite K3 in Hv by auto; discriminate Hv].
    destruct (truthy v0) eqn:Et0; [rewrite (J2 a c v0) in Hv by auto; discriminate Hv|].
    assert (v0 = v); [|congruence].
    destruct (In_dec Nat.eq_dec a (map fst stored)) as [Hi|Hi]; [|rewrite K4 in Hv by auto; congruence].
    apply in_map_iff in Hi as ([a' store] & Ea & Hi). simpl in Ea. subst a'. destruct (K2 _ _ Hi) as (_ & _ & L3).
    destruct (L3 _ _ E0) as [|[Hx _]]; congruence.
  - intros c a Ha. apply K4. rewrite Hst. intros Hi. apply Ha. clear - Hi.
    assert (G : forall attrs (d : list (nat * list (nat * V))), In a (map fst (fold_left (fun d a => dset d a []) attrs d)) -> In a (map fst d) \/ In a attrs).
    { clear. induction attrs as [|x l IH]; intros d Hi; simpl in *; auto. apply IH in Hi as [Hi|Hi]; auto. apply (dkeys_dset_In d) in Hi as [->|Hi]; auto. }
    apply G in Hi as [[]|]; auto.
Qed.
End Saving.
Print Assumptions C65_saving_leaves_solution.
Print Assumptions C65_what_is_saved.

(** Non-vacuity: two constraints with attributes, one false and one true. Pickling raises, and all are there afterwards. *)
Definition two_constraints : @saved (list nat) :=
  Saved [(1, [(10, [5]); (11, [])]); (2, [(10, []); (12, [6]); (13, [7])])] (Some [(1, [1]); (2, [2])]).
Example C65_nonvacuous : NoDup [10; 11; 12] /\ owf (objs two_constraints) /\
  save (fun v => negb (bool_decide (v = []))) [10; 11; 12] true (fun _ => Some OverflowE) two_constraints =
  (Some (Saved [(1, [(11, [])]); (2, [(10, []); (13, [7])])] (Some [(1, [1]); (2, [2])])),
   Saved [(1, [(11, []); (10, [5])]); (2, [(10, []); (13, [7]); (12, [6])])] (Some [(1, [1]); (2, [2])]), Some OverflowE).
Proof.
  split; [apply (bool_decide_unpack _); vm_compute; exact I|]. split; [|vm_compute; reflexivity].
  split; [apply (bool_decide_unpack _); vm_compute; exact I|]. intros c d [E|[E|[]]]; injection E as <- <-; apply (bool_decide_unpack _); vm_compute; exact I.
Qed.
