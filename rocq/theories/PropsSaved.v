(** C91, C92: what a solution writes to files for other programs. *)
From Coq Require Import Sorting.Sorted Permutation.
From Verif Require Import Base Globals Lookup Naming Layout Saved VarKeyProofs PropsLookup PropsLayout PropsNaming.
From Coq Require Import Reals Lra QArith Strings.String Strings.Ascii.
Local Open Scope list_scope.
Open Scope nat_scope.

(** ** Specification *)

(** The variables of a solution: different, whole vectors, with plain names, told apart by models and names *)
Definition well_named {T} (vars : variables (T := T)) : Prop :=
  NoDup (map fst vars) /\ (forall k, In k (map fst vars) -> vk_idx k = None /\ plain_name k) /\ told_apart (map fst vars).
(** No underscores in a name, nor in the names of the models around *)
Definition no_underscore (k : vkey) : Prop := free "_" (vk_name k) /\ forall l p, vk_lineage k = Some l -> In p l -> free "_" (fst p).
(** A value and what it is at an index; a number has none *)
Inductive has_entry {T} : value (T := T) -> option (list nat) -> option T -> Prop :=
  | entry_number c : has_entry (Scalar c) None c
  | entry_array shape val idx : index_of shape idx -> has_entry (Array shape val) (Some idx) (val idx).

(** ** Lemmas *)

Section Dicts.
Context {K V W : Type} `{EqDecision K}.
Lemma fold_dset (key : V -> K) (val : V -> W) l : NoDup (map key l) -> forall d, (forall x, In x l -> ~ In (key x) (dkeys d)) ->
  fold_left (fun d x => dset d (key x) (val x)) l d = d ++ map (fun x => (key x, val x)) l.
Proof.
  induction l as [|x l IH]; intros N d D; simpl; [rewrite app_nil_r; auto|]. inversion N as [|? ? Nx Nl]; subst.
  rewrite dset_absent by (apply D; left; auto). rewrite IH; [rewrite <- app_assoc; auto|auto|].
  intros y Hy. unfold dkeys. rewrite map_app, in_app_iff. simpl. intros [H|[H|[]]]; [apply (D y); [right; auto|auto]|].
  apply Nx. rewrite H. apply elem_of_list_In, in_map. auto.
Qed.
End Dicts.
Lemma NoDup_map_on {A B} (f : A -> B) l : NoDup l -> (forall x y, In x l -> In y l -> f x = f y -> x = y) -> NoDup (map f l).
Proof.
  induction l as [|x l IH]; intros N I; simpl; [constructor|]. inversion N as [|? ? Nx Nl]; subst. constructor.
  - rewrite elem_of_list_In, in_map_iff. intros (y & E & Hy). apply Nx. rewrite (I x y); [apply elem_of_list_In; auto|left; auto|right; auto|auto].
  - apply IH; auto. intros a b Ha Hb. apply I; right; auto.
Qed.

Lemma no_idx k : vk_idx k = None -> ~ an_element k.
Proof. intros E (i & is & E'). congruence. Qed.
Lemma no_place k : vk_idx k = None -> place k = ""%string.
Proof. intros E. unfold place. rewrite E. auto. Qed.

Section Names.
Context {T : Type}.
Variable vars : variables (T := T).
Hypothesis wn : well_named vars.
Let name := printed_name (key_set (map fst vars)).
Lemma name_after : name = printed_name (after (fun _ => false) (map fst vars) []).
Proof. reflexivity. Qed.
Lemma name_inj k1 k2 : In k1 (map fst vars) -> In k2 (map fst vars) -> name k1 = name k2 -> k1 = k2.
Proof.
  intros I1 I2 E. rewrite name_after in E. destruct wn as (_ & P & T'). 
  destruct (C90_apart_partial (fun _ => false) (map fst vars) [] (fun k Hk => proj2 (P k Hk)) T' k1 k2 I1 I2 E) as [|[El _]]; auto.
  exfalso. apply (no_idx k1 (proj1 (P k1 I1)) El).
Qed.
Lemma name_is k : In k (map fst vars) -> name k = numbered k \/ name k = vk_name k.
Proof.
  intros Hk. destruct wn as (_ & P & _). unfold name, printed_name, shown. rewrite with_idx_is, (no_place k (proj1 (P k Hk))), app_nil_string, numbered_is.
  destruct (bool_decide _); auto.
Qed.
Lemma varnames_of l : NoDup l -> (forall k, In k l -> In k (map fst vars)) -> fold_left (fun d k => dset d (name k) k) l [] = map (fun k => (name k, k)) l.
Proof.
  intros Nl Sl. rewrite (fold_dset name (fun k => k) l); [auto| |intros; simpl; auto]. apply NoDup_map_on; auto. intros x y Hx Hy. apply name_inj; auto.
Qed.
Lemma varnames_is : varnames vars [] = map (fun k => (name k, k)) (map fst vars).
Proof. apply varnames_of; auto. apply wn. Qed.
Lemma parse_spec names : forall full s out, mapped (map fst vars) full s -> NoDup out -> existsb by_name names = true \/ full = true ->
  (forall m, In m names -> by_name m = true) ->
  NoDup (parse_showvars s names out) /\ forall k, In k (parse_showvars s names out) <-> In k out \/ (In k (map fst vars) /\ exists m, In m names /\ In m (keys k)).
Proof.
  induction names as [|m names IH]; intros full s out M N F B; simpl.
  - split; [auto|]. intros k. split; [auto|]. intros [H|(_ & m & [] & _)]; auto.
  - pose proof (mapped_getitem _ full s m M) as G. pose proof (mapped_parse _ full s m M) as (_ & _ & Nl & P). destruct (getitem s m) as [s' l]. destruct G as [M' ->].
    rewrite (B m (or_introl eq_refl)), orb_true_r in *.
    assert (A : forall l out, NoDup out -> NoDup (fold_left (fun out k => add k out) l out) /\ forall k, In k (fold_left (fun out k => add k out) l out) <-> In k out \/ In k l).
    { clear. induction l as [|x l IH]; intros out N; simpl; [split; [auto|tauto]|].
      assert (Na : NoDup (add x out)).
      { unfold add. destruct (bool_decide (x ∈ out)) eqn:E; [auto|]. apply bool_decide_eq_false in E. apply NoDup_app. split; [auto|]. split; [|repeat constructor; intros H; inversion H].
        intros y Hy Hx. apply elem_of_list_singleton in Hx as ->. auto. }
      destruct (IH (add x out) Na) as [N1 H1]. split; [auto|]. intros k. rewrite H1, add_In. intuition. }
    destruct (A (kget (keymap (parse s m)) m) out N) as [Na Ha].
    destruct (IH true s' _ M' Na (or_intror eq_refl) (fun m' H => B m' (or_intror H))) as [N1 H1]. split; [auto|]. intros k. rewrite H1, Ha, P. split.
    + intros [[H|[H [->|[_ J]]]]|(H & m' & Hm & J)]; [auto|discriminate (B _ (or_introl eq_refl))|right; split; [auto|]; exists m; auto|right; split; [auto|]; exists m'; auto].
    + intros [H|(H & m' & [<-|Hm] & J)]; [auto|left; right; auto|right; split; [auto|exists m'; auto]].
Qed.
End Names.

Lemma undotted_inj a : forall b, free "_" a -> free "_" b -> undotted a = undotted b -> a = b.
Proof.
  unfold free. induction a as [|c a IH]; intros [|d b] Fa Fb E; simpl in *; try discriminate E; auto.
  injection E as Ec E. f_equal; [|apply IH; auto]. destruct (ascii_dec c "."), (ascii_dec d "."); subst; auto; exfalso; auto.
Qed.
Lemma numbered_free k : no_underscore k -> free "_" (numbered k).
Proof.
  intros [Fn Fl]. unfold free, numbered in *. destruct (vk_lineage k) as [[|p l]|]; auto. rewrite !chars_app, !in_app_iff.
  intros [H|[[H|[]]|H]]; [|discriminate H|auto]. apply join_In in H as [[H|[]]|(s & Hs & H)]; [discriminate H|].
  apply in_map_iff in Hs as (q & <- & Hq). unfold numbered_model in H. destruct (snd q); [apply (Fl _ q eq_refl Hq H)|].
  rewrite chars_app, in_app_iff in H. destruct H as [H|H]; [apply (Fl _ q eq_refl Hq H)|]. revert H. apply show_nat_free. not_digit.
Qed.

Lemma insert_name_perm x l : Permutation (insert_name x l) (x :: l).
Proof. induction l as [|y l IH]; simpl; [auto|]. destruct (String.compare _ _); auto. rewrite IH. apply perm_swap. Qed.
Lemma sort_names_perm l : Permutation (sort_names l) l.
Proof. induction l as [|x l IH]; simpl; [auto|]. rewrite insert_name_perm. constructor. exact IH. Qed.
Lemma In_vars {T} (vars : variables (T := T)) k : In k (map fst vars) -> exists v, dget vars k = Some v.
Proof. intros H. destruct (dget vars k) as [v|] eqn:E; [eauto|]. apply dget_None in E. contradiction. Qed.

(** ** C91 *)

(** A MATLAB file has each of the solution's variables once, with its value, by a name of its own. What is missing: names with underscores, variables
    that differ only in their units. *)
Theorem C91_mat_partial : forall (vars : variables (T := R)), well_named vars -> (forall k, In k (map fst vars) -> no_underscore k) ->
  exists name : vkey -> string, savemat vars [] = map (fun kv => (name (fst kv), fst (snd kv))) vars /\
    (forall k, In k (map fst vars) -> name k = undotted (numbered k) \/ name k = undotted (vk_name k)) /\
    (forall k1 k2, In k1 (map fst vars) -> In k2 (map fst vars) -> name k1 = name k2 -> k1 = k2).
Proof.
  intros vars wn Fu. set (name := printed_name (key_set (map fst vars))). exists (fun k => undotted (name k)).
  assert (Fn : forall k, In k (map fst vars) -> free "_" (name k)).
  { intros k Hk. destruct (name_is vars wn k Hk) as [E|E]; unfold name; rewrite E; [apply numbered_free; auto|apply (Fu k Hk)]. }
  assert (Inj : forall k1 k2, In k1 (map fst vars) -> In k2 (map fst vars) -> undotted (name k1) = undotted (name k2) -> k1 = k2).
  { intros k1 k2 H1 H2 E. apply (name_inj vars wn); auto. apply undotted_inj; auto. }
  split; [|split; [|exact Inj]].
  - unfold savemat. rewrite (varnames_is vars wn). fold name.
    assert (N : NoDup (map fst vars)) by apply wn.
    assert (G : forall l d, (forall kv, In kv l -> In kv vars) -> NoDup (map fst l) -> (forall kv, In kv l -> ~ In (undotted (name (fst kv))) (dkeys d)) ->
      fold_left (fun d nk => match dget vars (snd nk) with Some v => dset d (undotted (fst nk)) (fst v) | None => d end) (map (fun k => (name k, k)) (map fst l)) d =
      d ++ map (fun kv => (undotted (name (fst kv)), fst (snd kv))) l).
    { induction l as [|[k v] l IH]; intros d Hl Nl D; simpl; [rewrite app_nil_r; auto|].
      assert (E : dget vars k = Some v) by (apply In_dget; [exact N|apply Hl; left; auto]). rewrite E. inversion Nl as [|? ? Nk Nl']; subst.
      rewrite dset_absent by (apply (D (k, v)); left; auto). rewrite IH; [rewrite <- app_assoc; auto|intros; apply Hl; right; auto|auto|].
      intros [k' v'] Hk'. unfold dkeys. rewrite map_app, in_app_iff. simpl. intros [H|[H|[]]]; [apply (D (k', v')); [right; auto|auto]|].
      apply Nk. rewrite elem_of_list_In. apply Inj in H; [subst; apply (in_map fst l (k', v') Hk')|apply (in_map fst vars (k, v)); apply Hl; left; auto|apply (in_map fst vars (k', v')); apply Hl; right; auto]. }
    rewrite (G vars []); auto.
  - intros k Hk. destruct (name_is vars wn k Hk) as [E|E]; fold name in E; rewrite E; auto.
Qed.
Print Assumptions C91_mat_partial.

(** A dataframe has a row for each variable and index, with the value there, and no others. What is missing: as above, but for underscores. *)
Theorem C91_frame_partial : forall (vars : variables (T := R)), well_named vars ->
  NoDup (map fst (todataframe vars [])) /\
  forall k idx c, In (k, idx, c) (todataframe vars []) <-> exists v label, In (k, (v, label)) vars /\ has_entry v idx c.
Proof.
  intros vars wn. assert (N : NoDup (map fst vars)) by apply wn.
  set (rows_of := fun k => match dget vars k with Some v => frame_rows k (fst v) | None => [] end).
  assert (P : Permutation (todataframe vars []) (flat_map rows_of (map fst vars))).
  { unfold todataframe. rewrite sort_names_perm, (varnames_is vars wn). rewrite flat_map_concat_map, map_map. cbn [snd]. rewrite <- flat_map_concat_map. reflexivity. }
  assert (Rows : forall k (v : value (T := R)) idx c, In (k, idx, c) (frame_rows k v) <-> has_entry v idx c).
  { intros k v idx c. destruct v as [c'|shape val]; simpl.
    - split; [intros [[= <- <-]|[]]; constructor|]. intros H. inversion H; subst. auto.
    - rewrite in_map_iff. split; [intros (i & [= <- <-] & Hi); constructor; apply indices_In; auto|].
      intros H. inversion H; subst. eexists. split; [reflexivity|]. apply indices_In. auto. }
  assert (Key : forall k (v : value (T := R)) r, In r (frame_rows k v) -> fst (fst r) = k).
  { intros k [c|shape val] r; simpl; [intros [<-|[]]; auto|]. rewrite in_map_iff. intros (i & <- & _). auto. }
  split.
  - rewrite P. rewrite flat_map_concat_map, concat_map, map_map, <- flat_map_concat_map. apply NoDup_flat; [exact N| |].
    + intros k _. unfold rows_of. destruct (dget vars k) as [[v l]|]; [|constructor]. destruct v as [c|shape val]; simpl; [repeat constructor; intros H; inversion H|].
      rewrite map_map. cbn [fst]. apply NoDup_map_on; [apply indices_NoDup|]. intros x y _ _ [= E]. auto.
    + intros k1 k2 b _ _ H1 H2. unfold rows_of in *. apply in_map_iff in H1 as (r1 & <- & H1), H2 as (r2 & E & H2).
      destruct (dget vars k1) as [v1|]; [|destruct H1]. destruct (dget vars k2) as [v2|]; [|destruct H2]. apply Key in H1, H2. congruence.
  - intros k idx c. assert (Q : In (k, idx, c) (todataframe vars []) <-> In (k, idx, c) (flat_map rows_of (map fst vars))) by (split; apply Permutation_in; [|symmetry]; exact P).
    rewrite Q, in_flat_map. split.
    + intros (k' & Hk' & H). unfold rows_of in H. destruct (dget vars k') as [[v l]|] eqn:E; [|destruct H]. pose proof (Key _ _ _ H) as Ek. simpl in Ek. subst k'.
      exists v, l. split; [apply dget_In; auto|]. apply Rows in H. auto.
    + intros (v & l & Hv & H). exists k. split; [apply (in_map fst vars (k, (v, l)) Hv)|]. unfold rows_of. rewrite (In_dget vars k (v, l)) by auto. apply Rows. auto.
Qed.
Print Assumptions C91_frame_partial.

Lemma string_le_trans a : forall b c, String.compare a b <> Gt -> String.compare b c <> Gt -> String.compare a c <> Gt.
Proof.
  induction a as [|x a IH]; intros [|y b] [|z c]; simpl; try congruence. unfold Ascii.compare.
  destruct (N.compare_spec (N_of_ascii x) (N_of_ascii y)) as [E1|L1|L1]; destruct (N.compare_spec (N_of_ascii y) (N_of_ascii z)) as [E2|L2|L2]; try congruence; intros H1 H2;
    destruct (N.compare_spec (N_of_ascii x) (N_of_ascii z)) as [E3|L3|L3]; try congruence; try lia.
  eapply IH; eassumption.
Qed.
Lemma sort_names_sorted l : StronglySorted (fun x y => String.compare (fst x) (fst y) <> Gt) (sort_names l).
Proof.
  induction l as [|x l IH]; simpl; [constructor|]. revert IH. generalize (sort_names l). clear l. intros l' IH. induction IH as [|y l Hl IHl Hy]; simpl; [repeat constructor|].
  destruct (String.compare (fst x) (fst y)) eqn:E.
  - constructor; [constructor; auto|]. constructor; [rewrite E; discriminate|]. eapply Forall_impl; [exact Hy|]. intros z Hz. eapply string_le_trans; [rewrite E; discriminate|exact Hz].
  - constructor; [constructor; auto|]. constructor; [rewrite E; discriminate|]. eapply Forall_impl; [exact Hy|]. intros z Hz. eapply string_le_trans; [rewrite E; discriminate|exact Hz].
  - constructor; [exact IHl|]. apply Forall_forall. intros z Hz. apply elem_of_list_In in Hz. apply (Permutation_in _ (insert_name_perm x l)) in Hz as [<-|Hz].
    + rewrite String.compare_antisym, E. discriminate.
    + rewrite Forall_forall in Hy. apply Hy, elem_of_list_In, Hz.
Qed.
(** The rows of a dataframe are in the order of the variables' names, as they are printed. *)
Theorem C91_order : forall (vars : variables (T := R)), well_named vars ->
  exists name : vkey -> string, (forall k, In k (map fst vars) -> name k = numbered k \/ name k = vk_name k) /\
    (forall k1 k2, In k1 (map fst vars) -> In k2 (map fst vars) -> name k1 = name k2 -> k1 = k2) /\
    StronglySorted (fun r1 r2 => String.compare (name (fst (fst r1))) (name (fst (fst r2))) <> Gt) (todataframe vars []).
Proof.
  intros vars wn. exists (printed_name (key_set (map fst vars))). split; [apply (name_is vars wn)|]. split; [apply (name_inj vars wn)|].
  unfold todataframe. rewrite (varnames_is vars wn). set (name := printed_name _).
  assert (Hn : forall x, In x (sort_names (map (fun k => (name k, k)) (map fst vars))) -> fst x = name (snd x)).
  { intros x Hx. apply (Permutation_in _ (sort_names_perm _)) in Hx. apply in_map_iff in Hx as (k & <- & _). reflexivity. }
  assert (Key : forall k (v : value (T := R)) r, In r (frame_rows k v) -> fst (fst r) = k).
  { intros k [c|shape val] r; simpl; [intros [<-|[]]; auto|]. rewrite in_map_iff. intros (i & <- & _). auto. }
  pose proof (sort_names_sorted (map (fun k => (name k, k)) (map fst vars))) as S. induction S as [|x l Sl IH Hx]; [constructor|].
  cbn [flat_map]. specialize (IH (fun y Hy => Hn y (or_intror Hy))). set (rest := flat_map _ l) in *.
  assert (Hr : forall r, In r rest -> String.compare (name (snd x)) (name (fst (fst r))) <> Gt).
  { intros r Hr. apply in_flat_map in Hr as (y & Hy & Hr). destruct (dget vars (snd y)) as [v|]; [|destruct Hr]. apply Key in Hr. rewrite Hr.
    rewrite Forall_forall in Hx. specialize (Hx y (proj2 (elem_of_list_In _ _) Hy)). rewrite (Hn x (or_introl eq_refl)), (Hn y (or_intror Hy)) in Hx. exact Hx. }
  destruct (dget vars (snd x)) as [v|]; [|exact IH]. pose proof (Key (snd x) (fst v)) as Kx.
  induction (frame_rows (snd x) (fst v)) as [|r rs IHr]; [exact IH|]. cbn [app]. constructor; [apply IHr; intros r' Hr'; apply Kx; right; exact Hr'|].
  apply Forall_forall. intros r' Hr'. apply elem_of_list_In, in_app_iff in Hr' as [Hr'|Hr'].
  - rewrite (Kx r (or_introl eq_refl)), (Kx r' (or_intror Hr')), string_compare_refl. discriminate.
  - rewrite (Kx r (or_introl eq_refl)). apply Hr, Hr'.
Qed.
Print Assumptions C91_order.

(** Only the variables called by the names asked for, if there are any *)
Theorem C91_showvars_partial : forall (vars : variables (T := R)) names, well_named vars -> (exists k n, In k (map fst vars) /\ In n names /\ called k n) ->
  NoDup (map snd (varnames vars (map MStr names))) /\
  forall k, In k (map snd (varnames vars (map MStr names))) <-> In k (map fst vars) /\ exists n, In n names /\ called k n.
Proof.
  intros vars names wn (k0 & n0 & Hk0 & Hn0 & C0).
  destruct (parse_spec vars (map MStr names) false (key_set (map fst vars)) [] (mapped_start _) ltac:(constructor)) as [N H].
  - left. apply existsb_exists. exists (MStr n0). split; [apply in_map; auto|auto].
  - intros m Hm. apply in_map_iff in Hm as (n & <- & _). auto.
  - assert (H' : forall k, In k (parse_showvars (key_set (map fst vars)) (map MStr names) []) <-> In k (map fst vars) /\ exists n, In n names /\ called k n).
    { intros k. rewrite H. split.
      - intros [[]|(Hk & m & Hm & J)]. apply in_map_iff in Hm as (n & <- & Hn). split; [auto|]. exists n. split; [auto|]. apply called_iff. auto.
      - intros (Hk & n & Hn & C). right. split; [auto|]. exists (MStr n). split; [apply in_map; auto|apply called_iff; auto]. }
    unfold varnames. destruct (parse_showvars _ _ _) as [|f fs] eqn:E; [exfalso; apply (proj2 (H' k0)); eauto|]. rewrite <- E in *.
    rewrite (varnames_of vars wn _ N), map_map by (intros k Hk; apply H' in Hk; tauto). cbn [snd]. rewrite map_id. auto.
Qed.
Print Assumptions C91_showvars_partial.
(** When none is called so, all variables are saved. *)
Theorem C91_showvars_refuted : forall (vars : variables (T := R)) names, (forall k n, In k (map fst vars) -> In n names -> ~ called k n) ->
  savemat vars (map MStr names) = savemat vars [] /\ todataframe vars (map MStr names) = todataframe vars [].
Proof.
  intros vars names No. assert (E : varnames vars (map MStr names) = varnames vars []).
  { destruct names as [|n names]; [auto|].
    destruct (parse_spec vars (map MStr (n :: names)) false (key_set (map fst vars)) [] (mapped_start _) ltac:(constructor)) as [N H].
    - left. auto.
    - intros m Hm. apply in_map_iff in Hm as (n' & <- & _). auto.
    - unfold varnames. destruct (parse_showvars _ (map MStr (n :: names)) _) as [|f fs] eqn:E; [auto|]. exfalso.
      destruct (proj1 (H f)) as [[]|(Hf & m & Hm & J)]; [left; auto|]. apply in_map_iff in Hm as (n' & <- & Hn). apply (No f n' Hf Hn). apply called_iff. auto. }
  unfold savemat, todataframe. rewrite E. auto.
Qed.
Print Assumptions C91_showvars_refuted.

(** A variable is left out of the file when another's name with its model, dots replaced, is the same. *)
Definition xin (m : string) : vkey := VKey "x" (Some [(m, 0)]) None "".
Ltac plain := split; unfold free; simpl; intros H; repeat (destruct H as [H|H]; [discriminate H|]); exact H.
Theorem C91_mat_refuted : exists vars : variables (T := R), well_named vars /\ List.length (savemat vars []) < List.length vars.
Proof.
  exists [(xin "A", (Scalar (Some 1%R), ""%string)); (xin "B", (Scalar (Some 2%R), ""%string)); (VKey "A_x" None None "", (Scalar (Some 3%R), ""%string))]. split.
  - split; [apply (bool_decide_unpack _); vm_compute; exact I|]. split.
    + intros k Hk. simpl in Hk. destruct Hk as [<-|[<-|[<-|[]]]]; (split; [reflexivity|plain]).
    + intros k1 k2 H1 H2 E1 E2. simpl in H1, H2. destruct H1 as [<-|[<-|[<-|[]]]], H2 as [<-|[<-|[<-|[]]]]; solve [reflexivity|discriminate E1].
  - vm_compute. lia.
Qed.
Print Assumptions C91_mat_refuted.
(** Of two variables that differ only in their units, one is left out of everything. *)
Theorem C91_units_refuted : exists vars : variables (T := R), NoDup (map fst vars) /\ (forall k, In k (map fst vars) -> vk_idx k = None /\ plain_name k) /\
  List.length (savemat vars []) < List.length vars /\ exists k, In k (map fst vars) /\ forall idx c, ~ In (k, idx, c) (todataframe vars []).
Proof.
  exists [(VKey "x" None None "m", (Scalar (Some 1%R), ""%string)); (VKey "x" None None "ft", (Scalar (Some 2%R), ""%string))].
  split; [apply (bool_decide_unpack _); vm_compute; exact I|]. split; [intros k Hk; simpl in Hk; destruct Hk as [<-|[<-|[]]]; (split; [reflexivity|plain])|].
  split; [vm_compute; lia|]. exists (VKey "x" None None "m"). split; [left; auto|]. intros idx c H. vm_compute in H. destruct H as [H|[]]. discriminate H.
Qed.
Print Assumptions C91_units_refuted.

(** Two wings and a vector *)
Definition two_wings : variables (T := Q) :=
  [(VKey "S" (Some [("Wing"%string, 0)]) None "m^2", (Scalar (Some 3%Q), "area"%string)); (VKey "S" (Some [("Wing"%string, 1)]) None "m^2", (Scalar (Some 4%Q), "area"%string));
   (VKey "c" (Some [("Wing"%string, 0)]) None "m", (Array [2] (fun i => Some (inject_Z (Z.of_nat (nth 0 i 0)))), "chord"%string))].
Example C91_example : well_named two_wings /\ (forall k, In k (map fst two_wings) -> no_underscore k) /\
  map fst (savemat two_wings []) = ["Wing_S"; "Wing1_S"; "c"]%string /\
  map (fun r => (vk_name (fst (fst r)), snd (fst r), snd r)) (todataframe two_wings []) =
    [("S"%string, None, Some 3%Q); ("S"%string, None, Some 4%Q); ("c"%string, Some [0], Some 0%Q); ("c"%string, Some [1], Some 1%Q)].
Proof.
  split; [|split; [|split; vm_compute; reflexivity]].
  - split; [apply (bool_decide_unpack _); vm_compute; exact I|]. split.
    + intros k Hk. simpl in Hk. destruct Hk as [<-|[<-|[<-|[]]]]; (split; [reflexivity|plain]).
    + intros k1 k2 H1 H2 E1 E2. simpl in H1, H2. destruct H1 as [<-|[<-|[<-|[]]]], H2 as [<-|[<-|[<-|[]]]]; solve [reflexivity|discriminate E1].
  - intros k Hk. simpl in Hk. destruct Hk as [<-|[<-|[<-|[]]]]; (split; [unfold free; simpl; intros H; repeat (destruct H as [H|H]; [discriminate H|]); exact H|]);
      intros l p [= <-] [<-|[]]; unfold free; simpl; intros H; repeat (destruct H as [H|H]; [discriminate H|]); exact H.
Qed.
