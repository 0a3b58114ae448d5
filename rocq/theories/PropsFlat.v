(** C25: flattening nested constraint sets. *)
From Verif Require Import Base Flat FlatProofs.
From Coq Require Import Sorting.Sorted.
Open Scope nat_scope.

(** ** C25: every constraint exactly once, in reading order *)

Definition C25_for (cond : forall C, list (item C) -> Prop) : Prop :=
  forall (C : Type) (l : list (item C)), cond C l -> lists_all before l is_leaf (flat l).

(** Iterating yields the constraints of lists, dicts, arrays and sets nested in
    each other. What is missing: arrays that do not directly contain constraints. *)
Theorem C25_flat_partial : C25_for (fun C l => Forall plain_arrays l).
Proof. intros C l Hp. apply flat_leaves. exact Hp. Qed.
Print Assumptions C25_flat_partial.

(** The elements of a numpy array are yielded as they are: a constraint set in one
    comes out unflattened, and its constraints do not. *)
Theorem C25_array_refuted : ~ C25_for (fun C l => True).
Proof.
  intros H. specialize (H nat [Arr [CSet 0 [Leaf 1]]] I). destruct H as (ps & Hs & Hin & Hall).
  simpl in Hall. inversion Hall as [|p i ps' out E Hall']; subst. inversion Hall'; subst.
  assert (Hp : In [0; 0; 0] [p]). { apply Hin. exists (Leaf 1). split; [reflexivity|exact I]. }
  destruct Hp as [-> |[]]. discriminate E.
Qed.
Print Assumptions C25_array_refuted.

(** What the whole set constrains is what its constraints constrain, in
    reading order; it fails exactly if one of them fails. [fuel] stands for
    Python's recursion limit. *)
Theorem C25_whole_set : forall (C H : Type) (gen : C -> res (list H)) (fuel : nat) (l : list (item C)),
  Forall plain_arrays l -> list_max (map depth l) < fuel ->
  exists out, lists_all before l is_leaf out /\
    forall hs, set_hmaps gen fuel l = Ok hs <->
      exists hss, Forall2 (fun i h => exists c, i = Leaf c /\ gen c = Ok h) out hss /\ hs = concat hss.
Proof.
  intros C H gen fuel l Hp Hd. exists (flat l). split; [apply flat_leaves; auto|].
  intros hs. apply set_hmaps_spec; auto.
Qed.
Print Assumptions C25_whole_set.

(** Results are processed once for every set at any depth, for a set
    after the sets in it, and last for the set itself. *)
Theorem C25_processed_once : forall (C : Type) (fuel id : nat) (l : list (item C)),
  Forall plain_arrays l -> list_max (map depth l) < fuel ->
  exists out, lists_all inside_out l (fun i => exists id' l', i = CSet id' l') out /\
    exists ids, Forall2 (fun i id' => exists l', i = CSet id' l') out ids /\ processed fuel id l = ids ++ [id].
Proof.
  intros C fuel id l Hp Hd. exists (sets_in fuel l).
  destruct (sets_lists fuel l Hd Hp) as (ps & Hs & Hin & Hall).
  assert (Hk : forall i : item C, is_set i <-> exists id' l', i = CSet id' l').
  { intros i. destruct i; simpl; split; try tauto; try (intros (? & ? & [=])); eauto. }
  split.
  - exists ps. split; [auto|]. split; [|auto]. intros p. rewrite Hin.
    split; intros (i & E & Hi); exists i; (split; [auto|]); apply Hk; auto.
  - exists (map set_id (sets_in fuel l)). split; [|apply processed_sets; auto; lia].
    assert (Hsets : forall i, In i (sets_in fuel l) -> is_set i).
    { intros i Hi. apply elem_of_list_In, elem_of_list_lookup in Hi as (n & Hn).
      destruct (Forall2_lookup_r _ _ _ _ _ Hall Hn) as (p & Hp' & E).
      assert (Hp2 : In p ps) by (apply elem_of_list_In, elem_of_list_lookup; eauto).
      apply Hin in Hp2 as (j & Ej & Hj). congruence. }
    clear - Hsets. induction (sets_in fuel l) as [|i m IH]; simpl; constructor.
    + assert (Hi := Hsets i (or_introl eq_refl)). destruct i; try contradiction. simpl. eauto.
    + apply IH. intros; apply Hsets; right; auto.
Qed.
Print Assumptions C25_processed_once.

(** ** Numbering the constraints for their relaxation variables *)

Definition C25_numbering_for (cond : forall C, list (item C) -> Prop) : Prop :=
  forall (C : Type) (l : list (item C)), Forall plain_arrays l -> cond C l ->
    exists r, relax_numbers l = Ok r /\ map fst r = seq 0 (length r) /\ lists_all before l is_leaf (map snd r).

(** ConstraintsRelaxed gives each constraint its own relaxation variable if the set has no
    more constraints than members, as when it is a flat list of constraints. What is
    missing: lists, vector constraints or sets with more. *)
Theorem C25_numbering_partial : C25_numbering_for (fun C l => length (flat l) <= length l).
Proof.
  intros C l Hp Hlen. exists (combine (seq 0 (length (flat l))) (flat l)). split; [|split].
  - apply numbered_ok. simpl. exact Hlen.
  - rewrite map_fst_combine by (rewrite seq_length; auto). rewrite combine_length, seq_length, Nat.min_id. auto.
  - rewrite map_snd_combine by (rewrite seq_length; auto). apply flat_leaves. auto.
Qed.
Print Assumptions C25_numbering_partial.

Theorem C25_flat_list : forall (C : Type) (l : list (item C)), Forall is_leaf l -> length (flat l) <= length l.
Proof. intros C l Hl. rewrite flat_of_leaves; auto. Qed.
Print Assumptions C25_flat_list.

(** With more constraints than members it raises an IndexError: it never leaves a constraint out
    silently. *)
Theorem C25_numbering_raises : forall (C : Type) (l : list (item C)),
  length l < length (flat l) <-> relax_numbers l = Err IndexErrorE.
Proof.
  intros C l. split; intros H; [apply numbered_err; simpl; lia|].
  destruct (Nat.lt_ge_cases (length l) (length (flat l))) as [?|Hge]; auto.
  unfold relax_numbers in H. rewrite numbered_ok in H by (simpl; lia). discriminate.
Qed.
Print Assumptions C25_numbering_raises.

(** The relaxation variables are as many as the members of the set, not as its constraints: a
    set containing one vector constraint of two elements cannot be relaxed. *)
Theorem C25_numbering_refuted : ~ C25_numbering_for (fun C l => True).
Proof.
  intros H. destruct (H nat [ArrC [Leaf 0; Leaf 1]]) as (r & E & _); [repeat constructor|exact I|].
  vm_compute in E. discriminate.
Qed.
Print Assumptions C25_numbering_refuted.

(** ** The hypotheses can be met *)

Example nested : list (item nat) :=
  [Leaf 0; CSet 10 [Leaf 1; Lst [Leaf 2; Arr [Leaf 3; Leaf 4]]; CSet 11 [Leaf 5]]; Dct [(0, Leaf 6); (1, CSet 12 [ArrC [Leaf 7]])]; Lst []].
Example nested_plain : Forall plain_arrays nested /\ list_max (map depth nested) < 3.
Proof. split; [|vm_compute; lia]. repeat constructor. Qed.
Example nested_flat : flat nested = map Leaf [0; 1; 2; 3; 4; 5; 6; 7]. Proof. reflexivity. Qed.
Example nested_processed : processed 3 9 nested = [11; 10; 12; 9]. Proof. reflexivity. Qed.
Example nested_hmaps : set_hmaps (fun c => Ok [c; c]) 3 nested = Ok (flat_map (fun c => [c; c]) [0; 1; 2; 3; 4; 5; 6; 7]). Proof. reflexivity. Qed.
Example numbered_mixed : relax_numbers [Leaf 0; Lst [Leaf 1; Leaf 2]; Lst []] = Ok [(0, Leaf 0); (1, Leaf 1); (2, Leaf 2)]. Proof. reflexivity. Qed.
