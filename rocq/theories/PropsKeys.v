(** C116: nomials and arrays of them as keys of dictionaries. *)
From Verif Require Import Base HashVec HashVecProofs Nomial NomialSem NomialProofs CanonProofs DiffProofs Mono Constraint ConstraintSem ConstraintProofs
  Compare CompareSpec CompareProofs Keys PropsCompare.
From Verif Require Layout Vector PropsLayout.
Open Scope R_scope.

(** Two nomials are the same function. *)
Definition same (a b : operand R) : Prop := forall q, positive_point q -> value_at q a = value_at q b.
Definition nomial (a : operand R) : Prop := proper a /\ is_number a = false.

Lemma nomial_not_nonpositive a : nomial a -> ~ nonpositive a.
Proof. intros [_ N] (c & -> & _). discriminate. Qed.

Lemma eq_truth se a b c : proper a -> proper b -> ~ nonpositive a -> ~ nonpositive b -> compare se OpEq a b = Ok c -> truth c = true <-> same a b.
Proof.
  intros Pa Pb Na Nb Ex. unfold same. pose proof (compare_spec se OpEq _ _ Pa Pb) as S. rewrite Ex in S.
  destruct c as [t|? ? ? ?|? ? ? ?|l r u]; cbn [made truth] in *.
  - destruct S as [(N1 & N2 & S)|(_ & _ & S)]; [|exact S]. split; [intros Ht q _; apply S; exact Ht|]. intros K.
    apply (S (fun _ => 1)). apply K. intros ?; lra.
  - destruct S as (No & _). congruence.
  - destruct S as (_ & No & _). congruence.
  - destruct S as (_ & [S|[S|G]] & Sd & _); [destruct (Na S)|destruct (Nb S)|]. destruct G as [Ga Gb].
    assert (M : is_mono l /\ is_mono r /\ ((forall q, positive_point q -> eval q l = eval q r) <-> forall q, positive_point q -> value_at q a = value_at q b)).
    { destruct Sd as [[-> ->]|[-> ->]]; (split; [assumption|]; split; [assumption|]); split; intros K q Pq; specialize (K q Pq); rewrite ?value_terms in *; congruence. }
    destruct M as (Ml & Mr & <-). pose proof (mono_posy _ Ml) as (Cl & _). pose proof (mono_posy _ Mr) as (Cr & _).
    destruct Ml as (e & d & -> & _), Mr as (e' & d' & -> & _). rewrite <- mono_identical by assumption. destruct (decide _); [tauto|]. split; [discriminate|tauto].
Qed.

Lemma same_eq se a b : nomial a -> nomial b -> same a b -> exists c, compare se OpEq a b = Ok c /\ truth c = true.
Proof.
  intros Ha Hb Hs. assert (Hok : exists c, compare se OpEq a b = Ok c).
  { pose proof (nomial_not_nonpositive a Ha) as Na. pose proof (nomial_not_nonpositive b Hb) as Nb.
    destruct Ha as [Pa Ia], Hb as [Pb Ib]. destruct (compare_table se OpEq a b) as [(x & y & -> & _)|[_ T]]; [discriminate|].
    destruct (gp_form OpEq a b) eqn:G; [|destruct T as [->| ->]; eauto].
    assert (Gc : gp_compatible OpEq a b) by (apply gp_form_compatible; auto).
    assert (P1 : positive_point (fun _ => 1)) by (intros ?; lra).
    destruct T as [T|T]; rewrite T.
    - pose proof (monomial_equality_spec se a b Pa Pb) as S. destruct (monomial_equality se a b) as [c|e]; [eauto|].
      destruct S as [[S|S]|S]; [destruct (Na S)|destruct (Nb S)|destruct (S Gc (fun _ => 1) (Hs _ P1))].
    - pose proof (monomial_equality_spec se b a Pb Pa) as S. destruct (monomial_equality se b a) as [c|e]; [eauto|].
      destruct S as [[S|S]|S]; [destruct (Nb S)|destruct (Na S)|]. assert (Gc' : gp_compatible OpEq b a) by (destruct Gc; split; auto).
      destruct (S Gc' (fun _ => 1)). symmetry. apply Hs, P1. }
  destruct Hok as [c Hc]. exists c. split; auto. apply (eq_truth se a b c); auto; try apply nomial_not_nonpositive; auto; [apply Ha|apply Hb].
Qed.

Lemma same_hash nh ih a b : nomial a -> nomial b -> same a b -> hash_operand nh ih a = hash_operand nh ih b.
Proof.
  intros [Pa Ia] [Pb Ib] Hs. destruct a as [x|v h], b as [y|v' h']; try discriminate. simpl. destruct Pa as (Ca & _), Pb as (Cb & _).
  apply hash_items_perm. apply dict_equiv_perm; [apply Ca|apply Cb|]. apply hmap_eqb_equiv; [apply Ca|apply Cb|]. apply eq_decides; auto.
Qed.

(** Whatever Python's hashes of numbers and tuples, nomials that are equal as a condition have the same hash. *)
Theorem C116_equal_hash : forall (number_hash : R -> Z) (item_hash : expv R * R -> Z) (se : bool) (a b : operand R), nomial a -> nomial b ->
  equal_operands se a b = Ok true -> hash_operand number_hash item_hash a = hash_operand number_hash item_hash b.
Proof.
  intros nh ih se a b Ha Hb E. unfold equal_operands in E. destruct (compare se OpEq a b) as [c|] eqn:Ec; [|discriminate]. simpl in E. injection E as E.
  apply same_hash; auto. eapply eq_truth; eauto; try apply nomial_not_nonpositive; auto; [apply Ha|apply Hb].
Qed.
Print Assumptions C116_equal_hash.

(** So, if hashes tell the nomials in it apart, a dictionary of nomials finds the first key that is the same function, and nothing if there is none. *)
Theorem C116_found_partial : forall (number_hash : R -> Z) (item_hash : expv R * R -> Z) (se : bool) (V : Type) (d : list (operand R * V)) (k : operand R),
  nomial k -> Forall (fun kv => nomial (fst kv)) d ->
  (forall k' v, In (k', v) d -> hash_operand number_hash item_hash k' = hash_operand number_hash item_hash k -> same k' k) ->
  (forall before k' v after, d = before ++ (k', v) :: after -> same k' k -> (forall k'' w, In (k'', w) before -> ~ same k'' k) ->
     lookup_key (hash_operand number_hash item_hash) (equal_operands se) d k = Ok (Some v)) /\
  ((forall k' v, In (k', v) d -> ~ same k' k) -> lookup_key (hash_operand number_hash item_hash) (equal_operands se) d k = Ok None).
Proof.
  intros nh ih se V d k Hk Hd Hc.
  assert (Hskip : forall before after, (forall k' v, In (k', v) before -> ~ same k' k) -> (forall k' v, In (k', v) before -> hash_operand nh ih k' = hash_operand nh ih k -> same k' k) ->
    lookup_key (hash_operand nh ih) (equal_operands se) (before ++ after) k = lookup_key (V := V) (hash_operand nh ih) (equal_operands se) after k).
  { induction before as [|[k' v] before IH]; intros after Hn Hh; [reflexivity|]. simpl. destruct (Z.eqb_spec (hash_operand nh ih k') (hash_operand nh ih k)) as [E|E].
    - destruct (Hn k' v (or_introl eq_refl)). apply (Hh k' v); [left; auto|exact E].
    - apply IH; intros k0 v0 Hi; [apply (Hn k0 v0)|apply (Hh k0 v0)]; right; auto. }
  split.
  - intros before k' v after -> Hs Hb. rewrite Hskip; [|exact Hb|intros k0 v0 Hi; apply (Hc k0 v0); apply in_app_iff; auto]. simpl.
    assert (Hk' : nomial k') by (rewrite List.Forall_forall in Hd; apply (Hd (k', v)), in_app_iff; right; left; auto).
    rewrite (same_hash nh ih k' k Hk' Hk Hs), Z.eqb_refl. unfold equal_operands. destruct (same_eq se k' k Hk' Hk Hs) as (c & -> & Ht). simpl. rewrite Ht. auto.
  - intros Hn. rewrite <- (app_nil_r d). rewrite Hskip; auto.
Qed.
Print Assumptions C116_found_partial.

Lemma together_same a c : together a a c -> c = a.
Proof.
  intros [Hl H]. rewrite Nat.max_id in Hl. assert (E : rev c = rev a).
  { apply list_eq. intros d. destruct (rev c !! d) as [n|] eqn:E.
    - specialize (H d n E). destruct (rev a !! d) as [x|]; [|contradiction]. f_equal. intuition lia.
    - symmetry. apply lookup_ge_None. apply lookup_ge_None in E. rewrite rev_length in *. lia. }
  rewrite <- (rev_involutive c), <- (rev_involutive a), E. auto.
Qed.
Lemma matches_self a i : in_range a i -> matches a i i.
Proof.
  intros Hi. pose proof (Forall2_length _ _ _ Hi) as Hl. split; [auto|]. split; [lia|]. intros d n Hn.
  assert (Hr : Forall2 lt (rev i) (rev a)) by (apply Forall2_rev'; auto).
  destruct (Forall2_lookup_r _ _ _ _ _ Hr Hn) as (x & Hx & Hlt). exists x, x. split; [auto|]. split; [auto|].
  destruct (Nat.eqb_spec n 1); [lia|auto].
Qed.

(** Arrays of nomials of the same shape that are equal as a condition have the same hash. *)
Definition C116_arrays (shapes : list nat -> list nat -> Prop) : Prop :=
  forall (number_hash : R -> Z) (item_hash : expv R * R -> Z) (se : bool) (a b : Vector.array (operand R)),
  (forall i, in_range (Vector.dims a) i -> nomial (Vector.elt a i)) -> (forall i, in_range (Vector.dims b) i -> nomial (Vector.elt b i)) ->
  shapes (Vector.dims a) (Vector.dims b) ->
  equal_arrays se a b = Ok true -> hash_array number_hash item_hash a = hash_array number_hash item_hash b.
Theorem C116_arrays_partial : C116_arrays eq.
Proof.
  intros nh ih se a b Ha Hb Hd E. unfold equal_arrays in E. destruct (compare_arrays se OpEq a b) as [c|] eqn:Ec; [|discriminate]. simpl in E. injection E as E.
  pose proof Ec as Ef. apply compare_arrays_flat in Ef as (_ & _ & _ & T & _). rewrite <- Hd in T. apply together_same in T.
  assert (Er : forall q, positive_point q -> all_related q OpEq a b (ac_shape c)).
  { apply (C86_truth se a b c); auto; try (intros i Hi; apply nomial_not_nonpositive; auto); intros i Hi; [apply (Ha i Hi)|apply (Hb i Hi)]. }
  clear E. rename Er into E.
  unfold hash_array. rewrite <- Hd.
  assert (Hm : forall l acc, (forall i, In i l -> in_range (Vector.dims a) i) ->
    fold_left (fun acc x => Z.lxor acc (hash_operand nh ih x)) (map (Vector.elt a) l) acc = fold_left (fun acc x => Z.lxor acc (hash_operand nh ih x)) (map (Vector.elt b) l) acc).
  { induction l as [|i l IH]; intros acc Hl; [auto|]. simpl.
    assert (Hi : in_range (Vector.dims a) i) by (apply Hl; left; auto).
    rewrite (same_hash nh ih (Vector.elt a i) (Vector.elt b i)); [apply IH; intros; apply Hl; right; auto|auto|apply Hb; rewrite <- Hd; auto|].
    intros q Pq. specialize (E q Pq i i i). rewrite T in E. apply E; [auto|apply matches_self; auto|rewrite <- Hd; apply matches_self; auto]. }
  apply Hm. intros i Hi. apply PropsLayout.indices_In. auto.
Qed.
Print Assumptions C116_arrays_partial.

(** *** Where it fails *)

(** A number and the monomial that is that number are equal, but only by chance have the same hash. *)
Theorem C116_numbers_refuted : forall (number_hash : Q -> Z) (item_hash : expv Q * Q -> Z), number_hash 2%Q <> item_hash (e_empty, 2%Q) ->
  equal_operands false (Number 2%Q) (Nom false (num_hmap 2%Q)) = Ok true /\
  hash_operand number_hash item_hash (Number 2%Q) <> hash_operand number_hash item_hash (Nom false (num_hmap 2%Q)).
Proof. intros nh ih Hn. split; [vm_compute; reflexivity|]. unfold hash_operand, hash_items, num_hmap. cbn [fold_left]. rewrite Z.lxor_0_l. exact Hn. Qed.
Print Assumptions C116_numbers_refuted.

Definition xQ : operand Q := Nom true (var_hmap 0).
Definition yQ : operand Q := Nom true (var_hmap 1).
Definition twice : operand Q := Nom false [({[0%nat := 1%Q]}, 2%Q)].
Definition arr (l : list (operand Q)) : Vector.array (operand Q) := Vector.Arr [length l] (fun i => match i with [n] => nth n l xQ | _ => xQ end).

(** Arrays of different shapes may be equal: [x, x] and [x]. The hash of the first is 0, as of any array in which each element appears twice. *)
Theorem C116_broadcast_refuted : forall (number_hash : Q -> Z) (item_hash : expv Q * Q -> Z), hash_operand number_hash item_hash xQ <> 0%Z ->
  equal_arrays false (arr [xQ; xQ]) (arr [xQ]) = Ok true /\
  hash_array number_hash item_hash (arr [xQ; xQ]) <> hash_array number_hash item_hash (arr [xQ]).
Proof.
  intros nh ih Hn. split; [vm_compute; reflexivity|]. unfold hash_array, arr. cbn [Vector.dims Vector.elt length Layout.indices seq flat_map map app nth fold_left].
  rewrite !Z.lxor_0_l, Z.lxor_nilpotent. auto.
Qed.
Print Assumptions C116_broadcast_refuted.

(** Looking up an array may raise, whatever the hashes of its elements: in a dictionary that has another array of pairs of elements, since the
    shapes do not match; or one with the same elements in another order, if they are multiples of each other. *)
Theorem C116_lookup_refuted : forall (number_hash : Q -> Z) (item_hash : expv Q * Q -> Z),
  lookup_key (hash_array number_hash item_hash) (equal_arrays false) [(arr [xQ; xQ], 1%nat)] (arr [yQ; yQ; yQ; yQ]) = Err ValueErrorE /\
  lookup_key (hash_array number_hash item_hash) (equal_arrays false) [(arr [xQ; twice], 1%nat)] (arr [twice; xQ]) = Err PrimalInfeasibleE.
Proof.
  intros nh ih. assert (H1 : hash_array nh ih (arr [xQ; xQ]) = hash_array nh ih (arr [yQ; yQ; yQ; yQ])).
  { unfold hash_array, arr. cbn [Vector.dims Vector.elt length Layout.indices seq flat_map map app nth fold_left].
    repeat first [rewrite Z.lxor_0_l|rewrite Z.lxor_nilpotent]. reflexivity. }
  assert (H2 : hash_array nh ih (arr [xQ; twice]) = hash_array nh ih (arr [twice; xQ])).
  { unfold hash_array, arr. cbn [Vector.dims Vector.elt length Layout.indices seq flat_map map app nth fold_left]. rewrite !Z.lxor_0_l. apply Z.lxor_comm. }
  unfold lookup_key. rewrite H1, H2, !Z.eqb_refl. split; [replace (equal_arrays false (arr [xQ; xQ]) (arr [yQ; yQ; yQ; yQ])) with (@Err bool ValueErrorE) by (vm_compute; reflexivity)
    |replace (equal_arrays false (arr [xQ; twice]) (arr [twice; xQ])) with (@Err bool PrimalInfeasibleE) by (vm_compute; reflexivity)]; reflexivity.
Qed.
Print Assumptions C116_lookup_refuted.

(** *** A case: x + 1 and 1 + x are nomials, and the same *)
Example C116_met :
  let a : operand R := Nom false [({[0%nat := 1]}, 1); (e_empty, 1)] in let b : operand R := Nom false [(e_empty, 1); ({[0%nat := 1]}, 1)] in
  nomial a /\ nomial b /\ same a b.
Proof.
  assert (Hc : forall h : hmap R, Permutation h [({[0%nat := 1]}, 1); (e_empty, 1)] -> canonical h).
  { intros h Hp. split.
    - unfold dkeys. rewrite Hp. apply NoDup_ListNoDup. repeat constructor; simpl; [|intros []]. intros [E|[]]. apply (f_equal (fun m => m !! 0%nat)) in E.
      unfold e_empty in E. rewrite lookup_empty, lookup_singleton in E. discriminate.
    - intros e c Hi. apply (Permutation_in _ Hp) in Hi. destruct Hi as [[= <- <-]|[[= <- <-]|[]]]; (split; [|lra]); [apply exp_canon_singleton; lra|apply exp_canon_empty]. }
  split; [split; [split; [apply Hc; auto|split; [discriminate|discriminate]]|reflexivity]|].
  split; [split; [split; [apply Hc; apply perm_swap|split; [discriminate|discriminate]]|reflexivity]|].
  intros q Pq. simpl. lra.
Qed.
