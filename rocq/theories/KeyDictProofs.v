(** Proofs about KeyDicts: a state invariant relating a dictionary to what it
    should contain, with a set of arrays of others that it must not change. *)
From Verif Require Import Base KeyDict KeyDictSem.
Open Scope nat_scope.

Section KeyDictProofs.
Context {A : Type}.
Variable trunc single : A -> A.
Variable size : nat -> option nat.
Variable names : nat -> list nat.
Variable enames : nat -> nat -> list nat.
Variable cset : option (nat -> list (nat * option nat)).
(** The types of arrays that occur, and the numbers. *)
Variable D : dtype -> Prop.
Variable N : A -> Prop.
Hypothesis HD64 : D DF64.
Hypothesis HDobj : D DObj.
Hypothesis Hcast : forall d a, D d -> N a -> cast trunc single d (CNum a) = Ok (CNum a).

(** Arrays that must not change, and what they are. *)
Variable P : nat -> Prop.
Variable h0 : heap A.

Notation cast := (cast trunc single).
Notation cast_all := (cast_all trunc single).
Notation setitem := (setitem trunc single size names cset).
Notation content := (@content A cset).

Lemma memb_In k l : memb k l = true <-> In k l.
Proof.
  unfold memb. rewrite existsb_exists. split.
  - intros (x & Hx & E). apply Nat.eqb_eq in E. subst. auto.
  - intros Hx. exists k. split; auto. apply Nat.eqb_refl.
Qed.
Lemma sadd_In l k x : In x (sadd l k) <-> In x l \/ x = k.
Proof.
  unfold sadd. destruct (memb k l) eqn:E.
  - apply memb_In in E. split; [auto|intros [?| ->]; auto].
  - rewrite in_app_iff. simpl. split; intros [?|?]; auto. destruct H as [->|[]]; auto.
Qed.

Lemma cast_id d c c' : D d -> (forall a, c = CNum a -> N a) -> cast d c = Ok c' -> c' = c.
Proof.
  intros Hd Hn E. destruct c as [a| |f|s].
  - rewrite (Hcast d a Hd (Hn a eq_refl)) in E. congruence.
  - destruct d; simpl in E; congruence.
  - destruct d; simpl in E; congruence.
  - destruct d; simpl in E; congruence.
Qed.

Definition nums_ok (cs : list (cell A)) : Prop := forall a, In (CNum a) cs -> N a.

Lemma cast_all_id d cs cs' : D d -> nums_ok cs -> cast_all d cs = Ok cs' -> cs' = cs.
Proof.
  intros Hd. revert cs'. induction cs as [|c cs IH]; intros cs' Hn E; simpl in E; [congruence|].
  destruct (cast d c) as [x|] eqn:Ex; [|discriminate]. simpl in E.
  destruct (cast_all d cs) as [xs|] eqn:Exs; [|discriminate]. simpl in E.
  apply cast_id in Ex; auto; [|intros a ->; apply Hn; left; auto]. subst.
  rewrite (IH xs) in E; auto; [congruence|]. intros a Ha. apply Hn. right. auto.
Qed.

(** ** The invariant *)

Definition slot_ok (h : heap A) (n : option nat) (s : option (slot A)) (f : option nat -> option (cell A)) : Prop :=
  match n with
  | None => s = option_map Sc (f None)
  | Some n =>
      match s with
      | None => forall i, i < n -> f (Some i) = None
      | Some (Ar l) => exists a, h !! l = Some a /\ D (a_dt a) /\ nums_ok (a_cells a) /\
                         a_cells a = map (fun i => cell_or_nan (f (Some i))) (seq 0 n)
      | Some (Sc _) => False
      end
  end.

Definition apart (h : heap A) (d : kd A) : Prop :=
  (forall l, P l -> h !! l = h0 !! l /\ l < length h) /\
  (forall k l, dget (d_items d) k = Some (Ar l) -> In k (d_owned d) -> ~ P l).

Definition distinct (h : heap A) (d : kd A) : Prop :=
  forall k k' l, k <> k' -> dget (d_items d) k = Some (Ar l) -> dget (d_items d) k' <> Some (Ar l).
Definition valid (h : heap A) (d : kd A) : Prop :=
  forall k l, dget (d_items d) k = Some (Ar l) -> l < length h.

Definition maps (d : kd A) (k : nat) : Prop := dget (d_keymap d) (MV k) = if dmem (d_items d) k then Some [k] else None.

Record inv (c : nat -> option nat -> option (cell A)) (h : heap A) (d : kd A) : Prop := {
  i_km : NoDup (dkeys (d_keymap d));
  i_it : NoDup (dkeys (d_items d));
  i_map : forall k, maps d k;
  i_slot : forall k, slot_ok h (size k) (dget (d_items d) k) (c k);
  i_dist : distinct h d;
  i_valid : valid h d;
  i_apart : apart h d }.

(** The invariant while [k] is being changed. *)
Record mid (k : nat) (c : nat -> option nat -> option (cell A)) (h : heap A) (d : kd A) : Prop := {
  m_km : NoDup (dkeys (d_keymap d));
  m_it : NoDup (dkeys (d_items d));
  m_self : dget (d_keymap d) (MV k) = Some [k];
  m_map : forall k', k' <> k -> maps d k';
  m_slot : forall k', k' <> k -> slot_ok h (size k') (dget (d_items d) k') (c k');
  m_dist : distinct h d;
  m_valid : valid h d;
  m_apart : apart h d }.

Definition holds (h : heap A) (d : kd A) (k : nat) (a : arr A) : Prop :=
  exists l, dget (d_items d) k = Some (Ar l) /\ h !! l = Some a.

Lemma slot_ok_heap h h' n s f : (forall l, s = Some (Ar l) -> h' !! l = h !! l) -> slot_ok h n s f -> slot_ok h' n s f.
Proof.
  intros Hh. destruct n as [n|]; simpl; auto. destruct s as [[c|l]|]; auto.
  intros (a & Ha & H). exists a. rewrite Hh; auto.
Qed.
Lemma slot_ok_ext h n s f g :
  (match n with None => f None = g None | Some n => forall i, i < n -> f (Some i) = g (Some i) end) ->
  slot_ok h n s f -> slot_ok h n s g.
Proof.
  destruct n as [n|]; simpl.
  - intros E. destruct s as [[c|l]|]; auto.
    + intros (a & Ha & H1 & H2 & H3). exists a. split; [auto|]. split; [auto|]. split; [auto|].
      rewrite H3. apply map_ext_in. intros i Hi. apply in_seq in Hi. rewrite E; auto. lia.
    + intros H i Hi. rewrite <- E; auto.
  - intros ->. auto.
Qed.

Lemma mid_inv k c c' h d :
  mid k c h d -> dmem (d_items d) k = true -> slot_ok h (size k) (dget (d_items d) k) (c' k) ->
  (forall k' i, k' <> k -> c' k' i = c k' i) -> inv c' h d.
Proof.
  intros M Hk Hs Hc. destruct M. constructor; auto.
  - intros k'. destruct (decide (k' = k)) as [->|Hne]; auto. unfold maps. rewrite Hk. auto.
  - intros k'. destruct (decide (k' = k)) as [->|Hne]; auto.
    eapply slot_ok_ext; [|apply m_slot0; auto]. destruct (size k'); intros; rewrite Hc; auto.
Qed.

Lemma lookup_snoc (h : heap A) a l : l < length h -> (h ++ [a]) !! l = h !! l.
Proof. intros. apply lookup_app_l. auto. Qed.

Lemma hp_ne (h : heap A) l l' a : l <> l' -> (<[l := a]> h) !! l' = h !! l'.
Proof. apply list_lookup_insert_ne. Qed.
Lemma hp_eq (h : heap A) l a : l < length h -> (<[l := a]> h) !! l = Some a.
Proof. apply list_lookup_insert. Qed.
Lemma hp_length (h : heap A) l a : length (<[l := a]> h) = length h.
Proof. apply insert_length. Qed.

(** A new array for [k]. *)
Lemma mid_alloc k c h d a own :
  mid k c h d -> (forall x, In x own -> In x (d_owned d) \/ x = k) ->
  mid k c (h ++ [a]) (KD (dset (d_items d) k (Ar (length h))) (d_keymap d) (d_unmapped d) own).
Proof.
  intros M Ho.
  destruct M. constructor; simpl; auto.
  - apply NoDup_dset. auto.
  - intros k' Hne. specialize (m_map0 k' Hne). unfold maps in *. simpl. rewrite m_map0. unfold dmem. rewrite dget_dset_ne; auto.
  - intros k' Hne. rewrite dget_dset_ne; auto. eapply slot_ok_heap; [|apply m_slot0; auto].
    intros l El. apply lookup_snoc. eapply m_valid0; eauto.
  - intros k1 k2 l Hne. simpl. rewrite !dget_dset.
    destruct (decide (k1 = k)) as [->|]; destruct (decide (k2 = k)) as [->|]; try congruence.
    + intros [= <-] E. apply m_valid0 in E. lia.
    + intros E [= <-]. apply m_valid0 in E. lia.
    + intros E. apply (m_dist0 k1 k2); auto.
  - intros k1 l. simpl. rewrite app_length, dget_dset. destruct (decide (k1 = k)) as [->|].
    + intros [= <-]. simpl. lia.
    + intros E. apply m_valid0 in E. lia.
  - destruct m_apart0 as [H1 H2]. split.
    + intros l Hl. destruct (H1 l Hl) as [E Hlt]. rewrite lookup_snoc; auto. rewrite app_length. split; [auto|lia].
    + intros k1 l. simpl. rewrite dget_dset. destruct (decide (k1 = k)) as [->|].
      * intros [= <-] _ Hp. destruct (H1 _ Hp). lia.
      * intros E Hin. destruct (Ho k1 Hin) as [?|?]; [eapply H2; eauto|congruence].
Qed.

Lemma holds_alloc k (h : heap A) (d : kd A) a own :
  holds (h ++ [a]) (KD (dset (d_items d) k (Ar (length h))) (d_keymap d) (d_unmapped d) own) k a.
Proof. exists (length h). simpl. rewrite dget_dset_eq. split; auto. apply list_lookup_middle. auto. Qed.

Lemma mid_copy k c h d a h' d' :
  mid k c h d -> holds h d k a -> copyonwrite h d k = Ok (h', d') ->
  mid k c h' d' /\ holds h' d' k a /\ In k (d_owned d').
Proof.
  intros M (l & El & Ea) E. unfold copyonwrite in E. destruct (memb k (d_owned d)) eqn:Em.
  - injection E as <- <-. apply memb_In in Em. split; auto. split; auto. exists l. auto.
  - rewrite El, Ea in E. simpl in E. injection E as <- <-. split; [|split].
    + apply mid_alloc; auto. intros x. rewrite sadd_In. auto.
    + apply holds_alloc.
    + simpl. rewrite sadd_In. auto.
Qed.

Lemma mid_retype k c h d a dt own h' d' :
  D dt -> nums_ok (a_cells a) -> mid k c h d -> holds h d k a -> retype trunc single h d k dt own = Ok (h', d') ->
  mid k c h' d' /\ holds h' d' k (AR dt (a_cells a)) /\ (In k (d_owned d) -> In k (d_owned d')) /\
  (own = true -> In k (d_owned d')).
Proof.
  intros Hd Hn M (l & El & Ea) E. unfold retype in E. rewrite El, Ea in E.
  destruct (cast_all dt (a_cells a)) as [cs|] eqn:Ec; [|discriminate]. apply cast_all_id in Ec; auto. subst.
  simpl in E. injection E as <- <-. split; [|split; [|split]].
  - apply mid_alloc; auto. intros x. destruct own; auto. rewrite sadd_In. auto.
  - apply holds_alloc.
  - simpl. destruct own; auto. rewrite sadd_In. auto.
  - simpl. intros ->. rewrite sadd_In. auto.
Qed.

(** The array of [k], if it is its own, changed in place. *)
Lemma mid_write k c h d l a a' :
  mid k c h d -> dget (d_items d) k = Some (Ar l) -> h !! l = Some a -> In k (d_owned d) ->
  mid k c (<[l := a']> h) d /\ holds (<[l := a']> h) d k a'.
Proof.
  intros M El Ea Ho. pose proof (lookup_lt_Some _ _ _ Ea) as Hlt. split.
  - destruct M. constructor; auto.
    + intros k' Hne. eapply slot_ok_heap; [|apply m_slot0; auto]. intros l' El'.
      rewrite hp_ne; auto. intros <-. apply (m_dist0 k k' l); auto.
    + intros k' l' E. rewrite hp_length. eapply m_valid0; eauto.
    + destruct m_apart0 as [H1 H2]. split; auto.
      intros l' Hl'. rewrite hp_length. destruct (H1 l' Hl') as [E Hlt']. split; auto.
      rewrite hp_ne; auto. intros <-. apply (H2 k l); auto.
  - exists l. split; auto. rewrite hp_eq; auto.
Qed.

(** ** Keys *)

Lemma parse_meant (d : kd A) a k i : meant cset a = Some (k, i) -> parse names cset d a = Ok (TKey k i, d).
Proof.
  destruct a as [k'|k' i'|n]; simpl.
  - intros [= -> ->]. auto.
  - intros [= -> ->]. auto.
  - destruct cset as [vks|]; [|discriminate]. destruct (vks n) as [|[k0 [i0|]] [|q others]]; try discriminate.
    + intros [= -> ->]. auto.
    + destruct (forallb _ (q :: others)) eqn:E; [|discriminate]. intros [= -> ->].
      assert (E' : forallb (fun p => bool_decide (veckey p = veckey (k, Some i0))) (q :: others) = true).
      { apply forallb_forall. intros [k1 [i1|]] Hin; rewrite forallb_forall in E; specialize (E _ Hin); simpl in E; [|discriminate].
        apply Nat.eqb_eq in E. subst. simpl. apply bool_decide_eq_true_2. auto. }
      rewrite E'. simpl. auto.
    + intros [= -> ->]. auto.
Qed.

Lemma names_MV ks km : 
  let f := fold_left (fun km k => fold_left (fun km n => kadd km (MN n) k) (names k) km) ks km in
  (forall k, dget f (MV k) = dget km (MV k)) /\ (NoDup (dkeys km) -> NoDup (dkeys f)).
Proof.
  revert km. induction ks as [|k0 ks IH]; intros km; simpl; auto.
  assert (H : forall ns km, (forall k, dget (fold_left (fun km n => kadd km (MN n) k0) ns km) (MV k) = dget km (MV k)) /\
             (NoDup (dkeys km) -> NoDup (dkeys (fold_left (fun km n => kadd km (MN n) k0) ns km)))).
  { clear. induction ns as [|n ns IH]; intros km; simpl; auto. destruct (IH (kadd km (MN n) k0)) as [H1 H2]. split.
    - intros k. rewrite H1. unfold kadd. rewrite dget_dset_ne; congruence.
    - intros Hn. apply H2. unfold kadd. apply NoDup_dset. auto. }
  destruct (H (names k0) km) as [H1 H2]. destruct (IH (fold_left (fun km n => kadd km (MN n) k0) (names k0) km)) as [H3 H4]. split; auto.
  intros k. rewrite H3. auto.
Qed.

Lemma inv_keymap c h d : inv c h d -> inv c h (update_keymap names d).
Proof.
  intros []. destruct (names_MV (d_unmapped d) (d_keymap d)) as [H1 H2]. constructor; simpl; auto.
  intros k. specialize (i_map0 k). unfold maps in *. simpl. rewrite H1. auto.
Qed.

Lemma inv_mid k c h d : inv c h d -> dmem (d_items d) k = true -> mid k c h d.
Proof. intros [] Hk. constructor; auto. specialize (i_map0 k). unfold maps in i_map0. rewrite Hk in i_map0. auto. Qed.

(** [first_time] *)
Lemma mid_first k c h d i v h' d' :
  inv c h d -> first_time size h d k i v = (h', d') ->
  mid k c h' d' /\
  (dmem (d_items d) k = true \/ i = None -> h' = h /\ d_items d' = d_items d /\ d_owned d' = d_owned d) /\
  (dmem (d_items d) k = false -> i <> None -> In k (d_owned d') /\
     exists dt, (dt = DF64 \/ dt = DObj) /\ holds h' d' k (AR dt (repeat CNan (match size k with Some n => n | None => 0 end)))).
Proof.
  intros I E. unfold first_time in E. pose proof (i_map _ _ _ I k) as Hm. unfold maps in Hm.
  unfold dmem at 1 in E. rewrite Hm in E. destruct (dmem (d_items d) k) eqn:Ek.
  - injection E as <- <-. split; [apply inv_mid; auto|]. split; [auto|discriminate].
  - assert (M : mid k c h (KD (d_items d) (kadd (d_keymap d) (MV k) k) (sadd (d_unmapped d) k) (d_owned d))).
    { destruct I. constructor; simpl; auto.
      - unfold kadd. apply NoDup_dset. auto.
      - unfold kadd, kget. rewrite dget_dset_eq, Hm. auto.
      - intros k' Hne. specialize (i_map0 k'). unfold maps in *. simpl. unfold kadd. rewrite dget_dset_ne; auto. congruence. }
    destruct i as [i|].
    + simpl in E. injection E as <- <-. split; [|split].
      * refine (mid_alloc k c h (KD _ _ _ _) _ _ M _). intros x. simpl. rewrite sadd_In. auto.
      * intros [?|?]; discriminate.
      * intros _ _. split; [simpl; rewrite sadd_In; auto|]. eexists.
        split; [|refine (holds_alloc k h (KD (d_items d) (kadd (d_keymap d) (MV k) k) (sadd (d_unmapped d) k) (d_owned d)) (AR _ _) _)].
        destruct v as [[]| |]; auto.
    + injection E as <- <-. split; auto. split; [auto|]. intros _ []; auto.
Qed.

(** ** Writing an element *)

Lemma write_inv k i c h d x h' :
  mid k c h d -> In k (d_owned d) -> write_cell trunc single h d k i x = Ok h' ->
  forall a, holds h d k a -> D (a_dt a) -> (forall n, x = CNum n -> N n) ->
  mid k c h' d /\ holds h' d k (AR (a_dt a) (<[i := x]> (a_cells a))) /\ i < length (a_cells a).
Proof.
  intros M Ho E a (l & El & Ea) Hd Hn. unfold write_cell in E. rewrite El, Ea in E.
  destruct (cast (a_dt a) x) as [y|] eqn:Ex; [|discriminate]. apply cast_id in Ex; auto. subst.
  simpl in E. destruct (i <? length (a_cells a)) eqn:Ei; [|discriminate]. injection E as <-.
  destruct (mid_write k c h d l a (AR (a_dt a) (<[i := x]> (a_cells a))) M El Ea Ho) as [H1 H2].
  split; [auto|]. split; [auto|]. apply Nat.ltb_lt. auto.
Qed.

Lemma set_elem_inv k i c h d x h' d' a :
  mid k c h d -> holds h d k a -> D (a_dt a) -> nums_ok (a_cells a) -> (forall n, x = CNum n -> N n) ->
  set_elem trunc single h d k i (WCell x) = Ok (h', d') ->
  mid k c h' d' /\ exists dt, D dt /\ holds h' d' k (AR dt (<[i := x]> (a_cells a))) /\ i < length (a_cells a).
Proof.
  intros M Hh Hd Hn Hx E. unfold set_elem in E.
  destruct (match x with CSweep _ => retype trunc single h d k DObj true | _ => Ok (h, d) end) as [[h1 d1]|] eqn:E1; [|discriminate].
  cbn [rbind] in E.
  assert (S1 : exists a1, mid k c h1 d1 /\ holds h1 d1 k a1 /\ D (a_dt a1) /\ a_cells a1 = a_cells a).
  { destruct x; try (injection E1 as <- <-; exists a; auto; fail).
    destruct (mid_retype _ _ _ _ _ _ _ _ _ HDobj Hn M Hh E1) as (H1 & H2 & _). eauto. }
  destruct S1 as (a1 & M1 & Hh1 & Hd1 & Ec1).
  destruct (copyonwrite h1 d1 k) as [[h2 d2]|] eqn:E2; [|discriminate]. cbn [rbind] in E.
  destruct (mid_copy _ _ _ _ _ _ _ M1 Hh1 E2) as (M2 & Hh2 & Ho2).
  destruct (match x with CFun _ => retype trunc single h2 d2 k DObj false | _ => Ok (h2, d2) end) as [[h3 d3]|] eqn:E3; [|discriminate].
  cbn [rbind] in E.
  assert (S3 : exists a3, mid k c h3 d3 /\ holds h3 d3 k a3 /\ D (a_dt a3) /\ a_cells a3 = a_cells a /\ In k (d_owned d3)).
  { destruct x; try (injection E3 as <- <-; exists a1; auto; fail).
    destruct (mid_retype k c h2 d2 a1 _ _ _ _ HDobj ltac:(rewrite Ec1; auto) M2 Hh2 E3) as (H1 & H2 & H3 & _).
    exists (AR DObj (a_cells a1)). auto 6. }
  destruct S3 as (a3 & M3 & Hh3 & Hd3 & Ec3 & Ho3).
  destruct (write_cell trunc single h3 d3 k i x) as [h4|] eqn:E4; [|discriminate]. injection E as <- <-.
  destruct (write_inv _ _ _ _ _ _ _ M3 Ho3 E4 a3 Hh3 Hd3 Hx) as (H1 & H2 & H3). split; [auto|].
  rewrite Ec3 in *. eauto.
Qed.

(** ** Tables *)

Lemma tab_lookup {B} (f : nat -> B) n i : i < n -> map f (seq 0 n) !! i = Some (f i).
Proof. intros Hi. rewrite (list_lookup_fmap f). rewrite lookup_seq_lt; auto. Qed.
Lemma tab_eq {B} (f : nat -> B) n (l : list B) :
  length l = n -> (forall i x, l !! i = Some x -> x = f i) -> l = map f (seq 0 n).
Proof.
  intros Hl H. apply list_eq. intros i. destruct (decide (i < n)) as [Hi|Hi].
  - rewrite tab_lookup; auto. destruct (lookup_lt_is_Some_2 l i) as [x Hx]; [lia|]. rewrite Hx. f_equal. auto.
  - rewrite !lookup_ge_None_2; auto; [rewrite map_length, seq_length|]; lia.
Qed.
Lemma tab_In {B} (f : nat -> B) n x : In x (map f (seq 0 n)) -> exists i, i < n /\ x = f i.
Proof. rewrite in_map_iff. intros (i & <- & Hi). apply in_seq in Hi. exists i. split; auto. lia. Qed.

Lemma In_lookup {B} (l : list B) i x : l !! i = Some x -> In x l.
Proof. intros. apply elem_of_list_In. eapply elem_of_list_lookup_2; eauto. Qed.

(** ** What an operation does to the contents *)

Definition after (c : nat -> option nat -> option (cell A)) (o : op A) (k : nat) (i : option nat) : option (cell A) :=
  match effect_on cset o k i with Keeps => c k i | Puts x => Some x | Erases => None end.

Lemma set_elem_case k i n c h d x h' d' a :
  inv c h d -> meant cset a = Some (k, Some i) -> size k = Some n -> i < n -> (forall b, x = CNum b -> N b) ->
  setitem h d a (WCell x) = Ok (h', d') -> inv (after c (OSet a (UCell x))) h' d'.
Proof.
  intros I Hm Hs Hi Hx E. unfold KeyDict.setitem in E. rewrite (parse_meant d a k (Some i) Hm) in E. cbn [rbind] in E.
  destruct (first_time size h d k (Some i) (WCell x)) as [h1 d1] eqn:E1.
  destruct (mid_first k c h d (Some i) (WCell x) h1 d1 I E1) as (M1 & Hold & Hnew).
  pose proof (i_slot _ _ _ I k) as Hk. rewrite Hs in Hk. simpl in Hk.
  assert (S : exists a1, holds h1 d1 k a1 /\ D (a_dt a1) /\ nums_ok (a_cells a1) /\
            a_cells a1 = map (fun i => cell_or_nan (c k (Some i))) (seq 0 n)).
  { destruct (dmem (d_items d) k) eqn:Ek.
    - destruct (Hold (or_introl eq_refl)) as (-> & Ei & _). unfold dmem in Ek.
      destruct (dget (d_items d) k) as [[y|l]|] eqn:El; try discriminate; [contradiction|].
      destruct Hk as (a1 & H1 & H2 & H3 & H4). exists a1. split; auto. exists l. rewrite Ei. auto.
    - destruct (Hnew eq_refl ltac:(discriminate)) as (_ & dt & Hdt & Hh). rewrite Hs in Hh.
      exists (AR dt (repeat CNan n)). split; [auto|]. split; [destruct Hdt as [->| ->]; auto|]. split.
      + intros b Hb. simpl in Hb. apply repeat_spec in Hb. discriminate.
      + simpl. unfold dmem in Ek. destruct (dget (d_items d) k) eqn:El; [discriminate|].
        apply tab_eq; [apply repeat_length|]. intros j y Hy. pose proof (In_lookup _ _ _ Hy) as Hin.
        apply repeat_spec in Hin. subst. apply lookup_lt_Some in Hy. rewrite repeat_length in Hy. rewrite Hk; auto. }
  destruct S as (a1 & Hh1 & Hd1 & Hn1 & Hc1).
  destruct (set_elem_inv k i c h1 d1 x h' d' a1 M1 Hh1 Hd1 Hn1 Hx E) as (M2 & dt & Hdt & Hh2 & Hlt).
  apply (mid_inv k c); auto.
  - destruct Hh2 as (l & El & _). unfold dmem. rewrite El. auto.
  - rewrite Hs. destruct Hh2 as (l & El & Ea). simpl. rewrite El. eexists. split; [eauto|]. simpl. split; [auto|]. split.
    + intros b Hb. apply elem_of_list_In in Hb. apply elem_of_list_lookup in Hb as (j & Hj).
      rewrite list_lookup_insert_Some in Hj. destruct Hj as [(_ & Hxb & _)|(_ & Hj)]; auto. apply Hn1. eapply In_lookup; eauto.
    + apply tab_eq.
      * rewrite insert_length, Hc1, map_length, seq_length. auto.
      * intros j y Hj. unfold after, effect_on. rewrite Hm, Nat.eqb_refl.
        rewrite list_lookup_insert_Some in Hj. destruct Hj as [(-> & <- & _)|(Hne & Hj)].
        -- rewrite Nat.eqb_refl. auto.
        -- destruct (Nat.eqb_spec j i); [congruence|]. rewrite Hc1 in Hj.
           assert (j < n) by (apply lookup_lt_Some in Hj; rewrite map_length, seq_length in Hj; auto).
           rewrite tab_lookup in Hj; auto. congruence.
  - intros k' j Hne. unfold after, effect_on. rewrite Hm. destruct (Nat.eqb_spec k' k); [congruence|auto].
Qed.

(** Storing a whole value for [k]. *)
Lemma mid_store k c h d s :
  mid k c h d ->
  (forall l, s = Ar l -> l < length h /\ ~ P l /\ forall k', k' <> k -> dget (d_items d) k' <> Some (Ar l)) ->
  mid k c h (snd (store h d k s)) /\ dget (d_items (snd (store h d k s))) k = Some s.
Proof.
  intros M Hs. split; [|simpl; apply dget_dset_eq]. destruct M. constructor; simpl; auto.
  - apply NoDup_dset. auto.
  - intros k' Hne. specialize (m_map0 k' Hne). unfold maps in *. simpl. rewrite m_map0. unfold dmem. rewrite dget_dset_ne; auto.
  - intros k' Hne. rewrite dget_dset_ne; auto.
  - intros k1 k2 l Hne. simpl. rewrite !dget_dset.
    destruct (decide (k1 = k)) as [->|]; destruct (decide (k2 = k)) as [->|]; try congruence.
    + intros [= ->]. apply Hs; auto.
    + intros E [= ->]. destruct (Hs l eq_refl) as (_ & _ & H). apply (H k1); auto.
    + intros E. apply (m_dist0 k1 k2); auto.
  - intros k1 l. simpl. rewrite dget_dset. destruct (decide (k1 = k)) as [->|]; [|apply m_valid0].
    intros [= ->]. apply Hs; auto.
  - destruct m_apart0 as [H1 H2]. split; [auto|]. intros k1 l. simpl. rewrite dget_dset. destruct (decide (k1 = k)) as [->|].
    + intros [= ->] _. apply Hs; auto.
    + intros E Hin. rewrite sadd_In in Hin. destruct Hin as [?|?]; [eapply H2; eauto|congruence].
Qed.

(** An array of somebody else's. *)
Lemma mid_snoc k c h d a : mid k c h d -> mid k c (h ++ [a]) d.
Proof.
  intros []. constructor; auto.
  - intros k' Hne. eapply slot_ok_heap; [|apply m_slot0; auto]. intros l El. apply lookup_snoc. eapply m_valid0; eauto.
  - intros k1 l E. apply m_valid0 in E. rewrite app_length. lia.
  - destruct m_apart0 as [H1 H2]. split; auto. intros l Hl. destruct (H1 l Hl) as [E Hlt].
    rewrite lookup_snoc; auto. rewrite app_length. split; [auto|lia].
Qed.
Lemma inv_snoc c h d a : inv c h d -> inv c (h ++ [a]) d.
Proof.
  intros []. constructor; auto.
  - intros k'. eapply slot_ok_heap; [|apply i_slot0; auto]. intros l El. apply lookup_snoc. eapply i_valid0; eauto.
  - intros k1 l E. apply i_valid0 in E. rewrite app_length. lia.
  - destruct i_apart0 as [H1 H2]. split; auto. intros l Hl. destruct (H1 l Hl) as [E Hlt].
    rewrite lookup_snoc; auto. rewrite app_length. split; [auto|lia].
Qed.

Lemma merge_spec dt old new cs :
  D dt -> nums_ok new -> merge trunc single dt old new = Ok cs ->
  length old = length new /\ length cs = length old /\
  forall i x, cs !! i = Some x -> exists o y, old !! i = Some o /\ new !! i = Some y /\ x = if is_nan y then o else y.
Proof.
  intros Hd. revert new cs. induction old as [|o old IH]; intros [|y new] cs Hn E; simpl in E; try discriminate.
  - injection E as <-. split; [auto|]. split; [auto|]. intros i x Hx. rewrite lookup_nil in Hx. discriminate.
  - destruct (if is_nan y then Ok o else cast dt y) as [z|] eqn:Ez; [|discriminate]. simpl in E.
    destruct (merge trunc single dt old new) as [zs|] eqn:Ezs; [|discriminate]. injection E as <-.
    destruct (IH new zs) as (H1 & H2 & H3); auto; [intros b Hb; apply Hn; right; auto|].
    assert (Hz : z = if is_nan y then o else y).
    { destruct (is_nan y); [congruence|]. apply cast_id in Ez; auto. intros b ->. apply Hn. left. auto. }
    simpl. split; [auto|]. split; [auto|]. intros [|i] x; simpl.
    + intros [= <-]. eauto.
    + apply H3.
Qed.

(** Two arrays merged. *)
Lemma set_array_case k n c h d l v h' d' :
  mid k c h d -> slot_ok h (size k) (dget (d_items d) k) (c k) -> size k = Some n ->
  h !! l = Some v -> ~ P l -> (forall k', dget (d_items d) k' <> Some (Ar l)) ->
  length (a_cells v) = n -> nums_ok (a_cells v) -> (a_dt v = DInt -> D DF32) -> (a_dt v <> DInt -> D (a_dt v)) ->
  set_array trunc single h d k l = Ok (h', d') ->
  mid k c h' d' /\ exists a, holds h' d' k a /\ D (a_dt a) /\
    nums_ok (a_cells a) /\
    a_cells a = map (fun i => match a_cells v !! i with Some CNan | None => cell_or_nan (c k (Some i)) | Some x => x end) (seq 0 n).
Proof.
  intros M Hk Hs Hv HP Hl Hlen Hn HI HD E. unfold set_array in E. rewrite Hv in E.
  destruct (if decide (a_dt v = DInt) then let! cs := cast_all DF32 (a_cells v) in Ok (alloc h (AR DF32 cs)) else Ok (h, l))
    as [[h1 l1]|] eqn:E1; [|discriminate].
  cbn [rbind] in E.
  assert (S : mid k c h1 d /\ slot_ok h1 (size k) (dget (d_items d) k) (c k) /\
          exists v1, h1 !! l1 = Some v1 /\ a_cells v1 = a_cells v /\ D (a_dt v1) /\
          ~ P l1 /\ (forall k', dget (d_items d) k' <> Some (Ar l1))).
  { destruct (decide (a_dt v = DInt)) as [Ei|Ei].
    - destruct (cast_all DF32 (a_cells v)) as [cs|] eqn:Ec; [|discriminate]. apply cast_all_id in Ec; auto. subst cs.
      simpl in E1. injection E1 as <- <-. split; [apply mid_snoc; auto|]. split.
      + eapply slot_ok_heap; [|eauto]. intros l' El. apply lookup_snoc. eapply m_valid; eauto.
      + exists (AR DF32 (a_cells v)). split; [apply list_lookup_middle; auto|]. split; [auto|]. split; [simpl; auto|]. split.
        * intros Hp. destruct (m_apart _ _ _ _ M) as [H1 _]. destruct (H1 _ Hp). lia.
        * intros k' Ek. apply (m_valid _ _ _ _ M) in Ek. lia.
    - injection E1 as <- <-. split; [auto|]. split; [auto|]. exists v. auto 6. }
  clear E1 M Hk Hv HP Hl. destruct S as (M & Hk & v1 & Hv & Ecv & Hdv & HP & Hl). rewrite Hv in E. rewrite <- Ecv in *.
  clear v Ecv HI HD. pose proof Hk as Hk'. rewrite Hs in Hk'. simpl in Hk'.
  destruct (dget (d_items d) k) as [[y|lo]|] eqn:Ek; [contradiction| |].
  - destruct Hk' as (old & Hold & Hdo & Hno & Hco). rewrite Hold in E.
    destruct (if decide (a_dt old = a_dt v1) then Ok (h1, d) else retype trunc single h1 d k (a_dt v1) true) as [[h2 d2]|] eqn:E2; [|discriminate].
    cbn [rbind] in E.
    assert (S2 : mid k c h2 d2 /\ exists a2, holds h2 d2 k a2 /\ D (a_dt a2) /\ a_cells a2 = a_cells old).
    { destruct (decide (a_dt old = a_dt v1)).
      - injection E2 as <- <-. split; auto. exists old. split; auto. exists lo. auto.
      - destruct (mid_retype k c h1 d old (a_dt v1) true h2 d2 Hdv Hno M) as (H1 & H2 & _); auto; [exists lo; auto|].
        split; auto. eexists. split; [eauto|]. auto. }
    destruct S2 as (M2 & a2 & Hh2 & Hd2 & Ec2).
    destruct (copyonwrite h2 d2 k) as [[h3 d3]|] eqn:E3; [|discriminate]. cbn [rbind] in E.
    destruct (mid_copy _ _ _ _ _ _ _ M2 Hh2 E3) as (M3 & (l3 & El3 & Ea3) & Ho3).
    rewrite El3, Ea3 in E. destruct (merge trunc single (a_dt a2) (a_cells a2) (a_cells v1)) as [cs|] eqn:Em; [|discriminate].
    injection E as <- <-. destruct (merge_spec _ _ _ _ Hd2 Hn Em) as (H1 & H2 & H3).
    destruct (mid_write k c h3 d3 l3 a2 (AR (a_dt a2) cs) M3 El3 Ea3 Ho3) as (M4 & Hh4). split; [auto|].
    exists (AR (a_dt a2) cs). split; [auto|]. split; [auto|]. simpl. split.
    + intros b Hb. apply elem_of_list_In in Hb. apply elem_of_list_lookup in Hb as (j & Hj).
      apply H3 in Hj as (o & y & Ho & Hy & Ex). destruct (is_nan y).
      * subst. apply Hno. rewrite Ec2 in Ho. eapply In_lookup; eauto.
      * subst. apply Hn. eapply In_lookup; eauto.
    + apply tab_eq; [rewrite H2, H1; auto|]. intros i x Hx. apply H3 in Hx as (o & y & Ho & Hy & ->). rewrite Hy.
      rewrite Ec2, Hco in Ho. assert (i < n) by (apply lookup_lt_Some in Ho; rewrite map_length, seq_length in Ho; auto).
      rewrite tab_lookup in Ho; auto. injection Ho as <-. destruct y; auto.
  - injection E as <- <-. destruct (mid_store k c h1 d (Ar l1) M) as (H1 & H2).
    + intros l' [= <-]. apply lookup_lt_Some in Hv. auto.
    + split; [auto|]. exists v1. split; [exists l1; split; auto|]. split; [auto|]. split; [auto|].
      apply tab_eq; auto. intros i x Hx. rewrite Hx. apply lookup_lt_Some in Hx.
      destruct x; auto. rewrite Hk'; auto. lia.
Qed.

(** What an operation stores fits the types and numbers assumed. *)
Definition fits (o : op A) : Prop :=
  match o with
  | OSet a v =>
      nums_ok (uval_numbers v) /\
      match v with
      | UCell _ => match meant cset a with Some (k, None) => size k <> None -> D DF32 | _ => True end
      | UArr dt _ => (dt = DInt -> D DF32) /\ (dt <> DInt -> D dt)
      | UList dt _ => D dt
      end
  | _ => True
  end.

Lemma set_inv c h d a v h' d' :
  inv c h d -> proper size cset (OSet a v) -> fits (OSet a v) ->
  exec trunc single size names enames cset (h, d) (OSet a v) = Ok (h', d') -> inv (after c (OSet a v)) h' d'.
Proof.
  intros I Hp [Hn Hf] E. unfold proper in Hp. destruct (meant cset a) as [[k [i|]]|] eqn:Hm; [| |contradiction].
  - destruct Hp as ((n & Hs & Hi) & x & ->). simpl in E. eapply set_elem_case; eauto.
    intros b ->. apply Hn. left. auto.
  - destruct (size k) as [n|] eqn:Hs.
    + assert (Hkk : forall x, (forall j, j < n -> cell_or_nan (after c (OSet a v) k (Some j)) = x j) ->
        forall h1 d1 ar, mid k c h1 d1 -> holds h1 d1 k ar -> D (a_dt ar) -> nums_ok (a_cells ar) ->
        a_cells ar = map x (seq 0 n) -> inv (after c (OSet a v)) h1 d1).
      { intros x Hx h1 d1 ar M (l & El & Ea) Hd Hc Ec. apply (mid_inv k c); auto.
        - unfold dmem. rewrite El. auto.
        - rewrite Hs. simpl. rewrite El. exists ar. split; [auto|]. split; [auto|]. split; [auto|].
          rewrite Ec. apply map_ext_in. intros j Hj. apply in_seq in Hj. rewrite <- Hx; auto. lia.
        - intros k' j Hne. unfold after, effect_on. rewrite Hm. destruct (Nat.eqb_spec k' k); [congruence|auto]. }
      destruct v as [x|dt cs|dt cs].
      * simpl in E. unfold KeyDict.setitem in E. rewrite (parse_meant d a k None Hm) in E. cbn [rbind] in E.
        destruct (first_time size h d k None (WCell x)) as [h1 d1] eqn:E1.
        destruct (mid_first k c h d None (WCell x) h1 d1 I E1) as (M1 & Hold & _).
        destruct (Hold (or_intror eq_refl)) as (-> & Ei & _). clear Hold. rewrite Hs in E.
        assert (Hd : D DF32) by (apply Hf; try congruence; rewrite Hs; discriminate).
        assert (E' : (let! y := cast DF32 x in let '(h, l) := alloc h (AR DF32 (repeat y n)) in Ok (store h d1 k (Ar l))) = Ok (h', d')).
        { destruct x; auto. contradiction. }
        clear E. destruct (cast DF32 x) as [y|] eqn:Ey; [|discriminate].
        apply cast_id in Ey; auto; [|intros b ->; apply Hn; left; auto]. subst y. simpl in E'. injection E' as <- <-.
        destruct (mid_store k c (h ++ [AR DF32 (repeat x n)]) d1 (Ar (length h))) as (H1 & H2).
        -- apply mid_snoc. auto.
        -- intros l [= <-]. rewrite app_length. simpl. split; [lia|]. split.
           ++ intros Hp'. destruct (m_apart _ _ _ _ M1) as [H1 _]. destruct (H1 _ Hp'). lia.
           ++ intros k' _ Ek. apply (m_valid _ _ _ _ M1) in Ek. lia.
        -- apply (Hkk (fun _ => x)) with (ar := AR DF32 (repeat x n)); auto.
           ++ intros j Hj. unfold after, effect_on. rewrite Hm, Nat.eqb_refl. auto.
           ++ exists (length h). split; auto. apply list_lookup_middle. auto.
           ++ intros b Hb. simpl in Hb. apply repeat_spec in Hb. apply Hn. left. auto.
           ++ simpl. apply tab_eq; [apply repeat_length|]. intros j z Hz. apply In_lookup in Hz. apply repeat_spec in Hz. auto.
      * simpl in E. unfold KeyDict.setitem in E. rewrite (parse_meant d a k None Hm) in E. cbn [rbind] in E.
        pose proof (inv_snoc c h d (AR dt cs) I) as I'.
        destruct (first_time size (h ++ [AR dt cs]) d k None (WLoc (length h))) as [h1 d1] eqn:E1.
        destruct (mid_first k c _ d None _ h1 d1 I' E1) as (M1 & Hold & _).
        destruct (Hold (or_intror eq_refl)) as (-> & Ei & _). clear Hold. rewrite Hs in E. simpl in Hf.
        pose proof (i_slot _ _ _ I' k) as Hk. rewrite <- Ei in Hk.
        destruct (set_array_case k n c (h ++ [AR dt cs]) d1 (length h) (AR dt cs) h' d' M1 Hk Hs) as (M2 & ar & H1 & H2 & H3 & H4); auto.
        -- apply list_lookup_middle. auto.
        -- intros Hp'. destruct (i_apart _ _ _ I) as [H1 _]. destruct (H1 _ Hp'). lia.
        -- intros k' Ek. rewrite Ei in Ek. apply (i_valid _ _ _ I) in Ek. lia.
        -- apply Hf.
        -- apply Hf.
        -- apply (Hkk _ ltac:(intros j Hj; reflexivity) h' d' ar); auto. rewrite H4. apply map_ext_in. intros j Hj.
           unfold after, effect_on. rewrite Hm, Nat.eqb_refl. simpl. destruct (cs !! j) as [[]|]; auto.
      * simpl in E. unfold KeyDict.setitem in E. rewrite (parse_meant d a k None Hm) in E. cbn [rbind] in E.
        destruct (first_time size h d k None (WList dt cs)) as [h1 d1] eqn:E1.
        destruct (mid_first k c h d None (WList dt cs) h1 d1 I E1) as (M1 & Hold & _).
        destruct (Hold (or_intror eq_refl)) as (-> & Ei & _). clear Hold. rewrite Hs in E.
        destruct cs as [|c0 cs0] eqn:Ecs; [discriminate|]. rewrite <- Ecs in *. clear c0 cs0 Ecs. simpl in E. injection E as <- <-.
        destruct (mid_store k c (h ++ [AR dt cs]) d1 (Ar (length h))) as (H1 & H2).
        -- apply mid_snoc. auto.
        -- intros l [= <-]. rewrite app_length. simpl. split; [lia|]. split.
           ++ intros Hp'. destruct (m_apart _ _ _ _ M1) as [H1 _]. destruct (H1 _ Hp'). lia.
           ++ intros k' _ Ek. apply (m_valid _ _ _ _ M1) in Ek. lia.
        -- apply (Hkk _ ltac:(intros j Hj; reflexivity) _ _ (AR dt cs)); auto.
           ++ exists (length h). split; auto. apply list_lookup_middle. auto.
           ++ simpl. apply tab_eq; auto. intros j z Hz. unfold after, effect_on. rewrite Hm, Nat.eqb_refl, Hz. auto.
    + destruct v as [x| |]; try contradiction. simpl in E. unfold KeyDict.setitem in E.
      rewrite (parse_meant d a k None Hm) in E. cbn [rbind] in E.
      destruct (first_time size h d k None (WCell x)) as [h1 d1] eqn:E1.
      destruct (mid_first k c h d None (WCell x) h1 d1 I E1) as (M1 & Hold & _).
      destruct (Hold (or_intror eq_refl)) as (-> & Ei & _). clear Hold. rewrite Hs in E. injection E as <- <-.
      destruct (mid_store k c h d1 (Sc x) M1) as (H1 & H2); [discriminate|]. apply (mid_inv k c); auto.
      * unfold dmem. simpl in H2 |- *. rewrite H2. auto.
      * rewrite Hs. simpl in H2 |- *. rewrite H2. unfold after, effect_on. rewrite Hm, Nat.eqb_refl. auto.
      * intros k' j Hne. unfold after, effect_on. rewrite Hm. destruct (Nat.eqb_spec k' k); [congruence|auto].
Qed.

(** ** Reading *)

Lemma copy_inv c h d k h' d' : inv c h d -> copyonwrite h d k = Ok (h', d') -> inv c h' d'.
Proof.
  intros I E. pose proof E as E0. unfold copyonwrite in E0. destruct (memb k (d_owned d)); [injection E0 as <- <-; auto|].
  destruct (dget (d_items d) k) as [[y|l]|] eqn:Ek; try discriminate. destruct (h !! l) as [a|] eqn:Ea; [|discriminate]. clear E0.
  assert (Hk : dmem (d_items d) k = true) by (unfold dmem; rewrite Ek; auto).
  destruct (mid_copy k c h d a h' d' (inv_mid k c h d I Hk) (ex_intro _ l (conj Ek Ea)) E) as (M & (l' & El' & Ea') & _).
  apply (mid_inv k c); auto.
  - unfold dmem. rewrite El'. auto.
  - rewrite El'. pose proof (i_slot _ _ _ I k) as Hs. rewrite Ek in Hs. destruct (size k); simpl in *.
    + destruct Hs as (a0 & H1 & H2). rewrite Ea in H1. injection H1 as <-. eauto.
    + destruct (c k None); discriminate.
Qed.

Lemma get_one_inv c h d k i r h' d' : inv c h d -> get_one size h d k i = Ok (r, h', d') -> inv c h' d'.
Proof.
  intros I E. unfold get_one in E.
  destruct (match i, size k with None, Some _ => copyonwrite h d k | _, _ => Ok (h, d) end) as [[h1 d1]|] eqn:E1; [|discriminate].
  assert (I1 : inv c h1 d1).
  { destruct i; [injection E1 as <- <-; auto|]. destruct (size k); [eapply copy_inv; eauto|injection E1 as <- <-; auto]. }
  cbn [rbind] in E. destruct (dget (d_items d1) k) as [[y|l]|]; [| |discriminate].
  - destruct i; [discriminate|]. injection E as _ <- <-. auto.
  - destruct i; [|injection E as _ <- <-; auto]. destruct (h1 !! l) as [a|]; [|discriminate].
    destruct (a_cells a !! n); [|discriminate]. injection E as _ <- <-. auto.
Qed.

Lemma get_many_inv c i ks : forall h d got r h' d', inv c h d -> get_many size h d ks i got = Ok (r, h', d') -> inv c h' d'.
Proof.
  induction ks as [|k ks IH]; intros h d got r h' d' I E; simpl in E.
  - injection E as _ <- <-. auto.
  - destruct (get_one size h d k i) as [[[v h1] d1]|] eqn:E1; [|discriminate]. simpl in E.
    eapply IH; [|eauto]. eapply get_one_inv; eauto.
Qed.

Lemma parse_inv c h d a t d' : inv c h d -> parse names cset d a = Ok (t, d') -> inv c h d'.
Proof.
  intros I E. destruct a as [k|k i|n]; simpl in E; try (injection E as _ <-; auto).
  destruct cset as [vks|]; [|injection E as _ <-; apply inv_keymap; auto].
  destruct (vks n) as [|[k i] [|q others]]; [discriminate|injection E as _ <-; auto|].
  destruct (forallb _ _); [|discriminate]. injection E as _ <-. auto.
Qed.

Lemma getitem_inv c h d a r h' d' : inv c h d -> getitem size names cset h d a = Ok (r, h', d') -> inv c h' d'.
Proof.
  intros I E. unfold getitem in E. destruct (parse names cset d a) as [[t d1]|] eqn:Ep; [|discriminate].
  cbn [rbind] in E. assert (I1 : inv c h d1) by (eapply parse_inv; eauto).
  destruct (entry t) as [m|]; [|discriminate]. destruct (kget (d_keymap d1) m) as [|k [|k2 ks]]; [discriminate| |].
  - eapply get_one_inv; eauto.
  - eapply get_many_inv; eauto.
Qed.

Lemma contains_inv c h d a : inv c h d -> inv c h (snd (contains names cset h d a)).
Proof.
  intros I. unfold contains. destruct (parse names cset d a) as [[t d1]|e] eqn:Ep; [|destruct e; auto].
  assert (I1 : inv c h d1) by (eapply parse_inv; eauto). destruct t; auto.
  destruct (dget (d_items d1) k) as [[y|l]|]; simpl; auto; destruct i; auto.
  destruct (option_map a_cells (h !! l)) as [cs|]; auto. destruct (cs !! n); auto.
Qed.

Lemma inv_shows c h d : inv c h d -> shows_exactly size names cset h d c.
Proof.
  intros I. split; [|split].
  - intros k Hs. pose proof (i_map _ _ _ I k) as Hm. pose proof (i_slot _ _ _ I k) as Hk. rewrite Hs in Hk. simpl in Hk.
    unfold maps, dmem in Hm. rewrite Hk in Hm. unfold shows, has, getitem, contains, has_entry, kget. simpl. unfold dmem.
    rewrite Hm, Hk. destruct (c k None) as [x|]; simpl.
    + unfold get_one. rewrite Hs. simpl. rewrite Hk. auto.
    + auto.
  - intros k n Hs i Hi. pose proof (i_map _ _ _ I k) as Hm. pose proof (i_slot _ _ _ I k) as Hk. rewrite Hs in Hk. simpl in Hk.
    unfold maps, dmem in Hm. destruct (dget (d_items d) k) as [[y|l]|] eqn:Ek; [contradiction| |].
    + destruct Hk as (a & Ha & Hd & Hn & Hc).
      assert (Hel : shows size names cset h d (KElem k i) = Ok [cell_or_nan (c k (Some i))]).
      { unfold shows, getitem. simpl. unfold kget. rewrite Hm. unfold get_one. cbn [rbind]. rewrite Ek, Ha, Hc, tab_lookup; auto. }
      assert (Hha : has names cset h d (KElem k i) = Ok (negb (is_nan (cell_or_nan (c k (Some i)))))).
      { unfold has, contains. simpl. rewrite Ek, Ha. simpl. rewrite Hc, tab_lookup; auto. }
      rewrite Hel, Hha. destruct (c k (Some i)) as [x|] eqn:Ex; simpl; [|auto].
      split; [auto|]. split; [auto|]. split.
      * unfold shows, getitem. simpl. unfold kget. rewrite Hm. unfold get_one. rewrite Hs.
        destruct (copyonwrite h d k) as [[h1 d1]|] eqn:E1.
        -- assert (Hkk : dmem (d_items d) k = true) by (unfold dmem; rewrite Ek; auto).
           destruct (mid_copy k c h d a h1 d1 (inv_mid k c h d I Hkk) (ex_intro _ l (conj Ek Ha)) E1) as (_ & (l' & El' & Ea') & _).
           simpl. rewrite El'. simpl. rewrite Ea', Hc. auto.
        -- unfold copyonwrite in E1. rewrite Ek, Ha in E1. destruct (memb k (d_owned d)); discriminate.
      * unfold has, contains. simpl. rewrite Ek. auto.
    + rewrite (Hk i Hi). split.
      * right. unfold shows, getitem. simpl. unfold kget. rewrite Hm. auto.
      * unfold has, contains. simpl. rewrite Ek. unfold has_entry. simpl. unfold dmem. rewrite Hm. auto.
  - intros n [k i] Hp a. unfold shows, has, getitem, contains.
    assert (Ep : parse names cset d (KName n) = parse names cset d a).
    { rewrite (parse_meant d (KName n) k i Hp). unfold a. destruct i; auto. }
    rewrite Ep. auto.
Qed.

(** ** Deleting *)

Lemma unmap_MV k ms : forall km km', NoDup (dkeys km) -> (forall m, In m ms -> forall k', m <> MV k') ->
  unmap km ms (Some k) = Ok km' -> NoDup (dkeys km') /\ forall k', dget km' (MV k') = dget km (MV k').
Proof.
  induction ms as [|m ms IH]; intros km km' Hn Hm E; simpl in E.
  - injection E as <-. auto.
  - assert (Hms : forall m', In m' ms -> forall k', m' <> MV k') by (intros; apply Hm; right; auto).
    assert (Hmm : forall k', MV k' <> m) by (intros k' <-; apply (Hm (MV k') (or_introl eq_refl) k'); auto).
    assert (Hdel : unmap (ddel km m) ms (Some k) = Ok km' -> NoDup (dkeys km') /\ forall k', dget km' (MV k') = dget km (MV k')).
    { intros E'. destruct (IH _ _ (NoDup_ddel km m Hn) Hms E') as [H1 H2]. split; [auto|]. intros k'. rewrite H2.
      apply dget_ddel_ne. auto. }
    assert (Hset : forall l, unmap (dset km m l) ms (Some k) = Ok km' -> NoDup (dkeys km') /\ forall k', dget km' (MV k') = dget km (MV k')).
    { intros l E'. destruct (IH _ _ (NoDup_dset km m l Hn) Hms E') as [H1 H2]. split; [auto|]. intros k'. rewrite H2.
      apply dget_dset_ne. auto. }
    destruct (dget km m) as [[|x [|y l]]|]; [| | |eauto]; auto.
    + simpl in E. discriminate.
    + destruct (memb k (x :: y :: l)); [eauto|discriminate].
Qed.

Lemma del_inv c h d k h' d' :
  inv c h d -> del_key names h d k = Ok (h', d') -> inv (after c (ODel (KVar k))) h' d'.
Proof.
  intros I E. unfold del_key in E. destruct (dmem (d_items d) k) eqn:Ek; [|discriminate].
  destruct (unmap (d_keymap d) (MV k :: map MN (names k)) (Some k)) as [km|] eqn:Eu; [|discriminate].
  injection E as <- <-. pose proof (i_map _ _ _ I k) as Hm. unfold maps in Hm. rewrite Ek in Hm.
  simpl in Eu. rewrite Hm in Eu. pose proof (NoDup_ddel (d_keymap d) (MV k) (i_km _ _ _ I)) as Hn.
  destruct (unmap_MV k (map MN (names k)) (ddel (d_keymap d) (MV k)) km Hn) as [H1 H2]; auto.
  { intros m Hin k' ->. apply in_map_iff in Hin as (x & Ex & _). discriminate. }
  pose proof (dget_ddel_eq (d_keymap d) (MV k) (i_km _ _ _ I)) as Hg.
  assert (Hit : dget (ddel (d_items d) k) k = None) by (apply dget_ddel_eq; apply (i_it _ _ _ I)).
  assert (Hsub : forall k1 s, dget (ddel (d_items d) k) k1 = Some s -> k1 <> k /\ dget (d_items d) k1 = Some s).
  { intros k1 s E1. destruct (decide (k1 = k)) as [->|Hne]; [congruence|]. rewrite dget_ddel_ne in E1; auto. }
  destruct I. constructor; simpl; auto.
  - apply NoDup_ddel. auto.
  - intros k'. unfold maps. simpl. rewrite H2. unfold dmem. destruct (decide (k' = k)) as [->|Hne].
    + rewrite Hg, Hit. auto.
    + rewrite !dget_ddel_ne; auto; [|congruence]. apply i_map0.
  - intros k'. destruct (decide (k' = k)) as [->|Hne].
    + rewrite Hit. unfold after. simpl. rewrite Nat.eqb_refl. destruct (size k); simpl; auto.
    + rewrite dget_ddel_ne; auto. eapply slot_ok_ext; [|apply i_slot0]. unfold after. simpl.
      destruct (Nat.eqb_spec k' k); [congruence|]. destruct (size k'); auto.
  - intros k1 k2 l Hne E1 E2. apply Hsub in E1 as [_ E1]. apply Hsub in E2 as [_ E2]. eapply i_dist0; eauto.
  - intros k1 l E1. apply Hsub in E1 as [_ E1]. eapply i_valid0; eauto.
  - destruct i_apart0 as [Ha Hb]. split; [auto|]. intros k1 l E1. apply Hsub in E1 as [_ E1]. simpl. eauto.
Qed.

(** ** Histories *)

Definition whole (o : op A) : Prop := match o with ODel a => exists k, a = KVar k | _ => True end.

Lemma exec_inv c h d o h' d' :
  inv c h d -> proper size cset o -> fits o -> whole o ->
  exec trunc single size names enames cset (h, d) o = Ok (h', d') -> inv (after c o) h' d'.
Proof.
  intros I Hp Hf Hw E.
  assert (Hsame : forall o h d, (forall k i, effect_on cset o k i = Keeps) -> inv c h d -> inv (after c o) h d).
  { clear. intros o h d Ho []. constructor; auto. intros k. eapply slot_ok_ext; [|apply i_slot0].
    unfold after. destruct (size k); intros; rewrite Ho; auto. }
  destruct o as [a v|a|a|a].
  - eapply set_inv; eauto.
  - apply Hsame; auto. simpl in E. destruct (getitem size names cset h d a) as [[[r h1] d1]|] eqn:Eg.
    + injection E as <- <-. eapply getitem_inv; eauto.
    + injection E as <- <-. destruct (parse names cset d a) as [[t d1]|] eqn:Ep; auto. eapply parse_inv; eauto.
  - apply Hsame; auto. simpl in E. injection E as <- <-. apply contains_inv. auto.
  - destruct Hw as [k ->]. simpl in E. eapply del_inv; eauto.
Qed.

Lemma run_inv ops : forall c h d h' d',
  inv c h d -> Forall (proper size cset) ops -> Forall fits ops -> Forall whole ops ->
  run trunc single size names enames cset (h, d) ops = Ok (h', d') -> inv (fold_left after ops c) h' d'.
Proof.
  induction ops as [|o ops IH]; intros c h d h' d' I Hp Hf Hw E; cbn [run] in E; cbn [fold_left].
  - injection E as <- <-. auto.
  - destruct (exec trunc single size names enames cset (h, d) o) as [[h1 d1]|] eqn:E1; [|discriminate]. cbn [rbind] in E.
    inversion Hp; inversion Hf; inversion Hw; subst. eapply (IH _ h1 d1); eauto. eapply exec_inv; eauto.
Qed.

Lemma fold_after ops c k i :
  fold_left after ops c k i =
  fold_left (fun acc o => match effect_on cset o k i with Keeps => acc | Puts x => Some x | Erases => None end) ops (c k i).
Proof. revert c. induction ops as [|o ops IH]; intros c; simpl; auto. rewrite IH. auto. Qed.

Lemma fold_content ops k i : fold_left after ops (fun _ _ => None) k i = content ops k i.
Proof. apply fold_after. Qed.
Lemma fold_content_app o1 o2 k i : fold_left after o2 (fun k i => content o1 k i) k i = content (o1 ++ o2) k i.
Proof. rewrite fold_after. unfold KeyDictSem.content. rewrite fold_left_app. auto. Qed.

Lemma inv_ext c c' h d : (forall k i, c k i = c' k i) -> inv c h d -> inv c' h d.
Proof. intros Hc []. constructor; auto. intros k. eapply slot_ok_ext; [|apply i_slot0]. destruct (size k); auto. Qed.

(** ** Numeric writes do not raise *)
Section Progress.
Hypothesis HnoInt : ~ D DInt.

Lemma cast_ok dt x : dt <> DInt -> numeric_cell x -> exists y, cast dt x = Ok y.
Proof. destruct dt, x; simpl; intros; try contradiction; eauto. Qed.
Lemma cast_all_ok dt cs : dt <> DInt -> Forall numeric_cell cs -> exists ys, cast_all dt cs = Ok ys.
Proof.
  intros Hd. induction 1 as [|x cs Hx _ [ys IH]]; simpl; eauto.
  destruct (cast_ok dt x Hd Hx) as [y ->]. simpl. rewrite IH. simpl. eauto.
Qed.
Lemma cast_all_num cs : Forall numeric_cell cs -> exists ys, cast_all DF32 cs = Ok ys.
Proof. apply cast_all_ok. discriminate. Qed.
Lemma merge_ok dt old new : dt <> DInt -> length old = length new -> Forall numeric_cell new ->
  exists cs, merge trunc single dt old new = Ok cs.
Proof.
  intros Hd. revert new. induction old as [|o old IH]; intros [|y new] Hl Hn; try discriminate; simpl; eauto.
  inversion Hn; subst. destruct (IH new) as [cs Ecs]; auto.
  assert (exists z, (if is_nan y then Ok o else cast dt y) = Ok z) as [z ->] by (destruct (is_nan y); eauto; apply cast_ok; auto).
  simpl. rewrite Ecs. simpl. eauto.
Qed.
Lemma copy_ok h d k a : holds h d k a -> exists h' d', copyonwrite h d k = Ok (h', d').
Proof.
  intros (l & El & Ea). unfold copyonwrite. destruct (memb k (d_owned d)); eauto. rewrite El, Ea. simpl. eauto.
Qed.
Lemma retype_ok h d k a dt own : dt <> DInt -> Forall numeric_cell (a_cells a) -> holds h d k a ->
  exists h' d', retype trunc single h d k dt own = Ok (h', d').
Proof.
  intros Hd Hn (l & El & Ea). unfold retype. rewrite El, Ea. destruct (cast_all_ok dt (a_cells a) Hd Hn) as [cs ->]. simpl. eauto.
Qed.

Definition num_contents (c : nat -> option nat -> option (cell A)) : Prop :=
  forall k i x, i <> None -> c k i = Some x -> numeric_cell x.

Lemma tab_numeric c k n : num_contents c -> Forall numeric_cell (map (fun i => cell_or_nan (c k (Some i))) (seq 0 n)).
Proof.
  intros Hc. apply List.Forall_forall. intros x Hx. apply tab_In in Hx as (i & _ & ->).
  destruct (c k (Some i)) eqn:E; simpl; auto. eapply Hc; [|eauto]. discriminate.
Qed.

Lemma set_progress c h d a v :
  inv c h d -> num_contents c -> proper size cset (OSet a v) -> fits (OSet a v) -> numeric (OSet a v) ->
  exists h' d', exec trunc single size names enames cset (h, d) (OSet a v) = Ok (h', d').
Proof.
  intros I Hc Hp [Hn Hf] [Hnum Hlist]. unfold proper in Hp. destruct (meant cset a) as [[k [i|]]|] eqn:Hm; [| |contradiction].
  - destruct Hp as ((n & Hs & Hi) & x & ->). simpl. unfold KeyDict.setitem. rewrite (parse_meant d a k (Some i) Hm). cbn [rbind].
    destruct (first_time size h d k (Some i) (WCell x)) as [h1 d1] eqn:E1.
    destruct (mid_first k c h d (Some i) (WCell x) h1 d1 I E1) as (M1 & Hold & Hnew).
    pose proof (i_slot _ _ _ I k) as Hk. rewrite Hs in Hk. simpl in Hk. simpl in Hnum. inversion Hnum as [|? ? Hx _]; subst.
    assert (S : exists a1, holds h1 d1 k a1 /\ a_dt a1 <> DInt /\ length (a_cells a1) = n).
    { destruct (dmem (d_items d) k) eqn:Ek.
      - destruct (Hold (or_introl eq_refl)) as (-> & Ei & _). unfold dmem in Ek.
        destruct (dget (d_items d) k) as [[y|l]|] eqn:El; try discriminate; [contradiction|].
        destruct Hk as (a1 & H1 & H2 & H3 & H4). exists a1. split; [exists l; rewrite Ei; auto|]. split; [congruence|].
        rewrite H4, map_length, seq_length. auto.
      - destruct (Hnew eq_refl ltac:(discriminate)) as (_ & dt & Hdt & Hh). rewrite Hs in Hh. eexists. split; [eauto|]. simpl.
        split; [destruct Hdt; congruence|]. apply repeat_length. }
    destruct S as (a1 & Hh1 & Hd1 & Hl1). unfold set_elem.
    assert (E2 : match x with CSweep _ => retype trunc single h1 d1 k DObj true | _ => Ok (h1, d1) end = Ok (h1, d1))
      by (destruct x; auto; contradiction).
    rewrite E2. cbn [rbind]. destruct (copy_ok h1 d1 k a1 Hh1) as (h2 & d2 & E3). rewrite E3. cbn [rbind].
    destruct (mid_copy k c h1 d1 a1 h2 d2 M1 Hh1 E3) as (M2 & (l & El & Ea) & _).
    assert (E4 : match x with CFun _ => retype trunc single h2 d2 k DObj false | _ => Ok (h2, d2) end = Ok (h2, d2))
      by (destruct x; auto; contradiction).
    rewrite E4. cbn [rbind]. unfold write_cell. rewrite El, Ea. destruct (cast_ok (a_dt a1) x Hd1 Hx) as [y ->]. cbn [rbind].
    rewrite Hl1. apply Nat.ltb_lt in Hi. rewrite Hi. cbn [rbind]. eauto.
  - destruct (size k) as [n|] eqn:Hs.
    + pose proof (i_slot _ _ _ I k) as Hk. rewrite Hs in Hk. simpl in Hk. destruct v as [x|dt cs|dt cs]; simpl in Hnum.
      * simpl. unfold KeyDict.setitem. rewrite (parse_meant d a k None Hm). cbn [rbind].
        destruct (first_time size h d k None (WCell x)) as [h1 d1]. rewrite Hs. inversion Hnum as [|? ? Hx _]; subst.
        destruct x; simpl; try contradiction; eauto.
      * simpl. unfold KeyDict.setitem. rewrite (parse_meant d a k None Hm). cbn [rbind].
        pose proof (inv_snoc c h d (AR dt cs) I) as I'.
        destruct (first_time size (h ++ [AR dt cs]) d k None (WLoc (length h))) as [h1 d1] eqn:E1.
        destruct (mid_first k c _ d None _ h1 d1 I' E1) as (M1 & Hold & _).
        destruct (Hold (or_intror eq_refl)) as (-> & Ei & _). clear Hold. rewrite Hs. unfold set_array.
        assert (Hv : (h ++ [AR dt cs] : heap A) !! length h = Some (AR dt cs)) by (apply list_lookup_middle; auto).
        rewrite Hv. simpl a_dt. simpl a_cells.
        assert (S : exists h1 l1 v1, (if decide (dt = DInt) then let! ys := cast_all DF32 cs in Ok (alloc (h ++ [AR dt cs]) (AR DF32 ys))
            else Ok (h ++ [AR dt cs], length h)) = Ok (h1, l1) /\ h1 !! l1 = Some v1 /\ a_cells v1 = cs /\ a_dt v1 <> DInt /\
            mid k c h1 d1 /\ slot_ok h1 (size k) (dget (d_items d1) k) (c k)).
        { pose proof (i_slot _ _ _ I' k) as Hk'. rewrite <- Ei in Hk'. destruct (decide (dt = DInt)) as [Edt|Edt].
          - destruct (cast_all_ok DF32 cs ltac:(discriminate) Hnum) as [ys Eys]. pose proof Eys as Eys'. simpl in Hf.
            apply cast_all_id in Eys'; auto; [|apply Hf; auto]. subst ys. rewrite Eys. cbn [rbind].
            unfold alloc. eexists _, _, _. split; [reflexivity|]. split; [apply list_lookup_middle; auto|].
            split; [auto|]. split; [discriminate|]. split; [apply mid_snoc; auto|].
            eapply slot_ok_heap; [|eauto]. intros l' El. apply lookup_snoc. eapply m_valid; eauto.
          - eexists _, _, _. split; [reflexivity|]. split; [eauto|]. auto. }
        destruct S as (h2 & l2 & v2 & E2 & Hv2 & Ec2 & Hd2 & M2 & Hk2). match goal with |- context [rbind ?e _] => replace e with (Ok (h2, l2)) by (symmetry; exact E2) end. cbn [rbind]. rewrite Hv2.
        rewrite Hs in Hk2. simpl in Hk2. destruct (dget (d_items d1) k) as [[y|lo]|] eqn:Ek; [contradiction| |eauto].
        destruct Hk2 as (old & Hold & Hdo & Hno & Hco). rewrite Hold.
        assert (Hnold : Forall numeric_cell (a_cells old)) by (rewrite Hco; apply tab_numeric; auto).
        assert (S3 : exists h3 d3, (if decide (a_dt old = a_dt v2) then Ok (h2, d1) else retype trunc single h2 d1 k (a_dt v2) true) = Ok (h3, d3) /\
                  exists a3, mid k c h3 d3 /\ holds h3 d3 k a3 /\ a_dt a3 <> DInt /\ a_cells a3 = a_cells old).
        { destruct (decide (a_dt old = a_dt v2)) as [Edt|Edt].
          - eexists _, _. split; [reflexivity|]. exists old. split; [auto|]. split; [exists lo; auto|]. split; [congruence|auto].
          - assert (Hh : holds h2 d1 k old) by (exists lo; auto).
            destruct (retype_ok h2 d1 k old (a_dt v2) true Hd2 Hnold Hh) as (h3 & d3 & E3). rewrite E3.
            eexists _, _. split; [reflexivity|].
            assert (Hdv : D (a_dt v2)).
            { destruct (decide (dt = DInt)) as [Edt'|Edt'].
              - destruct (cast_all DF32 cs) as [ys|]; [|discriminate]. cbn [rbind] in E2. injection E2 as <- <-.
                unfold alloc in Hv2. pose proof (list_lookup_middle (h ++ [AR dt cs]) [] (AR DF32 ys) _ eq_refl) as Hv3. unfold heap in Hv2. rewrite Hv3 in Hv2. injection Hv2 as <-.
                simpl. apply Hf. auto.
              - injection E2 as <- <-. rewrite Hv in Hv2. injection Hv2 as <-. simpl. apply Hf. auto. }
            destruct (mid_retype k c h2 d1 old (a_dt v2) true h3 d3 Hdv Hno M2 Hh E3) as (H1 & H2 & _). eexists.
            split; [eauto|]. split; [eauto|]. simpl. auto. }
        destruct S3 as (h3 & d3 & E3 & a3 & M3 & Hh3 & Hd3 & Ec3). rewrite E3. cbn [rbind].
        destruct (copy_ok h3 d3 k a3 Hh3) as (h4 & d4 & E4). rewrite E4. cbn [rbind].
        destruct (mid_copy k c h3 d3 a3 h4 d4 M3 Hh3 E4) as (M4 & (l4 & El4 & Ea4) & _). rewrite El4, Ea4.
        destruct (merge_ok (a_dt a3) (a_cells a3) (a_cells v2) Hd3) as [zs ->]; [|rewrite Ec2; auto|cbn [rbind]; eauto].
        rewrite Ec3, Hco, Ec2, map_length, seq_length. simpl in Hp. auto.
      * simpl. unfold KeyDict.setitem. rewrite (parse_meant d a k None Hm). cbn [rbind].
        destruct (first_time size h d k None (WList dt cs)) as [h1 d1]. rewrite Hs. simpl in Hlist.
        destruct cs; [destruct Hlist; congruence|]. simpl. eauto.
    + destruct v as [x| |]; try contradiction. simpl. unfold KeyDict.setitem.
      rewrite (parse_meant d a k None Hm). cbn [rbind].
      destruct (first_time size h d k None (WCell x)) as [h1 d1]. rewrite Hs. eauto.
Qed.

Lemma num_after c o : num_contents c -> numeric o -> num_contents (after c o).
Proof.
  intros Hc Ho k i x Hi E. unfold after in E. destruct (effect_on cset o k i) as [|y|] eqn:Ee; [eapply Hc; eauto| |discriminate].
  injection E as ->. unfold effect_on in Ee. destruct o as [a v|a|a|a]; try discriminate; [|destruct Ho].
  destruct Ho as [Hn _]. destruct (meant cset a) as [[k' i']|]; [|discriminate]. destruct (k =? k'); [|discriminate].
  destruct i' as [j|], i as [i|], v as [y|dt cs|dt cs]; try discriminate; try congruence.
  - destruct (i =? j); [|discriminate]. injection Ee as ->. inversion Hn; auto.
  - injection Ee as ->. inversion Hn; auto.
  - destruct (cs !! i) as [y|] eqn:Ey; [|discriminate]. assert (y = x) by (destruct y; congruence). subst.
    simpl in Hn. rewrite List.Forall_forall in Hn. apply Hn. eapply In_lookup; eauto.
  - destruct (cs !! i) as [y|] eqn:Ey; [|discriminate]. injection Ee as ->.
    simpl in Hn. rewrite List.Forall_forall in Hn. apply Hn. eapply In_lookup; eauto.
Qed.

Lemma run_progress ops : forall c h d, inv c h d -> num_contents c ->
  Forall (proper size cset) ops -> Forall fits ops -> Forall numeric ops ->
  exists h' d', run trunc single size names enames cset (h, d) ops = Ok (h', d').
Proof.
  induction ops as [|o ops IH]; intros c h d I Hc Hp Hf Hn; simpl; eauto.
  inversion Hp; inversion Hf; inversion Hn; subst.
  assert (exists h1 d1, exec trunc single size names enames cset (h, d) o = Ok (h1, d1)) as (h1 & d1 & E1).
  { destruct o as [a v|a|a|a]; [eapply set_progress; eauto| | |contradiction].
    - simpl. destruct (getitem size names cset h d a) as [[[r h1] d1]|]; eauto.
    - simpl. eauto. }
  change (exists h' d', (let! st' := exec trunc single size names enames cset (h, d) o in run trunc single size names enames cset st' ops) = Ok (h', d')).
  rewrite E1. cbn [rbind]. eapply (IH (after c o)); eauto.
  - eapply exec_inv; eauto. destruct o; simpl; auto. contradiction.
  - apply num_after; auto.
Qed.
End Progress.

(** ** Names in dictionaries that are not substitutions *)

Record ninv (d : kd A) : Prop := {
  n_in : forall nm k, In k (kget (d_keymap d) (MN nm)) <->
           dmem (d_keymap d) (MV k) = true /\ ~ In k (d_unmapped d) /\ In nm (names k);
  n_un : forall k, In k (d_unmapped d) -> dmem (d_keymap d) (MV k) = true;
  n_nd : forall nm, List.NoDup (kget (d_keymap d) (MN nm)) }.

Lemma NoDup_sadd l k : List.NoDup l -> List.NoDup (sadd l k).
Proof.
  intros Hl. unfold sadd. destruct (memb k l) eqn:E; auto.
  apply NoDup_ListNoDup. apply NoDup_app. split; [apply NoDup_ListNoDup; auto|]. split.
  - intros x Hx Hin. apply elem_of_list_In in Hx, Hin. simpl in Hin. destruct Hin as [->|[]].
    apply memb_In in Hx. congruence.
  - apply NoDup_singleton.
Qed.

Lemma kget_kadd km m k m' : kget (kadd km m k) m' = if decide (m' = m) then sadd (kget km m) k else kget km m'.
Proof. unfold kget at 1, kadd. rewrite dget_dset. destruct (decide (m' = m)); auto. Qed.

Lemma names_MN ks km :
  let f := fold_left (fun km k => fold_left (fun km n => kadd km (MN n) k) (names k) km) ks km in
  (forall nm k, In k (kget f (MN nm)) <-> In k (kget km (MN nm)) \/ (In k ks /\ In nm (names k))) /\
  ((forall nm, List.NoDup (kget km (MN nm))) -> forall nm, List.NoDup (kget f (MN nm))).
Proof.
  revert km. induction ks as [|k0 ks IH]; intros km; simpl; [split; [intros; tauto|auto]|].
  assert (H : forall ns km,
    (forall nm k, In k (kget (fold_left (fun km n => kadd km (MN n) k0) ns km) (MN nm)) <-> In k (kget km (MN nm)) \/ (k = k0 /\ In nm ns)) /\
    ((forall nm, List.NoDup (kget km (MN nm))) -> forall nm, List.NoDup (kget (fold_left (fun km n => kadd km (MN n) k0) ns km) (MN nm)))).
  { clear. induction ns as [|n ns IH]; intros km; simpl; [split; [intros; tauto|auto]|]. destruct (IH (kadd km (MN n) k0)) as [H1 H2]. split.
    - intros nm k. rewrite H1, kget_kadd. destruct (decide (MN nm = MN n)) as [[= ->]|Hne].
      + rewrite sadd_In. intuition (subst; auto).
      + intuition (subst; auto). congruence.
    - intros Hn. apply H2. intros nm. rewrite kget_kadd. destruct (decide (MN nm = MN n)); auto. apply NoDup_sadd. auto. }
  destruct (H (names k0) km) as [H1 H2]. destruct (IH (fold_left (fun km n => kadd km (MN n) k0) (names k0) km)) as [H3 H4]. split.
  - intros nm k. rewrite H3, H1. intuition (subst; auto).
  - intros Hn. apply H4. apply H2. auto.
Qed.

Lemma ninv_keymap d : ninv d -> ninv (update_keymap names d).
Proof.
  intros [Hin Hun Hnd]. destruct (names_MN (d_unmapped d) (d_keymap d)) as [H1 H2].
  destruct (names_MV (d_unmapped d) (d_keymap d)) as [H3 _].
  assert (Hdm : forall k, dmem (fold_left (fun km k => fold_left (fun km n => kadd km (MN n) k) (names k) km) (d_unmapped d) (d_keymap d)) (MV k) = dmem (d_keymap d) (MV k)).
  { intros k. unfold dmem. rewrite H3. auto. }
  constructor; simpl.
  - intros nm k. rewrite H1, Hin, Hdm. split.
    + intros [(Ha & Hb & Hc)|(Ha & Hb)]; auto.
    + intros (Ha & _ & Hc). destruct (in_dec Nat.eq_dec k (d_unmapped d)); auto.
  - intros k [].
  - apply H2. auto.
Qed.

Lemma ninv_first h d k i v h' d' : ninv d -> first_time size h d k i v = (h', d') -> ninv d'.
Proof.
  intros [Hin Hun Hnd] E. unfold first_time in E. destruct (dmem (d_keymap d) (MV k)) eqn:Ek; [injection E as <- <-; constructor; auto|].
  assert (G : forall it ow, ninv (KD it (kadd (d_keymap d) (MV k) k) (sadd (d_unmapped d) k) ow)).
  { intros it ow. constructor; simpl.
    - intros nm k'. rewrite kget_kadd. destruct (decide (MN nm = MV k)); [discriminate|]. rewrite Hin.
      unfold dmem at 2. unfold kadd. rewrite dget_dset. rewrite sadd_In. destruct (decide (MV k' = MV k)) as [[= ->]|Hne].
      + unfold dmem in Ek. destruct (dget (d_keymap d) (MV k)) eqn:Eg; [discriminate|]. unfold dmem. rewrite Eg. intuition congruence.
      + unfold dmem. intuition (subst; congruence).
    - intros k'. rewrite sadd_In. unfold dmem, kadd. rewrite dget_dset. destruct (decide (MV k' = MV k)); auto.
      intros [Hi| ->]; [|congruence]. apply Hun in Hi. unfold dmem in Hi. auto.
    - intros nm. rewrite kget_kadd. destruct (decide (MN nm = MV k)); [discriminate|]. auto. }
  destruct i; injection E as <- <-; apply G.
Qed.

Definition same_maps (d d' : kd A) : Prop := d_keymap d' = d_keymap d /\ d_unmapped d' = d_unmapped d.
Lemma ninv_same d d' : same_maps d d' -> ninv d -> ninv d'.
Proof. intros [E1 E2] []. constructor; rewrite ?E1, ?E2; auto. Qed.
Lemma copy_same h d k h' d' : copyonwrite h d k = Ok (h', d') -> same_maps d d'.
Proof.
  unfold copyonwrite. destruct (memb k (d_owned d)); [intros [= <- <-]; split; auto|].
  destruct (dget (d_items d) k) as [[y|l]|]; try discriminate. destruct (h !! l); [|discriminate]. intros [= <- <-]. split; auto.
Qed.
Lemma retype_same h d k dt own h' d' : retype trunc single h d k dt own = Ok (h', d') -> same_maps d d'.
Proof.
  unfold retype. destruct (dget (d_items d) k) as [[y|l]|]; try discriminate. destruct (h !! l) as [a|]; [|discriminate].
  destruct (cast_all dt (a_cells a)); [|discriminate]. intros [= <- <-]. split; auto.
Qed.
Lemma same_trans d1 d2 d3 : same_maps d1 d2 -> same_maps d2 d3 -> same_maps d1 d3.
Proof. unfold same_maps. intros [-> ->] [-> ->]. auto. Qed.
Lemma same_refl d : same_maps d d.
Proof. split; auto. Qed.

Lemma set_elem_same h d k i v h' d' : set_elem trunc single h d k i v = Ok (h', d') -> same_maps d d'.
Proof.
  unfold set_elem. destruct v as [x| |]; try discriminate. intros E.
  destruct (match x with CSweep _ => retype trunc single h d k DObj true | _ => Ok (h, d) end) as [[h1 d1]|] eqn:E1; [|discriminate].
  cbn [rbind] in E. destruct (copyonwrite h1 d1 k) as [[h2 d2]|] eqn:E2; [|discriminate]. cbn [rbind] in E.
  destruct (match x with CFun _ => retype trunc single h2 d2 k DObj false | _ => Ok (h2, d2) end) as [[h3 d3]|] eqn:E3; [|discriminate].
  cbn [rbind] in E. destruct (write_cell trunc single h3 d3 k i x); [|discriminate]. injection E as <- <-.
  apply same_trans with d1; [destruct x; try (injection E1 as <- <-; apply same_refl); eapply retype_same; eauto|].
  apply same_trans with d2; [eapply copy_same; eauto|].
  destruct x; try (injection E3 as <- <-; apply same_refl); eapply retype_same; eauto.
Qed.
Lemma set_array_same h d k l h' d' : set_array trunc single h d k l = Ok (h', d') -> same_maps d d'.
Proof.
  unfold set_array. destruct (h !! l) as [v|]; [|discriminate]. intros E.
  destruct (if decide (a_dt v = DInt) then let! cs := cast_all DF32 (a_cells v) in Ok (alloc h (AR DF32 cs)) else Ok (h, l)) as [[h1 l1]|]; [|discriminate].
  cbn [rbind] in E. destruct (dget (d_items d) k) as [[y|lo]|]; destruct (h1 !! l1) as [v1|]; try discriminate.
  - destruct (h1 !! lo) as [old|]; [|discriminate].
    destruct (if decide (a_dt old = a_dt v1) then Ok (h1, d) else retype trunc single h1 d k (a_dt v1) true) as [[h2 d2]|] eqn:E2; [|discriminate].
    cbn [rbind] in E. destruct (copyonwrite h2 d2 k) as [[h3 d3]|] eqn:E3; [|discriminate]. cbn [rbind] in E.
    destruct (dget (d_items d3) k) as [[y|l3]|]; try discriminate. destruct (h3 !! l3) as [cur|]; [|discriminate].
    destruct (merge trunc single (a_dt cur) (a_cells cur) (a_cells v1)); [|discriminate]. injection E as <- <-.
    apply same_trans with d2; [|eapply copy_same; eauto].
    destruct (decide (a_dt old = a_dt v1)); [injection E2 as <- <-; apply same_refl|eapply retype_same; eauto].
  - injection E as <- <-. split; auto.
Qed.

Lemma setitem_ninv h d a v h' d' : ninv d -> setitem h d a v = Ok (h', d') -> ninv d'.
Proof.
  intros I E. unfold KeyDict.setitem in E. destruct (parse names cset d a) as [[t d1]|] eqn:Ep; [|discriminate].
  assert (I1 : ninv d1).
  { destruct a as [k|k i|n]; simpl in Ep; try (injection Ep as _ <-; auto).
    destruct cset as [vks|]; [|injection Ep as _ <-; apply ninv_keymap; auto].
    destruct (vks n) as [|[k i] [|q others]]; [discriminate|injection Ep as _ <-; auto|].
    destruct (forallb _ _); [|discriminate]. injection Ep as _ <-. auto. }
  cbn [rbind] in E. destruct t as [k i| |]; try discriminate.
  destruct (first_time size h d1 k i v) as [h2 d2] eqn:E2. pose proof (ninv_first _ _ _ _ _ _ _ I1 E2) as I2.
  assert (Hst : forall h3 s, Ok (store h3 d2 k s) = Ok (h', d') -> ninv d').
  { intros h3 s [= <- <-]. eapply ninv_same; [|eauto]. split; auto. }
  destruct i as [i|]; [eapply ninv_same; [eapply set_elem_same; eauto|auto]|].
  destruct (size k) as [n|].
  - destruct v as [x|l|dt cs].
    + destruct x as [a0| | |]; cbn in E; try discriminate; exact (Hst _ _ E).
    + eapply ninv_same; [eapply set_array_same; eauto|auto].
    + destruct cs; [discriminate|]. exact (Hst _ _ E).
  - destruct v; exact (Hst _ _ E).
Qed.

Lemma get_one_same h d k i r h' d' : get_one size h d k i = Ok (r, h', d') -> same_maps d d'.
Proof.
  unfold get_one. intros E.
  destruct (match i, size k with None, Some _ => copyonwrite h d k | _, _ => Ok (h, d) end) as [[h1 d1]|] eqn:E1; [|discriminate].
  assert (S1 : same_maps d d1).
  { destruct i; [injection E1 as <- <-; apply same_refl|]. destruct (size k); [eapply copy_same; eauto|injection E1 as <- <-; apply same_refl]. }
  cbn [rbind] in E. destruct (dget (d_items d1) k) as [[y|l]|]; [| |discriminate].
  - destruct i; [discriminate|]. injection E as _ <- <-. auto.
  - destruct i; [|injection E as _ <- <-; auto]. destruct (h1 !! l) as [a|]; [|discriminate].
    destruct (a_cells a !! n); [|discriminate]. injection E as _ <- <-. auto.
Qed.
Lemma get_many_same i ks : forall h d got r h' d', get_many size h d ks i got = Ok (r, h', d') -> same_maps d d'.
Proof.
  induction ks as [|k ks IH]; intros h d got r h' d' E; simpl in E.
  - injection E as _ <- <-. apply same_refl.
  - destruct (get_one size h d k i) as [[[v h1] d1]|] eqn:E1; [|discriminate]. simpl in E.
    eapply same_trans; [eapply get_one_same; eauto|eauto].
Qed.

Lemma parse_ninv d a t d' : ninv d -> parse names cset d a = Ok (t, d') -> ninv d'.
Proof.
  intros I Ep. destruct a as [k|k i|n]; simpl in Ep; try (injection Ep as _ <-; auto).
  destruct cset as [vks|]; [|injection Ep as _ <-; apply ninv_keymap; auto].
  destruct (vks n) as [|[k i] [|q others]]; [discriminate|injection Ep as _ <-; auto|].
  destruct (forallb _ _); [|discriminate]. injection Ep as _ <-. auto.
Qed.

Lemma exec_ninv h d o h' d' : ninv d -> ~ is_del o -> exec trunc single size names enames cset (h, d) o = Ok (h', d') -> ninv d'.
Proof.
  intros I Ho E. destruct o as [a v|a|a|a]; [| | |destruct Ho; simpl; auto].
  - destruct v; simpl in E; eapply setitem_ninv; eauto.
  - simpl in E. destruct (getitem size names cset h d a) as [[[r h1] d1]|] eqn:Eg.
    + injection E as <- <-. unfold getitem in Eg. destruct (parse names cset d a) as [[t d2]|] eqn:Ep; [|discriminate].
      cbn [rbind] in Eg. destruct (entry t) as [m|]; [|discriminate]. pose proof (parse_ninv _ _ _ _ I Ep) as I2.
      destruct (kget (d_keymap d2) m) as [|k [|k2 ks]]; [discriminate| |].
      * eapply ninv_same; [eapply get_one_same; eauto|auto].
      * eapply ninv_same; [eapply get_many_same; eauto|auto].
    + injection E as <- <-. destruct (parse names cset d a) as [[t d2]|] eqn:Ep; auto. eapply parse_ninv; eauto.
  - simpl in E. injection E as <- <-. unfold contains. destruct (parse names cset d a) as [[t d2]|e] eqn:Ep; [|destruct e; auto].
    pose proof (parse_ninv _ _ _ _ I Ep) as I2. destruct t; auto.
    destruct (dget (d_items d2) k) as [[y|l]|]; simpl; auto; destruct i; auto.
    destruct (option_map a_cells (h !! l)) as [cs|]; auto. destruct (cs !! n); auto.
Qed.

Lemma run_ninv ops : forall h d h' d', ninv d -> Forall (fun o => ~ is_del o) ops ->
  run trunc single size names enames cset (h, d) ops = Ok (h', d') -> ninv d'.
Proof.
  induction ops as [|o ops IH]; intros h d h' d' I Hn E; cbn [run] in E.
  - injection E as <- <-. auto.
  - destruct (exec trunc single size names enames cset (h, d) o) as [[h1 d1]|] eqn:E1; [|discriminate]. cbn [rbind] in E.
    inversion Hn; subst. eapply (IH h1 d1); eauto. eapply exec_ninv; eauto.
Qed.
Lemma ninv_empty : ninv kd_empty.
Proof. constructor; simpl; intros; try contradiction; [split; [intros []|intros (H & _); discriminate]|constructor]. Qed.

(** Reading a name that one key has is reading that key. *)
Lemma name_alone h d nm k :
  cset = None -> ninv d -> (forall k', maps d k') ->
  (forall k', dmem (d_items d) k' = true /\ In nm (names k') <-> k' = k) ->
  shows size names cset h d (KName nm) = shows size names cset h d (KVar k).
Proof.
  intros Hc I Hm Hk. pose proof (ninv_keymap d I) as [Hin _ Hnd].
  destruct (names_MV (d_unmapped d) (d_keymap d)) as [H3 _].
  assert (Hkm : forall k', dmem (d_keymap (update_keymap names d)) (MV k') = dmem (d_items d) k').
  { intros k'. unfold dmem. simpl. rewrite H3. rewrite (Hm k'). unfold dmem. destruct (dget (d_items d) k'); auto. }
  assert (E : kget (d_keymap (update_keymap names d)) (MN nm) = [k]).
  { assert (Hiff : forall k', In k' (kget (d_keymap (update_keymap names d)) (MN nm)) <-> k' = k).
    { intros k'. rewrite Hin, Hkm. simpl. rewrite <- Hk. tauto. }
    specialize (Hnd nm). destruct (kget (d_keymap (update_keymap names d)) (MN nm)) as [|x [|y l]].
    - destruct (proj2 (Hiff k) eq_refl).
    - f_equal. apply Hiff. left. auto.
    - assert (x = k) by (apply Hiff; left; auto). assert (y = k) by (apply Hiff; right; left; auto). subst.
      inversion Hnd as [|? ? Hx _]. destruct Hx. left. auto. }
  assert (Ev : kget (d_keymap d) (MV k) = [k]).
  { unfold kget. rewrite (Hm k). destruct (proj2 (Hk k) eq_refl) as [-> _]. auto. }
  unfold shows, getitem. simpl parse. rewrite Hc. cbn [rbind entry]. rewrite E, Ev.
  assert (Eg : forall d1 d2 : kd A, d_items d1 = d_items d2 -> d_owned d1 = d_owned d2 ->
     match get_one size h d1 k None, get_one size h d2 k None with
     | Ok (r1, h1, _), Ok (r2, h2, _) => r1 = r2 /\ h1 = h2
     | Err e1, Err e2 => e1 = e2
     | _, _ => False
     end).
  { intros d1 d2 Ei Eo. unfold get_one, copyonwrite. destruct (size k).
    - rewrite Ei, Eo. destruct (memb k (d_owned d2)); simpl; [rewrite Ei; destruct (dget (d_items d2) k) as [[]|]; auto|].
      destruct (dget (d_items d2) k) as [sl|]; [|exact eq_refl]. destruct sl as [y|l]; [exact eq_refl|]. destruct (h !! l); [simpl|exact eq_refl]. rewrite !dget_dset_eq. auto.
    - simpl. rewrite Ei. destruct (dget (d_items d2) k) as [[]|]; auto. }
  specialize (Eg (update_keymap names d) d eq_refl eq_refl).
  destruct (get_one size h (update_keymap names d) k None) as [[[r1 h1] d1]|];
    destruct (get_one size h d k None) as [[[r2 h2] d2]|]; try contradiction; [|congruence].
  destruct Eg as [-> ->]. auto.
Qed.

(** ** Deleting by name *)

Lemma sdel_In l k x : In x (sdel l k) <-> In x l /\ x <> k.
Proof.
  unfold sdel. rewrite filter_In. split; intros [H1 H2]; split; auto.
  - intros ->. rewrite Nat.eqb_refl in H2. discriminate.
  - destruct (Nat.eqb_spec k x); [congruence|auto].
Qed.
Lemma NoDup_sdel l k : List.NoDup l -> List.NoDup (sdel l k).
Proof. apply List.NoDup_filter. Qed.

Definition nonempty (km : list (mapkey * list nat)) : Prop := forall nm l, dget km (MN nm) = Some l -> l <> [].

Lemma unmap_names k ns : forall km, NoDup (dkeys km) -> List.NoDup ns -> nonempty km ->
  (forall n, In n ns -> In k (kget km (MN n))) -> (forall n, List.NoDup (kget km (MN n))) ->
  exists km', unmap km (map MN ns) (Some k) = Ok km' /\ nonempty km' /\ (forall n, List.NoDup (kget km' (MN n))) /\
    forall n j, In j (kget km' (MN n)) <-> In j (kget km (MN n)) /\ ~ (In n ns /\ j = k).
Proof.
  induction ns as [|n ns IH]; intros km Hn Hns Hne Hin Hnd; simpl.
  - exists km. repeat split; auto; try tauto.
  - inversion Hns as [|? ? Hnn Hns']; subst.
    assert (G : forall km1, NoDup (dkeys km1) -> nonempty km1 -> (forall m, List.NoDup (kget km1 (MN m))) ->
      (forall m, kget km1 (MN m) = if decide (m = n) then sdel (kget km (MN n)) k else kget km (MN m)) ->
      exists km', unmap km1 (map MN ns) (Some k) = Ok km' /\ nonempty km' /\ (forall n, List.NoDup (kget km' (MN n))) /\
        forall m j, In j (kget km' (MN m)) <-> In j (kget km (MN m)) /\ ~ ((n = m \/ In m ns) /\ j = k)).
    { intros km1 H1 H2 H3 H4. destruct (IH km1) as (km' & E & A1 & A2 & A3); auto.
      - intros m Hm. rewrite H4. destruct (decide (m = n)) as [->|]; [contradiction|]. apply Hin. right. auto.
      - exists km'. split; [auto|]. split; [auto|]. split; [auto|]. intros m j. rewrite A3, H4. destruct (decide (m = n)) as [->|Hd].
        + rewrite sdel_In. intuition congruence.
        + intuition congruence. }
    assert (Hk : In k (kget km (MN n))) by (apply Hin; left; auto). specialize (Hnd n) as Hnd1.
    pose proof Hk as Hk0. unfold kget in Hk0. destruct (dget km (MN n)) as [l|] eqn:El; [|destruct Hk0].
    assert (Ekg : kget km (MN n) = l) by (unfold kget; rewrite El; auto).
    assert (Hd1 : l = [k] -> exists km', unmap (ddel km (MN n)) (map MN ns) (Some k) = Ok km' /\ nonempty km' /\ (forall n, List.NoDup (kget km' (MN n))) /\
        forall m j, In j (kget km' (MN m)) <-> In j (kget km (MN m)) /\ ~ ((n = m \/ In m ns) /\ j = k)).
    { intros ->. apply G.
      - apply NoDup_ddel. auto.
      - intros m l Hm. destruct (decide (m = n)) as [->|Hd]; [rewrite dget_ddel_eq in Hm by auto; discriminate|].
        rewrite dget_ddel_ne in Hm by congruence. eauto.
      - intros m. unfold kget. destruct (decide (m = n)) as [->|Hd]; [rewrite dget_ddel_eq by auto; constructor|].
        rewrite dget_ddel_ne by congruence. apply Hnd.
      - intros m. unfold kget at 1. destruct (decide (m = n)) as [->|Hd].
        + rewrite dget_ddel_eq by auto. rewrite Ekg. simpl. rewrite Nat.eqb_refl. auto.
        + rewrite dget_ddel_ne by congruence. auto. }
    destruct l as [|x [|y l]]; [destruct Hk0| |].
    + destruct Hk0 as [->|[]]. apply Hd1. auto.
    + clear Hd1. rewrite (proj2 (memb_In k (x :: y :: l)) Hk0). apply G.
      * apply NoDup_dset. auto.
      * intros m l1 Hm. rewrite dget_dset in Hm. destruct (decide (MN m = MN n)); [|eauto]. injection Hm as <-.
        intros E0. change (sdel (x :: y :: l) k = []) in E0. assert (F : forall z, In z (x :: y :: l) -> z = k).
        { intros z Hz. destruct (Nat.eq_dec z k); auto. exfalso. assert (Hz' : In z (sdel (x :: y :: l) k)) by (apply sdel_In; auto). rewrite E0 in Hz'. destruct Hz'. }
        assert (x = k) by (apply F; left; auto). assert (y = k) by (apply F; right; left; auto). subst.
        rewrite Ekg in Hnd1. inversion Hnd1 as [|? ? Hx _]. apply Hx. left. auto.
      * intros m. unfold kget. rewrite dget_dset. destruct (decide (MN m = MN n)); [apply NoDup_sdel; rewrite <- Ekg; auto|apply Hnd].
      * intros m. unfold kget at 1. rewrite dget_dset. destruct (decide (m = n)) as [->|Hd].
        -- rewrite decide_True by auto. rewrite Ekg. auto.
        -- rewrite decide_False by congruence. auto.
Qed.

Hypothesis Hnames : forall k, List.NoDup (names k).

Lemma nonempty_keymap (d : kd A) : nonempty (d_keymap d) -> nonempty (d_keymap (update_keymap names d)).
Proof.
  assert (K : forall km n k, nonempty km -> nonempty (kadd km (MN n) k)).
  { intros km n k H m l Hm. unfold kadd in Hm. rewrite dget_dset in Hm. destruct (decide (MN m = MN n)); [|eapply H; eauto].
    injection Hm as <-. intros E. assert (In k (sadd (kget km (MN n)) k)) by (apply sadd_In; auto). rewrite E in *. auto. }
  simpl. generalize (d_keymap d) as km. induction (d_unmapped d) as [|k ks IH]; intros km H; simpl; auto. apply IH.
  revert km H. induction (names k) as [|n ns IHn]; intros km H; simpl; auto.
Qed.

Lemma del_key_names c h d k : inv c h d -> ninv d -> nonempty (d_keymap d) -> d_unmapped d = [] -> dmem (d_items d) k = true ->
  exists d', del_key names h d k = Ok (h, d') /\ inv (after c (ODel (KVar k))) h d' /\ ninv d' /\ nonempty (d_keymap d') /\ d_unmapped d' = [] /\
    (forall k', dmem (d_items d') k' = true <-> dmem (d_items d) k' = true /\ k' <> k).
Proof.
  intros I [Nin Nun Nnd] Hne Hu Hk. pose proof (i_map _ _ _ I k) as Hm. unfold maps in Hm. rewrite Hk in Hm.
  assert (Hg : forall n, kget (ddel (d_keymap d) (MV k)) (MN n) = kget (d_keymap d) (MN n)).
  { intros n. unfold kget. rewrite dget_ddel_ne; [auto|discriminate]. }
  destruct (unmap_names k (names k) (ddel (d_keymap d) (MV k))) as (km & Eu & A1 & A2 & A3); auto.
  - apply NoDup_ddel. apply (i_km _ _ _ I).
  - intros nm l Hl. rewrite dget_ddel_ne in Hl by discriminate. eauto.
  - intros n Hn. rewrite Hg, Nin, Hu. unfold dmem. rewrite Hm. simpl. auto.
  - intros n. rewrite Hg. apply Nnd.
  - assert (Ed : del_key names h d k = Ok (h, KD (ddel (d_items d) k) km (d_unmapped d) (d_owned d))).
    { unfold del_key. rewrite Hk. simpl. rewrite Hm, Eu. auto. }
    pose proof (del_inv _ _ _ _ _ _ I Ed) as I'. rewrite Ed. eexists. split; [reflexivity|]. split; [exact I'|].
    assert (Hit : forall k', dmem (ddel (d_items d) k) k' = true <-> dmem (d_items d) k' = true /\ k' <> k).
    { intros k'. unfold dmem. destruct (decide (k' = k)) as [->|Hd].
      - rewrite dget_ddel_eq by apply (i_it _ _ _ I). intuition congruence.
      - rewrite dget_ddel_ne by auto. tauto. }
    assert (Hmv : forall k', dmem km (MV k') = dmem (ddel (d_items d) k) k').
    { intros k'. pose proof (i_map _ _ _ I' k') as H. unfold maps in H. simpl in H. unfold dmem at 1. rewrite H. destruct (dmem (ddel (d_items d) k) k'); auto. }
    assert (Hmv0 : forall k', dmem (d_keymap d) (MV k') = dmem (d_items d) k').
    { intros k'. pose proof (i_map _ _ _ I k') as H. unfold maps in H. unfold dmem at 1. rewrite H. destruct (dmem (d_items d) k'); auto. }
    split; [|split; [exact A1|split; [exact Hu|exact Hit]]].
    constructor; simpl.
    + intros nm j. rewrite A3, Hg, Nin, Hu, Hmv, Hmv0, Hit. simpl. intuition (subst; auto).
    + rewrite Hu. intros j [].
    + exact A2.
Qed.

Lemma del_keys_names ks : forall c h d, inv c h d -> ninv d -> nonempty (d_keymap d) -> d_unmapped d = [] -> List.NoDup ks ->
  (forall k, In k ks -> dmem (d_items d) k = true) ->
  exists d', del_keys names h d ks = Ok (h, d') /\ inv (fun k i => if memb k ks then None else c k i) h d' /\ ninv d' /\ nonempty (d_keymap d').
Proof.
  induction ks as [|k ks IH]; intros c h d I Nv Hne Hu Hnd Hks.
  - exists d. split; [auto|]. split; [apply inv_ext with c; auto|auto].
  - inversion Hnd as [|? ? Hk Hnd']; subst. destruct (del_key_names c h d k I Nv Hne Hu) as (d1 & E1 & I1 & N1 & H1 & U1 & Hit); [apply Hks; left; auto|].
    destruct (IH (after c (ODel (KVar k))) h d1 I1 N1 H1 U1 Hnd') as (d2 & E2 & I2 & N2 & H2).
    + intros k' Hk'. apply Hit. split; [apply Hks; right; auto|]. intros ->. contradiction.
    + exists d2. cbn [del_keys]. rewrite E1. cbn [rbind fst snd]. rewrite E2. split; [auto|]. split; [|auto].
      eapply inv_ext; [|exact I2]. intros k' i. unfold after, effect_on, memb. simpl. destruct (existsb (Nat.eqb k') ks) eqn:Em.
      * rewrite orb_true_r. auto.
      * rewrite orb_false_r. destruct (Nat.eqb_spec k' k); auto.
Qed.

Lemma nonempty_first (h : heap A) (d : kd A) k i v h' d' : nonempty (d_keymap d) -> first_time size h d k i v = (h', d') -> nonempty (d_keymap d').
Proof.
  intros H E. unfold first_time in E. destruct (dmem (d_keymap d) (MV k)); [injection E as <- <-; auto|].
  assert (G : nonempty (kadd (d_keymap d) (MV k) k)).
  { intros m l Hm. unfold kadd in Hm. rewrite dget_dset in Hm. destruct (decide (MN m = MV k)); [discriminate|eauto]. }
  destruct i; injection E as <- <-; exact G.
Qed.
Lemma nonempty_parse (d : kd A) a t d' : nonempty (d_keymap d) -> parse names cset d a = Ok (t, d') -> nonempty (d_keymap d').
Proof.
  intros I Ep. destruct a as [k|k i|n]; simpl in Ep; try (injection Ep as _ <-; auto).
  destruct cset as [vks|]; [|injection Ep as _ <-; apply nonempty_keymap; auto].
  destruct (vks n) as [|[k i] [|q others]]; [discriminate|injection Ep as _ <-; auto|].
  destruct (forallb _ _); [|discriminate]. injection Ep as _ <-. auto.
Qed.
Lemma nonempty_set h d a v h' d' : nonempty (d_keymap d) -> setitem h d a v = Ok (h', d') -> nonempty (d_keymap d').
Proof.
  intros I E. unfold KeyDict.setitem in E. destruct (parse names cset d a) as [[t d1]|] eqn:Ep; [|discriminate].
  pose proof (nonempty_parse _ _ _ _ I Ep) as I1.
  cbn [rbind] in E. destruct t as [k i| |]; try discriminate.
  destruct (first_time size h d1 k i v) as [h2 d2] eqn:E2. pose proof (nonempty_first _ _ _ _ _ _ _ I1 E2) as I2.
  assert (Hs : forall d3, same_maps d2 d3 -> nonempty (d_keymap d3)) by (intros d3 [-> _]; auto).
  assert (Hst : forall h3 s, Ok (store h3 d2 k s) = Ok (h', d') -> nonempty (d_keymap d')).
  { intros h3 s [= <- <-]. apply Hs. split; auto. }
  destruct i as [i|]; [eapply Hs, set_elem_same; eauto|].
  destruct (size k) as [n|].
  - destruct v as [x|l|dt cs].
    + destruct x as [a0| | |]; cbn in E; try discriminate; exact (Hst _ _ E).
    + eapply Hs, set_array_same; eauto.
    + destruct cs; [discriminate|]. exact (Hst _ _ E).
  - destruct v; exact (Hst _ _ E).
Qed.
Lemma nonempty_exec h d o h' d' : nonempty (d_keymap d) -> ~ is_del o -> exec trunc single size names enames cset (h, d) o = Ok (h', d') -> nonempty (d_keymap d').
Proof.
  intros I Ho E. destruct o as [a v|a|a|a]; [| | |destruct Ho; simpl; auto].
  - destruct v; simpl in E; eapply nonempty_set; eauto.
  - simpl in E. destruct (getitem size names cset h d a) as [[[r h1] d1]|] eqn:Eg.
    + injection E as <- <-. unfold getitem in Eg. destruct (parse names cset d a) as [[t d2]|] eqn:Ep; [|discriminate].
      cbn [rbind] in Eg. destruct (entry t) as [m|]; [|discriminate]. pose proof (nonempty_parse _ _ _ _ I Ep) as I2.
      destruct (kget (d_keymap d2) m) as [|k [|k2 ks]]; [discriminate| |].
      * destruct (get_one_same _ _ _ _ _ _ _ Eg) as [-> _]. auto.
      * destruct (get_many_same _ _ _ _ _ _ _ _ Eg) as [-> _]. auto.
    + injection E as <- <-. destruct (parse names cset d a) as [[t d2]|] eqn:Ep; auto. eapply nonempty_parse; eauto.
  - simpl in E. injection E as <- <-. unfold contains. destruct (parse names cset d a) as [[t d2]|e] eqn:Ep; [|destruct e; auto].
    pose proof (nonempty_parse _ _ _ _ I Ep) as I2. destruct t; auto.
    destruct (dget (d_items d2) k) as [[y|l]|]; simpl; auto; destruct i; auto.
    destruct (option_map a_cells (h !! l)) as [cs|]; auto. destruct (cs !! n); auto.
Qed.

(** The keys with a name, once the names are mapped. *)
Lemma named c h d nm : inv c h d -> ninv d ->
  List.NoDup (kget (d_keymap (update_keymap names d)) (MN nm)) /\
  forall k, In k (kget (d_keymap (update_keymap names d)) (MN nm)) <-> dmem (d_items d) k = true /\ In nm (names k).
Proof.
  intros I Nv. pose proof (ninv_keymap d Nv) as [Hin _ Hnd]. split; [apply Hnd|]. intros k. rewrite Hin.
  pose proof (i_map _ _ _ (inv_keymap c h d I) k) as Hm. unfold maps in Hm. unfold dmem at 1. rewrite Hm. simpl. destruct (dmem (d_items d) k); simpl; intuition discriminate.
Qed.

Lemma del_name c h d nm : inv c h d -> ninv d -> nonempty (d_keymap d) ->
  ((exists k, dmem (d_items d) k = true /\ In nm (names k)) ->
   exists d', delitem trunc single names enames h d (KName nm) = Ok (h, d') /\
     inv (fun k i => if memb nm (names k) then None else c k i) h d' /\ ninv d' /\ nonempty (d_keymap d')) /\
  ((forall k, In nm (names k) -> dmem (d_items d) k = false) -> delitem trunc single names enames h d (KName nm) = Err KeyErrorE).
Proof.
  intros I Nv Hne. destruct (named c h d nm I Nv) as [Hnd Hin]. unfold delitem. split.
  - intros (k & Hk1 & Hk2). pose proof (proj2 (Hin k) (conj Hk1 Hk2)) as Hk.
    destruct (del_keys_names (kget (d_keymap (update_keymap names d)) (MN nm)) c h (update_keymap names d)) as (d' & E & I' & N' & H'); auto.
    + apply inv_keymap. auto.
    + apply ninv_keymap. auto.
    + apply nonempty_keymap. auto.
    + intros k' Hk'. apply Hin in Hk' as [H _]. exact H.
    + exists d'. split; [|split; [|auto]].
      * destruct (kget (d_keymap (update_keymap names d)) (MN nm)); [destruct Hk|exact E].
      * destruct I' as [J1 J2 J3 J4 J5 J6 J7]. constructor; auto. intros k'. specialize (J4 k'). 
        destruct (memb nm (names k')) eqn:Em, (memb k' (kget (d_keymap (update_keymap names d)) (MN nm))) eqn:Ek; auto.
        -- (* not stored *)
           assert (Hd : dmem (d_items d) k' = false).
           { destruct (dmem (d_items d) k') eqn:Ed; auto. apply memb_In in Em. assert (memb k' (kget (d_keymap (update_keymap names d)) (MN nm)) = true) by (apply memb_In, Hin; auto). congruence. }
           pose proof (i_slot _ _ _ I k') as Hs. unfold dmem in Hd. destruct (dget (d_items d) k') eqn:Eg; [discriminate|].
           eapply slot_ok_ext; [|exact J4]. destruct (size k'); simpl in Hs |- *.
           ++ intros i Hi. auto.
           ++ destruct (c k' None); [discriminate|auto].
        -- apply memb_In in Ek. apply Hin in Ek as [_ Ek]. apply memb_In in Ek. congruence.
  - intros Hno. destruct (kget (d_keymap (update_keymap names d)) (MN nm)) as [|k ks]; auto.
    destruct (proj1 (Hin k) (or_introl eq_refl)) as [H1 H2]. rewrite (Hno k H2) in H1. discriminate.
Qed.

Definition named_dels (o : op A) : Prop := match o with ODel a => exists n, a = KName n | _ => True end.
Definition after_named (c : nat -> option nat -> option (cell A)) (o : op A) (k : nat) (i : option nat) : option (cell A) :=
  match o with
  | ODel (KName n) => if memb n (names k) then None else c k i
  | _ => after c o k i
  end.

Lemma run_named ops : forall c h d h' d', inv c h d -> ninv d -> nonempty (d_keymap d) ->
  Forall (proper size cset) ops -> Forall fits ops -> Forall named_dels ops ->
  run trunc single size names enames cset (h, d) ops = Ok (h', d') -> inv (fold_left after_named ops c) h' d' /\ ninv d' /\ nonempty (d_keymap d').
Proof.
  induction ops as [|o ops IH]; intros c h d h' d' I Nv Hne Hp Hf Hw E; cbn [run] in E; cbn [fold_left].
  - injection E as <- <-. auto.
  - destruct (exec trunc single size names enames cset (h, d) o) as [[h1 d1]|] eqn:E1; [|discriminate]. cbn [rbind] in E.
    inversion Hp; inversion Hf; inversion Hw; subst. 
    assert (G : inv (after_named c o) h1 d1 /\ ninv d1 /\ nonempty (d_keymap d1)).
    { destruct o as [a v|a|a|a].
      4: { match goal with H : named_dels _ |- _ => destruct H as [n ->] end. cbn [exec] in E1.
           destruct (del_name c h d n I Nv Hne) as [G1 G2].
           destruct (named c h d n I Nv) as [_ Hin].
           destruct (kget (d_keymap (update_keymap names d)) (MN n)) as [|k ks] eqn:Ek.
           - unfold delitem in E1. rewrite Ek in E1. discriminate.
           - destruct G1 as (d2 & E2 & I2 & N2 & Hn2); [exists k; apply Hin; left; auto|].
             rewrite E2 in E1. injection E1 as <- <-. auto. }
      all: split; [|split]; [eapply exec_inv; eauto; simpl; auto|eapply exec_ninv; [exact Nv| |exact E1]; intros []|eapply nonempty_exec; [exact Hne| |exact E1]; intros []]. }
    destruct G as (I1 & N1 & Hn1). eapply (IH _ h1 d1); eauto.
Qed.

(** ** Deleting the only element that a vector has *)

Lemma unmap_none ms : forall km km', NoDup (dkeys km) -> unmap km ms None = Ok km' ->
  NoDup (dkeys km') /\ (forall m, ~ In m ms -> dget km' m = dget km m) /\
  (forall m, In m ms -> dget km' m = None).
Proof.
  induction ms as [|m ms IH]; intros km km' Hn E; simpl in E.
  - injection E as <-. split; [auto|]. split; [auto|]. intros m [].
  - assert (G : forall km1, NoDup (dkeys km1) -> unmap km1 ms None = Ok km' -> dget km1 m = None ->
      (forall m', m' <> m -> dget km1 m' = dget km m') -> NoDup (dkeys km') /\ (forall m', ~ In m' (m :: ms) -> dget km' m' = dget km m') /\
      (forall m', In m' (m :: ms) -> dget km' m' = None)).
    { intros km1 H1 H2 H3 H4. destruct (IH km1 km' H1 H2) as (A1 & A2 & A3). split; [auto|]. split.
      - intros m' Hm. rewrite A2; [apply H4; intros ->; apply Hm; left; auto|intros Hi; apply Hm; right; auto].
      - intros m' Hm. destruct (in_dec mapkey_eq_dec m' ms) as [Hi|Hi]; [auto|]. destruct Hm as [<-|Hm]; [|contradiction]. rewrite A2; auto. }
    destruct (dget km m) as [[|x [|y l]]|] eqn:Em; try discriminate.
    + apply (G (ddel km m)); auto; [apply NoDup_ddel; auto|apply dget_ddel_eq; auto|intros; apply dget_ddel_ne; auto].
    + apply (G km); auto.
Qed.
Lemma del_only_element c h d k i n h' d' : (forall l, ~ P l) -> inv c h d -> size k = Some n -> i < n ->
  (forall j, j < n -> j <> i -> cell_or_nan (c k (Some j)) = CNan) ->
  del_elem trunc single enames h d k i = Ok (h', d') ->
  inv (fun k' j => if Nat.eqb k' k then None else c k' j) h' d' /\ dget (d_items d') k = None.
Proof.
  intros HP I Hs Hi Ho E. unfold del_elem in E. destruct (write_cell trunc single h d k i CNan) as [h1|] eqn:Ew; [|discriminate].
  cbn [rbind] in E. unfold write_cell in Ew. pose proof (i_slot _ _ _ I k) as Hk. rewrite Hs in Hk. simpl in Hk.
  destruct (dget (d_items d) k) as [[y|l]|] eqn:Ek; try discriminate.
  destruct Hk as (a & Ha & Hd & Hn & Hc). rewrite Ha in Ew. 
  destruct (cast (a_dt a) CNan) as [x|] eqn:Ex; [|discriminate]. cbn [rbind] in Ew.
  assert (x = CNan) as -> by (apply (cast_id (a_dt a) CNan x Hd); [intros ? [=]|auto]).
  assert (Ll : length (a_cells a) = n) by (rewrite Hc, map_length, seq_length; auto). rewrite Ll in Ew.
  destruct (Nat.ltb_spec i n) as [_|]; [|lia]. injection Ew as <-.
  assert (Hl : l < length h) by (apply lookup_lt_is_Some; eauto).
  assert (Hall : forallb is_nan (<[i:=CNan]> (a_cells a)) = true).
  { apply forallb_forall. intros z Hz. apply elem_of_list_In, elem_of_list_lookup in Hz as [j Hj].
    destruct (Nat.eq_dec j i) as [->|Hne].
    - rewrite list_lookup_insert in Hj by lia. injection Hj as <-. auto.
    - rewrite list_lookup_insert_ne in Hj by auto. rewrite Hc in Hj.
      assert (Hjn : j < n). { apply lookup_lt_Some in Hj. rewrite map_length, seq_length in Hj. auto. }
      rewrite tab_lookup in Hj by auto. injection Hj as <-. rewrite Ho; auto. }
  destruct (unmap (d_keymap d) (ME k i :: MV k :: map MN (enames k i)) None) as [km|] eqn:Eu; [|discriminate].
  cbn [rbind] in E. pose proof (@list_lookup_insert (arr A) h l (AR (a_dt a) (<[i:=CNan]> (a_cells a))) Hl) as Hli.
  cbv beta zeta in E. match type of E with Ok (_, KD ?it _ _ _) = _ => assert (Eit : it = ddel (d_items d) k) end.
  { match goal with |- match ?x with _ => _ end = _ => replace x with (Some (AR (a_dt a) (<[i:=CNan]> (a_cells a)))) by (symmetry; exact Hli) end.
    cbn [a_cells]. rewrite Hall. auto. }
  rewrite Eit in E. injection E as <- <-. destruct (unmap_none _ _ _ (i_km _ _ _ I) Eu) as (H1 & H2 & H3). simpl.
  assert (Hit : dget (ddel (d_items d) k) k = None) by (apply dget_ddel_eq; apply (i_it _ _ _ I)).
  split; [|exact Hit].
  assert (Hsub : forall k1 s, dget (ddel (d_items d) k) k1 = Some s -> k1 <> k /\ dget (d_items d) k1 = Some s).
  { intros k1 s E1. destruct (decide (k1 = k)) as [->|Hne]; [congruence|]. rewrite dget_ddel_ne in E1; auto. }
  destruct I. constructor; simpl; auto.
  - apply NoDup_ddel. auto.
  - intros k'. unfold maps. simpl. unfold dmem. destruct (decide (k' = k)) as [->|Hne].
    + rewrite Hit, H3; simpl; auto.
    + rewrite dget_ddel_ne by auto. rewrite H2.
      * apply i_map0.
      * simpl. intros [Hx|[Hx|Hx]]; try congruence. apply in_map_iff in Hx as (? & Hx & _). discriminate.
  - intros k'. destruct (Nat.eqb_spec k' k) as [->|Hne].
    + rewrite Hit. rewrite Hs. simpl. auto.
    + rewrite dget_ddel_ne by auto. eapply slot_ok_heap; [|apply i_slot0].
      intros l' El. apply list_lookup_insert_ne. intros ->. eapply i_dist0; [|exact Ek|exact El]; auto.
  - intros k1 k2 l1 Hne E1 E2. apply Hsub in E1 as [_ E1]. apply Hsub in E2 as [_ E2]. eapply i_dist0; eauto.
  - intros k1 l1 E1. apply Hsub in E1 as [_ E1]. eapply Nat.lt_le_trans; [eapply i_valid0; eauto|]. apply Nat.eq_le_incl. symmetry. apply insert_length.
  - split; [intros l1 Hp; destruct (HP l1 Hp)|intros; auto].
Qed.
End KeyDictProofs.
