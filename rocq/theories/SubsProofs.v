(** Proofs about the parsing of substitutions (C42). *)
From Verif Require Import Base KeyDict Subs.
Open Scope nat_scope.

Lemma map_lookup {B C} (f : B -> C) (l : list B) i : map f l !! i = option_map f (l !! i).
Proof. revert i. induction l as [|x l IH]; intros [|i]; simpl; auto. Qed.

Section SubsProofs.
Context {A : Type}.
Variable size : nat -> option nat.
Variable names : nat -> list nat.
Variable enames : nat -> nat -> list nat.
Variable range : nat -> sweeping A.

Definition same3 (r r' : parsed A) (p : vk) : Prop :=
  dget (p_const r') p = dget (p_const r) p /\ dget (p_sweep r') p = dget (p_sweep r) p /\
  dget (p_linked r') p = dget (p_linked r) p.
Definition absent (r : parsed A) (p : vk) : Prop := classified r p None.

Lemma put_other sw v p r q : q <> p -> same3 r (put sw v p r) q.
Proof.
  intros Hn. unfold same3, put. destruct v as [[a| |f|s]|cs|rs]; destruct sw; simpl; rewrite ?dget_dset_ne; auto.
Qed.

(** The class that [put] gives to a value. *)
Definition put_class (sw : bool) (v : esub A) : option (class A) :=
  match v with
  | EOne (CFun f) => Some (ToLink f)
  | _ =>
      if sw then Some (ToSweep (match v with EOne c => SwOne c | EArr cs => SwArr cs | ERows rs => SwRows rs end))
      else match v with
           | EOne CNan => Some ToNothing
           | ERows _ => None
           | EOne c => Some (ToConst (VOne c))
           | EArr cs => Some (ToConst (VArr cs))
           end
  end.
Lemma put_self sw v p r : absent r p -> classified (put sw v p r) p (put_class sw v).
Proof.
  intros (H1 & H2 & H3). unfold classified, put, put_class.
  destruct v as [[a| |f|s]|cs|rs]; destruct sw; simpl; rewrite ?dget_dset_eq; auto.
Qed.

(** The flag, as the loop leaves it. *)
Definition flag_ok (v : sval A) (sw : bool) : Prop :=
  match v with
  | VOne (CSweep _) => sw = true
  | VOne _ => sw = false
  | VArr cs => sw = false \/ Forall (fun c => ~ plain_cell c) cs
  end.

Lemma column_ok (rs : list (list A)) n i : Forall (fun r => length r = n) rs -> i < n -> exists col, column rs i = Ok col.
Proof.
  induction 1 as [|r rs Hr Hrs IH]; intros Hi; simpl; eauto.
  destruct (lookup_lt_is_Some_2 r i) as [a Ea]; [lia|]. rewrite Ea. destruct (IH Hi) as [col ->]. simpl. eauto.
Qed.

Definition same_class (c c' : option (class A)) : Prop :=
  match c, c' with
  | None, Some ToNothing | Some ToNothing, None => True
  | _, _ => c = c'
  end.
Lemma classified_same r p c c' : same_class c c' -> classified r p c -> classified r p c'.
Proof. unfold same_class, classified. destruct c as [[]|], c' as [[]|]; intros E; try (injection E; intros; subst); try discriminate; auto. Qed.

Lemma class_of_put c sw : is_sweep c \/ sw = false \/ ~ plain_cell c ->
  match c with
  | CSweep s => put_class true (of_sweep range s)
  | _ => put_class sw (EOne c)
  end = Some (class_of range c).
Proof.
  intros H. destruct c as [a| |f|s]; simpl in *; auto.
  - destruct H as [[]|[->|H]]; auto. destruct H; auto.
  - destruct H as [[]|[->|H]]; auto. destruct H; auto.
  - unfold of_sweep. destruct (range s); auto.
Qed.

Lemma value_step v sw p : unmixed v -> shaped size range (fst p) v -> is_var size p -> flag_ok v sw ->
  exists sw' val, value_for size range sw (snd (split range v)) p = Ok (sw', val) /\ flag_ok v sw' /\
    put_class sw' val = own_class range false v p.
Proof.
  intros Hu Hs Hv Hf. destruct p as [k [i|]]; simpl in Hs, Hv.
  - destruct Hv as (n & En & Hi). unfold shaped in Hs. rewrite En in Hs.
    destruct v as [c|cs].
    + destruct c as [a| |f|s]; simpl in Hf; subst; simpl; [eexists; eexists; split; [reflexivity|split; [exact eq_refl|reflexivity]] ..|].
      unfold own_class, of_sweep. simpl. destruct (range s) as [vs|rs|f] eqn:Er; simpl.
      * rewrite map_length. rewrite bool_decide_eq_true_2 by congruence.
        destruct (lookup_lt_is_Some_2 vs i) as [a Ea]; [lia|].
        assert (Em : map CNum vs !! i = Some (CNum a)) by (rewrite map_lookup, Ea; auto).
        rewrite Em, Ea. eexists; eexists; split; [reflexivity|split; [exact eq_refl|reflexivity]].
      * destruct Hs as [Hne Hall]. destruct rs as [|r rs]; [congruence|].
        assert (length r = n) by (inversion Hall; auto). rewrite bool_decide_eq_true_2 by congruence. simpl orb.
        destruct (column_ok (r :: rs) n i Hall Hi) as [col Ec]. cbn [orb]. rewrite Ec. simpl. eexists; eexists; split; [reflexivity|split; [exact eq_refl|reflexivity]].
      * eexists; eexists; split; [reflexivity|split; [exact eq_refl|reflexivity]].
    + simpl in Hs. simpl. rewrite bool_decide_eq_true_2 by congruence. destruct (lookup_lt_is_Some_2 cs i) as [c Ec]; [lia|]. rewrite Ec.
      unfold own_class. simpl. rewrite Ec. simpl.
      assert (Hc : is_sweep c \/ sw = false \/ ~ plain_cell c).
      { simpl in Hf. destruct Hf as [->|Hf]; auto. right. right. rewrite List.Forall_forall in Hf. apply Hf. apply elem_of_list_In. eapply elem_of_list_lookup_2; eauto. }
      pose proof (class_of_put c sw Hc) as Ep.
      destruct c as [a| |f|s]; [eexists; eexists; split; [reflexivity|split; [exact Hf|exact Ep]] ..|].
      eexists; eexists; split; [reflexivity|split; [|exact Ep]].
      simpl. right. simpl in Hu. destruct Hu as [Hu|Hu]; auto.
      exfalso. rewrite List.Forall_forall in Hu. apply (Hu (CSweep s)); simpl; auto. apply elem_of_list_In. eapply elem_of_list_lookup_2; eauto.
  - destruct v as [c|cs].
    + pose proof (class_of_put c sw) as Ep. destruct c as [a| |f|s]; simpl in Hf; subst; simpl; eexists; eexists; (split; [reflexivity|split; [exact eq_refl|]]).
      * apply Ep. auto.
      * apply Ep. auto.
      * apply Ep. auto.
      * apply Ep. simpl. auto.
    + unfold shaped in Hs. rewrite Hv in Hs. contradiction.
Qed.

Lemma loop_spec v keys : forall sw r, NoDup keys -> flag_ok v sw ->
  (forall p, p ∈ keys -> unmixed v /\ shaped size range (fst p) v /\ is_var size p /\ absent r p) ->
  exists r', append_loop size range sw (snd (split range v)) keys r = Ok r' /\
    (forall p, p ∈ keys -> classified r' p (own_class range false v p)) /\ (forall p, p ∉ keys -> same3 r r' p).
Proof.
  induction keys as [|p keys IH]; intros sw r Hn Hf Hk.
  - exists r. split; [auto|]. split; [intros p Hp; inversion Hp|intros p _; repeat split; auto].
  - apply NoDup_cons in Hn as [Hp Hn].
    destruct (Hk p ltac:(left)) as (Hu & Hs & Hv & Ha).
    destruct (value_step v sw p Hu Hs Hv Hf) as (sw' & val & E & Hf' & Ec).
    destruct (IH sw' (put sw' val p r) Hn Hf') as (r' & E' & Hin & Hout).
    + intros q Hq. destruct (Hk q ltac:(right; auto)) as (Hu' & Hs' & Hv' & Ha'). split; [auto|]. split; [auto|]. split; [auto|].
      assert (Hne : q <> p) by (intros ->; auto).
      destruct (put_other sw' val p r q Hne) as (E1 & E2 & E3). destruct Ha' as (A1 & A2 & A3). unfold absent, classified. rewrite E1, E2, E3. auto.
    + exists r'. cbn [append_loop]. rewrite E. cbn [rbind]. split; [exact E'|]. split.
      * intros q Hq. apply elem_of_cons in Hq as [->|Hq]; [|auto].
        rewrite <- Ec. pose proof (put_self sw' val p r Ha) as (C1 & C2 & C3). destruct (Hout p Hp) as (E1 & E2 & E3).
        unfold classified. rewrite E1, E2, E3. auto.
      * intros q Hq. apply not_elem_of_cons in Hq as [Hne Hq]. destruct (Hout q Hq) as (E1 & E2 & E3).
        destruct (put_other sw' val p r q Hne) as (F1 & F2 & F3). unfold same3. rewrite E1, E2, E3. auto.
Qed.

Lemma flag_start v : flag_ok v (fst (split range v)).
Proof. destruct v as [[]|]; simpl; auto. Qed.

Definition fine (vl : sval A * list vk) : Prop :=
  forall p, p ∈ snd vl -> unmixed (fst vl) /\ shaped size range (fst p) (fst vl) /\ is_var size p.

Lemma all_spec found : forall r, Forall fine found -> NoDup (concat (map snd found)) ->
  (forall p, p ∈ concat (map snd found) -> absent r p) ->
  exists r', append_all size range found r = Ok r' /\
    (forall v l p, In (v, l) found -> p ∈ l -> classified r' p (own_class range false v p)) /\
    (forall p, p ∉ concat (map snd found) -> same3 r r' p).
Proof.
  induction found as [|[v l] found IH]; intros r Hf Hn Ha.
  - exists r. split; [auto|]. split; [intros v l p []|intros p _; repeat split; auto].
  - simpl in Hn. apply NoDup_app in Hn as (Hl & Hd & Hn). inversion Hf as [|? ? Hs Hf']; subst. simpl in *.
    destruct (loop_spec v l (fst (split range v)) r Hl (flag_start v)) as (r1 & E1 & Hin1 & Hout1).
    { intros p Hp. destruct (Hs p Hp) as (? & ? & ?). split; [auto|]. split; [auto|]. split; [auto|]. apply Ha. apply elem_of_app. auto. }
    destruct (IH r1 Hf' Hn) as (r' & E' & Hin' & Hout').
    { intros p Hp. assert (p ∉ l) by (intros Hp'; exact (Hd p Hp' Hp)). destruct (Hout1 p H) as (F1 & F2 & F3).
      destruct (Ha p) as (A1 & A2 & A3); [apply elem_of_app; auto|]. unfold absent, classified. rewrite F1, F2, F3. auto. }
    exists r'. split.
    + unfold append_sub. destruct (split range v) as [sw sub]. simpl in E1. rewrite E1. exact E'.
    + split.
      * intros v' l' p [[= <- <-]|Hvl] Hp; [|eauto].
        destruct (Hin1 p Hp) as (C1 & C2 & C3). destruct (Hout' p (Hd p Hp)) as (F1 & F2 & F3). unfold classified. rewrite F1, F2, F3. auto.
      * intros p Hp. apply not_elem_of_app in Hp as [Hp1 Hp2]. destruct (Hout1 p Hp1) as (F1 & F2 & F3).
        destruct (Hout' p Hp2) as (G1 & G2 & G3). unfold same3. rewrite G1, G2, G3. auto.
Qed.

(** ** The keymap *)

Lemma mget_madd km m p m' : mget (madd km m p) m' =
  if decide (m' = m) then (if bool_decide (p ∈ mget km m) then mget km m else mget km m ++ [p]) else mget km m'.
Proof.
  unfold mget at 1, madd. destruct (decide (m' = m)) as [->|Hn]; [rewrite dget_dset_eq; auto|].
  rewrite dget_dset_ne by auto. auto.
Qed.
Lemma madd_In km m p m' q : q ∈ mget (madd km m p) m' <-> q ∈ mget km m' \/ (m' = m /\ q = p).
Proof.
  rewrite mget_madd. destruct (decide (m' = m)) as [->|Hn]; [|tauto].
  case_bool_decide as H; [|rewrite elem_of_app, elem_of_list_singleton; tauto].
  split; [auto|]. intros [Hq|[_ ->]]; auto.
Qed.
Record kminv (km : list (mkey * list vk)) : Prop := {
  km_keys : NoDup (dkeys km);
  km_sets : forall m, NoDup (mget km m) }.
Lemma madd_inv km m p : kminv km -> kminv (madd km m p).
Proof.
  intros [H1 H2]. constructor; [apply NoDup_dset; auto|]. intros m'. rewrite mget_madd. destruct (decide (m' = m)); auto.
  case_bool_decide as H; auto. apply NoDup_app. split; [auto|]. split; [|apply NoDup_singleton].
  intros x Hx Hx'. apply elem_of_list_singleton in Hx'. subst. auto.
Qed.
Lemma fold1_spec o km : kminv km ->
  kminv (fold_left (fun km p => madd km (MKey p) p) o km) /\
  forall m q, q ∈ mget (fold_left (fun km p => madd km (MKey p) p) o km) m <-> q ∈ mget km m \/ (q ∈ o /\ m = MKey q).
Proof.
  revert km. induction o as [|p o IH]; intros km I; simpl.
  - split; auto. intros m q. rewrite elem_of_nil. tauto.
  - destruct (IH (madd km (MKey p) p) (madd_inv _ _ _ I)) as [I' H]. split; auto. intros m q. rewrite H, madd_In, elem_of_cons.
    split; [intros [[?|[-> ->]]|[? ?]]; auto|intros [?|[[->|?] ?]]; auto].
Qed.
Lemma fold2_spec ms p km : kminv km ->
  kminv (fold_left (fun km m => madd km m p) ms km) /\
  forall m q, q ∈ mget (fold_left (fun km m => madd km m p) ms km) m <-> q ∈ mget km m \/ (q = p /\ m ∈ ms).
Proof.
  revert km. induction ms as [|m0 ms IH]; intros km I; simpl.
  - split; auto. intros m q. rewrite elem_of_nil. tauto.
  - destruct (IH (madd km m0 p) (madd_inv _ _ _ I)) as [I' H]. split; auto. intros m q. rewrite H, madd_In, elem_of_cons.
    split; [intros [[?|[-> ->]]|[? ?]]; auto|intros [?|[-> [->|?]]]; auto].
Qed.
Lemma keymap_spec o1 o2 : kminv (keymap_of names enames o1 o2) /\
  forall m q, q ∈ mget (keymap_of names enames o1 o2) m <-> (q ∈ o1 /\ m = MKey q) \/ (q ∈ o2 /\ m ∈ keys_of names enames q).
Proof.
  assert (I0 : kminv []) by (constructor; [constructor|intros m; constructor]).
  destruct (fold1_spec o1 [] I0) as [I1 H1]. unfold keymap_of.
  set (km1 := fold_left (fun km p => madd km (MKey p) p) o1 []) in *.
  assert (G : forall o km, kminv km ->
     kminv (fold_left (fun km p => fold_left (fun km m => madd km m p) (keys_of names enames p) km) o km) /\
     forall m q, q ∈ mget (fold_left (fun km p => fold_left (fun km m => madd km m p) (keys_of names enames p) km) o km) m
       <-> q ∈ mget km m \/ (q ∈ o /\ m ∈ keys_of names enames q)).
  { induction o as [|p o IH]; intros km I; simpl.
    - split; auto. intros m q. rewrite elem_of_nil. tauto.
    - destruct (fold2_spec (keys_of names enames p) p km I) as [I' H]. destruct (IH _ I') as [I2 H2]. split; auto.
      intros m q. rewrite H2, H, elem_of_cons. split; [intros [[?|[-> ?]]|[? ?]]; auto|intros [?|[[->|?] ?]]; auto]. }
  destruct (G o2 km1 I1) as [I2 H2]. split; auto. intros m q. rewrite H2, H1. rewrite elem_of_nil. tauto.
Qed.

(** A variable is found under [m]. *)
Definition under (m : mkey) (p : vk) : Prop := m = MKey p \/ m ∈ keys_of names enames p.

Lemma keymap_under vks o1 o2 : Permutation o1 vks -> Permutation o2 vks ->
  forall m q, q ∈ mget (keymap_of names enames o1 o2) m <-> q ∈ vks /\ under m q.
Proof.
  intros P1 P2 m q. rewrite (proj2 (keymap_spec o1 o2)). unfold under. rewrite P1, P2. tauto.
Qed.

Lemma under_key k p : under (MKey (k, None)) p -> fst p = k.
Proof.
  intros [[= <-]|H]; auto. destruct p as [k' [i|]]; simpl in *.
  - apply elem_of_cons in H as [[= ->]|H]; auto. apply elem_of_list_In, in_map_iff in H as (? & ? & ?). discriminate.
  - apply elem_of_list_In, in_map_iff in H as (? & ? & ?). discriminate.
Qed.
Lemma under_own p : under (MKey (fst p, None)) p.
Proof. destruct p as [k [i|]]; [right; left|left; auto]. Qed.

Lemma dget_mget (km : list (mkey * list vk)) m l : dget km m = Some l -> mget km m = l.
Proof. unfold mget. intros ->. auto. Qed.

(** Elements of the lists found belong to one list only. *)
Lemma NoDup_found {B} (f : B -> list (sval A * list vk)) (bs : list B) :
  List.NoDup bs -> (forall b v l, In b bs -> In (v, l) (f b) -> NoDup l) ->
  (forall b, length (f b) <= 1) ->
  (forall b b' v v' l l' p, In b bs -> In b' bs -> In (v, l) (f b) -> In (v', l') (f b') -> p ∈ l -> p ∈ l' -> b = b') ->
  NoDup (concat (map snd (flat_map f bs))).
Proof.
  induction bs as [|b bs IH]; intros Hn Hl H1 Hd; [constructor|].
  simpl. rewrite map_app, concat_app. apply NoDup_app. inversion Hn as [|? ? Hb Hn']; subst.
  split; [|split].
  - specialize (H1 b). destruct (f b) as [|[v l] [|? ?]] eqn:E; simpl in *; [constructor| |lia].
    rewrite app_nil_r. eapply (Hl b v l); auto. rewrite E. left. auto.
  - intros p Hp Hp'. apply elem_of_list_In, in_concat in Hp as (l & Hl1 & Hp). apply in_map_iff in Hl1 as ([v l'] & El & Hv). simpl in El. subst l'.
    apply elem_of_list_In, in_concat in Hp' as (l2 & Hl2 & Hp'). apply in_map_iff in Hl2 as ([v2 l2'] & El2 & Hv2). simpl in El2. subst l2'.
    apply in_flat_map in Hv2 as (b' & Hb' & Hv2).
    assert (b = b') by (eapply (Hd b b' v v2 l l2 p); simpl; auto; apply elem_of_list_In; auto). subst. auto.
  - apply IH; auto; intros; [eapply (Hl b0); simpl; eauto|eapply (Hd b0 b'); simpl; eauto].
Qed.

Lemma absent_nothing p : absent (nothing : parsed A) p.
Proof. repeat split; auto. Qed.

(** ** The three ways *)

Section Ways.
Variable vks o1 o2 : list vk.
Variable ord : list vk -> list vk.
Hypothesis Hvks : NoDup vks.
Hypothesis P1 : Permutation o1 vks.
Hypothesis P2 : Permutation o2 vks.
Hypothesis Pord : forall l, Permutation (ord l) l.
Hypothesis Hvar : forall p, p ∈ vks -> is_var size p.
Let km := keymap_of names enames o1 o2.

Lemma km_entry m l : In (m, l) km -> mget km m = l.
Proof. intros H. apply dget_mget. apply In_dget; auto. apply (proj1 (keymap_spec o1 o2)). Qed.

Lemma keydict_spec (subs : list (nat * sval A)) :
  (forall k v, dget subs k = Some v -> unmixed v /\ shaped size range k v) ->
  exists r, parse_keydict size range ord km subs = Ok r /\
    forall p, classified r p (if decide (p ∈ vks)
                              then match dget subs (fst p) with Some v => own_class range false v p | None => None end
                              else None).
Proof.
  intros Hs. unfold parse_keydict.
  set (f := fun ml : mkey * list vk => match fst ml with
     | MKey (k, None) => match dget subs k with Some v => [(v, ord (snd ml))] | None => [] end | _ => [] end).
  assert (Hf : forall ml v l, In ml km -> In (v, l) (f ml) ->
     exists k, fst ml = MKey (k, None) /\ dget subs k = Some v /\ l = ord (snd ml) /\
       NoDup l /\ forall p, p ∈ l <-> p ∈ vks /\ fst p = k).
  { intros [m l0] v l Hm Hv. unfold f in Hv. simpl in Hv. destruct m as [[k [i|]]|n]; try contradiction.
    destruct (dget subs k) as [v0|] eqn:Ek; [|contradiction]. destruct Hv as [[= <- <-]|[]]. exists k. split; [auto|]. split; [auto|]. split; [auto|].
    pose proof (km_entry _ _ Hm) as El. split.
    - rewrite Pord. rewrite <- El. apply (proj1 (keymap_spec o1 o2)).
    - intros p. rewrite Pord, <- El. unfold km. rewrite (keymap_under vks o1 o2 P1 P2). split.
      + intros [Hp Hu]. split; auto. apply under_key in Hu. auto.
      + intros [Hp <-]. split; auto. apply under_own. }
  assert (Hkm : NoDup (dkeys km)) by apply (proj1 (keymap_spec o1 o2)).
  destruct (all_spec (flat_map f km) nothing) as (r & Er & Hin & Hout).
  - apply List.Forall_forall. intros [v l] Hv. apply in_flat_map in Hv as (ml & Hm & Hv).
    destruct (Hf ml v l Hm Hv) as (k & E1 & E2 & E3 & Hnd & Hp). destruct (Hs k v E2) as [Hu Hsh].
    intros p Hpl. simpl in Hpl. apply Hp in Hpl as [Hpv <-]. auto.
  - apply NoDup_found.
    + eapply NoDup_map_inv. apply NoDup_ListNoDup. exact Hkm.
    + intros b v l Hb Hv. destruct (Hf b v l Hb Hv) as (? & ? & ? & ? & ? & ?). auto.
    + intros [m l]. unfold f. simpl. destruct m as [[k [i|]]|n]; simpl; try lia. destruct (dget subs k); simpl; lia.
    + intros b b' v v' l l' p Hb Hb' Hv Hv' Hp Hp'. destruct (Hf b v l Hb Hv) as (k & E1 & _ & _ & _ & Hi).
      destruct (Hf b' v' l' Hb' Hv') as (k' & E1' & _ & _ & _ & Hi'). apply Hi in Hp as [_ <-]. apply Hi' in Hp' as [_ <-].
      destruct b as [m l0], b' as [m' l0']. simpl in *. subst. f_equal.
      rewrite <- (km_entry _ _ Hb), <- (km_entry _ _ Hb'). auto.
  - intros p _. apply absent_nothing.
  - exists r. split; [exact Er|]. intros p.
    assert (Hnone : (p ∉ vks \/ dget subs (fst p) = None) -> classified r p None).
    { intros Hno. destruct (Hout p) as (F1 & F2 & F3).
      - intros Hp. apply elem_of_list_In, in_concat in Hp as (l & Hl & Hp). apply in_map_iff in Hl as ([v l'] & El & Hv). simpl in El. subst l'.
        apply in_flat_map in Hv as (ml & Hm & Hv). destruct (Hf ml v l Hm Hv) as (k & E1 & E2 & E3 & Hnd & Hi).
        apply elem_of_list_In in Hp. destruct (proj1 (Hi p) Hp) as [Hpv Ek]. rewrite Ek in Hno. destruct Hno as [Hno|Hno]; [exact (Hno Hpv)|congruence].
      - unfold classified. rewrite F1, F2, F3. repeat split; auto. }
    destruct (decide (p ∈ vks)) as [Hp|Hp]; [|auto].
    destruct (dget subs (fst p)) as [v|] eqn:Ek; [|auto].
    assert (Hm : p ∈ mget km (MKey (fst p, None))).
    { apply (keymap_under vks o1 o2 P1 P2). split; auto. apply under_own. }
    unfold mget in Hm. destruct (dget km (MKey (fst p, None))) as [l|] eqn:El; [|apply elem_of_nil in Hm; contradiction].
    eapply (Hin v (ord l)).
    + apply in_flat_map. exists (MKey (fst p, None), l). split; [apply dget_In; auto|]. unfold f. simpl. rewrite Ek. left. auto.
    + rewrite Pord. auto.
Qed.

Lemma dict_spec (subs : list (mkey * sval A)) :
  NoDup (dkeys subs) ->
  (forall p m m' v v', p ∈ vks -> In (m, v) subs -> In (m', v') subs -> under m p -> under m' p -> m = m') ->
  (forall p m v, p ∈ vks -> In (m, v) subs -> under m p -> unmixed v /\ shaped size range (fst p) v) ->
  exists r, parse_dict size range ord km subs = Ok r /\
    (forall p m v, p ∈ vks -> In (m, v) subs -> under m p -> classified r p (own_class range false v p)) /\
    (forall p, p ∉ vks \/ (forall m v, In (m, v) subs -> ~ under m p) -> classified r p None).
Proof.
  intros Hnd H1 Hs. unfold parse_dict.
  set (f := fun mv : mkey * sval A => match dget km (fst mv) with Some l => [(snd mv, ord l)] | None => [] end).
  assert (Hf : forall mv v l, In (v, l) (f mv) -> v = snd mv /\ NoDup l /\ forall p, p ∈ l <-> p ∈ vks /\ under (fst mv) p).
  { intros [m v0] v l Hv. unfold f in Hv. simpl in Hv. destruct (dget km m) as [l0|] eqn:E; [|contradiction]. destruct Hv as [[= <- <-]|[]].
    split; [auto|]. apply dget_mget in E. split.
    - rewrite Pord, <- E. apply (proj1 (keymap_spec o1 o2)).
    - intros p. rewrite Pord, <- E. apply (keymap_under vks o1 o2 P1 P2). }
  destruct (all_spec (flat_map f subs) nothing) as (r & Er & Hin & Hout).
  - apply List.Forall_forall. intros [v l] Hv. apply in_flat_map in Hv as ([m v0] & Hm & Hv).
    destruct (Hf (m, v0) v l Hv) as (E1 & Hl & Hp). simpl in E1. subst v0.
    intros p Hpl. simpl in *. apply Hp in Hpl as [Hpv Hpu]. destruct (Hs p m v Hpv Hm Hpu). auto.
  - apply NoDup_found.
    + eapply NoDup_map_inv. apply NoDup_ListNoDup. exact Hnd.
    + intros b v l Hb Hv. destruct (Hf b v l Hv) as (? & ? & ?). auto.
    + intros [m v]. unfold f. simpl. destruct (dget km m); simpl; lia.
    + intros [m0 v0] [m0' v0'] v v' l l' p Hb Hb' Hv Hv' Hp Hp'. destruct (Hf _ v l Hv) as (_ & _ & Hi).
      destruct (Hf _ v' l' Hv') as (_ & _ & Hi'). apply Hi in Hp as [Hpv Hu]. apply Hi' in Hp' as [_ Hu'].
      simpl in *. assert (m0 = m0') as <- by (eapply (H1 p); eauto). f_equal.
      apply In_dget in Hb; auto. apply In_dget in Hb'; auto. congruence.
  - intros p _. apply absent_nothing.
  - exists r. split; [exact Er|]. split.
    + intros p m v Hp Hm Hu. assert (Hg : p ∈ mget km m) by (apply (keymap_under vks o1 o2 P1 P2); auto).
      unfold mget in Hg. destruct (dget km m) as [l|] eqn:El; [|apply elem_of_nil in Hg; contradiction].
      eapply (Hin v (ord l)); [|rewrite Pord; auto]. apply in_flat_map. exists (m, v). split; [auto|]. unfold f. simpl. rewrite El. left. auto.
    + intros p Hno. destruct (Hout p) as (F1 & F2 & F3).
      * intros Hp. apply elem_of_list_In, in_concat in Hp as (l & Hl & Hp). apply in_map_iff in Hl as ([v l'] & El & Hv). simpl in El. subst l'.
        apply in_flat_map in Hv as ([m v0] & Hm & Hv). destruct (Hf _ v l Hv) as (_ & _ & Hi).
        apply elem_of_list_In in Hp. apply Hi in Hp as [Hp Hu]. destruct Hno as [Hno|Hno]; [auto|]. exact (Hno m v0 Hm Hu).
      * unfold classified. rewrite F1, F2, F3. repeat split; auto.
Qed.
End Ways.

Lemma clean_spec vks (subs : list (vk * sval A)) :
  NoDup vks -> (forall p, p ∈ vks -> is_var size p) ->
  (forall p v, p ∈ vks -> dget subs p = Some v -> unmixed v /\ shaped size range (fst p) v) ->
  exists r, parse_clean size range vks subs = Ok r /\
    forall p, classified r p (if decide (p ∈ vks)
                              then match dget subs p with Some v => own_class range false v p | None => None end
                              else None).
Proof.
  intros Hnd Hvar Hs. unfold parse_clean.
  set (f := fun p : vk => match dget subs p with Some v => [(v, [p])] | None => [] end).
  assert (Hf : forall q v l, In (v, l) (f q) -> dget subs q = Some v /\ l = [q]).
  { intros q v l Hv. unfold f in Hv. destruct (dget subs q) as [v0|]; [|contradiction]. destruct Hv as [[= <- <-]|[]]. auto. }
  destruct (all_spec (flat_map f vks) nothing) as (r & Er & Hin & Hout).
  - apply List.Forall_forall. intros [v l] Hv. apply in_flat_map in Hv as (q & Hq & Hv). destruct (Hf q v l Hv) as [E ->].
    intros p Hp. simpl in *. apply elem_of_list_singleton in Hp. subst. apply elem_of_list_In in Hq. destruct (Hs q v Hq E). auto.
  - apply NoDup_found.
    + apply NoDup_ListNoDup. auto.
    + intros b v l _ Hv. destruct (Hf b v l Hv) as [_ ->]. apply NoDup_singleton.
    + intros q. unfold f. destruct (dget subs q); simpl; lia.
    + intros b b' v v' l l' p _ _ Hv Hv' Hp Hp'. destruct (Hf b v l Hv) as [_ ->]. destruct (Hf b' v' l' Hv') as [_ ->].
      apply elem_of_list_singleton in Hp. apply elem_of_list_singleton in Hp'. congruence.
  - intros p _. apply absent_nothing.
  - exists r. split; [exact Er|]. intros p.
    assert (Hnone : (p ∉ vks \/ dget subs p = None) -> classified r p None).
    { intros Hno. destruct (Hout p) as (F1 & F2 & F3).
      - intros Hp. apply elem_of_list_In, in_concat in Hp as (l & Hl & Hp). apply in_map_iff in Hl as ([v l'] & El & Hv). simpl in El. subst l'.
        apply in_flat_map in Hv as (q & Hq & Hv). destruct (Hf q v l Hv) as [E ->]. destruct Hp as [->|[]].
        apply elem_of_list_In in Hq. destruct Hno; congruence.
      - unfold classified. rewrite F1, F2, F3. repeat split; auto. }
    destruct (decide (p ∈ vks)) as [Hp|Hp]; [|auto].
    destruct (dget subs p) as [v|] eqn:Ek; [|auto].
    eapply (Hin v [p]); [|left]. apply in_flat_map. exists p. split; [apply elem_of_list_In; auto|]. unfold f. rewrite Ek. left. auto.
Qed.
End SubsProofs.
