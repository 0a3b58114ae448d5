(** Lemmas about the HashVector model. *)
From Verif Require Import Base HashVec HashVecSem.
From Coq Require Import Permutation.

(** ** Structure of the addition loop, for any numbers *)
Section Generic.
Context {K V : Type} `{EqDecision K} `{Num V}.

Lemma NoDup_add_item (s : hv K V) kv : NoDup (dkeys s) -> NoDup (dkeys (hv_add_item s kv)).
Proof.
  intros Hs. destruct kv as [k v]. unfold hv_add_item.
  destruct (dget s k); [dcase HD|];
    auto using NoDup_dset, NoDup_ddel.
Qed.

Lemma NoDup_hv_add (a b : hv K V) : NoDup (dkeys a) -> NoDup (dkeys (hv_add a b)).
Proof.
  revert a; induction b as [|kv b IH]; intros a Ha; simpl; auto.
  apply IH, NoDup_add_item, Ha.
Qed.

(** The value combined at one key. *)
Definition combine (s : option V) (o : option V) : option V :=
  match s, o with
  | Some s, Some v => if decide (v = nopp s) then None else Some (nadd v s)
  | None, o => o
  | s, None => s
  end.

Lemma dget_add_item (s : hv K V) k v k' : NoDup (dkeys s) ->
  dget (hv_add_item s (k, v)) k' =
  if decide (k' = k) then combine (dget s k) (Some v) else dget s k'.
Proof.
  intros Hs. unfold hv_add_item.
  destruct (decide (k' = k)) as [->|Hne].
  - destruct (dget s k) as [sv|] eqn:E; simpl; [|apply dget_dset_eq].
    destruct (decide (v = nopp sv)); [apply dget_ddel_eq; auto | apply dget_dset_eq].
  - destruct (dget s k) as [sv|] eqn:E; simpl; [|apply dget_dset_ne; auto].
    destruct (decide (v = nopp sv)); [apply dget_ddel_ne | apply dget_dset_ne]; auto.
Qed.

Lemma dget_hv_add (a b : hv K V) k : NoDup (dkeys a) -> NoDup (dkeys b) ->
  dget (hv_add a b) k = combine (dget a k) (dget b k).
Proof.
  revert a; induction b as [|[kb vb] b IH]; intros a Ha Hb; cbn [hv_add fold_left dget].
  - destruct (dget a k); reflexivity.
  - inversion Hb as [|x l Hx Hb' E]; subst.
    change (fold_left hv_add_item b (hv_add_item a (kb, vb)))
      with (hv_add (hv_add_item a (kb, vb)) b).
    rewrite IH by auto using NoDup_add_item.
    rewrite dget_add_item by auto.
    destruct (decide (k = kb)) as [->|Hne]; [|reflexivity].
    assert (dget b kb = None) as ->.
    { apply dget_None. intros Hin; apply Hx. apply elem_of_list_In; auto. }
    destruct (combine (dget a kb) (Some vb)); reflexivity.
Qed.

Lemma dkeys_hv_mul (a : hv K V) c : dkeys (hv_mul a c) = dkeys a.
Proof. unfold dkeys, hv_mul. rewrite map_map. reflexivity. Qed.

Lemma dget_map_val (f : V -> V) (a : hv K V) k :
  dget (map (fun kv => (fst kv, f (snd kv))) a) k = option_map f (dget a k).
Proof.
  induction a as [|[x y] a IH]; simpl; auto.
  destruct (decide (k = x)); auto.
Qed.

(** ** Hash coherence *)
Variable ihash : K * V -> Z.

Lemma fold_lxor_acc (d : hv K V) acc :
  fold_left (fun a kv => Z.lxor a (ihash kv)) d acc = Z.lxor acc (hash_items ihash d).
Proof.
  unfold hash_items. revert acc. induction d as [|kv d IH]; intros acc; cbn [fold_left].
  - rewrite Z.lxor_0_r; auto.
  - rewrite IH. rewrite (IH (Z.lxor 0 (ihash kv))). rewrite Z.lxor_0_l, Z.lxor_assoc.
    reflexivity.
Qed.

Lemma hash_items_cons kv (d : hv K V) :
  hash_items ihash (kv :: d) = Z.lxor (ihash kv) (hash_items ihash d).
Proof. unfold hash_items at 1. cbn [fold_left]. rewrite fold_lxor_acc, Z.lxor_0_l. reflexivity. Qed.

Lemma hash_items_perm (d d' : hv K V) :
  Permutation d d' -> hash_items ihash d = hash_items ihash d'.
Proof.
  induction 1 as [|x l l' Hp IH|x y l|l l' l'' H1 IH1 H2 IH2]; auto.
  - rewrite !hash_items_cons, IH; auto.
  - rewrite !hash_items_cons, <- !Z.lxor_assoc, (Z.lxor_comm (ihash x)); auto.
  - congruence.
Qed.

Lemma hash_items_ddel (d : hv K V) k x : dget d k = Some x ->
  hash_items ihash (ddel d k) = Z.lxor (hash_items ihash d) (ihash (k, x)).
Proof.
  induction d as [|[a b] d IH]; simpl; [discriminate|].
  destruct (decide (k = a)) as [->|Hne].
  - intros [= ->]. rewrite hash_items_cons.
    rewrite Z.lxor_comm, <- Z.lxor_assoc, Z.lxor_nilpotent, Z.lxor_0_l. reflexivity.
  - intros E. rewrite !hash_items_cons, IH by auto. rewrite Z.lxor_assoc. reflexivity.
Qed.

Lemma hash_items_dset (d : hv K V) k x y : dget d k = Some x ->
  hash_items ihash (dset d k y)
  = Z.lxor (hash_items ihash d) (Z.lxor (ihash (k, x)) (ihash (k, y))).
Proof.
  induction d as [|[a b] d IH]; simpl; [discriminate|].
  destruct (decide (k = a)) as [->|Hne].
  - intros [= ->]. rewrite !hash_items_cons.
    rewrite (Z.lxor_comm (ihash (a, x)) (hash_items ihash d)).
    rewrite Z.lxor_assoc, <- (Z.lxor_assoc (ihash (a,x)) (ihash (a,x))).
    rewrite Z.lxor_nilpotent, Z.lxor_0_l. apply Z.lxor_comm.
  - intros E. rewrite !hash_items_cons, IH by auto. rewrite Z.lxor_assoc. reflexivity.
Qed.

(** The cached hash, when present, is the recomputed one. *)
Definition coherent (o : hvobj K V) : Prop :=
  forall h, hv_hashvalue o = Some h -> h = hash_items ihash (hv_items o).

Lemma step_coherent o op o' :
  coherent o -> hv_step ihash o op = Ok o' -> coherent o'.
Proof.
  intros Hc Hs h. destruct op; simpl in Hs.
  - injection Hs as <-. unfold hv_hash.
    destruct (hv_hashvalue o) eqn:E; simpl; [rewrite E|]; intros [= <-]; auto.
  - injection Hs as <-. simpl. apply Hc.
  - injection Hs as <-. discriminate.
  - injection Hs as <-. discriminate.
  - unfold hvo_del_xor in Hs. destruct (dget (hv_items o) k) as [x|] eqn:E; [|discriminate].
    destruct (hv_hashvalue o) as [h0|] eqn:Eh; [|discriminate].
    injection Hs as <-. simpl. intros [= <-].
    rewrite (hash_items_ddel _ _ x E). rewrite (Hc h0); auto.
  - unfold hvo_dec_xor in Hs. destruct (dget (hv_items o) k) as [x|] eqn:E; [|discriminate].
    destruct (hv_hashvalue o) as [h0|] eqn:Eh; [|discriminate].
    injection Hs as <-. simpl. intros [= <-].
    rewrite (hash_items_dset _ _ x _ E). rewrite (Hc h0); auto.
  - unfold hvo_set_fresh in Hs. destruct (hv_hashvalue o); [discriminate|].
    injection Hs as <-. discriminate.
Qed.

Lemma step_NoDup o op o' :
  NoDup (dkeys (hv_items o)) -> hv_step ihash o op = Ok o' -> NoDup (dkeys (hv_items o')).
Proof.
  intros Hn Hs. destruct op; simpl in Hs.
  - injection Hs as <-. unfold hv_hash. destruct (hv_hashvalue o); auto.
  - injection Hs as <-; auto.
  - injection Hs as <-. apply NoDup_hv_add; auto.
  - injection Hs as <-. simpl. rewrite dkeys_hv_mul. auto.
  - unfold hvo_del_xor in Hs. destruct (dget (hv_items o) k); [|discriminate].
    destruct (hv_hashvalue o); [|discriminate].
    injection Hs as <-. simpl. apply NoDup_ddel; auto.
  - unfold hvo_dec_xor in Hs. destruct (dget (hv_items o) k); [|discriminate].
    destruct (hv_hashvalue o); [|discriminate].
    injection Hs as <-. simpl. apply NoDup_dset; auto.
  - unfold hvo_set_fresh in Hs. destruct (hv_hashvalue o); [discriminate|].
    injection Hs as <-. simpl. apply NoDup_dset; auto.
Qed.

Lemma run_coherent ops o o' : coherent o -> hv_run ihash o ops = Ok o' -> coherent o'.
Proof.
  revert o; induction ops as [|op ops IH]; simpl; intros o Hc Hr.
  - injection Hr as <-; auto.
  - destruct (hv_step ihash o op) as [o1|] eqn:E; simpl in Hr; [|discriminate].
    eapply IH; [|exact Hr]. eapply step_coherent; eauto.
Qed.

Lemma run_NoDup ops o o' : NoDup (dkeys (hv_items o)) ->
  hv_run ihash o ops = Ok o' -> NoDup (dkeys (hv_items o')).
Proof.
  revert o; induction ops as [|op ops IH]; simpl; intros o Hc Hr.
  - injection Hr as <-; auto.
  - destruct (hv_step ihash o op) as [o1|] eqn:E; simpl in Hr; [|discriminate].
    eapply IH; [|exact Hr]. eapply step_NoDup; eauto.
Qed.

(** Dicts with the same lookups are permutations of each other. *)
Lemma NoDup_keys_items (d : hv K V) : NoDup (dkeys d) -> List.NoDup d.
Proof.
  induction d as [|[a b] d IH]; simpl; intros Hn; constructor;
    inversion Hn as [|x l Hx Hn' E]; subst; auto.
  intros Hin. apply Hx. apply elem_of_list_In. apply in_map_iff. exists (a, b); auto.
Qed.

Lemma dict_equiv_perm (d d' : hv K V) : NoDup (dkeys d) -> NoDup (dkeys d') ->
  dict_equiv d d' -> Permutation d d'.
Proof.
  intros Hd Hd' He. apply NoDup_Permutation; auto using NoDup_keys_items.
  intros [k v]. rewrite <- !dget_Some by auto. rewrite (He k). reflexivity.
Qed.

Lemma hash_after_run o1 o2 ops1 ops2 o1' o2' :
  coherent o1 -> coherent o2 ->
  NoDup (dkeys (hv_items o1)) -> NoDup (dkeys (hv_items o2)) ->
  hv_run ihash o1 ops1 = Ok o1' -> hv_run ihash o2 ops2 = Ok o2' ->
  dict_equiv (hv_items o1') (hv_items o2') ->
  snd (hv_hash ihash o1') = snd (hv_hash ihash o2').
Proof.
  intros Hc1 Hc2 Hn1 Hn2 Hr1 Hr2 He.
  pose proof (run_coherent _ _ _ Hc1 Hr1) as H1.
  pose proof (run_coherent _ _ _ Hc2 Hr2) as H2.
  pose proof (run_NoDup _ _ _ Hn1 Hr1) as N1.
  pose proof (run_NoDup _ _ _ Hn2 Hr2) as N2.
  assert (forall o, coherent o -> snd (hv_hash ihash o) = hash_items ihash (hv_items o)) as Hs.
  { intros o Ho. unfold hv_hash. destruct (hv_hashvalue o) eqn:E; simpl; auto. }
  rewrite !Hs by auto. apply hash_items_perm, dict_equiv_perm; auto.
Qed.

End Generic.

(** ** Arithmetic over the reals *)
Section Real.
Context {K : Type} `{EqDecision K}.
Open Scope R_scope.


Lemma at_add (a b : hv K R) (k : K) : NoDup (dkeys a) -> NoDup (dkeys b) ->
  at0 (hv_add a b) k = at0 a k + at0 b k.
Proof.
  intros Ha Hb. unfold at0. rewrite dget_hv_add by auto.
  destruct (dget a k) as [x|], (dget b k) as [y|]; simpl; try lra.
  dcase E; cbn in *; lra.
Qed.

Lemma at_mul (a : hv K R) c (k : K) : at0 (hv_mul a c) k = at0 a k * c.
Proof.
  unfold at0, hv_mul. rewrite (dget_map_val (fun v => nmul v c)).
  destruct (dget a k); simpl; [reflexivity | lra].
Qed.

Lemma at_neg (a : hv K R) (k : K) : at0 (hv_neg a) k = - at0 a k.
Proof. unfold hv_neg. rewrite at_mul. cbn. lra. Qed.

Lemma NoDup_hv_neg (a : hv K R) : NoDup (dkeys a) -> NoDup (dkeys (hv_neg a)).
Proof. unfold hv_neg. rewrite dkeys_hv_mul. auto. Qed.

Lemma at_sub (a b : hv K R) (k : K) : NoDup (dkeys a) -> NoDup (dkeys b) ->
  at0 (hv_sub a b) k = at0 a k - at0 b k.
Proof.
  intros Ha Hb. unfold hv_sub. rewrite at_add, at_neg by auto using NoDup_hv_neg. lra.
Qed.

Lemma nozero_add (a b : hv K R) : NoDup (dkeys a) -> NoDup (dkeys b) ->
  nozero a -> nozero b -> nozero (hv_add a b).
Proof.
  intros Ha Hb Za Zb k v. rewrite dget_hv_add by auto.
  destruct (dget a k) as [x|] eqn:E1, (dget b k) as [y|] eqn:E2; simpl.
  - dcase E; [discriminate|]. cbn in *. intros [= <-]. lra.
  - intros [= <-]; eapply Za; eauto.
  - intros [= <-]; eapply Zb; eauto.
  - discriminate.
Qed.

Lemma nozero_mul (a : hv K R) c : c <> 0 -> nozero a -> nozero (hv_mul a c).
Proof.
  intros Hc Za k v. unfold hv_mul. rewrite (dget_map_val (fun v => nmul v c)).
  destruct (dget a k) eqn:E; simpl; [|discriminate]. intros [= <-].
  cbn. apply Rmult_integral_contrapositive; split; auto. eapply Za; eauto.
Qed.

(** A sum entry is absent exactly when both are absent or they cancel. *)
Lemma absent_add (a b : hv K R) (k : K) : NoDup (dkeys a) -> NoDup (dkeys b) ->
  dget (hv_add a b) k = None <->
  (dget a k = None /\ dget b k = None) \/
  (exists x, dget a k = Some x /\ dget b k = Some (- x)).
Proof.
  intros Ha Hb. rewrite dget_hv_add by auto.
  destruct (dget a k) as [x|], (dget b k) as [y|]; simpl.
  - dcase E; cbn in E.
    + split; auto. intros _. right. exists x. rewrite E. auto.
    + split; [discriminate|]. intros [[? ?]|[z [Hz1 Hz2]]]; [discriminate|].
      exfalso; apply E. congruence.
  - split; [discriminate|]. intros [[? ?]|[z [? ?]]]; discriminate.
  - split; [discriminate|]. intros [[? ?]|[z [? ?]]]; discriminate.
  - split; auto.
Qed.

Lemma at_div (a : hv K R) c d (k : K) : hv_div a c = Ok d -> 0 < c -> at0 d k = at0 a k / c.
Proof.
  unfold hv_div. dcase HD; [discriminate|]. intros [= <-] Hc.
  rewrite at_mul. unfold Rdiv. f_equal. cbn. unfold Rpow.
  destruct (Rlt_dec 0 c); [|lra]. rewrite Rpower_Ropp, Rpower_1; auto.
Qed.

End Real.
