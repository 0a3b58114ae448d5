(** C81-C83: looking up variables of a model. *)
From Verif Require Import Base Globals Lookup.
From Coq Require Import Strings.String Sorting.Sorted Permutation.
Local Open Scope list_scope.
Open Scope nat_scope.

(** ** Specification *)

(** The name of a variable with the models it is in; where it is in its vector *)
Definition in_models (k : vkey) : string :=
  match vk_lineage k with Some ((_ :: _) as l) => (join "." (map fst l) ++ "." ++ vk_name k)%string | _ => vk_name k end.
Definition place (k : vkey) : string :=
  match vk_idx k with Some ((_ :: _) as i) => ("[" ++ join "," (map show_nat i) ++ "]")%string | _ => ""%string end.
(** What a variable is called *)
Definition called (k : vkey) (s : string) : Prop := s = vk_name k \/ s = in_models k \/ s = (in_models k ++ place k)%string.
(** Whether a variable is an element of a vector *)
Definition element_of (v k : vkey) : Prop :=
  exists i is, vk_idx k = Some (i :: is) /\ vk_name v = vk_name k /\ vk_lineage v = vk_lineage k /\ vk_units v = vk_units k /\ vk_idx v = None.
(** By names with numbered models, then by indices *)
Inductive idx_le : list nat -> list nat -> Prop :=
  | le_nil l : idx_le [] l
  | le_lt i j a b : i < j -> idx_le (i :: a) (j :: b)
  | le_eq i a b : idx_le a b -> idx_le (i :: a) (i :: b).
Definition in_order (a b : vkey) : Prop :=
  String.compare (sort_name a) (sort_name b) = Lt \/ (sort_name a = sort_name b /\ idx_le (sort_idx a) (sort_idx b)).

(** ** Lemmas *)

Lemma app_nil_string s : (s ++ "")%string = s.
Proof. induction s as [|c s IH]; [reflexivity|]. change (String c (s ++ "") = String c s). rewrite IH. reflexivity. Qed.
Lemma full_name_is k : full_name k = (in_models k ++ place k)%string.
Proof. unfold full_name, in_models, place, lineage_names. destruct (vk_idx k) as [[|i is]|]; [rewrite app_nil_string; reflexivity|reflexivity|rewrite app_nil_string; reflexivity]. Qed.
Lemma veckey_iff k v : veckey k = Some v <-> element_of v k.
Proof.
  unfold veckey, has_idx, element_of. destruct k as [n l i u], v as [n' l' i' u']. simpl. destruct i as [[|i is]|].
  - split; [discriminate|]. intros (? & ? & [=] & _).
  - split; [intros [= <- <- <- <-]; exists i, is; auto|]. intros (? & ? & _ & -> & -> & -> & ->). auto.
  - split; [discriminate|]. intros (? & ? & [=] & _).
Qed.
Lemma called_iff k s : In (MStr s) (keys k) <-> called k s.
Proof.
  unfold keys, called. simpl. rewrite full_name_is. destruct (veckey k) as [v|] eqn:E.
  - simpl. rewrite full_name_is. apply veckey_iff in E as (i & is & Ei & En & El & _ & Ev).
    assert (in_models v = in_models k) as -> by (unfold in_models; rewrite En, El; auto). assert (place v = ""%string) as -> by (unfold place; rewrite Ev; auto). rewrite app_nil_string.
    split; [intros [[= <-]|[[= <-]|[[=]|[[= <-]|[]]]]]; auto|]. intros [->|[->| ->]]; auto 6.
  - assert (place k = ""%string) as ->. { unfold veckey, has_idx in E. unfold place. destruct (vk_idx k) as [[|i is]|]; auto. discriminate E. }
    rewrite app_nil_string. simpl. split; [intros [[= <-]|[[= <-]|[]]]; auto|]. intros [->|[->| ->]]; auto.
Qed.
Lemma vec_iff k v : In (MKey v) (keys k) <-> element_of v k.
Proof.
  rewrite <- veckey_iff. unfold keys. simpl. destruct (veckey k) as [w|]; simpl.
  - split; [intros [[=]|[[=]|[[= <-]|[[=]|[]]]]]; auto|intros [= <-]; auto].
  - split; [intros [[=]|[[=]|[]]]|intros [=]].
Qed.

Lemma add_In k l x : In x (add k l) <-> x = k \/ In x l.
Proof.
  unfold add. destruct (bool_decide (k ∈ l)) eqn:E.
  - apply bool_decide_eq_true in E. rewrite elem_of_list_In in E. split; [auto|]. intros [->|I]; auto.
  - rewrite in_app_iff. simpl. intuition.
Qed.
Lemma add_NoDup k l : NoDup l -> NoDup (add k l).
Proof.
  intros N. unfold add. destruct (bool_decide (k ∈ l)) eqn:E; [auto|]. apply bool_decide_eq_false in E. apply NoDup_app. split; [auto|].
  split; [|repeat constructor; intros I; inversion I]. intros x I J. apply elem_of_list_singleton in J as ->. contradiction.
Qed.
Lemma kget_kadd km m k n : kget (kadd km m k) n = if decide (n = m) then add k (kget km m) else kget km n.
Proof. unfold kget at 1, kadd. destruct (decide (n = m)) as [->|N]; [rewrite dget_dset_eq; auto|rewrite dget_dset_ne by auto; auto]. Qed.
Lemma kadds_In ms : forall km k n x, In x (kget (fold_left (fun km m => kadd km m k) ms km) n) <-> In x (kget km n) \/ (x = k /\ In n ms).
Proof.
  induction ms as [|m ms IH]; intros km k n x; simpl; [tauto|]. rewrite IH, kget_kadd. destruct (decide (n = m)) as [->|N]; [rewrite add_In; intuition|intuition congruence].
Qed.
Lemma kadds_NoDup ms : forall km k, (forall n, NoDup (kget km n)) -> forall n, NoDup (kget (fold_left (fun km m => kadd km m k) ms km) n).
Proof. induction ms as [|m ms IH]; intros km k N n; simpl; [auto|]. apply IH. intros n'. rewrite kget_kadd. destruct (decide _); [apply add_NoDup|]; auto. Qed.
Lemma maps_In ks : forall km n x, In x (kget (fold_left (fun km k => fold_left (fun km m => kadd km m k) (keys k) km) ks km) n) <-> In x (kget km n) \/ (In x ks /\ In n (keys x)).
Proof.
  induction ks as [|k ks IH]; intros km n x; cbn [fold_left]; [simpl; tauto|]. rewrite IH, kadds_In. simpl. split; intros H.
  - destruct H as [[H|[-> H]]|[H1 H2]]; auto.
  - destruct H as [H|[[<-|H1] H2]]; auto.
Qed.
Lemma maps_NoDup ks : forall km, (forall n, NoDup (kget km n)) -> forall n, NoDup (kget (fold_left (fun km k => fold_left (fun km m => kadd km m k) (keys k) km) ks km) n).
Proof. induction ks as [|k ks IH]; intros km N n; cbn [fold_left]; [auto|]. apply IH. apply kadds_NoDup. exact N. Qed.
Lemma selves_In ks : forall km n x, In x (kget (fold_left (fun km k => kadd km (MKey k) k) ks km) n) <-> In x (kget km n) \/ (In x ks /\ n = MKey x).
Proof.
  induction ks as [|k ks IH]; intros km n x; cbn [fold_left]; [simpl; tauto|]. rewrite IH, kget_kadd. simpl. destruct (decide (n = MKey k)) as [->|N].
  - rewrite add_In. split; [intros [[->|H]|[H E]]; auto|]. intros [H|[[<-|H] E]]; auto.
  - split; [intros [H|[H E]]; auto|]. intros [H|[[<-|H] E]]; auto. congruence.
Qed.
Lemma selves_NoDup ks : forall km, (forall n, NoDup (kget km n)) -> forall n, NoDup (kget (fold_left (fun km k => kadd km (MKey k) k) ks km) n).
Proof. induction ks as [|k ks IH]; intros km N n; cbn [fold_left]; [auto|]. apply IH. intros n'. rewrite kget_kadd. destruct (decide _); [apply add_NoDup|]; auto. Qed.

(** What the map of a set's names has, before and after a name was asked for *)
Definition mapped (vks : list vkey) (full : bool) (s : keyset) : Prop :=
  members s = vks /\ unmapped s = (if full then [] else vks) /\ (forall n, NoDup (kget (keymap s) n)) /\
  forall n x, In x (kget (keymap s) n) <-> In x vks /\ (n = MKey x \/ (full = true /\ In n (keys x))).
(** Whether a name has an entry *)
Definition known_only (names : string -> Prop) (vks : list vkey) (s : keyset) : Prop :=
  forall name, dmem (keymap s) (MStr name) = true -> names name \/ exists k, In k vks /\ called k name.

Lemma mapped_start vks : mapped vks false (key_set vks).
Proof.
  unfold key_set. split; [auto|]. split; [auto|]. cbn [keymap]. split; [apply selves_NoDup; intros n; constructor|].
  intros n x. rewrite selves_In. unfold kget at 1. simpl. split; [intros [[]|[I E]]; auto|]. intros [I [E|[[=] _]]]; auto.
Qed.
Lemma mapped_update vks full s : mapped vks full s -> mapped vks true (update_keymap s).
Proof.
  intros (M & U & N & H). unfold update_keymap. split; [auto|]. split; [auto|]. cbn [keymap]. split; [apply maps_NoDup; exact N|].
  intros n x. rewrite maps_In, H, U. destruct full; simpl; intuition.
Qed.
Definition by_name (m : mapkey) : bool := match m with MStr _ => true | MKey _ => false end.
Lemma mapped_parse vks full s m : mapped vks full s -> mapped vks (full || by_name m) (parse s m).
Proof. intros H. destruct m as [name|k]; simpl; [rewrite orb_true_r; eapply mapped_update; eauto|rewrite orb_false_r; auto]. Qed.
Lemma mapped_getitem vks full s m : mapped vks full s ->
  let '(s', l) := getitem s m in mapped vks (full || by_name m) s' /\ l = kget (keymap (parse s m)) m.
Proof.
  intros H. apply (mapped_parse vks full s m) in H. unfold getitem. destruct (dget (keymap (parse s m)) m) as [l|] eqn:E.
  - split; [exact H|]. unfold kget. rewrite E. auto.
  - split; [|unfold kget; rewrite E; auto]. destruct H as (M & U & N & H). split; [auto|]. split; [auto|]. cbn [keymap].
    assert (Q : forall n, kget (dset (keymap (parse s m)) m []) n = kget (keymap (parse s m)) n).
    { intros n. unfold kget. destruct (decide (n = m)) as [->|Hn]; [rewrite dget_dset_eq, E|rewrite dget_dset_ne by auto]; auto. }
    split; [intros n; rewrite Q; auto|]. intros n x. rewrite Q. auto.
Qed.

Definition names_it (o : op) : bool := match o with Look m | Ask m => by_name m | InSubs _ => true end.
Lemma mapped_step has vks full s o : mapped vks full s -> mapped vks (full || names_it o) (step has s o).
Proof.
  intros H. destruct o as [m|m|name]; simpl.
  - unfold lookup, variables_byname. pose proof (mapped_getitem vks full s m H) as G. destruct (getitem s m) as [s' l]. simpl. apply G.
  - apply mapped_parse. exact H.
  - unfold in_substitutions, contains. assert (H' := mapped_parse vks full s (MStr name) H). cbn [by_name] in H'. cbn [orb names_it]. destruct (dmem _ _); [|exact H'].
    pose proof (mapped_getitem vks _ _ (MStr name) H') as G. destruct (getitem (parse s (MStr name)) (MStr name)) as [s' l]. destruct G as [G _].
    rewrite <- orb_assoc in G. cbn in G. destruct l as [|k [|k' l]]; [exact G|exact G|]. destruct (forallb _ _); exact G.
Qed.
Lemma mapped_after has vks ops : exists full, mapped vks full (after has vks ops) /\ (existsb names_it ops = true -> full = true).
Proof.
  unfold after. assert (G : forall ops s full, mapped vks full s -> mapped vks (full || existsb names_it ops) (fold_left (step has) ops s)).
  { clear. induction ops as [|o ops IH]; intros s full H; cbn [fold_left existsb]; [rewrite orb_false_r; auto|]. rewrite orb_assoc. apply IH. apply mapped_step. exact H. }
  exists (existsb names_it ops). split; [apply (G ops _ false), mapped_start|auto].
Qed.

(** Sorting *)
Lemma insert_perm k l : Permutation (insert k l) (k :: l).
Proof. induction l as [|x l IH]; simpl; [auto|]. destruct (key_leb k x); [auto|]. rewrite IH. apply perm_swap. Qed.
Lemma sorted_perm l : Permutation (sorted l) l.
Proof. induction l as [|x l IH]; simpl; [auto|]. rewrite insert_perm. constructor. exact IH. Qed.
Lemma idx_leb_iff a : forall b, idx_leb a b = true <-> idx_le a b.
Proof.
  induction a as [|i a IH]; intros [|j b]; simpl.
  - split; [constructor|auto].
  - split; [constructor|auto].
  - split; [discriminate|]. intros H. inversion H.
  - rewrite orb_true_iff, andb_true_iff, Nat.ltb_lt, Nat.eqb_eq, IH. split; [intros [L|[E L]]; [apply le_lt|subst j; apply le_eq]; auto|]. intros H. inversion H; auto.
Qed.
Lemma string_compare_refl s : String.compare s s = Eq.
Proof. pose proof (String.compare_antisym s s) as H. destruct (String.compare s s); auto; discriminate H. Qed.
Lemma key_leb_iff a b : key_leb a b = true <-> in_order a b.
Proof.
  unfold key_leb, in_order. destruct (String.compare (sort_name a) (sort_name b)) eqn:E.
  - apply String.compare_eq_iff in E. rewrite idx_leb_iff. split; [auto|]. intros [[=]|[_ H]]; auto.
  - split; auto.
  - split; [discriminate|]. intros [[=]|[H _]]. rewrite H, string_compare_refl in E. discriminate E.
Qed.
Lemma idx_leb_total a : forall b, idx_leb a b = true \/ idx_leb b a = true.
Proof.
  induction a as [|i a IH]; intros [|j b]; simpl; auto. destruct (Nat.ltb_spec i j), (Nat.ltb_spec j i); auto. assert (i = j) as -> by lia. rewrite Nat.eqb_refl. apply IH.
Qed.
Lemma key_leb_total a b : key_leb a b = false -> key_leb b a = true.
Proof.
  unfold key_leb. rewrite (String.compare_antisym (sort_name b)). destruct (String.compare (sort_name a) (sort_name b)) eqn:E; simpl; try congruence.
  intros F. destruct (idx_leb_total (sort_idx a) (sort_idx b)); congruence.
Qed.
Lemma insert_sorted k l : Sorted (fun a b => key_leb a b = true) l -> Sorted (fun a b => key_leb a b = true) (insert k l).
Proof.
  induction 1 as [|x l Hs IH Hx]; simpl; [repeat constructor|]. destruct (key_leb k x) eqn:E; [repeat constructor; auto|].
  apply key_leb_total in E. constructor; [exact IH|]. destruct l as [|y l]; simpl in *; [constructor; auto|]. inversion Hx; subst. destruct (key_leb k y); constructor; auto.
Qed.
Lemma sorted_sorted l : Sorted in_order (sorted l).
Proof.
  assert (H : Sorted (fun a b => key_leb a b = true) (sorted l)) by (induction l; simpl; [constructor|apply insert_sorted; auto]).
  induction H as [|x m Hs IH Hx]; constructor; [exact IH|]. destruct Hx; constructor. apply key_leb_iff. auto.
Qed.

Lemma byname_after has vks ops m : exists full, (existsb names_it ops = true \/ by_name m = true -> full = true) /\
  let l := snd (variables_byname (after has vks ops) m) in
  NoDup l /\ Sorted in_order l /\ forall k, In k l <-> In k vks /\ (m = MKey k \/ (full = true /\ In m (keys k))).
Proof.
  destruct (mapped_after has vks ops) as (full & H & F). exists (full || by_name m). split; [intros [E|E]; [rewrite (F E); auto|rewrite E; apply orb_true_r]|].
  unfold variables_byname. pose proof (mapped_getitem vks full _ m H) as G. pose proof (mapped_parse vks full _ m H) as (_ & _ & N & P). destruct (getitem _ m) as [s' l]. destruct G as [_ ->]. simpl.
  split; [rewrite sorted_perm; apply N|]. split; [apply sorted_sorted|]. intros k. rewrite <- P. split; apply Permutation_in; [|symmetry]; apply sorted_perm.
Qed.

(** ** C81 *)

(** Whatever was looked up before, the variables of a name are those of the model that are called so, each once, by names and indices. *)
Theorem C81_names : forall has vks ops (s : string),
  let l := snd (variables_byname (after has vks ops) (MStr s)) in
  NoDup l /\ Sorted in_order l /\ forall k, In k l <-> In k vks /\ called k s.
Proof.
  intros has vks ops s. destruct (byname_after has vks ops (MStr s)) as (full & F & N & S & H). cbv zeta. split; [exact N|]. split; [exact S|].
  intros k. rewrite H, <- called_iff. rewrite (F (or_intror eq_refl)). split; [intros [I [[=]|[_ J]]]; auto|intros [I J]; auto].
Qed.
Print Assumptions C81_names.
(** One variable or element is found by itself. *)
Theorem C81_variable_partial : forall has vks ops k, In k vks -> (forall e, In e vks -> ~ element_of k e) ->
  snd (variables_byname (after has vks ops) (MKey k)) = [k].
Proof.
  intros has vks ops k Hk Hno. destruct (byname_after has vks ops (MKey k)) as (full & _ & N & _ & H).
  assert (H' : forall x, In x (snd (variables_byname (after has vks ops) (MKey k))) <-> x = k).
  { intros x. rewrite H. split; [intros [I [[= <-]|[_ J]]]; auto|intros ->; auto]. exfalso. apply vec_iff in J. apply (Hno x I J). }
  destruct (snd _) as [|a [|b l]].
  - exfalso. apply (proj2 (H' k) eq_refl).
  - f_equal. apply H'. left. auto.
  - exfalso. inversion N as [|? ? Na _]; subst. apply Na. assert (a = k) by (apply H'; left; auto). assert (b = k) by (apply H'; right; left; auto). subst. left.
Qed.
Print Assumptions C81_variable_partial.
(** The elements of a vector are found by it, once anything was asked for by a name. *)
Theorem C81_vector_partial : forall has vks ops v, ~ In v vks -> existsb names_it ops = true ->
  let l := snd (variables_byname (after has vks ops) (MKey v)) in
  NoDup l /\ Sorted in_order l /\ forall k, In k l <-> In k vks /\ element_of v k.
Proof.
  intros has vks ops v Hv Ho. destruct (byname_after has vks ops (MKey v)) as (full & F & N & S & H). cbv zeta. split; [exact N|]. split; [exact S|].
  intros k. rewrite H, <- vec_iff. rewrite (F (or_introl Ho)). split; [intros [I [[= <-]|[_ J]]]; auto|intros [I J]; auto]. contradiction.
Qed.
Print Assumptions C81_vector_partial.

(** Before that they are not: whether a vector is found depends on what was looked up before. *)
Definition x_ (i : option (list nat)) : vkey := VKey "x" None i "".
Definition two : list vkey := [x_ (Some [0]); x_ (Some [1])].
Theorem C81_vector_refuted : forall has,
  snd (lookup (after has two []) (MKey (x_ None))) = Err KeyErrorE /\
  snd (lookup (after has two [Look (MStr "x")]) (MKey (x_ None))) = Ok (FArray (x_ None) [([0], x_ (Some [0])); ([1], x_ (Some [1]))]).
Proof. intros has. split; reflexivity. Qed.
Print Assumptions C81_vector_refuted.
Example C81_nonvacuous : called (VKey "x" (Some [("Wing", 1)]) (Some [2; 3]) "m") "Wing.x[2,3]" /\ called (VKey "x" (Some [("Wing", 1)]) (Some [2; 3]) "m") "Wing.x" /\
  forall has, snd (variables_byname (after has [VKey "x" (Some [("Wing", 1)]) None ""; x_ (Some [0]); VKey "x" (Some [("Wing", 0)]) None ""] [Look (MStr "y"); Ask (MKey (x_ None))]) (MStr "Wing.x")) =
    [VKey "x" (Some [("Wing", 0)]) None ""; VKey "x" (Some [("Wing", 1)]) None ""].
Proof. split; [right; right; reflexivity|]. split; [right; left; reflexivity|]. intros has. vm_compute. reflexivity. Qed.

(** ** C82 *)

(** What a model's item of a name is, whatever was looked up before: nothing if no variable is called so; that variable, if it is the only one and no
    element of a vector; the array of the elements that are, if they are all of one vector; otherwise an error. *)
Theorem C82_item_partial : forall has vks ops (s : string), let r := snd (lookup (after has vks ops) (MStr s)) in
  ((forall k, In k vks -> ~ called k s) -> r = Err KeyErrorE) /\
  (forall k, In k vks -> called k s -> (forall v, ~ element_of v k) -> (forall k', In k' vks -> called k' s -> k' = k) -> r = Ok (FVar k)) /\
  (forall k v, In k vks -> called k s -> (forall k', In k' vks -> called k' s -> element_of v k') ->
     exists at_, r = Ok (FArray v at_) /\ forall i k', In (i, k') at_ <-> In k' vks /\ called k' s /\ vk_idx k' = Some i) /\
  (forall k k', In k vks -> called k s -> In k' vks -> called k' s -> k <> k' -> (forall v, ~ (element_of v k /\ element_of v k')) -> r = Err ValueErrorE).
Proof.
  intros has vks ops s. cbv zeta. unfold lookup. destruct (C81_names has vks ops s) as (N & _ & H). cbv zeta in N, H.
  destruct (variables_byname (after has vks ops) (MStr s)) as [s' l]. cbn [snd] in *.
  assert (V : forall k v, veckey k = Some v <-> element_of v k) by (intros; apply veckey_iff).
  split; [|split; [|split]].
  - intros H0. destruct l as [|k l]; [reflexivity|]. exfalso. destruct (proj1 (H k)) as [I C]; [left; auto|]. apply (H0 k I C).
  - intros k Ik Ck Hn Hu. assert (L : l = [k]).
    { destruct l as [|a [|b l]].
      - exfalso. apply (proj2 (H k)). auto.
      - f_equal. destruct (proj1 (H a)); [left; auto|]. auto.
      - exfalso. destruct (proj1 (H a)) as [A1 A2]; [left; auto|]. destruct (proj1 (H b)) as [B1 B2]; [right; left; auto|]. rewrite (Hu a A1 A2), (Hu b B1 B2) in N.
        inversion N as [|? ? Na _]; subst. apply Na. left. }
    subst l. simpl. destruct (veckey k) as [v|] eqn:E; [exfalso; apply V in E; apply (Hn v E)|reflexivity].
  - intros k v Ik Ck Hv. destruct l as [|a l]; [exfalso; apply (proj2 (H k)); auto|]. assert (Ev : forall x, In x (a :: l) -> veckey x = Some v).
    { intros x I. apply V. destruct (proj1 (H x) I) as [I1 I2]. auto. }
    unfold choosevar. rewrite (Ev a) by (left; auto).
    assert (Q : existsb (fun k0 => negb (bool_decide (veckey k0 = Some v))) l = false).
    { apply not_true_is_false. intros Q. apply existsb_exists in Q as (x & Ix & Q). rewrite bool_decide_true in Q by (apply Ev; right; auto). discriminate Q. }
    rewrite Q. eexists. split; [reflexivity|]. 
    assert (J : forall m d, NoDup m -> (forall x y, In x m -> In y m -> sort_idx x = sort_idx y -> x = y) -> (forall x, In x m -> ~ In (sort_idx x) (dkeys d)) ->
      forall i x, In (i, x) (fold_left (fun d k => dset d (sort_idx k) k) m d) <-> In (i, x) d \/ (In x m /\ i = sort_idx x)).
    { clear. induction m as [|y m IH]; intros d Nm Inj Out i x; cbn [fold_left]; [simpl; tauto|].
      assert (E : dset d (sort_idx y) y = d ++ [(sort_idx y, y)]). { apply dset_absent. apply Out. left. auto. }
      rewrite IH.
      - rewrite E, in_app_iff. simpl. split; [intros [[I|[[= <- <-]|[]]]|[I ->]]; auto|]. intros [I|[[<-|I] ->]]; auto.
      - inversion Nm; auto.
      - intros a b Ia Ib. apply Inj; right; auto.
      - intros a Ia. rewrite E. unfold dkeys. rewrite map_app, in_app_iff. simpl. intros [I|[I|[]]]; [apply (Out a); [right; auto|exact I]|].
        inversion Nm as [|? ? Ny _]; subst. apply Ny. apply elem_of_list_In. rewrite (Inj y a); [exact Ia|left; auto|right; auto|exact I]. }
    intros i k'. rewrite J.
    + rewrite (H k'). simpl. split.
      * intros [[]|[[I C] ->]]. split; [exact I|]. split; [exact C|]. destruct (proj1 (V k' v)) as (j & js & Ej & _); [apply Ev; apply H; auto|]. unfold sort_idx. rewrite Ej. auto.
      * intros (I & C & E). right. split; [auto|]. unfold sort_idx. rewrite E. auto.
    + exact N.
    + intros x y Ix Iy E. apply Ev, V in Ix as (i1 & is1 & E1 & Hx). apply Ev, V in Iy as (i2 & is2 & E2 & Hy). unfold sort_idx in E. rewrite E1, E2 in E.
      destruct x as [xn xl xi xu], y as [yn yl yi yu]. simpl in *. destruct Hx as (? & ? & ? & _), Hy as (? & ? & ? & _). congruence.
    + intros x _ I. inversion I.
  - intros k k' Ik Ck Ik' Ck' Hne Hv. assert (Lk : In k l) by (apply H; auto). assert (Lk' : In k' l) by (apply H; auto).
    destruct l as [|a l]; [contradiction|]. unfold choosevar. destruct l as [|b l]; [destruct Lk as [<-|[]], Lk' as [<-|[]]; contradiction|].
    destruct (veckey a) as [v|] eqn:Ea; [|reflexivity]. destruct (existsb _ _) eqn:Q; [reflexivity|]. exfalso.
    assert (All : forall x, In x (a :: b :: l) -> veckey x = Some v).
    { intros x [<-|I]; [exact Ea|]. destruct (decide (veckey x = Some v)) as [|D]; [auto|]. exfalso. apply not_true_iff_false in Q. apply Q. apply existsb_exists. exists x. split; [exact I|]. rewrite bool_decide_false by exact D. auto. }
    apply (Hv v). split; apply V, All; auto.
Qed.
Print Assumptions C82_item_partial.

(** The only variable that is called so is not always what is found: of an element it is an array, with nan in all other places. *)
Theorem C82_element_refuted : forall has ops,
  (forall k, In k two -> called k "x[1]" -> k = x_ (Some [1])) /\ called (x_ (Some [1])) "x[1]" /\
  snd (lookup (after has two ops) (MStr "x[1]")) = Ok (FArray (x_ None) [([1], x_ (Some [1]))]).
Proof.
  intros has ops. assert (U : forall k, In k two -> called k "x[1]" -> k = x_ (Some [1])).
  { intros k [<-|[<-|[]]]; [|auto]. intros [E|[E|E]]; vm_compute in E; discriminate E. }
  assert (C : called (x_ (Some [1])) "x[1]") by (right; right; reflexivity). split; [exact U|]. split; [exact C|].
  destruct (C82_item_partial has two ops "x[1]") as (_ & _ & H & _). cbv zeta in H.
  destruct (H (x_ (Some [1])) (x_ None)) as (at_ & E & Hat); [right; left; auto|exact C|intros k' I Ck; rewrite (U k' I Ck); exists 1, []; repeat split|].
  rewrite E. do 2 f_equal. unfold lookup in E. destruct (C81_names has two ops "x[1]") as (N & _ & Hin). destruct (variables_byname _ _) as [s' l]. cbn [snd] in *.
  assert (L : l = [x_ (Some [1])]).
  { assert (All : forall a, In a l -> a = x_ (Some [1])) by (intros a I; apply Hin in I as [I1 I2]; auto). destruct l as [|a [|b l]].
    - exfalso. apply (proj2 (Hin (x_ (Some [1])))). split; [right; left; auto|exact C].
    - f_equal. apply All. left. auto.
    - exfalso. inversion N as [|? ? Na _]; subst. apply Na. rewrite (All a), (All b); [left|right; left; auto|left; auto]. }
  subst l. vm_compute in E. injection E as <-. reflexivity.
Qed.
Print Assumptions C82_element_refuted.
Example C82_nonvacuous : forall has, let vks := [x_ (Some [0]); VKey "y" None None ""; x_ (Some [1]); VKey "y" (Some [("W", 0)]) None ""; VKey "z" None None "m"] in
  map (fun s => snd (lookup (after has vks [InSubs "q"]) (MStr s))) ["z"; "W.y"; "y"; "q"; "x"] =
  [Ok (FVar (VKey "z" None None "m")); Ok (FVar (VKey "y" (Some [("W", 0)]) None "")); Err ValueErrorE; Err KeyErrorE;
   Ok (FArray (x_ None) [([0], x_ (Some [0])); ([1], x_ (Some [1]))])].
Proof. intros has. vm_compute. reflexivity. Qed.

(** ** C83 *)

(** Names that have an entry in the map are those of variables, and those looked up. *)
Lemma dmem_dset {V} (d : list (mapkey * V)) m v n : dmem (dset d m v) n = true <-> n = m \/ dmem d n = true.
Proof.
  unfold dmem. destruct (decide (n = m)) as [->|N]; [rewrite dget_dset_eq; intuition|]. rewrite dget_dset_ne by exact N. intuition.
Qed.
Lemma known_update names vks s : (forall k, In k (unmapped s) -> In k vks) -> known_only names vks s -> known_only names vks (update_keymap s).
Proof.
  intros U K. unfold update_keymap, known_only in *. cbn [keymap]. revert U K. generalize (keymap s). induction (unmapped s) as [|k ks IH]; intros km U K; cbn [fold_left]; [exact K|].
  apply IH; [intros; apply U; right; auto|]. clear IH. intros name.
  assert (G : forall ms km, dmem (fold_left (fun km m => kadd km m k) ms km) (MStr name) = true -> In (MStr name) ms \/ dmem km (MStr name) = true).
  { clear. induction ms as [|m ms IH]; intros km D; cbn [fold_left] in D; [auto|]. apply IH in D as [D|D]; [left; right; auto|]. unfold kadd in D. apply dmem_dset in D as [->|D]; [left; left; auto|auto]. }
  intros D. apply G in D as [D|D]; [|apply K; exact D]. right. exists k. split; [apply U; left; auto|apply called_iff; exact D].
Qed.
Lemma known_getitem names vks full s m : mapped vks full s -> known_only names vks s ->
  known_only (fun n => names n \/ m = MStr n) vks (fst (getitem s m)).
Proof.
  intros (M & U & _) K. assert (Hu : forall k, In k (unmapped s) -> In k vks) by (intros k I; rewrite U in I; destruct full; [contradiction|exact I]).
  assert (K' : known_only names vks (parse s m)) by (destruct m; simpl; [apply known_update; auto|exact K]).
  unfold getitem. destruct (dget (keymap (parse s m)) m) eqn:E; intros name D; cbn [fst keymap] in D.
  - destruct (K' name D); auto.
  - apply dmem_dset in D as [<-|D]; [auto|]. destruct (K' name D); auto.
Qed.
Definition looks_up (name : string) (o : op) : bool := match o with Look (MStr n) => String.eqb n name | _ => false end.
Lemma known_step has names vks full s o : mapped vks full s -> known_only names vks s ->
  known_only (fun n => names n \/ o = Look (MStr n)) vks (step has s o).
Proof.
  intros H K. assert (H0 := H). destruct H as (M & U & _). assert (Hu : forall k, In k (unmapped s) -> In k vks) by (intros k I; rewrite U in I; destruct full; [contradiction|exact I]).
  assert (W : forall s', known_only names vks s' -> known_only (fun n => names n \/ o = Look (MStr n)) vks s') by (intros s' K' name D; destruct (K' name D); auto).
  destruct o as [m|m|name]; cbn [step].
  - unfold lookup, variables_byname. pose proof (known_getitem names vks full s m H0 K) as G. destruct (getitem s m) as [s' l]. cbn [fst] in *. intros n D. destruct (G n D) as [[?| ->]|?]; auto.
  - apply W. unfold contains. cbn [fst]. destruct m; simpl; [apply known_update; auto|exact K].
  - apply W. unfold in_substitutions, contains. assert (K' : known_only names vks (parse s (MStr name))) by (apply known_update; auto).
    destruct (dmem (keymap (parse s (MStr name))) (MStr name)) eqn:D; cbn [orb]; [|exact K'].
    assert (E : exists l, getitem (parse s (MStr name)) (MStr name) = (update_keymap (parse s (MStr name)), l)).
    { unfold getitem. cbn [parse]. set (s1 := update_keymap s) in *. assert (Q : update_keymap s1 = KeySet (members s1) (keymap s1) []) by reflexivity. rewrite Q. cbn [keymap].
      change (dmem (keymap s1) (MStr name) = true) in D. unfold dmem in D. destruct (dget (keymap s1) (MStr name)) as [l|]; [eauto|discriminate D]. }
    destruct E as (l & ->). assert (K2 : known_only names vks (update_keymap (parse s (MStr name)))) by (apply known_update; [intros k [] |exact K']).
    destruct l as [|k [|k' l]]; [exact K2|exact K2|]. destruct (forallb _ _); exact K2.
Qed.
Lemma known_after has vks ops : known_only (fun n => existsb (looks_up n) ops = true) vks (after has vks ops).
Proof.
  unfold after. assert (G : forall ops s full names, mapped vks full s -> known_only names vks s -> known_only (fun n => names n \/ existsb (looks_up n) ops = true) vks (fold_left (step has) ops s)).
  { clear. induction ops as [|o ops IH]; intros s full names H K; cbn [fold_left existsb]; [intros n D; destruct (K n D); auto|].
    specialize (IH _ _ _ (mapped_step has vks full s o H) (known_step has names vks full s o H K)). intros n D. destruct (IH n D) as [[[?| ->]|?]|?]; auto.
    - left. right. cbn [looks_up]. rewrite String.eqb_refl. auto.
    - left. right. apply orb_true_iff. auto. }
  intros n D. destruct (G ops (key_set vks) false (fun _ => False) (mapped_start vks)) with (name := n) as [[[]|?]|?]; auto.
  intros m D'. exfalso. unfold key_set in D'. cbn [keymap] in D'. revert D'.
  assert (Z : forall ks km, dmem (fold_left (fun km k => kadd km (MKey k) k) ks km) (MStr m) = dmem km (MStr m)).
  { clear. induction ks as [|k ks IH]; intros km; cbn [fold_left]; [auto|]. rewrite IH. unfold kadd, dmem. rewrite dget_dset_ne by discriminate. auto. }
  rewrite Z. discriminate.
Qed.

(** A name that no variable has, and that was not looked up before, is not in the substitutions; one of a single variable is, if that is. *)
Theorem C83_name_partial : forall has vks ops (name : string), existsb (looks_up name) ops = false ->
  ((forall k, In k vks -> ~ called k name) -> snd (in_substitutions has (after has vks ops) name) = false) /\
  (forall k, In k vks -> called k name -> (forall k', In k' vks -> called k' name -> k' = k) -> snd (in_substitutions has (after has vks ops) name) = has k).
Proof.
  intros has vks ops name Hl. destruct (mapped_after has vks ops) as (full & H & _). pose proof (known_after has vks ops) as K. set (s := after has vks ops) in *.
  assert (Hu : forall k, In k (unmapped s) -> In k vks) by (destruct H as (_ & U & _); intros k I; rewrite U in I; destruct full; [contradiction|exact I]).
  assert (K' := known_update _ vks s Hu K). assert (H' := mapped_update vks full s H). unfold in_substitutions, contains. cbn [parse orb]. split.
  - intros No. destruct (dmem (keymap (update_keymap s)) (MStr name)) eqn:D; [|reflexivity]. exfalso. destruct (K' name D) as [E|(k & I & C)]; [congruence|apply (No k I C)].
  - intros k I C U. destruct H' as (M & _ & N & P). assert (L : kget (keymap (update_keymap s)) (MStr name) = [k]).
    { assert (All : forall x, In x (kget (keymap (update_keymap s)) (MStr name)) <-> x = k).
      { intros x. rewrite P. split; [intros [Ix [[=]|[_ J]]]; apply U; auto; apply called_iff; auto|]. intros ->. split; [auto|]. right. split; [auto|apply called_iff; auto]. }
      specialize (N (MStr name)). destruct (kget _ _) as [|a [|b l]].
      - exfalso. apply (proj2 (All k) eq_refl).
      - f_equal. apply All. left. auto.
      - exfalso. inversion N as [|? ? Na _]. apply Na. rewrite (proj1 (All a)), (proj1 (All b)); [left|right; left; auto|left; auto]. }
    unfold kget in L. destruct (dget (keymap (update_keymap s)) (MStr name)) as [l|] eqn:E; [|discriminate L]. subst l.
    unfold dmem. rewrite E. cbn [is_Some]. unfold getitem. cbn [parse]. change (keymap (update_keymap (update_keymap s))) with (keymap (update_keymap s)). rewrite E. reflexivity.
Qed.
Print Assumptions C83_name_partial.
(** A name that no variable has is there once it was looked up. *)
Theorem C83_failed_lookup_refuted : forall has vks ops (name : string), (forall k, In k vks -> ~ called k name) ->
  snd (lookup (after has vks ops) (MStr name)) = Err KeyErrorE /\ snd (in_substitutions has (after has vks (ops ++ [Look (MStr name)])) name) = true.
Proof.
  intros has vks ops name No. split; [apply C82_item_partial; exact No|]. unfold after. rewrite fold_left_app. cbn [fold_left step]. fold (after has vks ops).
  destruct (mapped_after has vks ops) as (full & H & _). set (s := after has vks ops) in *. assert (H' := mapped_update vks full s H).
  assert (L : forall s1, mapped vks true s1 -> kget (keymap s1) (MStr name) = []).
  { intros s1 (_ & _ & _ & P). destruct (kget (keymap s1) (MStr name)) as [|x l] eqn:E; [auto|]. exfalso. destruct (proj1 (P (MStr name) x)) as [I [[=]|[_ J]]]; [rewrite E; left; auto|]. apply called_iff in J. apply (No x I J). }
  assert (S1 : exists s1, fst (lookup s (MStr name)) = s1 /\ mapped vks true s1 /\ dmem (keymap s1) (MStr name) = true).
  { eexists. split; [reflexivity|]. unfold lookup, variables_byname, getitem. cbn [parse]. pose proof (mapped_getitem vks full s (MStr name) H) as G. unfold getitem in G. cbn [parse] in G.
    destruct (dget (keymap (update_keymap s)) (MStr name)) as [l|] eqn:E; cbn [fst].
    - split; [exact H'|]. unfold dmem. rewrite E. auto.
    - rewrite orb_true_r in G. split; [apply G|]. cbn [keymap]. unfold dmem. rewrite dget_dset_eq. auto. }
  destruct S1 as (s1 & -> & M1 & D1). unfold in_substitutions, contains. cbn [parse orb].
  assert (U1 : update_keymap s1 = KeySet (members s1) (keymap s1) []). { destruct M1 as (_ & U & _). unfold update_keymap. rewrite U. reflexivity. }
  rewrite U1. cbn [keymap]. rewrite D1. unfold getitem. cbn [parse]. change (update_keymap (KeySet (members s1) (keymap s1) [])) with (KeySet (members s1) (keymap s1) []). cbn [keymap].
  specialize (L s1 M1). unfold kget in L. unfold dmem in D1. destruct (dget (keymap s1) (MStr name)) as [l|]; [subst l; reflexivity|discriminate D1].
Qed.
Print Assumptions C83_failed_lookup_refuted.
(** A name of several variables is not there, even if all of them are. *)
Theorem C83_several_refuted : forall has vks ops (name : string) k k', In k vks -> called k name -> In k' vks -> called k' name -> k <> k' ->
  (forall x v, In x vks -> called x name -> ~ element_of v x) ->
  snd (in_substitutions has (after has vks ops) name) = false.
Proof.
  intros has vks ops name k k' Ik Ck Ik' Ck' Ne Sc. destruct (mapped_after has vks ops) as (full & H & _). set (s := after has vks ops) in *.
  destruct (mapped_update vks full s H) as (_ & _ & _ & P). unfold in_substitutions, contains. cbn [parse orb].
  destruct (dmem (keymap (update_keymap s)) (MStr name)) eqn:D; [|reflexivity]. unfold getitem. cbn [parse].
  change (keymap (update_keymap (update_keymap s))) with (keymap (update_keymap s)). specialize (P (MStr name)). unfold kget in P. unfold dmem in D.
  destruct (dget (keymap (update_keymap s)) (MStr name)) as [l|]; [|discriminate D].
  assert (Hk : In k l) by (apply P; split; [auto|right; split; [auto|apply called_iff; auto]]). assert (Hk' : In k' l) by (apply P; split; [auto|right; split; [auto|apply called_iff; auto]]).
  assert (V : forall x, In x l -> veckey x = None).
  { intros x I. apply P in I as [I [[=]|[_ J]]]. apply called_iff in J. destruct (veckey x) as [v|] eqn:E; [|auto]. exfalso. apply veckey_iff in E. apply (Sc x v I J E). }
  destruct l as [|a [|b l]]; [contradiction|destruct Hk as [<-|[]], Hk' as [<-|[]]; contradiction|].
  assert (F : forallb (fun k0 => bool_decide (veckey k0 = veckey a)) (b :: l) = true).
  { apply forallb_forall. intros x I. apply bool_decide_eq_true. rewrite (V x), (V a); [auto|left; auto|right; auto]. }
  rewrite F, (V a) by (left; auto). reflexivity.
Qed.
Print Assumptions C83_several_refuted.
Example C83_nonvacuous : let y w := VKey "y" (Some [(w, 0)]) None "" in let vks := [y "A"; y "B"; x_ (Some [0])] in let has k := bool_decide (k <> y "B") in
  map (fun name => snd (in_substitutions has (after has vks [Look (MStr "n")]) name)) ["A.y"; "B.y"; "m"; "n"; "y"] = [true; false; false; true; false].
Proof. vm_compute. reflexivity. Qed.
