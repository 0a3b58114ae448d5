(** C45: solution arrays. *)
From Verif Require Import Base Solution.
Open Scope nat_scope.

(** ** Specification *)

(** What is found in a dictionary under some keys: nothing, a dictionary, or a value. *)
Fixpoint at_path {A} (t : tree A) (p : list nat) : option (option A) :=
  match p, t with
  | [], Leaf a => Some (Some a)
  | [], Node _ => Some None
  | k :: p', Node kvs => match dget kvs k with Some t' => at_path t' p' | None => None end
  | _ :: _, Leaf _ => None
  end.
(** Equal as dictionaries: the order of keys does not matter. *)
Definition same {A} (t t' : tree A) : Prop := forall p, at_path t p = at_path t' p.
(** The same keys lead to values and to dictionaries. *)
Definition same_keys {A B} (t : tree A) (t' : tree B) : Prop :=
  forall p, match at_path t p, at_path t' p with
            | None, None | Some None, Some None | Some (Some _), Some (Some _) => True
            | _, _ => False
            end.
Inductive distinct {A} : tree A -> Prop :=
| distinct_leaf a : distinct (Leaf a)
| distinct_node kvs : NoDup (map fst kvs) -> (forall kv, In kv kvs -> distinct (snd kv)) -> distinct (Node kvs).
Definition scalars {X} (t : tree (val X)) : Prop := forall p v, at_path t p = Some (Some v) -> exists x, v = Scalar x.

(** ** Proofs *)

Lemma at_tmap {A B} (f : A -> B) p : forall t, at_path (tmap f t) p = match at_path t p with Some (Some a) => Some (Some (f a)) | Some None => Some None | None => None end.
Proof.
  induction p as [|k p IH]; intros [a|kvs]; simpl; auto.
  assert (E : dget (map (fun kv => (fst kv, tmap f (snd kv))) kvs) k = match dget kvs k with Some t => Some (tmap f t) | None => None end).
  { induction kvs as [|[k' t] kvs IHk]; simpl; auto. destruct (decide (k = k')); auto. }
  rewrite E. destruct (dget kvs k); auto.
Qed.

Section Proofs.
Context {X : Type}.
Implicit Types (s : tree (val X)) (o d : tree (list (val X))).

Definition appended s o o' : Prop :=
  forall p, at_path o' p = match at_path s p, at_path o p with Some (Some v), Some (Some l) => Some (Some (l ++ [v])) | _, x => x end.

Lemma append_spec n : forall s o, (forall p x, at_path s p = Some x -> length p < n) -> distinct s -> same_keys s o -> exists o', append_dict s o = Ok o' /\ appended s o o'.
Proof.
  induction n as [|n IH]; intros s o Hn Hd Hk.
  - exfalso. destruct s; [specialize (Hn [] _ eq_refl)|specialize (Hn [] _ eq_refl)]; lia.
  - destruct s as [v|kvs].
    + specialize (Hk []) as Hk0. destruct o as [l|out]; simpl in Hk0; [|contradiction]. exists (Leaf (l ++ [v])). split; auto.
      intros [|k p]; auto.
    + specialize (Hk []) as Hk0. destruct o as [l|out]; simpl in Hk0; [contradiction|]. clear Hk0.
      inversion Hd as [|? Hnd Hds]; subst.
      assert (Hall : forall k t, In (k, t) kvs -> exists o, dget out k = Some o /\ same_keys t o).
      { intros k t Hin. assert (E : dget kvs k = Some t) by (apply In_dget; auto).
        destruct (dget out k) as [o|] eqn:Eo.
        - exists o. split; auto. intros p. specialize (Hk (k :: p)). simpl in Hk. rewrite E, Eo in Hk. auto.
        - exfalso. specialize (Hk [k]). simpl in Hk. rewrite E, Eo in Hk. destruct t; simpl in Hk; contradiction. }
      assert (Hdepth : forall k t p x, In (k, t) kvs -> at_path t p = Some x -> length p < n).
      { intros k t p x Hin Hp. specialize (Hn (k :: p) x). simpl in Hn. rewrite (In_dget kvs k t Hnd Hin) in Hn. apply Hn in Hp. lia. }
      assert (Hgo : forall kvs' out', NoDup (map fst kvs') -> (forall kv, In kv kvs' -> In kv kvs) ->
        (forall k t, In (k, t) kvs' -> exists o, dget out' k = Some o /\ same_keys t o) ->
        exists out'', (fix go (kvs : list (nat * tree (val X))) (out : list (nat * tree (list (val X)))) : res (tree (list (val X))) :=
          match kvs with
          | [] => Ok (Node out)
          | (k, t) :: kvs' => match dget out k with None => Err KeyErrorE | Some o => let! o' := append_dict t o in go kvs' (dset out k o') end
          end) kvs' out' = Ok (Node out'') /\
          forall k, match dget kvs' k with
                    | None => dget out'' k = dget out' k
                    | Some t => exists o o', dget out' k = Some o /\ dget out'' k = Some o' /\ appended t o o'
                    end).
      { induction kvs' as [|[k t] kvs' IHg]; intros out' Hnd' Hin Ho.
        - exists out'. split; [reflexivity|]. intros k. reflexivity.
        - inversion Hnd' as [|? ? Hk1 Hk2]; subst. destruct (Ho k t (or_introl eq_refl)) as (o & Eo & Hs).
          destruct (IH t o) as (o' & Ea & Happ); auto.
          { intros p x. apply (Hdepth k). apply Hin. left. auto. }
          { apply (Hds (k, t)). apply Hin. left. auto. }
          rewrite Eo, Ea. simpl rbind.
          destruct (IHg (dset out' k o')) as (out'' & Eg & Hg); auto.
          { intros kv Hkv. apply Hin. right. auto. }
          { intros k' t' Hin'. rewrite dget_dset_ne; [apply Ho; right; auto|]. intros ->. apply Hk1. apply elem_of_list_In. apply in_map_iff. exists (k, t'). auto. }
          exists out''. split; auto. intros k'. specialize (Hg k'). simpl. destruct (decide (k' = k)) as [->|Hne].
          + assert (En : dget kvs' k = None). { destruct (dget kvs' k) eqn:E; auto. apply dget_In_keys in E. exfalso. apply Hk1, elem_of_list_In. auto. }
            rewrite En, dget_dset_eq in Hg. exists o, o'. auto.
          + rewrite dget_dset_ne in Hg by auto. auto. }
      destruct (Hgo kvs out Hnd (fun kv H => H) Hall) as (out'' & Eg & Hg).
      exists (Node out''). split; [destruct kvs; exact Eg|]. intros [|k p]; auto. simpl. specialize (Hg k).
      destruct (dget kvs k) as [t|].
      * destruct Hg as (o & o' & -> & -> & Happ). apply Happ.
      * rewrite Hg. auto.
Qed.
Lemma finite {A} (t : tree A) : exists n, forall p x, at_path t p = Some x -> length p < n.
Proof.
  revert t. fix F 1. intros [a|kvs].
  - exists 1. intros [|k p] x; simpl; [lia|discriminate].
  - assert (G : exists n, forall k t, dget kvs k = Some t -> forall p x, at_path t p = Some x -> length p < n).
    { induction kvs as [|[k t] kvs IH].
      - exists 0. intros k t. simpl. discriminate.
      - destruct IH as (n & Hn). destruct (F t) as (m & Hm). exists (n + m). intros k' t' Hg p x Hp. simpl in Hg. destruct (decide (k' = k)).
        + injection Hg as <-. apply Hm in Hp. lia.
        + apply (Hn _ _ Hg) in Hp. lia. }
    destruct G as (n & Hn). exists (S n). intros [|k p] x; simpl; [lia|]. destruct (dget kvs k) as [t|] eqn:E; [|discriminate].
    intros Hp. apply (Hn _ _ E) in Hp. lia.
Qed.

Definition leaf_at p s : list (val X) := match at_path s p with Some (Some v) => [v] | _ => [] end.
(** The lists under some keys are those of the solutions' values. *)
Definition holds (s0 : tree (val X)) (ss : list (tree (val X))) d : Prop :=
  forall p, at_path d p = match at_path s0 p with None => None | Some None => Some None | Some (Some _) => Some (Some (flat_map (leaf_at p) ss)) end.

Lemma append_holds s0 ss d s : holds s0 ss d -> same_keys s0 s -> distinct s -> exists d', append_dict s d = Ok d' /\ holds s0 (ss ++ [s]) d'.
Proof.
  intros Hh Hk Hd. destruct (finite s) as (n & Hn). destruct (append_spec n s d Hn Hd) as (d' & E & Ha).
  - intros p. specialize (Hk p). rewrite Hh. destruct (at_path s0 p) as [[v|]|], (at_path s p) as [[w|]|]; auto.
  - exists d'. split; auto. intros p. rewrite Ha, Hh. specialize (Hk p). rewrite flat_map_app.
    assert (El : flat_map (leaf_at p) [s] = match at_path s p with Some (Some v) => [v] | _ => [] end) by (simpl; rewrite app_nil_r; reflexivity). rewrite El.
    destruct (at_path s0 p) as [[v|]|], (at_path s p) as [[w|]|]; simpl in *; try contradiction; auto.
Qed.
Lemma append_all_holds s0 ss : forall done d, holds s0 done d -> (forall s, In s ss -> same_keys s0 s /\ distinct s) ->
  exists d', append_all (Some d) ss = Ok (Some d') /\ holds s0 (done ++ ss) d'.
Proof.
  induction ss as [|s ss IH]; intros done d Hh Hs; simpl.
  - exists d. rewrite app_nil_r. auto.
  - destruct (Hs s (or_introl eq_refl)) as [H1 H2]. destruct (append_holds s0 done d s Hh H1 H2) as (d' & E & Hh'). rewrite E. simpl.
    destruct (IH (done ++ [s]) d' Hh') as (d'' & E' & Hh''); [intros; apply Hs; right; auto|]. exists d''. rewrite <- app_assoc in Hh''. auto.
Qed.
Lemma history s0 ss : (forall s, In s (s0 :: ss) -> same_keys s0 s /\ distinct s) -> exists d, append_all None (s0 :: ss) = Ok (Some d) /\ holds s0 (s0 :: ss) d.
Proof.
  intros Hs. simpl. destruct (append_all_holds s0 ss [s0] (enlist s0)) as (d & E & Hh).
  - intros p. unfold enlist. rewrite at_tmap. unfold leaf_at. simpl. destruct (at_path s0 p) as [[v|]|]; auto.
  - intros; apply Hs; right; auto.
  - exists d. auto.
Qed.
Lemma leaves_at p : forall ss i s, (forall s, In s ss -> exists v, at_path s p = Some (Some v)) -> nth_error ss i = Some s ->
  exists v, at_path s p = Some (Some v) /\ nth_error (flat_map (leaf_at p) ss) i = Some v.
Proof.
  induction ss as [|t ss IH]; intros [|i] s Ha Hn; simpl in *; try discriminate.
  - injection Hn as ->. destruct (Ha s (or_introl eq_refl)) as (v & Hv). exists v. unfold leaf_at. rewrite Hv. auto.
  - destruct (Ha t (or_introl eq_refl)) as (v & Hv). unfold leaf_at at 1. rewrite Hv. simpl. apply IH; auto.
Qed.
Lemma leaves_length p ss : (forall s, In s ss -> exists v, at_path s p = Some (Some v)) -> length (flat_map (leaf_at p) ss) = length ss.
Proof.
  induction ss as [|t ss IH]; intros Ha; simpl in *; auto. destruct (Ha t (or_introl eq_refl)) as (v & Hv). unfold leaf_at at 1. rewrite Hv. simpl. rewrite IH; auto.
Qed.
End Proofs.

(** ** C45: A solution array gives back each solution *)

Definition all_like {X} (sols : list (tree (val X))) : Prop := forall s s', In s sols -> In s' sols -> same_keys s s'.

(** Before conversion to arrays. *)
Definition C45_lists_for (cond : forall X, list (tree (val X)) -> Prop) : Prop :=
  forall X (sols : list (tree (val X))), sols <> [] -> (forall s, In s sols -> distinct s) -> cond X sols ->
    exists d, append_all None sols = Ok (Some d) /\ forall i s, nth_error sols i = Some s -> same (atindex_lists i d) s.
(** After it. *)
Definition C45_arrays_for (cond : forall X, list (tree (val X)) -> Prop) : Prop :=
  forall X (sols : list (tree (val X))), sols <> [] -> (forall s, In s sols -> distinct s) -> cond X sols ->
    exists d, append_all None sols = Ok (Some d) /\ forall i s, nth_error sols i = Some s -> same (atindex i (to_arrays d)) s.

Lemma like_history {X} (sols : list (tree (val X))) s0 ss : sols = s0 :: ss -> (forall s, In s sols -> distinct s) -> all_like sols ->
  exists d, append_all None sols = Ok (Some d) /\ forall p i s, nth_error sols i = Some s ->
    match at_path s p with
    | None => at_path d p = None
    | Some None => at_path d p = Some None
    | Some (Some v) => exists l, at_path d p = Some (Some l) /\ nth_error l i = Some v /\ length l = length sols
    end.
Proof.
  intros -> Hd Hl. destruct (history s0 ss) as (d & E & Hh). { intros s Hs. split; auto. apply Hl; simpl; auto. }
  exists d. split; auto. intros p i s Hi. assert (Hin : In s (s0 :: ss)) by (eapply nth_error_In; eauto).
  rewrite Hh. assert (Hk : same_keys s s0) by (apply Hl; simpl; auto). specialize (Hk p).
  destruct (at_path s p) as [[v|]|] eqn:Es, (at_path s0 p) as [[w|]|]; try contradiction; auto.
  eexists. split; [reflexivity|].
  assert (Ha : forall t, In t (s0 :: ss) -> exists v, at_path t p = Some (Some v)).
  { intros t Ht. assert (Hk' := Hl s t Hin Ht p). rewrite Es in Hk'. destruct (at_path t p) as [[u|]|]; try contradiction. eauto. }
  split; [|apply leaves_length; auto]. destruct (leaves_at p (s0 :: ss) i s Ha Hi) as (v' & Ev & Hn). congruence.
Qed.

(** Missing: solutions that do not all have the same keys. *)
Theorem C45_lists_partial : C45_lists_for (fun X sols => all_like sols).
Proof.
  intros X [|s0 ss] Hne Hd Hl; [contradiction|]. destruct (like_history (s0 :: ss) s0 ss eq_refl Hd Hl) as (d & E & H). exists d. split; auto.
  intros i s Hi p. unfold atindex_lists. rewrite at_tmap. specialize (H p i s Hi).
  destruct (at_path s p) as [[v|]|].
  - destruct H as (l & -> & Hn & _). simpl. rewrite Hn. auto.
  - rewrite H. auto.
  - rewrite H. auto.
Qed.
Print Assumptions C45_lists_partial.
(** Missing: those, and arrays in a single solution. *)
Theorem C45_arrays_partial : C45_arrays_for (fun X sols => all_like sols /\ (length sols = 1 -> forall s, In s sols -> scalars s)).
Proof.
  intros X [|s0 ss] Hne Hd [Hl H1]; [contradiction|]. destruct (like_history (s0 :: ss) s0 ss eq_refl Hd Hl) as (d & E & H). exists d. split; auto.
  intros i s Hi p. unfold atindex, to_arrays. rewrite !at_tmap. specialize (H p i s Hi).
  destruct (at_path s p) as [[v|]|] eqn:Es.
  - destruct H as (l & -> & Hn & Hlen). destruct l as [|a [|b l]].
    + destruct i; discriminate.
    + assert (i = 0) as -> by (destruct i as [|[|i]]; try discriminate; auto). injection Hn as ->. simpl.
      destruct (H1 (eq_sym Hlen) s (nth_error_In _ _ Hi) p v Es) as (x & ->). auto.
    + change (enray_leaf (a :: b :: l)) with (Array (a :: b :: l)). simpl index_leaf. rewrite Hn. auto.
  - rewrite H. auto.
  - rewrite H. auto.
Qed.
Print Assumptions C45_arrays_partial.

(** After a sweep: the constants, under key [c], are the same in every solution, and only kept once. *)
Definition C45_swept_for (cond : forall X, nat -> list (tree (val X)) -> Prop) : Prop :=
  forall X (sols : list (tree (val X))) c, 1 < length sols -> (forall s, In s sols -> distinct s) -> all_like sols ->
    (forall s s' p, In s sols -> In s' sols -> at_path s (c :: p) = at_path s' (c :: p)) -> cond X c sols ->
    exists d, append_all None sols = Ok (Some d) /\ forall i s, nth_error sols i = Some s -> same (atindex i (to_arrays (trim c d))) s.
Lemma at_trim {X} c (d : tree (list (val X))) p :
  at_path (trim c d) p =
  match p with
  | [] => at_path d p
  | k :: _ => if decide (k = c) then match at_path d p with Some (Some l) => Some (Some (trim_leaf l)) | x => x end else at_path d p
  end.
Proof.
  destruct p as [|k p], d as [l|kvs]; simpl; auto; [destruct (decide _); auto|].
  assert (E : dget (map (fun kv => (fst kv, if decide (fst kv = c) then tmap trim_leaf (snd kv) else snd kv)) kvs) k =
    match dget kvs k with Some t => Some (if decide (k = c) then tmap trim_leaf t else t) | None => None end).
  { induction kvs as [|[k' t] kvs IHk]; simpl; auto. destruct (decide (k = k')) as [->|]; auto. }
  rewrite E. destruct (dget kvs k) as [t|]; [|destruct (decide _); auto]. destruct (decide (k = c)); auto. rewrite at_tmap.
  destruct (at_path t p) as [[?|]|]; auto.
Qed.
(** Missing: constants that are arrays, and linked variables. *)
Theorem C45_swept_partial : C45_swept_for (fun X c sols => forall s p v, In s sols -> at_path s (c :: p) = Some (Some v) -> exists x, v = Scalar x).
Proof.
  intros X [|s0 ss] c Hne Hd Hl Hc Hs; [simpl in Hne; lia|]. destruct (like_history (s0 :: ss) s0 ss eq_refl Hd Hl) as (d & E & H). exists d. split; auto.
  intros i s Hi p. unfold atindex, to_arrays. rewrite !at_tmap, at_trim. assert (Hp := H p i s Hi). assert (Hin : In s (s0 :: ss)) by (eapply nth_error_In; eauto).
  assert (Hlong : forall l : list (val X), length l = length (s0 :: ss) -> forall v, nth_error l i = Some v -> index_leaf i (enray_leaf l) = v).
  { intros [|a [|b l]] Hlen v Hv; try (simpl in Hlen, Hne; lia). change (enray_leaf (a :: b :: l)) with (Array (a :: b :: l)). simpl index_leaf. rewrite Hv. auto. }
  destruct p as [|k p].
  - destruct (at_path s []) as [[v|]|]; [destruct Hp as (l & -> & Hn & Hlen); rewrite (Hlong l Hlen v Hn); auto|rewrite Hp; auto|rewrite Hp; auto].
  - destruct (decide (k = c)) as [->|Hne'].
    + assert (H0 := H (c :: p) 0 s0 eq_refl). rewrite <- (Hc s s0 p Hin (or_introl eq_refl)) in H0.
      destruct (at_path s (c :: p)) as [[v|]|] eqn:Es; [|rewrite Hp; auto|rewrite Hp; auto].
      destruct H0 as (l & -> & Hn & _). destruct l as [|w l]; [discriminate|]. injection Hn as ->. simpl.
      destruct (Hs s p v Hin Es) as (x & ->). auto.
    + destruct (at_path s (k :: p)) as [[v|]|]; [destruct Hp as (l & -> & Hn & Hlen); rewrite (Hlong l Hlen v Hn); auto|rewrite Hp; auto|rewrite Hp; auto].
Qed.
Print Assumptions C45_swept_partial.

(** Hypotheses met: two solutions with nested dictionaries, in different orders, and arrays. *)
Definition sol_a : tree (val nat) := Node [(0, Leaf (Scalar 7)); (1, Node [(2, Leaf (Array [Scalar 1; Scalar 2])); (3, Leaf (Scalar 4))])].
Definition sol_b : tree (val nat) := Node [(1, Node [(3, Leaf (Scalar 5)); (2, Leaf (Array [Scalar 8; Scalar 9]))]); (0, Leaf (Scalar 6))].
Ltac dist := first [apply distinct_leaf | apply distinct_node; [apply (bool_decide_unpack _); vm_compute; exact I|
  let kv := fresh in let H := fresh in intros kv H; simpl in H; repeat (destruct H as [<-|H]; [simpl; dist|]); destruct H]].
Lemma sol_distinct : distinct sol_a /\ distinct sol_b.
Proof.
  split; dist.
Qed.
Lemma sol_like : same_keys sol_a sol_b.
Proof.
  intros [|k p]; simpl; auto. repeat (destruct (decide _) as [?|?]; subst; try discriminate; simpl; auto); destruct p as [|k' p]; simpl; auto;
  repeat (destruct (decide _) as [?|?]; subst; try discriminate; simpl; auto); destruct p; simpl; auto.
Qed.
Lemma same_keys_refl {A} (t : tree A) : same_keys t t.
Proof. intros p. destruct (at_path t p) as [[a|]|]; auto. Qed.
Lemma same_keys_sym {A B} (t : tree A) (t' : tree B) : same_keys t t' -> same_keys t' t.
Proof. intros H p. specialize (H p). destruct (at_path t p) as [[a|]|], (at_path t' p) as [[b|]|]; auto. Qed.
Example C45_met : [sol_a; sol_b] <> [] /\ (forall s, In s [sol_a; sol_b] -> distinct s) /\ all_like [sol_a; sol_b] /\
  (length [sol_a; sol_b] = 1 -> forall s, In s [sol_a; sol_b] -> scalars s) /\
  (let! d := append_all None [sol_a; sol_b] in Ok (option_map (fun d => atindex 0 (to_arrays d)) d)) = Ok (Some sol_a).
Proof.
  split; [discriminate|]. split; [intros s [<-|[<-|[]]]; apply sol_distinct|]. split.
  { intros s s' [<-|[<-|[]]] [<-|[<-|[]]]; try apply same_keys_refl; [apply sol_like|apply same_keys_sym, sol_like]. }
  split; [discriminate|]. reflexivity.
Qed.

(** A key that is missing from a solution shifts the values of those after it... *)
Theorem C45_missing_key_refuted : ~ C45_arrays_for (fun X sols => forall s p, In s sols -> at_path (List.hd s sols) p = None -> at_path s p = None).
Proof.
  intros H. set (a := fun x => Node [(0, Leaf (Scalar x)); (1, Leaf (Scalar 0))] : tree (val nat)).
  set (b := Node [(1, Leaf (Scalar 0))] : tree (val nat)).
  destruct (H nat [a 1; b; a 3]) as (d & E & Hi).
  - discriminate.
  - intros s [<-|[<-|[<-|[]]]]; dist.
  - intros s p Hs. change (List.hd s [a 1; b; a 3]) with (a 1). destruct p as [|k [|k' p]]; simpl; [discriminate| |].
    + destruct Hs as [<-|[<-|[<-|[]]]]; simpl; repeat (destruct (decide _) as [?|?]; subst; try discriminate; auto).
    + destruct Hs as [<-|[<-|[<-|[]]]]; simpl; repeat (destruct (decide _) as [?|?]; subst; try discriminate; auto).
  - cbv in E. injection E as <-. specialize (Hi 1 b eq_refl [0]). vm_compute in Hi. discriminate.
Qed.
Print Assumptions C45_missing_key_refuted.
(** ...and one that is new cannot be appended. *)
Theorem C45_new_key_refuted : ~ C45_lists_for (fun X sols => True).
Proof.
  intros H. destruct (H nat [Node []; Node [(0, Leaf (Scalar 1))]]) as (d & E & _); auto; try discriminate.
  - intros s [<-|[<-|[]]]; dist.
Qed.
Print Assumptions C45_new_key_refuted.
(** The index of a single solution is taken as one into its arrays. *)
Theorem C45_single_refuted : ~ C45_arrays_for (fun X sols => all_like sols).
Proof.
  intros H. destruct (H nat [sol_a]) as (d & E & Hi).
  - discriminate.
  - intros s [<-|[]]. apply sol_distinct.
  - intros s s' [<-|[]] [<-|[]]. apply same_keys_refl.
  - cbv in E. injection E as <-. specialize (Hi 0 sol_a eq_refl [1; 2]). vm_compute in Hi. discriminate.
Qed.
Print Assumptions C45_single_refuted.
(** So is that of a sweep's solution, into the constants that are arrays. *)
Definition swept (x : nat) : tree (val nat) := Node [(0, Leaf (Scalar x)); (1, Node [(2, Leaf (Array [Scalar 5; Scalar 6]))])].
Lemma swept_distinct x : distinct (swept x).
Proof.
  dist.
Qed.
Lemma swept_like x y : same_keys (swept x) (swept y).
Proof. intros [|k p]; simpl; auto. destruct (decide (k = 0)); [destruct p; simpl; auto|]. destruct (decide (k = 1)); auto. apply same_keys_refl. Qed.
Theorem C45_swept_refuted : ~ C45_swept_for (fun X c sols => True).
Proof.
  intros H. destruct (H nat [swept 1; swept 2] 1) as (d & E & Hi); auto.
  - intros s [<-|[<-|[]]]; apply swept_distinct.
  - intros s s' [<-|[<-|[]]] [<-|[<-|[]]]; apply swept_like.
  - intros s s' p [<-|[<-|[]]] [<-|[<-|[]]]; auto.
  - cbv in E. injection E as <-. specialize (Hi 1 (swept 2) eq_refl [1; 2]). vm_compute in Hi. discriminate.
Qed.
Print Assumptions C45_swept_refuted.
(** Hypotheses of C45_swept_partial met: a swept cost, and a constant. *)
Definition swept1 (x : nat) : tree (val nat) := Node [(0, Leaf (Scalar x)); (1, Node [(2, Leaf (Scalar 5))])].
Example C45_swept_met : (forall s, In s [swept1 1; swept1 2] -> distinct s) /\ all_like [swept1 1; swept1 2] /\
  (forall s s' p, In s [swept1 1; swept1 2] -> In s' [swept1 1; swept1 2] -> at_path s (1 :: p) = at_path s' (1 :: p)) /\
  (forall s p v, In s [swept1 1; swept1 2] -> at_path s (1 :: p) = Some (Some v) -> exists x, v = Scalar x).
Proof.
  split; [|split; [|split]].
  - intros s [<-|[<-|[]]]; dist.
  - assert (G : forall x y, same_keys (swept1 x) (swept1 y)).
    { intros x y [|k p]; simpl; auto. destruct (decide (k = 0)); [destruct p; simpl; auto|]. destruct (decide (k = 1)); auto. apply same_keys_refl. }
    intros s s' [<-|[<-|[]]] [<-|[<-|[]]]; apply G.
  - intros s s' p [<-|[<-|[]]] [<-|[<-|[]]]; auto.
  - intros s p v [<-|[<-|[]]]; (destruct p as [|k [|k' p]]; simpl; [discriminate| |]; destruct (decide _); simpl; intros [=]; eauto).
Qed.
