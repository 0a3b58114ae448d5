(** C42: parsing substitutions. *)
From Verif Require Import Base KeyDict Subs SubsProofs.
Open Scope nat_scope.

(** The substitutions are a KeyDict, as those of models are. For all variables,
    visited in any order: parsing succeeds, and puts each variable that has a value
    in the dict of the class of its own value, and in no other. *)
Definition C42_for (ok : forall A : Type, sval A -> Prop) : Prop :=
  forall (A : Type) size names enames range (vks o1 o2 : list vk) (ord : list vk -> list vk) (subs : list (nat * sval A)),
  NoDup vks -> Permutation o1 vks -> Permutation o2 vks -> (forall l, Permutation (ord l) l) ->
  (forall p, p ∈ vks -> is_var size p) ->
  (forall k v, dget subs k = Some v -> ok A v /\ shaped size range k v) ->
  exists r, parse_keydict size range ord (keymap_of names enames o1 o2) subs = Ok r /\
    forall p, classified r p (if decide (p ∈ vks)
                              then match dget subs (fst p) with Some v => own_class range false v p | None => None end
                              else None).

(** Missing: vectors of which some elements are swept and others are numbers. *)
Theorem C42_each_variable_in_its_class_partial : C42_for (fun A => unmixed).
Proof.
  intros A size names enames range vks o1 o2 ord subs Hn P1 P2 Po Hv Hs. apply keydict_spec; auto.
Qed.
Print Assumptions C42_each_variable_in_its_class_partial.

(** A vector x with x[0] swept and x[1] = 5: if the set shows x[0] first, x[1] is
    swept as well. *)
Theorem C42_mixed_vector_refuted : ~ C42_for (fun A v => True).
Proof.
  intros C.
  destruct (C nat (fun _ => Some 2) (fun k => [k]) (fun _ _ => []) (fun _ => Points [1; 2]) [(7, Some 0); (7, Some 1)]
    [(7, Some 0); (7, Some 1)] [(7, Some 0); (7, Some 1)] (fun l => l) [(7, VArr [CSweep 0; CNum 5])]) as (r & E & H).
  - repeat constructor; set_solver.
  - reflexivity.
  - reflexivity.
  - reflexivity.
  - intros p Hp. apply elem_of_list_In in Hp. destruct Hp as [<-|[<-|[]]]; exists 2; split; auto; lia.
  - intros k v E. simpl in E. destruct (decide (k = 7)); [|discriminate]. injection E as <-. split; [exact I|reflexivity].
  - vm_compute in E. injection E as <-. destruct (H (7, Some 1)) as (H1 & _). vm_compute in H1. discriminate.
Qed.
Print Assumptions C42_mixed_vector_refuted.

(** So the result depends on the order in which a set is visited. *)
Theorem C42_order_refuted :
  ~ (forall (A : Type) size names enames range (vks o1 o2 : list vk) (ord ord' : list vk -> list vk) (subs : list (nat * sval A)) r r',
     NoDup vks -> Permutation o1 vks -> Permutation o2 vks -> (forall l, Permutation (ord l) l) -> (forall l, Permutation (ord' l) l) ->
     (forall p, p ∈ vks -> is_var size p) -> (forall k v, dget subs k = Some v -> shaped size range k v) ->
     parse_keydict size range ord (keymap_of names enames o1 o2) subs = Ok r ->
     parse_keydict size range ord' (keymap_of names enames o1 o2) subs = Ok r' ->
     forall p, dget (p_const r) p = dget (p_const r') p).
Proof.
  intros C. set (vks := [(7, Some 0); (7, Some 1)]).
  specialize (C nat (fun _ => Some 2) (fun k => [k]) (fun _ _ => []) (fun _ => Points [1; 2]) vks vks vks (fun l => l) (@rev vk)
    [(7, VArr [CSweep 0; CNum 5])]
    (PS [] [((7, Some 0), SwArr [CNum 1; CNum 2]); ((7, Some 1), SwOne (CNum 5))] [])
    (PS [((7, Some 1), VOne (CNum 5))] [((7, Some 0), SwArr [CNum 1; CNum 2])] [])).
  assert (H : @None (sval nat) = Some (VOne (CNum 5))); [|discriminate].
  refine (C _ _ _ _ _ _ _ _ _ (7, Some 1)).
  - repeat constructor; set_solver.
  - reflexivity.
  - reflexivity.
  - reflexivity.
  - intros l. symmetry. apply Permutation_rev.
  - intros p Hp. apply elem_of_list_In in Hp. destruct Hp as [<-|[<-|[]]]; exists 2; split; auto; lia.
  - intros k v E. simpl in E. destruct (decide (k = 7)); [|discriminate]. injection E as <-. reflexivity.
  - vm_compute. reflexivity.
  - vm_compute. reflexivity.
Qed.
Print Assumptions C42_order_refuted.

(** A scalar, a vector of three with a linked function and a nan, a vector swept
    by columns. *)
Example C42_nonvacuous :
  let size := fun k => if k =? 0 then None else if k =? 1 then Some 3 else Some 2 in
  let range := fun s => if s =? 0 then Points [1; 2] else Rows [[3; 4]; [5; 6]] in
  let subs := [(0, VOne (CSweep 0)); (1, VArr [CNum 8; CFun 4; CNan]); (2, VOne (CSweep 1))] in
  let vks := [(1, Some 2); (2, Some 1); (0, None); (1, Some 0); (3, Some 0); (1, Some 1)] in
  (forall k v, dget subs k = Some v -> unmixed v /\ shaped size range k v) /\
  parse_keydict size range (@rev vk) (keymap_of (fun k => [k]) (fun k i => [10 * k + i]) vks (rev vks)) subs =
  Ok (PS [((1, Some 0), VOne (CNum 8))]
         [((0, None), SwArr [CNum 1; CNum 2]); ((2, Some 1), SwArr [CNum 4; CNum 6])] [((1, Some 1), 4)]).
Proof.
  split; [|vm_compute; reflexivity].
  intros k v E. simpl in E.
  destruct (decide (k = 0)) as [->|]; [injection E as <-; split; reflexivity|].
  destruct (decide (k = 1)) as [->|]; [injection E as <-; split; [left; repeat constructor; auto|reflexivity]|].
  destruct (decide (k = 2)) as [->|]; [injection E as <-; split; [reflexivity|]|discriminate].
  split; [discriminate|repeat constructor].
Qed.

(** Any other dict: its keys are variables, vectors, elements and strings. No two
    of them stand for the same variable. *)
Definition C42_dict_for (alone : bool) (ok : forall A : Type, sval A -> Prop) : Prop :=
  forall (A : Type) size names enames range (vks o1 o2 : list vk) (ord : list vk -> list vk) (subs : list (mkey * sval A)),
  NoDup vks -> Permutation o1 vks -> Permutation o2 vks -> (forall l, Permutation (ord l) l) ->
  (forall p, p ∈ vks -> is_var size p) -> NoDup (dkeys subs) ->
  (alone = true -> forall p m m', p ∈ vks -> m ∈ dkeys subs -> m' ∈ dkeys subs ->
     stands_for names enames m p -> stands_for names enames m' p -> m = m') ->
  (forall p m v, p ∈ vks -> In (m, v) subs -> stands_for names enames m p ->
     unmixed v /\ if itself names m p then ok A v else shaped size range (fst p) v) ->
  exists r, parse_dict size range ord (keymap_of names enames o1 o2) subs = Ok r /\
    (forall p m v, p ∈ vks -> In (m, v) subs -> stands_for names enames m p -> classified r p (own_class range (itself names m p) v p)) /\
    (forall p, p ∉ vks \/ (forall m, m ∈ dkeys subs -> ~ stands_for names enames m p) -> classified r p None).

Lemma stands_under names enames m p : stands_for names enames m p <-> under names enames m p.
Proof.
  unfold stands_for, under. destruct p as [k [i|]]; simpl.
  - rewrite elem_of_cons, elem_of_list_In, in_map_iff. split.
    + intros [?|[?|(n & -> & H)]]; auto. right. right. exists n. split; auto. apply in_or_app. auto.
    + intros [?|[?|(n & <- & H)]]; auto. right. right. exists n. split; auto. apply in_app_or. auto.
  - rewrite elem_of_list_In, in_map_iff. split.
    + intros [?|[?|(n & -> & [H|[]])]]; [left; auto|left; auto|right; eauto].
    + intros [?|(n & <- & H)]; [left; auto|right; right; eauto].
Qed.

(** Missing: a sweep of one element on its own. *)
Theorem C42_dict_partial : C42_dict_for true (fun A => one_value).
Proof.
  intros A size names enames range vks o1 o2 ord subs Hn P1 P2 Po Hv Hd H1 Hs.
  assert (Hfit : forall p m v, p ∈ vks -> In (m, v) subs -> stands_for names enames m p ->
    shaped size range (fst p) v /\ own_class range (itself names m p) v p = own_class range false v p).
  { intros p m v Hp Hm Hst. destruct (Hs p m v Hp Hm Hst) as [_ H]. destruct (itself names m p); [|auto].
    destruct v as [[a| |f|s]|cs]; try contradiction; (split; [unfold shaped; destruct (size (fst p)); auto|]);
    unfold own_class; destruct (snd p); auto. }
  destruct (dict_spec size names enames range vks o1 o2 ord P1 P2 Po Hv subs Hd) as (r & Er & Hin & Hout).
  - intros p m m' v v' Hp Hm Hm' Hu Hu'. apply (H1 eq_refl p); auto; try (apply stands_under; auto);
      apply elem_of_list_In; change m with (fst (m, v)) || change m' with (fst (m', v')); apply in_map; auto.
  - intros p m v Hp Hm Hu. apply stands_under in Hu. split; [apply (Hs p m v Hp Hm Hu)|apply (Hfit p m v Hp Hm Hu)].
  - exists r. split; [exact Er|]. split.
    + intros p m v Hp Hm Hst. destruct (Hfit p m v Hp Hm Hst) as [_ ->]. eapply Hin; eauto. apply stands_under. auto.
    + intros p [Hp|Hp]; apply Hout; auto. right. intros m v Hm Hu. apply (Hp m).
      * apply elem_of_list_In. change m with (fst (m, v)). apply in_map. auto.
      * apply stands_under. auto.
Qed.
Print Assumptions C42_dict_partial.

(** With two keys for one variable, as in [{x: ("sweep", ...), "x": 5}], it is both
    swept and constant. *)
Theorem C42_two_keys_refuted : ~ C42_dict_for false (fun A v => True).
Proof.
  intros C.
  destruct (C nat (fun _ => None) (fun k => [k]) (fun _ _ => []) (fun _ => Points [1; 2]) [(7, None)] [(7, None)] [(7, None)] (fun l => l)
    [(MKey (7, None), VOne (CSweep 0)); (MStr 7, VOne (CNum 5))]) as (r & E & H & _); auto.
  - repeat constructor; set_solver.
  - intros p Hp. apply elem_of_list_singleton in Hp. subst. reflexivity.
  - repeat constructor; set_solver.
  - discriminate.
  - intros p m v Hp [[= <- <-]|[[= <- <-]|[]]] _; (split; [exact I|]); apply elem_of_list_singleton in Hp; subst; simpl; auto.
  - vm_compute in E. injection E as <-. destruct (H (7, None) (MStr 7) (VOne (CNum 5))) as (_ & H2 & _).
    + left.
    + right. left. auto.
    + right. right. exists 7. split; [auto|]. left. left. auto.
    + vm_compute in H2. discriminate.
Qed.
Print Assumptions C42_two_keys_refuted.

(** Sweeping one element of a vector of three over three numbers sweeps it over
    the first of them only. *)
Theorem C42_swept_element_refuted : ~ C42_dict_for true (fun A v => exists s, v = VOne (CSweep s)).
Proof.
  intros C.
  destruct (C nat (fun _ => Some 3) (fun k => [k]) (fun _ _ => []) (fun _ => Points [1; 2; 3]) [(7, Some 0)] [(7, Some 0)] [(7, Some 0)] (fun l => l)
    [(MKey (7, Some 0), VOne (CSweep 0))]) as (r & E & H & _); auto.
  - repeat constructor; set_solver.
  - intros p Hp. apply elem_of_list_singleton in Hp. subst. exists 3. split; [auto|lia].
  - repeat constructor; set_solver.
  - intros _ p m m' _ Hm Hm' _ _. apply elem_of_list_singleton in Hm. apply elem_of_list_singleton in Hm'. congruence.
  - intros p m v Hp [[= <- <-]|[]] _. split; [exact I|]. apply elem_of_list_singleton in Hp. subst. simpl. eauto.
  - vm_compute in E. injection E as <-. destruct (H (7, Some 0) (MKey (7, Some 0)) (VOne (CSweep 0))) as (_ & H2 & _).
    + left.
    + left. auto.
    + left. auto.
    + vm_compute in H2. discriminate.
Qed.
Print Assumptions C42_swept_element_refuted.

(** Already parsed substitutions, as constraints get them: one object for each
    variable. *)
Theorem C42_clean : forall (A : Type) size range (vks : list vk) (subs : list (vk * sval A)),
  NoDup vks -> (forall p, p ∈ vks -> is_var size p) ->
  (forall p v, p ∈ vks -> dget subs p = Some v -> one_value v) ->
  exists r, parse_clean size range vks subs = Ok r /\
    forall p, classified r p (if decide (p ∈ vks)
                              then match dget subs p with Some v => own_class range true v p | None => None end
                              else None).
Proof.
  intros A size range vks subs Hn Hv Hs.
  destruct (clean_spec size range vks subs Hn Hv) as (r & Er & H).
  - intros p v Hp E. specialize (Hs p v Hp E). destruct v as [[a| |f|s]|cs]; try contradiction; (split; [exact I|]); unfold shaped; destruct (size (fst p)); auto.
  - exists r. split; [exact Er|]. intros p. specialize (H p). destruct (decide (p ∈ vks)) as [Hp|Hp]; [|exact H].
    destruct (dget subs p) as [v|] eqn:E; [|exact H]. specialize (Hs p v Hp E).
    replace (own_class range true v p) with (own_class range false v p); [exact H|].
    destruct v as [[a| |f|s]|cs]; try contradiction; unfold own_class; destruct (snd p); auto.
Qed.
Print Assumptions C42_clean.
