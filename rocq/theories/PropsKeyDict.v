(** C39, C40 and C41: KeyDicts. *)
From Verif Require Import Base KeyDict KeyDictSem KeyDictProofs.
From Coq Require Import QArith.
Open Scope nat_scope.

Lemma inv_start {A} size D N (P : nat -> Prop) (h0 : heap A) :
  (forall l, ~ P l) -> inv size D N P h0 (fun _ _ => None) [] kd_empty.
Proof.
  intros HP. constructor.
  - constructor.
  - constructor.
  - intros k. unfold maps. reflexivity.
  - intros k. simpl. unfold slot_ok. destruct (size k); simpl; auto.
  - intros k k' l _ E. discriminate.
  - intros k l E. discriminate.
  - split; [intros l Hl; destruct (HP l Hl)|intros k l E; discriminate].
Qed.

Definition nobodys (l : nat) : Prop := False.
Definition doubles (d : dtype) : Prop := d = DF64 \/ d = DObj.
Definition anyd (d : dtype) : Prop := d <> DInt.
Definition exactly {A} (trunc single : A -> A) (a : A) : Prop := trunc a = a /\ single a = a.

Lemma fits_unrounded {A} size cset (o : op A) : unrounded size cset o -> fits size cset doubles (fun _ => True) o.
Proof.
  destruct o as [a v| | |]; simpl; auto. intros H. split; [intros ? ?; auto|].
  destruct v as [c|d cs|d cs]; destruct (meant cset a) as [[k [i|]]|]; auto; try (split; auto; destruct H; congruence).
  intros Hk. destruct (Hk H).
Qed.
Lemma cast_doubles {A} (trunc single : A -> A) d a : doubles d -> cast trunc single d (CNum a) = Ok (CNum a).
Proof. intros [->| ->]; auto. Qed.
Lemma fits_exact {A} (trunc single : A -> A) size cset (o : op A) :
  exact_numbers trunc single o -> fits size cset (fun _ => True) (exactly trunc single) o.
Proof.
  destruct o as [a v| | |]; simpl; auto. intros H. split; [auto|].
  destruct v; auto. destruct (meant cset a) as [[k [i|]]|]; auto.
Qed.
Lemma cast_exact {A} (trunc single : A -> A) d a : exactly trunc single a -> cast trunc single d (CNum a) = Ok (CNum a).
Proof. intros [H1 H2]. destruct d; simpl; congruence. Qed.

(** The invariant after a history without rounding. *)
Lemma inv_history {A} (trunc single : A -> A) size names enames cset ops h d :
  Forall (proper size cset) ops -> no_rounding trunc single size cset ops -> Forall whole ops ->
  run trunc single size names enames cset ([], kd_empty) ops = Ok (h, d) ->
  exists (D : dtype -> Prop) (N : A -> Prop), (D DF64 /\ D DObj /\ forall dt a, D dt -> N a -> cast trunc single dt (CNum a) = Ok (CNum a)) /\
    inv size D N nobodys [] (content cset ops) h d.
Proof.
  intros Hp Hr Hw E. destruct Hr as [Hr|Hr].
  - exists doubles, (fun _ => True). assert (Hc : forall dt (a : A), doubles dt -> True -> cast trunc single dt (CNum a) = Ok (CNum a)).
    { intros dt a Hd _. apply cast_doubles. auto. }
    split; [split; [left; auto|split; [right; auto|auto]]|].
    eapply inv_ext; [intros k i; apply fold_content|].
    eapply (run_inv trunc single size names enames cset doubles (fun _ => True)); try exact E; auto.
    + left. auto.
    + right. auto.
    + apply inv_start. intros l Hl. exact Hl.
    + eapply List.Forall_impl; [|exact Hr]. intros o. apply fits_unrounded.
  - exists (fun _ => True), (exactly trunc single).
    assert (Hc : forall dt (a : A), True -> exactly trunc single a -> cast trunc single dt (CNum a) = Ok (CNum a)).
    { intros dt a _ Ha. apply cast_exact. auto. }
    split; [auto|].
    eapply inv_ext; [intros k i; apply fold_content|].
    eapply (run_inv trunc single size names enames cset (fun _ => True) (exactly trunc single)); try exact E; auto.
    + apply inv_start. intros l Hl. exact Hl.
    + eapply List.Forall_impl; [|exact Hr]. intros o. apply fits_exact.
Qed.

Lemma whole_no_del {A} (ops : list (op A)) : Forall (fun o => ~ is_del o) ops -> Forall whole ops.
Proof. apply List.Forall_impl. intros [] H; simpl; auto. destruct (H I). Qed.

(** ** C39: reads return the last write *)

(** For all variables and their sizes and names, and every history of reads and
    writes by variable, element or name: the dictionary shows exactly what was
    last written to each scalar, element and vector. *)
Definition C39_for {A} (trunc single : A -> A)
    (ok : (nat -> option nat) -> option (nat -> list (nat * option nat)) -> list (op A) -> Prop) : Prop :=
  forall size names enames cset ops h d,
  Forall (proper size cset) ops -> Forall (fun o => ~ is_del o) ops -> ok size cset ops ->
  run trunc single size names enames cset ([], kd_empty) ops = Ok (h, d) ->
  shows_exactly size names cset h d (content cset ops).

(** Missing: histories in which numbers are rounded (below). *)
Theorem C39_reads_last_write_partial : forall A (trunc single : A -> A), C39_for trunc single (no_rounding trunc single).
Proof.
  intros A trunc single size names enames cset ops h d Hp Hn Hr E.
  destruct (inv_history trunc single size names enames cset ops h d Hp Hr (whole_no_del ops Hn) E) as (D & N & _ & I).
  eapply inv_shows; eauto.
Qed.
Print Assumptions C39_reads_last_write_partial.

(** Numbers and nan can always be written, as long as no list of integers is. *)
Theorem C39_numeric_writes_succeed_partial : forall A (trunc single : A -> A) size names enames cset (ops : list (op A)),
  Forall (proper size cset) ops -> Forall numeric ops -> no_rounding trunc single size cset ops ->
  exists h d, run trunc single size names enames cset ([], kd_empty) ops = Ok (h, d) /\
    shows_exactly size names cset h d (content cset ops).
Proof.
  intros A trunc single size names enames cset ops Hp Hn Hr.
  assert (exists h d, run trunc single size names enames cset ([], kd_empty) ops = Ok (h, d)) as (h & d & E).
  { destruct Hr as [Hr|Hr].
    - apply (run_progress trunc single size names enames cset doubles (fun _ => True)) with (P := nobodys) (h0 := []) (c := fun _ _ => None); auto.
      + left. auto.
      + right. auto.
      + intros dt a Hd _. apply cast_doubles. auto.
      + intros [|]; discriminate.
      + apply inv_start. intros l Hl. exact Hl.
      + intros k i x _ E0; discriminate E0.
      + eapply List.Forall_impl; [|exact Hr]. intros o. apply fits_unrounded.
    - apply (run_progress trunc single size names enames cset anyd (exactly trunc single)) with (P := nobodys) (h0 := []) (c := fun _ _ => None); auto.
      + discriminate.
      + discriminate.
      + intros dt a _ Ha. apply cast_exact. auto.
      + apply inv_start. intros l Hl. exact Hl.
      + intros k i x _ E0; discriminate E0.
      + rewrite List.Forall_forall in *. intros o Ho. specialize (Hr o Ho). specialize (Hn o Ho).
        destruct o as [a v| | |]; simpl; auto. destruct Hn as [_ Hn]. split; [exact Hr|].
        destruct v as [c|dt cs|dt cs]; [destruct (meant cset a) as [[k [i|]]|]; auto; discriminate| |apply Hn].
        split; [discriminate|auto]. }
  exists h, d. split; [auto|]. eapply C39_reads_last_write_partial; eauto.
  apply List.Forall_forall. intros o Ho Hdel. rewrite List.Forall_forall in Hn. specialize (Hn o Ho). destruct o; auto.
Qed.
Print Assumptions C39_numeric_writes_succeed_partial.

(** A name that only one stored key has reads that key, in dictionaries that are
    not substitutions. *)
Theorem C39_names_partial : forall A (trunc single : A -> A) size names enames (ops : list (op A)) h d nm k,
  Forall (proper size None) ops -> Forall (fun o => ~ is_del o) ops -> no_rounding trunc single size None ops ->
  run trunc single size names enames None ([], kd_empty) ops = Ok (h, d) ->
  (forall k', has names None h d (KVar k') = Ok true /\ In nm (names k') <-> k' = k) ->
  shows size names None h d (KName nm) = shows size names None h d (KVar k).
Proof.
  intros A trunc single size names enames ops h d nm k Hp Hn Hr E Hk.
  destruct (inv_history trunc single size names enames None ops h d Hp Hr (whole_no_del ops Hn) E) as (D & N & _ & I).
  apply (name_alone size names enames None nobodys); auto.
  - eapply (run_ninv trunc single size names enames None nobodys); [apply ninv_empty|exact Hn|exact E].
  - apply (i_map _ _ _ _ _ _ _ _ I).
  - intros k'. rewrite <- Hk. unfold has, contains. simpl. unfold has_entry. simpl. unfold dmem.
    rewrite (i_map _ _ _ _ _ _ _ _ I k'). unfold dmem. destruct (dget (d_items d) k') as [sl|]; simpl; (split; intros [? ?]; split; auto; congruence).
Qed.
Print Assumptions C39_names_partial.

(** *** An execution *)

(** Key 0 is a scalar, key 1 a vector of three; names 10 and 11, of which a
    substitutions dictionary knows. *)
Definition q_size (k : nat) : option nat := if k =? 1 then Some 3 else None.
Definition q_names (k : nat) : list nat := [10 + k].
Definition q_enames (k i : nat) : list nat := [10 + k].
Definition q_cset : option (nat -> list (nat * option nat)) :=
  Some (fun n => if n =? 10 then [(0, None)] else if n =? 11 then [(1, Some 0); (1, Some 1); (1, Some 2)] else []).
Definition q_run := run Qtrunc Qsingle q_size q_names q_enames.
Definition q_shows (cset : option (nat -> list (nat * option nat))) (st : res (heap Q * kd Q)) (a : karg) : res (list (cell Q)) :=
  match st with Ok (h, d) => shows q_size q_names cset h d a | Err e => Err e end.

Definition q_history : list (op Q) :=
  [OSet (KName 10) (UCell (CNum 7%Q)); OSet (KElem 1 2) (UCell (CNum (1 # 2)%Q)); OGet (KVar 1);
   OSet (KName 11) (UArr DF64 [CNum 3%Q; CNan; CNan]); OSet (KElem 1 1) (UCell (CFun 5)); OIn (KElem 1 1);
   OSet (KElem 1 0) (UCell (CNum (1 # 3)%Q)); OSet (KVar 0) (UCell (CNum 8%Q))].
Example C39_nonvacuous :
  Forall (proper q_size q_cset) q_history /\ Forall (fun o => ~ is_del o) q_history /\
  no_rounding Qtrunc Qsingle q_size q_cset q_history /\
  map (q_shows q_cset (q_run q_cset ([], kd_empty) q_history)) [KVar 0; KName 10; KVar 1; KName 11; KElem 1 1] =
  [Ok [CNum 8%Q]; Ok [CNum 8%Q]; Ok [CNum (1 # 3)%Q; CFun 5; CNum (1 # 2)%Q];
   Ok [CNum (1 # 3)%Q; CFun 5; CNum (1 # 2)%Q]; Ok [CFun 5]].
Proof.
  split; [|split; [|split; [|vm_compute; reflexivity]]].
  - repeat constructor; try (eexists; split; [reflexivity|lia]); try (eexists; reflexivity).
  - repeat constructor; simpl; tauto.
  - left. repeat constructor; simpl; auto.
Qed.

Lemma q_run_ok {ops : list (op Q)} {cset} : (exists st, q_run cset ([], kd_empty) ops = Ok st) ->
  exists h d, run Qtrunc Qsingle q_size q_names q_enames cset ([], kd_empty) ops = Ok (h, d).
Proof. intros [[h d] E]. eauto. Qed.

(** A vector set to one number holds it in single precision: 1/10 comes back as
    something else. *)
Theorem C39_filled_vector_refuted : ~ C39_for Qtrunc Qsingle (fun size cset ops => True).
Proof.
  intros C. set (ops := [OSet (KVar 1) (UCell (CNum (1 # 10)%Q))]).
  destruct (run Qtrunc Qsingle q_size q_names q_enames None ([], kd_empty) ops) as [[h d]|] eqn:E; [|vm_compute in E; discriminate].
  destruct (C q_size q_names q_enames None ops h d) as (_ & H & _); auto.
  - repeat constructor.
  - repeat constructor. simpl. auto.
  - specialize (H 1 3 eq_refl 0 ltac:(lia)). vm_compute in E. injection E as <- <-. vm_compute in H. destruct H as [H _]. discriminate.
Qed.
Print Assumptions C39_filled_vector_refuted.

(** Nothing but lists and elements is written, but the list is of integers: an
    element set to 1/2 afterwards becomes 0. *)
Definition no_fills (size : nat -> option nat) (cset : option (nat -> list (nat * option nat))) (ops : list (op Q)) : Prop :=
  forall a c, In (OSet a (UCell c)) ops -> match meant cset a with Some (k, None) => size k = None | _ => True end.
Theorem C39_integer_list_refuted : ~ C39_for Qtrunc Qsingle no_fills.
Proof.
  intros C. set (ops := [OSet (KVar 1) (UList DInt [CNum 1%Q; CNum 2%Q; CNum 3%Q]); OSet (KElem 1 0) (UCell (CNum (1 # 2)%Q))]).
  destruct (run Qtrunc Qsingle q_size q_names q_enames None ([], kd_empty) ops) as [[h d]|] eqn:E; [|vm_compute in E; discriminate].
  destruct (C q_size q_names q_enames None ops h d) as (_ & H & _); auto.
  - repeat constructor; simpl; try (exists 3; split; auto; lia); eauto.
  - repeat constructor; simpl; auto.
  - intros a c [[=]|[[= <- <-]|[]]]. exact I.
  - specialize (H 1 3 eq_refl 0 ltac:(lia)). vm_compute in E. injection E as <- <-. vm_compute in H. destruct H as [H _]. discriminate.
Qed.
Print Assumptions C39_integer_list_refuted.

(** Writes can raise: a vector with a linked function cannot be set to an array of
    numbers, nor can an integer array hold nan. *)
Theorem C39_writes_succeed_refuted :
  ~ (forall ops, Forall (proper q_size None) ops -> Forall (fun o : op Q => ~ is_del o) ops ->
     exists st, q_run None ([], kd_empty) ops = Ok st).
Proof.
  intros C. destruct (C [OSet (KElem 1 0) (UCell (CFun 5)); OSet (KVar 1) (UArr DF64 [CNum 1%Q; CNum 2%Q; CNum 3%Q])]) as [st E].
  - repeat constructor; simpl; try (exists 3; split; auto; lia); eauto.
  - repeat constructor; simpl; auto.
  - vm_compute in E. discriminate.
Qed.
Print Assumptions C39_writes_succeed_refuted.

(** ** C40: deleting *)

(** As C39, with deletions of the kind [ok]. *)
Definition C40_for {A} (trunc single : A -> A) (ok : karg -> Prop) : Prop :=
  forall size names enames cset ops h d,
  Forall (proper size cset) ops -> no_rounding trunc single size cset ops -> (forall a, In (ODel a) ops -> ok a) ->
  run trunc single size names enames cset ([], kd_empty) ops = Ok (h, d) ->
  shows_exactly size names cset h d (content cset ops).

(** Deleting scalars and whole vectors, by variable, any number of times between
    any reads and writes. Missing: deleting elements, where the claim is false,
    and deleting by name. *)
Theorem C40_delete_exact_partial : forall A (trunc single : A -> A), C40_for trunc single (fun a => exists k, a = KVar k).
Proof.
  intros A trunc single size names enames cset ops h d Hp Hr Hd E.
  destruct (inv_history trunc single size names enames cset ops h d Hp Hr) as (D & N & _ & I); auto.
  - apply List.Forall_forall. intros o Ho. destruct o; simpl; auto.
  - eapply inv_shows; eauto.
Qed.
Print Assumptions C40_delete_exact_partial.

Example C40_nonvacuous :
  let ops := [OSet (KVar 0) (UCell (CNum 7%Q)); OSet (KVar 1) (UList DF64 [CNum 1%Q; CNum (1 # 2)%Q; CNum 3%Q]); OGet (KName 10);
              ODel (KVar 1); OIn (KVar 0); OSet (KElem 1 2) (UCell (CNum 4%Q)); ODel (KVar 0)] in
  Forall (proper q_size None) ops /\ no_rounding Qtrunc Qsingle q_size None ops /\
  map (q_shows None (q_run None ([], kd_empty) ops)) [KVar 0; KVar 1; KElem 1 2] = [Err KeyErrorE; Ok [CNan; CNan; CNum 4%Q]; Ok [CNum 4%Q]].
Proof.
  split; [|split; [|vm_compute; reflexivity]].
  - repeat constructor; simpl; try (exists 3; split; auto; lia); eauto.
  - left. repeat constructor; simpl; auto.
Qed.

(** After [del kd[x[0]]] the other elements of [x] cannot be read. *)
Theorem C40_delete_element_refuted : ~ C40_for Qtrunc Qsingle (fun a => exists k i, a = KElem k i).
Proof.
  intros C. set (ops := [OSet (KVar 1) (UArr DF64 [CNum 1%Q; CNum 2%Q; CNum 3%Q]); ODel (KElem 1 0)]).
  destruct (run Qtrunc Qsingle q_size q_names q_enames None ([], kd_empty) ops) as [[h d]|] eqn:E; [|vm_compute in E; discriminate].
  destruct (C q_size q_names q_enames None ops h d) as (_ & H & _); auto.
  - repeat constructor; simpl; try (exists 3; split; auto; lia); eauto.
  - left. repeat constructor; simpl; auto.
  - intros a [[=]|[[= <-]|[]]]. eauto.
  - specialize (H 1 3 eq_refl 1 ltac:(lia)). vm_compute in E. injection E as <- <-. vm_compute in H. destruct H as [H _]. discriminate.
Qed.
Print Assumptions C40_delete_element_refuted.

(** After writing a scalar and deleting it, its name is still said to be there. *)
Theorem C40_name_stays_refuted :
  ~ (forall size names enames (ops : list (op Q)) h d nm,
     Forall (proper size None) ops ->
     run Qtrunc Qsingle size names enames None ([], kd_empty) ops = Ok (h, d) ->
     (forall k, In nm (names k) -> has names None h d (KVar k) = Ok false) ->
     has names None h d (KName nm) = Ok false).
Proof.
  intros C. set (ops := [OSet (KVar 0) (UCell (CNum 7%Q)); ODel (KVar 0)]).
  destruct (run Qtrunc Qsingle q_size q_names q_enames None ([], kd_empty) ops) as [[h d]|] eqn:E; [|vm_compute in E; discriminate].
  specialize (C q_size q_names q_enames ops h d 10). vm_compute in E. injection E as <- <-.
  assert (H : has q_names None ([] : heap Q) (KD [] [] [0] [0]) (KName 10) = Ok false).
  { apply C.
    - repeat constructor.
    - vm_compute. reflexivity.
    - intros k Hk. simpl in Hk. assert (k = 0) as -> by (destruct Hk as [Hk|[]]; lia). reflexivity. }
  vm_compute in H. discriminate.
Qed.
Print Assumptions C40_name_stays_refuted.

(** Deleting one variable makes the name it shares useless for another. *)
Theorem C40_shared_name_refuted :
  ~ (forall size names enames (ops : list (op Q)) h d nm k,
     Forall (proper size None) ops ->
     run Qtrunc Qsingle size names enames None ([], kd_empty) ops = Ok (h, d) ->
     (forall k', has names None h d (KVar k') = Ok true /\ In nm (names k') <-> k' = k) ->
     shows size names None h d (KName nm) = shows size names None h d (KVar k)).
Proof.
  intros C. set (ops := [OSet (KVar 0) (UCell (CNum 7%Q)); OSet (KVar 2) (UCell (CNum 9%Q)); ODel (KVar 0)]).
  set (nm2 := fun k : nat => if (k =? 0) || (k =? 2) then [10] else []).
  destruct (run Qtrunc Qsingle q_size nm2 q_enames None ([], kd_empty) ops) as [[h d]|] eqn:E; [|vm_compute in E; discriminate].
  specialize (C q_size nm2 q_enames ops h d 10 2). vm_compute in E. injection E as <- <-.
  match type of C with _ -> _ -> _ -> shows _ _ _ ?h ?d _ = _ =>
    assert (H : shows q_size nm2 None h d (KName 10) = shows q_size nm2 None h d (KVar 2)) end.
  { apply C.
    - repeat constructor.
    - vm_compute. reflexivity.
    - intros k. split.
      + intros [H1 H2]. unfold nm2 in H2. destruct (Nat.eqb_spec k 0); [subst; vm_compute in H1; discriminate|].
        destruct (Nat.eqb_spec k 2); auto. simpl in H2. destruct H2.
      + intros ->. split; [reflexivity|left; reflexivity]. }
  vm_compute in H. discriminate.
Qed.
Print Assumptions C40_shared_name_refuted.

(** *** Deleting by name *)

Lemma fold_named {A} names cset (ops : list (op A)) c k i :
  fold_left (after_named names cset) ops c k i =
  fold_left (fun acc o => match o with
    | ODel (KName n) => if existsb (Nat.eqb n) (names k) then None else acc
    | _ => match effect_on cset o k i with Keeps => acc | Puts x => Some x | Erases => None end
    end) ops (c k i).
Proof. revert c. induction ops as [|o ops IH]; intros c; simpl; auto. rewrite IH. destruct o as [a v|a|a|[| |]]; auto. Qed.

Lemma named_history {A} (trunc single : A -> A) size names enames cset ops h d :
  (forall k, List.NoDup (names k)) ->
  Forall (proper size cset) ops -> no_rounding trunc single size cset ops -> Forall named_dels ops ->
  run trunc single size names enames cset ([], kd_empty) ops = Ok (h, d) ->
  exists (D : dtype -> Prop) (N : A -> Prop), (D DF64 /\ D DObj /\ forall dt a, D dt -> N a -> cast trunc single dt (CNum a) = Ok (CNum a)) /\
    inv size D N nobodys [] (content_named names cset ops) h d /\ ninv names d /\ nonempty (d_keymap d).
Proof.
  intros Hnm Hp Hr Hw E.
  assert (G : forall (D : dtype -> Prop) (N : A -> Prop), D DF64 -> D DObj -> (forall dt a, D dt -> N a -> cast trunc single dt (CNum a) = Ok (CNum a)) ->
    Forall (fits size cset D N) ops -> exists (D : dtype -> Prop) (N : A -> Prop), (D DF64 /\ D DObj /\ forall dt a, D dt -> N a -> cast trunc single dt (CNum a) = Ok (CNum a)) /\
    inv size D N nobodys [] (content_named names cset ops) h d /\ ninv names d /\ nonempty (d_keymap d)).
  { intros D N H1 H2 H3 Hf. exists D, N. split; [auto|].
    destruct (run_named trunc single size names enames cset D N H1 H2 H3 nobodys [] Hnm ops (fun _ _ => None) [] kd_empty h d) as (I & Nv & Hne); auto.
    - apply inv_start. intros l Hl. exact Hl.
    - apply ninv_empty.
    - intros nm l Hl. discriminate Hl.
    - split; [|auto]. eapply inv_ext; [|exact I]. intros k i. rewrite fold_named. auto. }
  destruct Hr as [Hr|Hr].
  - apply (G doubles (fun _ => True)); [left; auto|right; auto|intros dt a Hd _; apply cast_doubles; auto|].
    eapply List.Forall_impl; [|exact Hr]. intros o. apply fits_unrounded.
  - apply (G (fun _ => True) (exactly trunc single)); auto; [intros dt a _ Ha; apply cast_exact; auto|].
    eapply List.Forall_impl; [|exact Hr]. intros o. apply fits_exact.
Qed.

(** [del kd["x"]] deletes every variable named x and no other, whatever was read, written and deleted so before; a name that then only one
    variable has reads it, and one that none has is not there. It raises if, and only if, no variable there has the name.
    Missing: histories with other deletions, where names go wrong (above). *)
Theorem C40_delete_names_partial : forall A (trunc single : A -> A) size names enames cset (ops : list (op A)) h d,
  (forall k, List.NoDup (names k)) ->
  Forall (proper size cset) ops -> no_rounding trunc single size cset ops -> (forall a, In (ODel a) ops -> exists n, a = KName n) ->
  run trunc single size names enames cset ([], kd_empty) ops = Ok (h, d) ->
  shows_exactly size names cset h d (content_named names cset ops) /\
  (forall nm, (exists st, delitem trunc single names enames h d (KName nm) = Ok st) <-> exists k, has names cset h d (KVar k) = Ok true /\ In nm (names k)) /\
  (forall nm, delitem trunc single names enames h d (KName nm) = Err KeyErrorE <-> forall k, In nm (names k) -> has names cset h d (KVar k) = Ok false) /\
  (cset = None -> forall nm,
     ((forall k, In nm (names k) -> has names cset h d (KVar k) = Ok false) -> has names cset h d (KName nm) = Ok false) /\
     (forall k, (forall k', has names cset h d (KVar k') = Ok true /\ In nm (names k') <-> k' = k) ->
        shows size names cset h d (KName nm) = shows size names cset h d (KVar k))).
Proof.
  intros A trunc single size names enames cset ops h d Hnm Hp Hr Hd E.
  destruct (named_history trunc single size names enames cset ops h d Hnm Hp Hr) as (D & N & (_ & _ & Hc) & I & Nv & Hne); auto.
  { apply List.Forall_forall. intros [a v|a|a|a] Ho; simpl; auto. }
  assert (Hhas : forall k, has names cset h d (KVar k) = Ok (dmem (d_items d) k)).
  { intros k. unfold has, contains, has_entry. simpl. pose proof (i_map _ _ _ _ _ _ _ _ I k) as Hm. unfold maps in Hm. unfold dmem in *. rewrite Hm.
    destruct (dget (d_items d) k); auto. }
  split; [eapply inv_shows; eauto|]. split; [|split].
  - intros nm. destruct (del_name trunc single size names enames cset D N nobodys [] Hnm _ h d nm I Nv Hne) as [G1 G2]. split.
    + intros (st & Est). destruct (named size names enames D N nobodys [] _ h d nm I Nv) as [_ Hin].
      unfold delitem in Est. destruct (kget (d_keymap (update_keymap names d)) (MN nm)) as [|k ks]; [discriminate|].
      destruct (proj1 (Hin k) (or_introl eq_refl)) as [H1 H2]. exists k. rewrite Hhas, H1. auto.
    + intros (k & H1 & H2). rewrite Hhas in H1. destruct G1 as (d' & Ed & _); [exists k; split; [congruence|auto]|eauto].
  - intros nm. destruct (del_name trunc single size names enames cset D N nobodys [] Hnm _ h d nm I Nv Hne) as [G1 G2]. split.
    + intros Est k Hk. rewrite Hhas. destruct (dmem (d_items d) k) eqn:Ek; auto.
      destruct G1 as (d' & Ed & _); [eauto|congruence].
    + intros H. apply G2. intros k Hk. specialize (H k Hk). rewrite Hhas in H. congruence.
  - intros -> nm. split.
    + intros H. destruct (named size names enames D N nobodys [] _ h d nm I Nv) as [_ Hin].
      pose proof (nonempty_keymap names d Hne nm) as Hnn. unfold has, contains, has_entry. simpl. unfold dmem.
      destruct (kget (d_keymap (update_keymap names d)) (MN nm)) as [|k ks] eqn:Ek.
      * unfold kget in Ek. simpl in Ek, Hnn. match goal with |- context[match ?x with _ => _ end] => destruct x as [l|] eqn:El end; auto.
        subst l. destruct (Hnn [] eq_refl eq_refl).
      * destruct (proj1 (Hin k) (or_introl eq_refl)) as [H1 H2]. specialize (H k H2). rewrite Hhas in H. congruence.
    + intros k Hk. apply (name_alone size names enames None nobodys); auto.
      * apply (i_map _ _ _ _ _ _ _ _ I).
      * intros k'. rewrite <- Hk, Hhas. split; intros [H1 H2]; split; auto; congruence.
Qed.
Print Assumptions C40_delete_names_partial.

(** Three variables, of which 0 and 2 have the name 10, and 2 and the vector 1 the name 20. *)
Definition n_names (k : nat) : list nat := if k =? 0 then [10] else if k =? 2 then [10; 20] else if k =? 1 then [20] else [].
Example C40_names_nonvacuous :
  let ops := [OSet (KVar 0) (UCell (CNum 7%Q)); OSet (KVar 1) (UList DF64 [CNum 1%Q; CNum (1 # 2)%Q; CNum 3%Q]); OGet (KName 10);
              OSet (KVar 2) (UCell (CNum 9%Q)); ODel (KName 10)] in
  Forall (proper q_size None) ops /\ no_rounding Qtrunc Qsingle q_size None ops /\
  let st := run Qtrunc Qsingle q_size n_names q_enames None ([], kd_empty) ops in
  map (fun a => rbind st (fun s => shows q_size n_names None (fst s) (snd s) a)) [KVar 0; KVar 1; KVar 2; KName 10; KName 20] =
    [Err KeyErrorE; Ok [CNum 1%Q; CNum (1 # 2)%Q; CNum 3%Q]; Err KeyErrorE; Err KeyErrorE; Ok [CNum 1%Q; CNum (1 # 2)%Q; CNum 3%Q]].
Proof.
  split; [|split; [|vm_compute; reflexivity]].
  - repeat constructor; simpl; try (exists 3; split; auto; lia); eauto.
  - left. repeat constructor; simpl; auto.
Qed.

(** Deleting the only element of a vector that has a value, when it does not raise, deletes the vector and nothing else. Missing: vectors with
    other values, where the claim is false (above); it raises when others have the element's names. *)
Theorem C40_delete_only_element_partial : forall A (trunc single : A -> A) size names enames cset (ops : list (op A)) h d k i n h' d',
  Forall (proper size cset) ops -> no_rounding trunc single size cset ops -> (forall a, In (ODel a) ops -> exists k, a = KVar k) ->
  run trunc single size names enames cset ([], kd_empty) ops = Ok (h, d) ->
  size k = Some n -> i < n -> (forall j, j < n -> j <> i -> cell_or_nan (content cset ops k (Some j)) = CNan) ->
  delitem trunc single names enames h d (KElem k i) = Ok (h', d') ->
  shows_exactly size names cset h' d' (fun k' j => if k' =? k then None else content cset ops k' j) /\
  has names cset h' d' (KVar k) = Ok false /\ shows size names cset h' d' (KVar k) = Err KeyErrorE.
Proof.
  intros A trunc single size names enames cset ops h d k i n h' d' Hp Hr Hd E Hs Hi Ho Ed.
  destruct (inv_history trunc single size names enames cset ops h d Hp Hr) as (D & N & (H64 & Hob & Hc) & I); auto.
  { apply List.Forall_forall. intros o Hin. destruct o; simpl; auto. }
  simpl in Ed. destruct (del_only_element trunc single size enames D N Hc nobodys [] _ h d k i n h' d' (fun l H => H) I Hs Hi Ho Ed) as [I' Hk].
  split; [eapply inv_shows; eauto|].
  pose proof (i_map _ _ _ _ _ _ _ _ I' k) as Hm. unfold maps, dmem in Hm. rewrite Hk in Hm. split.
  - unfold has, contains, has_entry. simpl. unfold dmem. rewrite Hk, Hm. auto.
  - unfold shows, getitem. simpl. unfold kget. rewrite Hm. auto.
Qed.
Print Assumptions C40_delete_only_element_partial.
Example C40_only_element_nonvacuous :
  let ops := [OSet (KVar 0) (UCell (CNum 7%Q)); OSet (KElem 1 2) (UCell (CNum 4%Q))] in
  Forall (proper q_size None) ops /\ no_rounding Qtrunc Qsingle q_size None ops /\
  map (fun j => cell_or_nan (content None ops 1 (Some j))) [0; 1; 2] = [CNan; CNan; CNum 4%Q] /\
  map (q_shows None (q_run None ([], kd_empty) (ops ++ [ODel (KElem 1 2)]))) [KVar 0; KVar 1] = [Ok [CNum 7%Q]; Err KeyErrorE].
Proof.
  split; [|split; [|split; [reflexivity|vm_compute; reflexivity]]].
  - repeat constructor; simpl; try (exists 3; split; auto; lia); eauto.
  - left. repeat constructor; simpl; auto.
Qed.

(** ** C41: copies *)

(** [e] is a copy of [d]. After any history of operations of the kind [ok] on one
    of them, the copy if [on_copy], the other one shows what it did, and the one
    changed shows what both histories put there. *)
Definition C41_for {A} (trunc single : A -> A) (on_copy : bool) (ok : op A -> Prop) : Prop :=
  forall size names enames cset ops0 ops1 h d e h' x,
  Forall (proper size cset) ops0 -> Forall (fun o => ~ is_del o) ops0 ->
  Forall (proper size cset) ops1 -> Forall ok ops1 -> no_rounding trunc single size cset (ops0 ++ ops1) ->
  run trunc single size names enames cset ([], kd_empty) ops0 = Ok (h, d) ->
  kd_update trunc single size names cset h kd_empty d = Ok (h, e) ->
  run trunc single size names enames cset (h, if on_copy then e else d) ops1 = Ok (h', x) ->
  shows_exactly size names cset h' (if on_copy then d else e) (content cset ops0) /\
  shows_exactly size names cset h' x (content cset (ops0 ++ ops1)).

Lemma dict_copy {K V : Type} `{EqDecision K} (l : list (K * V)) : NoDup (dkeys l) -> dict_of l = l.
Proof.
  assert (G : forall l acc : list (K * V), NoDup (dkeys (acc ++ l)) -> fold_left (fun d kv => dset d (fst kv) (snd kv)) l acc = acc ++ l).
  { clear l. induction l as [|[k v] l IH]; intros acc Hn; simpl; [rewrite app_nil_r; auto|].
    assert (Hk : ~ In k (dkeys acc)).
    { unfold dkeys in *. rewrite map_app in Hn. simpl in Hn. apply NoDup_app in Hn as (_ & H & _). intros Hin.
      apply (H k); [apply elem_of_list_In; auto|]. left. }
    rewrite dset_absent; auto. rewrite IH; rewrite <- app_assoc; auto. }
  intros Hn. apply (G l []). auto.
Qed.

(** Reads, writes and deletions of whole keys on the copy do not change the
    original. Missing: the other direction, and deletions of elements, both
    false. *)
Theorem C41_copy_leaves_original_partial : forall A (trunc single : A -> A), C41_for trunc single true whole.
Proof.
  intros A trunc single size names enames cset ops0 ops1 h d e h' x Hp0 Hd0 Hp1 Hw Hr E0 Ee E1.
  assert (Hr0 : no_rounding trunc single size cset ops0).
  { destruct Hr as [Hr|Hr]; [left|right]; apply Forall_app in Hr; tauto. }
  assert (G : exists (D : dtype -> Prop) (N : A -> Prop), (D DF64 /\ D DObj /\ forall dt a, D dt -> N a -> cast trunc single dt (CNum a) = Ok (CNum a)) /\
    inv size D N nobodys [] (content cset ops0) h d /\ Forall (fits size cset D N) ops1).
  { destruct Hr as [Hr|Hr]; apply Forall_app in Hr as [Hra Hrb].
    - destruct (inv_history trunc single size names enames cset ops0 h d Hp0 (or_introl Hra) (whole_no_del ops0 Hd0) E0) as (D & N & H & I).
      exists doubles, (fun _ => True). split; [split; [left; auto|split; [right; auto|]]|].
      + intros dt a Hdt _. apply cast_doubles. auto.
      + split; [|eapply List.Forall_impl; [|exact Hrb]; intros o; apply fits_unrounded].
        eapply inv_ext; [intros k i; apply fold_content|].
        eapply (run_inv trunc single size names enames cset doubles (fun _ => True)); try exact E0; auto.
        * left. auto.
        * right. auto.
        * intros dt a Hdt _. apply cast_doubles. auto.
        * apply inv_start. intros l Hl. exact Hl.
        * eapply List.Forall_impl; [|exact Hra]. intros o. apply fits_unrounded.
        * apply whole_no_del. auto.
    - exists (fun _ => True), (exactly trunc single). split; [split; [auto|split; [auto|]]|].
      + intros dt a _ Ha. apply cast_exact. auto.
      + split; [|eapply List.Forall_impl; [|exact Hrb]; intros o; apply fits_exact].
        eapply inv_ext; [intros k i; apply fold_content|].
        eapply (run_inv trunc single size names enames cset (fun _ => True) (exactly trunc single)); try exact E0; auto.
        * intros dt a _ Ha. apply cast_exact. auto.
        * apply inv_start. intros l Hl. exact Hl.
        * eapply List.Forall_impl; [|exact Hra]. intros o. apply fits_exact.
        * apply whole_no_del. auto. }
  destruct G as (D & N & (H64 & Hobj & Hcast) & I & Hf).
  set (P := fun l => exists k, dget (d_items d) k = Some (Ar l)).
  simpl in Ee. injection Ee as <-. fold (dict_of (d_keymap d)) in E1. rewrite dict_copy in E1 by apply (i_km _ _ _ _ _ _ _ _ I).
  assert (I' : inv size D N P h (content cset ops0)
     h (KD (d_items d) (d_keymap d) (fold_left sadd (d_unmapped d) []) [])).
  { pose proof (i_valid _ _ _ _ _ _ _ _ I) as Hval. destruct I. constructor; auto.
    split; [|intros k l _ []]. intros l (k & Hk). split; [auto|]. eapply Hval; eauto. }
  pose proof (run_inv trunc single size names enames cset D N H64 Hobj Hcast P h ops1 _ _ _ _ _ I' Hp1 Hf Hw E1) as I2.
  split.
  - assert (I3 : inv size D N nobodys [] (content cset ops0) h' d).
    { destruct (i_apart _ _ _ _ _ _ _ _ I2) as [Hsame _]. pose proof (i_valid _ _ _ _ _ _ _ _ I) as Hval. destruct I. constructor; auto.
      - intros k. eapply slot_ok_heap; [|apply i_slot]. intros l El. apply Hsame. exists k. auto.
      - intros k l El. apply Hsame. exists k. auto.
      - split; [intros l []|intros k l _ _ []]. }
    eapply inv_shows; eauto.
  - eapply inv_shows. eapply inv_ext; [|exact I2]. intros k i. rewrite fold_after. unfold content. rewrite fold_left_app. auto.
Qed.
Print Assumptions C41_copy_leaves_original_partial.

Definition q_ops0 : list (op Q) := [OSet (KVar 1) (UArr DF64 [CNum 1%Q; CNum 2%Q; CNum 3%Q])].
Definition q_copied (on_copy : bool) (ops1 : list (op Q)) : res (heap Q * kd Q * kd Q) :=
  match q_run None ([], kd_empty) q_ops0 with
  | Ok (h, d) =>
      match kd_update Qtrunc Qsingle q_size q_names None h kd_empty d with
      | Ok (h1, e) =>
          match q_run None (h1, if on_copy then e else d) ops1 with
          | Ok (h2, x) => Ok (h2, if on_copy then d else e, x)
          | Err e => Err e
          end
      | Err e => Err e
      end
  | Err e => Err e
  end.
Example C41_nonvacuous :
  let ops1 := [OSet (KElem 1 0) (UCell (CNum 9%Q)); OGet (KVar 1); ODel (KVar 1); OSet (KElem 1 2) (UCell (CNum 8%Q))] in
  match q_copied true ops1 with
  | Ok (h, d, x) => map (q_shows None (Ok (h, d))) [KVar 1; KElem 1 0] = [Ok [CNum 1%Q; CNum 2%Q; CNum 3%Q]; Ok [CNum 1%Q]] /\
                    q_shows None (Ok (h, x)) (KVar 1) = Ok [CNan; CNan; CNum 8%Q]
  | Err _ => False
  end.
Proof. vm_compute. split; reflexivity. Qed.

Lemma refute_copy (on_copy : bool) (ok : op Q -> Prop) ops1 h d e h' x i y :
  Forall (proper q_size None) ops1 -> Forall ok ops1 -> Forall (unrounded q_size None) ops1 ->
  run Qtrunc Qsingle q_size q_names q_enames None ([], kd_empty) q_ops0 = Ok (h, d) ->
  kd_update Qtrunc Qsingle q_size q_names None h kd_empty d = Ok (h, e) ->
  run Qtrunc Qsingle q_size q_names q_enames None (h, if on_copy then e else d) ops1 = Ok (h', x) ->
  i < 3 -> content None q_ops0 1 (Some i) = Some y ->
  shows q_size q_names None h' (if on_copy then d else e) (KElem 1 i) <> Ok [y] -> ~ C41_for Qtrunc Qsingle on_copy ok.
Proof.
  intros H1 H2 H3 E0 Ee E1 Hi Hy Hne C.
  destruct (C q_size q_names q_enames None q_ops0 ops1 h d e h' x) as [(_ & H & _) _]; auto.
  - repeat constructor.
  - repeat constructor. simpl. auto.
  - left. apply Forall_app. split; auto. repeat constructor.
  - specialize (H 1 3 eq_refl i Hi). rewrite Hy in H. tauto.
Qed.

(** Setting an element in the original changes the copy. *)
Theorem C41_original_changes_copy_refuted :
  ~ C41_for Qtrunc Qsingle false (fun o => exists k i c, o = OSet (KElem k i) (UCell c)).
Proof.
  eapply (refute_copy false _ [OSet (KElem 1 0) (UCell (CNum 9%Q))] _ _ _ _ _ 0 (CNum 1%Q)); try (vm_compute; reflexivity).
  - repeat constructor; simpl; try (exists 3; split; auto; lia); eauto.
  - repeat constructor. eauto.
  - repeat constructor.
  - lia.
  - vm_compute. discriminate.
Qed.
Print Assumptions C41_original_changes_copy_refuted.

(** Deleting an element in the copy deletes it in the original. *)
Theorem C41_deleted_element_refuted :
  ~ C41_for Qtrunc Qsingle true (fun o => exists k i, o = ODel (KElem k i)).
Proof.
  eapply (refute_copy true _ [ODel (KElem 1 0)] _ _ _ _ _ 0 (CNum 1%Q)); try (vm_compute; reflexivity).
  - repeat constructor; simpl; try (exists 3; split; auto; lia); eauto.
  - repeat constructor. eauto.
  - repeat constructor.
  - lia.
  - vm_compute. discriminate.
Qed.
Print Assumptions C41_deleted_element_refuted.

(** [update] of a dictionary that is not empty shares the arrays both ways, as in
    [ConstraintSet._update]. *)
Theorem C41_merged_refuted :
  ~ (forall size names enames opsS ops0 ops1 hS s h d h1 e h' x,
     Forall (proper size None) (opsS ++ ops0 ++ ops1) -> Forall (fun o : op Q => ~ is_del o) (opsS ++ ops0 ++ ops1) ->
     no_rounding Qtrunc Qsingle size None (opsS ++ ops0 ++ ops1) ->
     run Qtrunc Qsingle size names enames None ([], kd_empty) opsS = Ok (hS, s) ->
     run Qtrunc Qsingle size names enames None (hS, kd_empty) ops0 = Ok (h, d) ->
     kd_update Qtrunc Qsingle size names None h s d = Ok (h1, e) ->
     run Qtrunc Qsingle size names enames None (h1, e) ops1 = Ok (h', x) ->
     shows_exactly size names None h' d (content None ops0)).
Proof.
  intros C.
  set (opsS := [OSet (KVar 0) (UCell (CNum 7%Q))]). set (ops1 := [OSet (KElem 1 0) (UCell (CNum 9%Q))]).
  specialize (C q_size q_names q_enames opsS q_ops0 ops1).
  assert (H : shows_exactly q_size q_names None [AR DF64 [CNum 9%Q; CNum 2%Q; CNum 3%Q]]
     (KD [(1, Ar 0)] [(MV 1, [1])] [1] [1]) (content None q_ops0)).
  { eapply C.
    - repeat constructor; simpl; try (exists 3; split; auto; lia); eauto.
    - repeat constructor; simpl; auto.
    - left. repeat constructor; simpl; auto.
    - vm_compute. reflexivity.
    - vm_compute. reflexivity.
    - vm_compute. reflexivity.
    - vm_compute. reflexivity. }
  destruct H as (_ & H & _). specialize (H 1 3 eq_refl 0 ltac:(lia)). vm_compute in H. destruct H as [H _]. discriminate.
Qed.
Print Assumptions C41_merged_refuted.
