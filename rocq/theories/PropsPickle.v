(** C108: variables that are saved and read back. *)
From Coq Require Import Strings.String QArith.
From Verif Require Import Base Globals Lookup VarKeyProofs Pickle.
Local Open Scope list_scope.
Open Scope nat_scope.

Section T.
Context {T : Type}.
(** Variables are made by [init], those of elements with the vector's. *)
Inductive made : varkey T -> Prop :=
| made_init count name lin idx units os w : (forall v, w = Some v -> made v) -> made (fst (init count name lin idx units os w)).
(** No sweep is by a function without a name in a module. *)
Fixpoint saveable (in_module : nat -> bool) (v : varkey T) : Prop :=
  let 'VarKey _ os w := v in
  (forall k l f, In (k, DSweepFun l f) os -> in_module f = true) /\ match w with Some w => saveable in_module w | None => True end.

Lemma made_name v : made v -> vk_name (vid v) <> EmptyString.
Proof. intros [count name lin idx units os w _]. unfold init. destruct (string_dec name ""); simpl; [unfold fbox; simpl; discriminate|auto]. Qed.
Lemma made_units v : made v -> unitrepr (vid v) = vk_units (vid v).
Proof.
  intros [count name lin idx units os w _]. unfold init. destruct (string_dec name ""); simpl; unfold unitrepr; simpl;
    destruct (bool_decide (units ∈ _)) eqn:E; try rewrite E; auto.
Qed.
Lemma made_vec (v : varkey T) w : made v -> vec v = Some w -> made w.
Proof. intros [count name lin idx units os w' Hw]. unfold init. destruct (string_dec name ""); simpl; intros ->; auto. Qed.
Lemma init_again count v (os : list (string * dval T)) w : made v ->
  init count (vk_name (vid v)) (vk_lineage (vid v)) (vk_idx (vid v)) (vk_units (vid v)) os w = (VarKey (vid v) os w, count).
Proof.
  intros Hm. unfold init. destruct (string_dec _ ""); [exfalso; apply (made_name v Hm); auto|]. do 2 f_equal.
  assert (U := made_units v Hm). destruct (vid v) as [nm l i u]. simpl in *. congruence.
Qed.

Section Fun.
Variable show_fun : nat -> string.
Variable in_module : nat -> bool.
Lemma pickled_all_ok os : (forall k l f, In (k, DSweepFun l f) os -> in_module f = true) -> exists os', pickled_all in_module (@getstate T show_fun os) = Ok os'.
Proof.
  induction os as [|[k d] os IH]; intros Hs; [eexists; reflexivity|]. destruct IH as (os' & E); [intros k' l f Hin; apply (Hs k' l f); right; auto|].
  unfold getstate in *. cbn [map pickled_all]. rewrite E. destruct d; simpl; eauto. rewrite (Hs k literal f (or_introl eq_refl)). simpl. eauto.
Qed.
Fixpoint same_vid (v v' : varkey T) : Prop :=
  vid v' = vid v /\ match v, v' with
                    | VarKey _ _ None, VarKey _ _ None => True
                    | VarKey _ _ (Some w), VarKey _ _ (Some w') => same_vid w w'
                    | _, _ => False
                    end.
Lemma read_back_spec : forall v count v' c', made v -> read_back show_fun in_module count v = Ok (v', c') ->
  c' = count /\ same_vid v v' /\ pickled_all in_module (getstate show_fun (others v)) = Ok (others v').
Proof.
  fix IH 1. intros [i os w] count v' c' Hm Hr. cbn [read_back] in Hr. destruct (pickled_all in_module (getstate show_fun os)) as [os'|] eqn:Eo; [|discriminate].
  cbn [rbind] in Hr. destruct w as [w|].
  - assert (Hw : made w) by (apply (made_vec _ w Hm); reflexivity). destruct (read_back show_fun in_module count w) as [[w' c]|] eqn:Ew; [|discriminate].
    cbn [rbind] in Hr. apply IH in Ew as (-> & Hv & _); auto. injection Hr as Hr.
    change i with (vid (VarKey i os (Some w))) in Hr. rewrite (init_again count _ os' (Some w') Hm) in Hr. injection Hr as <- <-. repeat split; auto.
  - cbn [rbind] in Hr. injection Hr as Hr. change i with (vid (VarKey i os None)) in Hr. rewrite (init_again count _ os' None Hm) in Hr. injection Hr as <- <-. repeat split; auto.
Qed.
Lemma read_back_ok : forall v count, saveable in_module v -> exists r, read_back show_fun in_module count v = Ok r.
Proof.
  fix IH 1. intros [i os w] count [Hs Hw]. cbn [read_back]. destruct (pickled_all_ok os Hs) as (os' & ->). cbn [rbind]. destruct w as [w|].
  - destruct (IH w count Hw) as ([w' c] & ->). cbn [rbind]. eauto.
  - cbn [rbind]. eauto.
Qed.
End Fun.
End T.

(** What is read back equals what was saved, in any process, has the same hash as it would have there, the same names and texts, and belongs
    to the same vector. *)
Theorem C108_same : forall T show_fun in_module (v : varkey T) count v' count', made v -> read_back show_fun in_module count v = Ok (v', count') ->
  vk_eq (vid v) (vid v') = true /\ (forall H (hash : string -> H), vk_hash hash (vid v') = vk_hash hash (vid v)) /\
  keys_of v' = keys_of v /\ full_name (vid v') = full_name (vid v) /\ sort_name (vid v') = sort_name (vid v) /\
  option_map vid (veckey_of v') = option_map vid (veckey_of v) /\ count' = count.
Proof.
  intros T show_fun in_module v count v' count' Hm Hr. destruct (read_back_spec show_fun in_module v count v' count' Hm Hr) as (Hc & Hv & _).
  destruct v as [i os w], v' as [i' os' w']. destruct Hv as [E Hw]. simpl in E. subst i'. split; [unfold vk_eq; destruct (string_dec _ _); auto|]. split; [reflexivity|].
  split; [|split; [reflexivity|split; [reflexivity|split; [|auto]]]].
  - unfold keys_of. simpl. destruct w as [w|], w' as [w'|]; try contradiction; auto. destruct (vk_idx i); auto.
    assert (vid w' = vid w) as -> by (destruct w, w', Hw; auto). auto.
  - unfold veckey_of. simpl. destruct w as [w|], w' as [w'|]; try contradiction; [|destruct (vk_idx i); auto].
    simpl. f_equal. destruct w, w', Hw; auto.
Qed.
Print Assumptions C108_same.

(** *** Saving *)
Definition C108_saves_for (cond : forall T, (nat -> bool) -> varkey T -> Prop) : Prop :=
  forall T show_fun in_module (v : varkey T) count, made v -> cond T in_module v -> exists r, read_back show_fun in_module count v = Ok r.
Theorem C108_saves_partial : C108_saves_for (@saveable).
Proof. intros T show_fun in_module v count _ Hs. apply read_back_ok; auto. Qed.
Print Assumptions C108_saves_partial.

(** *** Values *)
Definition C108_value_for (cond : forall T, dval T -> Prop) : Prop :=
  forall T show_fun in_module (v : varkey T) count v' count' d, made v -> read_back show_fun in_module count v = Ok (v', count') ->
    dget (others v) "value"%string = Some d -> cond T d ->
    exists d', dget (others v') "value"%string = Some d' /\ use_of d' = use_of d.
Definition number_or_text T (d : dval T) : Prop := match d with DNum _ | DText _ => True | _ => False end.
Lemma pickled_get {T} show_fun in_module (os os' : list (string * dval T)) k d : pickled_all in_module (getstate show_fun os) = Ok os' ->
  dget os k = Some d -> number_or_text T d -> dget os' k = Some d.
Proof.
  revert os'. induction os as [|[j e] os IH]; intros os' Hp Hg Hn; [discriminate|]. unfold getstate in *. cbn [map pickled_all] in Hp.
  match type of Hp with context [pickled in_module ?x] => destruct (pickled in_module x) as [e'|] eqn:Ee; [|discriminate] end. cbn [rbind] in Hp.
  destruct (pickled_all in_module (map _ os)) as [r|] eqn:Er; [|discriminate]. cbn [rbind] in Hp. injection Hp as <-. cbn [dget] in *.
  destruct (decide (k = j)).
  - injection Hg as ->. destruct d; try contradiction; simpl in Ee; congruence.
  - apply IH; auto.
Qed.
Theorem C108_value_partial : C108_value_for number_or_text.
Proof.
  intros T show_fun in_module v count v' count' d Hm Hr Hg Hn. destruct (read_back_spec show_fun in_module v count v' count' Hm Hr) as (_ & _ & Hp).
  exists d. split; auto. eapply pickled_get; eauto.
Qed.
Print Assumptions C108_value_partial.

Definition x_with (d : dval Q) : varkey Q := fst (init 0 "x" None None "m" [("value"%string, d); ("label"%string, DText "a length")] None).
Lemma x_made d : made (x_with d).
Proof. apply made_init. discriminate. Qed.
(** The word of a sweep is another object when it is read back. *)
Theorem C108_sweeps_refuted : ~ C108_value_for (fun T d => match d with DNum _ | DText _ | DSweep true _ => True | _ => False end).
Proof.
  intros Hc. destruct (Hc Q (fun _ => ""%string) (fun _ => true) (x_with (DSweep true [1; 2]%Q)) 0 _ _ _ (x_made _) eq_refl eq_refl I) as (d' & Hd & Hu).
  injection Hd as <-. discriminate.
Qed.
Print Assumptions C108_sweeps_refuted.
(** Functions are replaced by texts, those in modules too. *)
Theorem C108_functions_refuted : ~ C108_value_for (fun T d => match d with DNum _ | DText _ | DFun _ => True | _ => False end).
Proof.
  intros Hc. destruct (Hc Q (fun _ => "f"%string) (fun _ => true) (x_with (DFun 3)) 0 _ _ _ (x_made _) eq_refl eq_refl I) as (d' & Hd & Hu).
  injection Hd as <-. discriminate.
Qed.
Print Assumptions C108_functions_refuted.
(** A variable that is swept over the values of a lambda cannot be saved, although one whose value is a lambda can. *)
Theorem C108_saves_refuted : ~ C108_saves_for (fun _ _ _ => True).
Proof.
  intros Hs. destruct (Hs Q (fun _ => "f"%string) (fun _ => false) (x_with (DSweepFun true 3)) 0 (x_made _) I) as (r & Hr). discriminate.
Qed.
Print Assumptions C108_saves_refuted.

(** *** Variables without names *)
(** One that was made when the counter of its process was [c0] and is read back in a process whose counter is [c] differs from one made there
    next. *)
Definition C108_unnamed_for (processes : nat -> nat -> Prop) : Prop :=
  forall T show_fun in_module c0 c lin idx units (os : list (string * dval T)) v' c',
    processes c0 c -> read_back show_fun in_module c (fst (init c0 "" lin idx units os None)) = Ok (v', c') ->
    vk_eq (vid v') (vid (fst (init c' "" lin idx units os None))) = false.
Lemma append_cons x (a b : string) : (String x a ++ b = String x (a ++ b))%string.
Proof. reflexivity. Qed.
Lemma append_assoc (a b c : string) : ((a ++ b) ++ c = a ++ (b ++ c))%string.
Proof. induction a as [|x a IH]; [reflexivity|]. rewrite !append_cons. f_equal. exact IH. Qed.
Lemma append_left (a b c : string) : (a ++ b = a ++ c)%string -> b = c.
Proof. induction a as [|x a IH]; [auto|]. rewrite !append_cons. intros E. injection E as E. auto. Qed.
Lemma append_length (a b : string) : String.length (a ++ b) = String.length a + String.length b.
Proof. induction a as [|x a IH]; [reflexivity|]. rewrite append_cons. cbn [String.length]. rewrite IH. auto. Qed.
Lemma append_right (a b c : string) : (a ++ c = b ++ c)%string -> a = b.
Proof.
  revert b. induction a as [|x a IH]; intros [|y b]; rewrite ?append_cons; intros E; auto.
  - exfalso. apply (f_equal String.length) in E. cbn [String.length] in E. rewrite !append_length in E. cbn [String.length] in E. lia.
  - exfalso. apply (f_equal String.length) in E. cbn [String.length] in E. rewrite !append_length in E. cbn [String.length] in E. lia.
  - injection E as -> E. f_equal. auto.
Qed.
Lemma eqstr_name n m lin idx units u' : eqstr (VKey n lin idx units) = eqstr (VKey m lin idx u') -> unitrepr (VKey n lin idx units) = unitrepr (VKey m lin idx u') -> n = m.
Proof.
  unfold eqstr. simpl. intros E U. rewrite U in E. rewrite <- !append_assoc in E. apply append_right, append_right in E. revert E. unfold full_name. simpl.
  destruct lin as [[|p l]|]; destruct idx as [[|i idx]|]; simpl; rewrite <- ?append_assoc; intros E; repeat (apply append_right in E); auto;
    rewrite ?append_assoc in E; repeat (apply append_left in E); auto; try (apply append_right in E; auto).
Qed.
Theorem C108_unnamed_partial : C108_unnamed_for (fun c0 c => c0 < c).
Proof.
  intros T show_fun in_module c0 c lin idx units os v' c' Hc Hr.
  assert (Hm : made (fst (init c0 "" lin idx units os None))) by (apply made_init; discriminate).
  destruct (read_back_spec show_fun in_module _ c v' c' Hm Hr) as (-> & Hv & _). assert (Ev : vid v' = vid (fst (init c0 "" lin idx units os None))) by (destruct v'; apply Hv).
  rewrite Ev. unfold vk_eq. destruct (string_dec _ _) as [E|]; auto. exfalso. simpl in E. apply eqstr_name in E; [|reflexivity].
  unfold fbox in E. apply append_left, append_right, show_nat_inj in E. lia.
Qed.
Print Assumptions C108_unnamed_partial.
(** In another process the numbers start again. *)
Theorem C108_unnamed_refuted : ~ C108_unnamed_for (fun _ _ => True).
Proof. intros Hu. specialize (Hu Q (fun _ => ""%string) (fun _ => true) 0 0 None None ""%string [] _ _ I eq_refl). discriminate. Qed.
Print Assumptions C108_unnamed_refuted.

(** *** Cases *)
(** An element of a vector of a model *)
Definition ex_vector : varkey Q := fst (init 0 "y" (Some [("A"%string, 1)]) None "m" [("shape"%string, DNum 3%Q)] None).
Definition ex_element : varkey Q := fst (init 0 "y" (Some [("A"%string, 1)]) (Some [2]) "m" [("shape"%string, DNum 3%Q); ("value"%string, DNum 5%Q)] (Some ex_vector)).
Example C108_nonvacuous : made ex_element /\ saveable (fun _ => false) ex_element /\
  read_back (fun _ => ""%string) (fun _ => false) 7 ex_element = Ok (ex_element, 7) /\
  keys_of ex_element = (["y"; "A.y[2]"; "A.y"]%string, Some (vid ex_vector)) /\ dget (others ex_element) "value"%string = Some (DNum 5%Q).
Proof.
  split; [apply made_init; intros v [= <-]; apply made_init; discriminate|]. split; [|split; [reflexivity|split; reflexivity]].
  split; [intros k l f [E|[E|[]]]; discriminate|]. split; auto. intros k l f [E|[]]; discriminate.
Qed.
