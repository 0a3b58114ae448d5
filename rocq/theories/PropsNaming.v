(** C90: how the variables of a printed set of constraints are named. *)
From Verif Require Import Base Globals Lookup Naming VarKeyProofs PropsLookup.
From Coq Require Import Strings.String Strings.Ascii.
Local Open Scope list_scope.
Open Scope nat_scope.

(** ** Specification *)

(** A variable's name with the models it is in, and their numbers *)
Definition numbered_model (p : string * nat) : string := match snd p with 0 => fst p | n => (fst p ++ show_nat n)%string end.
Definition numbered (k : vkey) : string :=
  match vk_lineage k with
  | Some ((_ :: _) as l) => (join "." (map numbered_model l) ++ "." ++ vk_name k)%string
  | _ => vk_name k
  end.
(** Names of variables that have neither dots nor brackets in them *)
Definition plain_name (k : vkey) : Prop := free "." (vk_name k) /\ free "[" (vk_name k).
(** Variables that differ do so in their name, in their models or in their index *)
Definition told_apart (vks : list vkey) : Prop :=
  forall k1 k2, In k1 vks -> In k2 vks -> numbered k1 = numbered k2 -> place k1 = place k2 -> k1 = k2.
(** Another variable is called the same *)
Definition ambiguous (vks : list vkey) (s : string) : Prop :=
  exists k1 k2, In k1 vks /\ In k2 vks /\ k1 <> k2 /\ called k1 s /\ called k2 s.
Definition an_element (k : vkey) : Prop := exists i is, vk_idx k = Some (i :: is).

(** ** Lemmas *)

Lemma numbered_is k : sort_name k = numbered k.
Proof.
  unfold sort_name, numbered, path. destruct (vk_lineage k) as [[|p l]|]; [reflexivity| |reflexivity].
  f_equal. f_equal. apply map_ext. intros [m [|n]]; reflexivity.
Qed.
Lemma with_idx_is n k : with_idx n k = (n ++ place k)%string.
Proof. unfold with_idx, place. destruct (vk_idx k) as [[|i is]|]; rewrite ?app_nil_string; reflexivity. Qed.

Lemma two_or_not (l : list vkey) : NoDup l -> (1 < List.length l <-> exists k1 k2, In k1 l /\ In k2 l /\ k1 <> k2).
Proof.
  intros N. destruct l as [|a [|b l]]; simpl.
  - split; [lia|]. intros (? & ? & [] & _).
  - split; [lia|]. intros (k1 & k2 & [<-|[]] & [<-|[]] & D). contradiction.
  - split; [|lia]. intros _. exists a, b. split; auto. split; auto. intros ->. inversion N as [|? ? Na _]; subst. apply Na. left.
Qed.
Lemma collides_spec vks full s k : mapped vks full s ->
  let '(s', b) := collides s k in mapped vks true s' /\ (b = true <-> ambiguous vks (bare_name k)).
Proof.
  intros H. unfold collides. pose proof (mapped_getitem vks full s (MStr (bare_name k)) H) as G.
  pose proof (mapped_parse vks full s (MStr (bare_name k)) H) as (_ & _ & N & P). destruct (getitem s _) as [s' l].
  cbn [by_name] in *. rewrite orb_true_r in *. destruct G as [G ->]. split; [exact G|].
  rewrite Nat.ltb_lt, (two_or_not _ (N _)). unfold ambiguous.
  assert (Q : forall x, In x (kget (keymap (parse s (MStr (bare_name k)))) (MStr (bare_name k))) <-> In x vks /\ called x (bare_name k)).
  { intros x. rewrite P, called_iff. split; [intros [I [[=]|[_ J]]]; auto|intros [I J]; auto]. }
  split.
  - intros (k1 & k2 & I1 & I2 & D). apply Q in I1, I2. exists k1, k2. tauto.
  - intros (k1 & k2 & I1 & I2 & D & C1 & C2). exists k1, k2. rewrite !Q. tauto.
Qed.
Lemma colliding_spec vks ks : forall full s, mapped vks full s ->
  forall k, In k (snd (colliding s ks)) <-> In k ks /\ ambiguous vks (bare_name k).
Proof.
  induction ks as [|x ks IH]; intros full s H k; simpl; [tauto|].
  pose proof (collides_spec vks full s x H) as C. destruct (collides s x) as [s' b]. destruct C as [H' B].
  specialize (IH true s' H' k). destruct (colliding s' ks) as [s'' l]. simpl in *. destruct b; simpl; rewrite IH.
  - split; [intros [->|[I A]]; [split; [auto|apply B; auto]|auto]|]. intros [[->|I] A]; auto.
  - split; [intros [I A]; auto|]. intros [[->|I] A]; [|auto]. apply B in A. discriminate A.
Qed.
Lemma flagged_iff has vks ops k : In k (snd (name_collision_varkeys (after has vks ops))) <-> In k vks /\ ambiguous vks (bare_name k).
Proof.
  destruct (mapped_after has vks ops) as (full & H & _). unfold name_collision_varkeys.
  rewrite (colliding_spec vks _ full _ H). destruct H as [-> _]. reflexivity.
Qed.

Lemma append_inj a b : (a ++ b)%string = a -> b = ""%string.
Proof. intros H. apply (f_equal chars) in H. rewrite chars_app in H. apply chars_inj. apply (app_inv_head (chars a)). rewrite H. simpl. rewrite app_nil_r. auto. Qed.
Lemma place_cases k : (~ an_element k /\ place k = ""%string) \/ (an_element k /\ exists r, chars (place k) = "["%char :: r).
Proof.
  unfold an_element, place. destruct (vk_idx k) as [[|i is]|].
  - left. split; [intros (? & ? & [=])|auto].
  - right. split; [eauto|]. rewrite chars_app. simpl. eauto.
  - left. split; [intros (? & ? & [=])|auto].
Qed.
Lemma place_free k : free "." (place k).
Proof.
  unfold free. assert (E : place k = idx_str k) by (unfold place, idx_str; destruct (vk_idx k) as [[|i is]|]; reflexivity). rewrite E. apply idx_str_free.
  simpl. intros H. repeat (destruct H as [H|H]; [discriminate H|]). exact H.
Qed.
Lemma name_place n1 n2 k1 k2 : free "[" n1 -> free "[" n2 -> (n1 ++ place k1)%string = (n2 ++ place k2)%string -> n1 = n2 /\ place k1 = place k2.
Proof.
  intros F1 F2 E. apply (f_equal chars) in E. rewrite !chars_app in E. unfold free in *.
  destruct (place_cases k1) as [[_ E1]|[_ [r1 E1]]], (place_cases k2) as [[_ E2]|[_ [r2 E2]]].
  - rewrite E1, E2 in *. simpl in E. rewrite !app_nil_r in E. apply chars_inj in E. auto.
  - rewrite E1, E2 in E. simpl in E. rewrite app_nil_r in E. exfalso. apply F1. rewrite E. apply in_or_app. right. left. auto.
  - rewrite E1, E2 in E. simpl in E. rewrite app_nil_r in E. exfalso. apply F2. rewrite <- E. apply in_or_app. right. left. auto.
  - rewrite E1, E2 in E. apply split_first in E as [E ER]; auto. split; apply chars_inj; [auto|]. rewrite E1, E2, ER. auto.
Qed.
(** In models or not *)
Lemma models_cases k : (in_models k = vk_name k /\ numbered k = vk_name k) \/ (In "."%char (chars (in_models k)) /\ In "."%char (chars (numbered k))).
Proof.
  unfold in_models, numbered. destruct (vk_lineage k) as [[|p l]|]; [left; auto| |left; auto]. right.
  rewrite !chars_app, !in_app_iff. simpl. tauto.
Qed.
Lemma dot_not k (s : string) : In "."%char (chars s) -> plain_name k -> (s ++ place k)%string <> (vk_name k ++ place k)%string.
Proof.
  intros I [F _] E. apply (f_equal chars) in E. rewrite !chars_app in E. apply app_inv_tail in E. apply F. rewrite <- E. auto.
Qed.
Lemma dot_in s k k' : In "."%char (chars s) -> plain_name k' -> (s ++ place k)%string = (vk_name k' ++ place k')%string -> False.
Proof.
  intros I [F _] E. apply (f_equal chars) in E. rewrite !chars_app in E.
  assert (J : In "."%char (chars (vk_name k') ++ chars (place k'))) by (rewrite <- E; apply in_or_app; auto).
  apply in_app_or in J as [J|J]; [apply (F J)|apply (place_free k' J)].
Qed.

(** Elements of vectors are not ambiguous *)
Lemma element_clear vks k : (forall k, In k vks -> plain_name k) -> told_apart vks -> In k vks -> an_element k -> ~ ambiguous vks (bare_name k).
Proof.
  intros P T Hk El (k1 & k2 & I1 & I2 & D & C1 & C2). apply D.
  assert (G : forall x, In x vks -> called x (bare_name k) -> numbered x = vk_name k /\ place x = place k).
  { intros x Hx C. unfold bare_name in C. rewrite with_idx_is in C.
    assert (E : (vk_name k ++ place k)%string = vk_name x -> False).
    { intros E. destruct (place_cases k) as [[N _]|[_ [r Er]]]; [auto|]. apply (proj2 (P x Hx)). rewrite <- E, chars_app, Er. apply in_or_app. right. left. auto. }
    destruct (models_cases x) as [[E1 E2]|[E1 E2]].
    - unfold called in C. rewrite E1 in C. rewrite E2. destruct C as [C|[C|C]]; try (exfalso; apply E; exact C).
      symmetry in C. apply name_place in C as [-> ->]; [auto|apply (P x Hx)|apply (P k Hk)].
    - exfalso. destruct C as [C|[C|C]]; [apply E; exact C| |apply (dot_in (in_models x) x k E1 (P k Hk)); auto].
      apply (dot_in (in_models x) (VKey "x" None None "") k E1 (P k Hk)). change (place (VKey "x" None None "")) with ""%string. rewrite app_nil_string. auto. }
  destruct (G k1 I1 C1) as [A1 B1], (G k2 I2 C2) as [A2 B2]. apply T; auto; congruence.
Qed.

(** ** C90 *)

(** A printed variable has its models in front exactly when two of the set's variables are called by its name (with its index, if it is an element of
    a vector): whatever has been looked up before. *)
Theorem C90_shown : forall has vks ops k, In k vks ->
  (ambiguous vks (vk_name k ++ place k) -> printed_name (after has vks ops) k = (numbered k ++ place k)%string) /\
  (~ ambiguous vks (vk_name k ++ place k) -> printed_name (after has vks ops) k = (vk_name k ++ place k)%string).
Proof.
  intros has vks ops k Hk. unfold printed_name, shown. rewrite with_idx_is.
  assert (Q : k ∈ snd (name_collision_varkeys (after has vks ops)) <-> ambiguous vks (vk_name k ++ place k)).
  { rewrite elem_of_list_In, flagged_iff. unfold bare_name. rewrite with_idx_is. tauto. }
  split; intros A.
  - rewrite bool_decide_eq_true_2 by (apply Q; auto). rewrite numbered_is. reflexivity.
  - rewrite bool_decide_eq_false_2 by (rewrite Q; auto). reflexivity.
Qed.
Print Assumptions C90_shown.

(** Variables with the same printed name are the same, unless they are elements of vectors. What is missing: elements of vectors with the same name
    in different models, names with dots or brackets, and variables that differ only in their units. *)
Theorem C90_apart_partial : forall has vks ops, (forall k, In k vks -> plain_name k) -> told_apart vks ->
  forall k1 k2, In k1 vks -> In k2 vks -> printed_name (after has vks ops) k1 = printed_name (after has vks ops) k2 ->
  k1 = k2 \/ (an_element k1 /\ an_element k2 /\ vk_name k1 = vk_name k2 /\ place k1 = place k2 /\ numbered k1 <> numbered k2).
Proof.
  intros has vks ops P T k1 k2 I1 I2.
  assert (G : forall k, In k vks -> (an_element k /\ printed_name (after has vks ops) k = (vk_name k ++ place k)%string) \/
            (~ an_element k /\ place k = ""%string /\ ((ambiguous vks (vk_name k) /\ printed_name (after has vks ops) k = numbered k) \/
             (~ ambiguous vks (vk_name k) /\ printed_name (after has vks ops) k = vk_name k)))).
  { intros k Hk. unfold printed_name, shown. rewrite with_idx_is.
    assert (Q : k ∈ snd (name_collision_varkeys (after has vks ops)) <-> ambiguous vks (vk_name k ++ place k)).
    { rewrite elem_of_list_In, flagged_iff. unfold bare_name. rewrite with_idx_is. tauto. }
    destruct (place_cases k) as [[N E]|[El _]].
    - right. rewrite E in *. rewrite !app_nil_string in *. split; [auto|]. split; [auto|].
      destruct (bool_decide _) eqn:B; [apply bool_decide_eq_true in B|apply bool_decide_eq_false in B]; [left|right]; (split; [rewrite <- Q; auto|rewrite ?numbered_is; reflexivity]).
    - left. split; [auto|]. rewrite bool_decide_eq_false_2; [reflexivity|]. rewrite Q. pose proof (element_clear vks k P T Hk El) as A. unfold bare_name in A.
      rewrite with_idx_is in A. exact A. }
  destruct (P k1 I1) as [D1 B1], (P k2 I2) as [D2 B2].
  assert (M : forall k k', In k vks -> In k' vks -> ~ an_element k -> ambiguous vks (vk_name k) -> In "."%char (chars (numbered k)) ->
              numbered k = (vk_name k' ++ place k')%string -> False).
  { intros k k' Hk Hk' _ _ Dot E. apply (dot_in (numbered k) (VKey "x" None None "") k' Dot (P k' Hk')). change (place (VKey "x" None None "")) with ""%string. rewrite app_nil_string. auto. }
  destruct (G k1 I1) as [[L1 ->]|(L1 & N1 & [[A1 ->]|[A1 ->]])], (G k2 I2) as [[L2 ->]|(L2 & N2 & [[A2 ->]|[A2 ->]])]; intros E.
  - apply name_place in E as [En Ep]; auto. destruct (decide (numbered k1 = numbered k2)) as [En'|]; [left; apply T; auto|right; auto].
  - exfalso. destruct (models_cases k2) as [[_ E2]|[_ E2]].
    + rewrite E2 in E. rewrite <- (app_nil_string (vk_name k2)), <- N2 in E. apply name_place in E as [_ E]; auto. destruct (place_cases k1) as [[X _]|[_ [r Er]]]; [auto|]. rewrite E, N2 in Er. discriminate Er.
    + eapply (M k2 k1); eauto.
  - exfalso. rewrite <- (app_nil_string (vk_name k2)), <- N2 in E. apply name_place in E as [_ E]; auto. destruct (place_cases k1) as [[X _]|[_ [r Er]]]; [auto|]. rewrite E, N2 in Er. discriminate Er.
  - exfalso. destruct (models_cases k1) as [[_ E1]|[_ E1]].
    + rewrite E1 in E. rewrite <- (app_nil_string (vk_name k1)), <- N1 in E. apply name_place in E as [_ E]; auto. destruct (place_cases k2) as [[X _]|[_ [r Er]]]; [auto|]. rewrite <- E, N1 in Er. discriminate Er.
    + eapply (M k1 k2); eauto.
  - left. apply T; auto. congruence.
  - left. destruct (models_cases k1) as [[_ E1]|[_ E1]].
    + destruct (decide (k1 = k2)) as [|Hne]; [auto|]. exfalso. apply A2. exists k1, k2. unfold called. rewrite <- E, E1. auto 8.
    + exfalso. eapply (M k1 k2); eauto. rewrite N2, app_nil_string. auto.
  - exfalso. rewrite <- (app_nil_string (vk_name k1)), <- N1 in E. apply name_place in E as [_ E]; auto. destruct (place_cases k2) as [[X _]|[_ [r Er]]]; [auto|]. rewrite <- E, N1 in Er. discriminate Er.
  - left. destruct (models_cases k2) as [[_ E2]|[_ E2]].
    + destruct (decide (k1 = k2)) as [|Hne]; [auto|]. exfalso. apply A1. exists k1, k2. unfold called. rewrite E, E2. auto 8.
    + exfalso. eapply (M k2 k1); eauto. rewrite N1, app_nil_string. auto.
  - left. destruct (decide (k1 = k2)) as [|Hne]; [auto|]. exfalso. apply A1. exists k1, k2. unfold called. rewrite E. auto 8.
Qed.
Print Assumptions C90_apart_partial.

(** Elements of vectors are printed without their models although another model has a vector of the same name. *)
Definition in_ (m : string) (n : nat) (i : option (list nat)) : vkey := VKey "x" (Some [(m, n)]) i "".
Theorem C90_vectors_refuted : exists vks k1 k2, (forall k, In k vks -> plain_name k) /\ told_apart vks /\ In k1 vks /\ In k2 vks /\ k1 <> k2 /\
  forall has ops, printed_name (after has vks ops) k1 = "x[0]"%string /\ printed_name (after has vks ops) k2 = "x[0]"%string.
Proof.
  set (vks := [in_ "A" 0 (Some [0]); in_ "A" 0 (Some [1]); in_ "B" 0 (Some [0]); in_ "B" 0 (Some [1])]).
  assert (P : forall k, In k vks -> plain_name k).
  { intros k H. unfold vks in H. simpl in H. destruct H as [<-|[<-|[<-|[<-|[]]]]]; (split; unfold free; simpl; intros H; repeat (destruct H as [H|H]; [discriminate H|]); exact H). }
  assert (T : told_apart vks).
  { intros k1 k2 H1 H2 E1 E2. unfold vks in H1, H2. simpl in H1, H2. destruct H1 as [<-|[<-|[<-|[<-|[]]]]], H2 as [<-|[<-|[<-|[<-|[]]]]]; solve [reflexivity|discriminate E1|discriminate E2]. }
  exists vks, (in_ "A" 0 (Some [0])), (in_ "B" 0 (Some [0])).
  split; [exact P|]. split; [exact T|]. split; [left; auto|]. split; [right; right; left; auto|]. split; [discriminate|].
  assert (G : forall has ops k, In k vks -> an_element k -> printed_name (after has vks ops) k = (vk_name k ++ place k)%string).
  { intros has ops k Hk El. apply (C90_shown has vks ops k Hk). rewrite <- with_idx_is. apply (element_clear vks k P T Hk El). }
  intros has ops. split; (rewrite G; [reflexivity|unfold vks; simpl; tauto|unfold an_element; simpl; eauto]).
Qed.
Print Assumptions C90_vectors_refuted.
(** A name with a dot may be that of another model's variable with its model in front. *)
Theorem C90_dots_refuted : exists vks k1 k2, NoDup vks /\ In k1 vks /\ In k2 vks /\ ~ an_element k1 /\ ~ an_element k2 /\ vk_name k1 <> vk_name k2 /\
  forall has ops, printed_name (after has vks ops) k1 = "A.x"%string /\ printed_name (after has vks ops) k2 = "A.x"%string.
Proof.
  set (y := VKey "A.x" None None "").
  exists [in_ "A" 0 None; in_ "B" 0 None; y], (in_ "A" 0 None), y.
  split; [apply (bool_decide_unpack _); vm_compute; exact I|]. split; [left; auto|]. split; [right; right; left; auto|]. split; [intros (? & ? & [=])|]. split; [intros (? & ? & [=])|]. split; [discriminate|].
  intros has ops. split.
  - destruct (C90_shown has [in_ "A" 0 None; in_ "B" 0 None; y] ops (in_ "A" 0 None)) as [S _]; [left; auto|]. rewrite S; [reflexivity|]. exists (in_ "A" 0 None), (in_ "B" 0 None).
    split; [left; auto|]. split; [right; left; auto|]. split; [discriminate|]. split; left; reflexivity.
  - unfold printed_name, shown. rewrite with_idx_is. destruct (bool_decide _); reflexivity.
Qed.
Print Assumptions C90_dots_refuted.
(** Variables of the same name that differ in their units have the same printed name. *)
Theorem C90_units_refuted : exists vks k1 k2, (forall k, In k vks -> plain_name k) /\ In k1 vks /\ In k2 vks /\ vk_units k1 <> vk_units k2 /\
  forall has ops, printed_name (after has vks ops) k1 = "x"%string /\ printed_name (after has vks ops) k2 = "x"%string.
Proof.
  exists [VKey "x" None None "m"; VKey "x" None None "ft"], (VKey "x" None None "m"), (VKey "x" None None "ft").
  split. { intros k [<-|[<-|[]]]; (split; unfold free; simpl; intros H; repeat (destruct H as [H|H]; [discriminate H|]); exact H). }
  split; [left; auto|]. split; [right; left; auto|]. split; [discriminate|].
  intros has ops. split; (unfold printed_name, shown; rewrite with_idx_is; destruct (bool_decide _); reflexivity).
Qed.
Print Assumptions C90_units_refuted.

(** Two models of a kind and one outside: names as printed *)
Example C90_example :
  let vks := [in_ "A" 0 None; in_ "A" 1 None; VKey "x" None None ""; VKey "y" (Some [("A"%string, 0)]) None ""; VKey "z" (Some [("A"%string, 0)]) (Some [2; 0]) ""] in
  map (printed_name (after (fun _ => false) vks [Look (MStr "x")])) vks = ["A.x"; "A1.x"; "x"; "y"; "z[2,0]"]%string /\
  (forall k, In k vks -> plain_name k) /\ told_apart vks.
Proof.
  split; [vm_compute; reflexivity|]. split.
  - intros k H. simpl in H. destruct H as [<-|[<-|[<-|[<-|[<-|[]]]]]]; (split; unfold free; simpl; intros H; repeat (destruct H as [H|H]; [discriminate H|]); exact H).
  - intros k1 k2 H1 H2 E1 E2. simpl in H1, H2. destruct H1 as [<-|[<-|[<-|[<-|[<-|[]]]]]], H2 as [<-|[<-|[<-|[<-|[<-|[]]]]]]; solve [reflexivity|discriminate E1|discriminate E2].
Qed.
