(** C71: the lists of unbounded variables in a docstring are read as they are written. *)
From Verif Require Import Base Settings Docstring DocstringSpec DocstringStrings Unbounded UnboundedSpec UnboundedProofs.
From Coq Require Import Strings.String Strings.Ascii.
Local Open Scope list_scope.
Open Scope nat_scope.

Section Objects.
Context {obj : Type} (getattr : obj -> text -> option obj) (truth : obj -> res bool) (keys_of : obj -> res (list nat)).

Lemma leads_unique ns : forall o r1 r2, leads getattr o ns r1 -> leads getattr o ns r2 -> r1 = r2.
Proof.
  induction ns as [|n ns IH]; intros o r1 r2 H1 H2; inversion H1; inversion H2; subst; try congruence. apply (IH o'); [auto|]. replace o' with o'0 by congruence. auto.
Qed.
Lemma stands_unique inst i r1 r2 : stands_for getattr truth keys_of inst i r1 -> stands_for getattr truth keys_of inst i r2 -> r1 = r2.
Proof.
  intros H1 H2. destruct H1 as [A|e A|A B|o A B]; destruct H2 as [A'|e' A'|A' B'|o' A' B']; try congruence; pose proof (leads_unique _ _ _ _ B B'); congruence.
Qed.
Lemma all_stand_members inst l r : all_stand getattr truth keys_of inst l r -> forall ks, r = Ok ks ->
  forall k, In k ks <-> exists i ks', In i l /\ stands_for getattr truth keys_of inst i (Ok ks') /\ In k ks'.
Proof.
  induction 1 as [|i l e H|i l ks1 r Hs Hl IH]; intros ks E k; [injection E as <-; split; [intros []|intros (i & ks' & [] & _)]|discriminate E|].
  destruct r as [ks2|]; [|discriminate E]. injection E as <-. rewrite in_app_iff, (IH ks2 eq_refl k). split.
  - intros [H|(j & ks' & Hj & H)]; [exists i, ks1|exists j, ks']; simpl; auto.
  - intros (j & ks' & [<-|Hj] & H1 & H2); [left; pose proof (stands_unique inst i _ _ Hs H1) as E; congruence|right; eauto].
Qed.

(** What is read is what the elements of the lists stand for, in the order of the lists; the first error ends it. *)
Theorem C71_read_partial : forall inst doc us ls, says doc true us -> says doc false ls ->
  exists ru rl, all_stand getattr truth keys_of inst (items us) ru /\ all_stand getattr truth keys_of inst (items ls) rl /\
  expected_unbounded getattr truth keys_of inst doc =
    match ru, rl with
    | Ok ku, Ok kl => Ok (map (fun k => (k, true)) ku ++ map (fun k => (k, false)) kl)
    | Err e, _ => Err e
    | _, Err e => Err e
    end.
Proof.
  intros inst doc us ls Hu Hl. exists (direction_bounds getattr truth keys_of inst doc true), (direction_bounds getattr truth keys_of inst doc false).
  split; [apply direction_stands; auto|]. split; [apply direction_stands; auto|]. unfold expected_unbounded.
  destruct (direction_bounds getattr truth keys_of inst doc true); auto.
Qed.

(** So a bound is expected to be missing just if its variable is one that an element of its list stands for. *)
Corollary C71_expected_partial : forall inst doc us ls bs, says doc true us -> says doc false ls ->
  expected_unbounded getattr truth keys_of inst doc = Ok bs ->
  forall k up, In (k, up) bs <-> exists i ks, In i (items (if up then us else ls)) /\ stands_for getattr truth keys_of inst i (Ok ks) /\ In k ks.
Proof.
  intros inst doc us ls bs Hu Hl E k up. destruct (C71_read_partial inst doc us ls Hu Hl) as (ru & rl & Au & Al & E'). rewrite E' in E.
  destruct ru as [ku|]; [|discriminate E]. destruct rl as [kl|]; [|discriminate E]. injection E as <-. rewrite in_app_iff, !in_map_iff.
  destruct up; [rewrite <- (all_stand_members inst _ _ Au ku eq_refl k)|rewrite <- (all_stand_members inst _ _ Al kl eq_refl k)]; split.
  - intros [(x & [= <-] & H)|(x & [=] & H)]. auto.
  - intros H. left. eauto.
  - intros [(x & [=] & H)|(x & [= <-] & H)]. auto.
  - intros H. right. eauto.
Qed.

(** An element that counts but names no attribute raises AttributeError, if those before it are fine. *)
Corollary C71_missing_partial : forall inst doc us ls a i b ks, says doc true us -> says doc false ls ->
  items us = a ++ i :: b -> all_stand getattr truth keys_of inst a (Ok ks) -> counts getattr truth inst i = Ok true -> leads getattr inst (i_path i) None ->
  expected_unbounded getattr truth keys_of inst doc = Err AttributeErrorE.
Proof.
  intros inst doc us ls a i b ks Hu Hl Ei Ha Hc Hn. destruct (C71_read_partial inst doc us ls Hu Hl) as (ru & rl & Au & Al & ->).
  assert (ru = Err AttributeErrorE) as ->; [|auto]. clear -Ei Ha Hc Hn Au. rewrite Ei in Au. clear Ei. revert ks Ha ru Au. induction a as [|j a IH]; intros ks Ha ru Au.
  - inversion Au as [|? ? e He|? ? ks1 r1 Hs]; subst.
    + apply (stands_unique inst i (Err e)); auto. apply sf_missing; auto.
    + assert (Ok ks1 = Err AttributeErrorE) by (apply (stands_unique inst i); auto; apply sf_missing; auto). discriminate.
  - inversion Ha as [| |? ? ks1 r1 Hs Hr E1 E2]; subst. destruct r1 as [ks2|]; [|discriminate E2]. simpl in Au. inversion Au as [|? ? e He|? ? ks3 r3 Hs3 Hr3]; subst.
    + assert (Ok ks1 = Err e) by (apply (stands_unique inst j); auto). discriminate.
    + rewrite (IH ks2 Hr r3 Hr3). auto.
Qed.
End Objects.
Print Assumptions C71_read_partial.
Print Assumptions C71_expected_partial.
Print Assumptions C71_missing_partial.

(** A model with variables x and y, a vector v, a flag that is set, and a submodel wing with an S *)
Definition attrs (o : nat) (n : text) : option nat :=
  match o with
  | 0 => if bool_decide (n = chars "x") then Some 1 else if bool_decide (n = chars "y") then Some 2 else if bool_decide (n = chars "v") then Some 3
         else if bool_decide (n = chars "fixed") then Some 4 else if bool_decide (n = chars "wing") then Some 5 else None
  | 5 => if bool_decide (n = chars "S") then Some 6 else None
  | _ => None
  end.
Definition var_keys (o : nat) : res (list nat) := match o with 1 => Ok [1] | 2 => Ok [2] | 3 => Ok [31; 32] | 6 => Ok [6] | _ => Err AttributeErrorE end.
Definition read (doc : list string) := expected_unbounded attrs (fun _ => Ok true) var_keys 0 (lines_text (map chars doc)).

Definition sample : list string :=
  ["A wing"; ""; "    Upper Unbounded"; "    ---------------"; "    x (if fixed), y  (if not fixed)"; "    v,  wing.S"; ""; "    Lower Unbounded"; "    ---------------"; "    y"; "    "]%string.
Definition at_ (s : string) : item := Item [chars s] None.
Definition sample_upper : list line :=
  [Line 4 (Item [chars "x"] (Some (0, false, chars "fixed"))) [(0, Item [chars "y"] (Some (1, true, chars "fixed")))]; Line 4 (at_ "v") [(1, Item [chars "wing"; chars "S"] None)]].
Definition sample_lower : list line := [Line 4 (at_ "y") []].
Ltac not_in := apply not_containsb; vm_compute; reflexivity.
Ltac letters := split; [discriminate|repeat (constructor; [vm_compute; lia|])]; auto; constructor.
Ltac item_tac := split; [discriminate|split; [repeat (constructor; [letters|]); constructor|first [exact I|letters]]].
Example C71_nonvacuous :
  says (lines_text (map chars sample)) true sample_upper /\ says (lines_text (map chars sample)) false sample_lower /\
  read sample = Ok [(1, true); (31, true); (32, true); (6, true); (2, false)].
Proof.
  split; [|split; [|vm_compute; reflexivity]].
  - left. exists (chars "A wing" ++ NL ++ NL ++ chars "    "), (chars "    ---------------"), (NL ++ lines_text (map chars ["    Lower Unbounded"; "    ---------------"; "    y"; "    "]%string)).
    split; [vm_compute; reflexivity|]. split; [not_in|]. split; [not_in|]. split; [intros H; vm_compute in H; repeat (destruct H as [H|H]; [discriminate H|]); destruct H|]. split; [discriminate|].
    split; [|left; eexists; reflexivity]. repeat (constructor; [item_tac|]). constructor.
  - left. exists (lines_text (map chars (firstn 7 sample)) ++ NL ++ chars "    "), (chars "    ---------------"), (chars "    ").
    split; [vm_compute; reflexivity|]. split; [not_in|]. split; [not_in|]. split; [intros H; vm_compute in H; repeat (destruct H as [H|H]; [discriminate H|]); destruct H|]. split; [discriminate|].
    split; [|right; split; [reflexivity|not_in]]. repeat (constructor; [item_tac|]). constructor.
Qed.

(** A list of more than one line at the end of a docstring, with no empty line after it, loses all but the first: here y and v. *)
Theorem C71_last_list_refuted : read ["    Upper Unbounded"; "    ---------------"; "    x"; "    y, v"; "    "]%string = Ok [(1, true)].
Proof. vm_compute. reflexivity. Qed.
Print Assumptions C71_last_list_refuted.
(** A line of spaces does not end a list: the text after it, up to an empty line, is taken for variables. *)
Theorem C71_spaces_in_empty_line_refuted : read ["    Upper Unbounded"; "    ---------------"; "    x"; "    "; "    and other things"; ""; ""]%string = Err AttributeErrorE.
Proof. vm_compute. reflexivity. Qed.
Print Assumptions C71_spaces_in_empty_line_refuted.
(** So it is for an empty list. *)
Theorem C71_empty_list_refuted : read ["    Upper Unbounded"; "    ---------------"; ""; "    Lower Unbounded"; "    ---------------"; "    x"; ""; ""]%string = Err AttributeErrorE.
Proof. vm_compute. reflexivity. Qed.
Print Assumptions C71_empty_list_refuted.
(** A comma at the end of a line is taken for part of the name. *)
Theorem C71_comma_at_end_refuted : read ["    Upper Unbounded"; "    ---------------"; "    x,"; "    y"; ""; ""]%string = Err AttributeErrorE.
Proof. vm_compute. reflexivity. Qed.
Print Assumptions C71_comma_at_end_refuted.
