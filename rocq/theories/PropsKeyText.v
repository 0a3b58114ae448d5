(** C114: a variable's text and its LaTeX tell it from others. *)
From Coq Require Import Strings.String Strings.Ascii.
From Verif Require Import Base Globals VarKeyProofs KeyText KeyTextSpec KeyTextProofs.
Local Open Scope string_scope.

(** Whatever is excluded, two variables have the same LaTeX just if what is left of them -- name, index, arrow and models -- is the same:
    names may have braces (C_{L}), but are not to start with one or with an arrow; classes are identifiers that do not end with a digit. *)
Theorem C114_latex_partial ex a b : latex_name (vi_name a) -> latex_name (vi_name b) -> classes (vi_lineage a) -> classes (vi_lineage b) ->
  key_latex ex a = key_latex ex b <->
  vi_name a = vi_name b /\ shown_idx ex a = shown_idx ex b /\ shown_vec ex a = shown_vec ex b /\ shown_lineage ex a = shown_lineage ex b.
Proof.
  intros Na Nb Ca Cb. split.
  - intros E. apply (f_equal list_ascii_of_string) in E. rewrite !latex_text in E.
    apply lin_text_inj in E as (-> & -> & -> & ->); auto; apply shown_classes; auto.
  - intros (E1 & E2 & E3 & E4). apply chars_inj. rewrite !latex_text. congruence.
Qed.
Print Assumptions C114_latex_partial.

(** The same of their texts, where names have neither dots nor brackets; that it is of a vector is not shown of an element. *)
Theorem C114_str_partial ex a b : str_name (vi_name a) -> str_name (vi_name b) -> classes (vi_lineage a) -> classes (vi_lineage b) ->
  key_str ex a = key_str ex b <->
  vi_name a = vi_name b /\ shown_idx ex a = shown_idx ex b /\ (shown_idx ex a = [] -> shown_vec ex a = shown_vec ex b) /\
  shown_lineage ex a = shown_lineage ex b.
Proof.
  intros Na Nb Ca Cb. split.
  - intros E. apply (f_equal list_ascii_of_string) in E. rewrite !str_text in E.
    apply str_text_inj in E as (-> & -> & -> & Hv); auto; apply shown_classes; auto.
  - intros (E1 & E2 & E3 & E4). apply chars_inj. rewrite !str_text, E1, E4, E2. do 2 f_equal.
    rewrite E2 in E3. unfold tail_text. destruct (shown_idx ex b); auto. rewrite E3; auto.
Qed.
Print Assumptions C114_str_partial.

Definition everything : excl := Excl false false false false false.

(** So two variables with all of their fields printed differ in their texts if they differ in name, index or models. *)
Theorem C114_told_apart_partial a b : latex_name (vi_name a) -> latex_name (vi_name b) -> str_name (vi_name a) -> str_name (vi_name b) ->
  classes (vi_lineage a) -> classes (vi_lineage b) ->
  (vi_name a, vi_idx a, vi_lineage a) <> (vi_name b, vi_idx b, vi_lineage b) ->
  key_str everything a <> key_str everything b /\ key_latex everything a <> key_latex everything b.
Proof.
  assert (Hr : forall l, renum true l = l).
  { induction l as [|[s n] l IH]; [auto|]. change (renum true ((s, n) :: l)) with ((s, n) :: renum true l). rewrite IH. auto. }
  intros La Lb Sa Sb Ca Cb Hd. split; intros E.
  - apply C114_str_partial in E as (E1 & E2 & _ & E4); auto. unfold shown_idx, shown_lineage in *. simpl in *. rewrite !Hr in E4. congruence.
  - apply C114_latex_partial in E as (E1 & E2 & _ & E4); auto. unfold shown_idx, shown_lineage in *. simpl in *. rewrite !Hr in E4. congruence.
Qed.
Print Assumptions C114_told_apart_partial.

Ltac class := split; [eexists; eexists; split; [reflexivity|unfold is_digit; simpl; intuition discriminate]|
  split; [|split; unfold free; simpl; intuition discriminate]].

(** Of any names it is false. A class whose name ends with a digit prints as a later instance of another class: x of Wing1 and x of the
    second Wing. *)
Theorem C114_numbered_refuted : exists a b, latex_name (vi_name a) /\ str_name (vi_name a) /\ vi_name b = vi_name a /\
  vi_lineage a <> vi_lineage b /\ key_str everything a = key_str everything b /\ key_latex everything a = key_latex everything b.
Proof.
  exists (VInfo "x" [("Wing", 1)] [] false false), (VInfo "x" [("Wing1", 0)] [] false false).
  split; [split; intros r; discriminate|]. split; [split; unfold free; simpl; intuition discriminate|]. split; [reflexivity|]. split; [discriminate|split; reflexivity].
Qed.
Print Assumptions C114_numbered_refuted.

(** Names with dots and brackets: x of A's B, and A's "B.x"; the first element of x, and "x[0]". *)
Theorem C114_dots_refuted : (exists a b, classes (vi_lineage a) /\ classes (vi_lineage b) /\ vi_lineage a <> vi_lineage b /\
    key_str everything a = key_str everything b) /\
  exists a b, vi_lineage a = vi_lineage b /\ vi_idx a <> vi_idx b /\ key_str everything a = key_str everything b.
Proof.
  split.
  - exists (VInfo "x" [("A", 0); ("B", 0)] [] false false), (VInfo "B.x" [("A", 0)] [] false false).
    split; [|split; [|split; [discriminate|reflexivity]]]; repeat (constructor; [class; exists []; eexists; split; [reflexivity|unfold is_digit; simpl; intuition discriminate]|]); constructor.
  - exists (VInfo "x" [] [0] true false), (VInfo "x[0]" [] [] false false). repeat split; discriminate.
Qed.
Print Assumptions C114_dots_refuted.

(** Names that start with braces: the LaTeX of x of A, and a variable named like it. *)
Theorem C114_braces_refuted : exists a b, classes (vi_lineage a) /\ classes (vi_lineage b) /\ latex_name (vi_name a) /\
  vi_lineage a <> vi_lineage b /\ key_latex everything a = key_latex everything b.
Proof.
  exists (VInfo "x" [("A", 0)] [] false false), (VInfo "{x}_{A}" [] [] false false).
  split; [constructor; [class; exists []; eexists; split; [reflexivity|unfold is_digit; simpl; intuition discriminate]|constructor]|].
  split; [constructor|]. split; [split; intros r; discriminate|]. split; [discriminate|reflexivity].
Qed.
Print Assumptions C114_braces_refuted.

(** The third lift coefficient of the second Wing of an Aircraft *)
Definition lift : vinfo := VInfo "C_{L}" [("Aircraft", 0); ("Wing", 1)] [2] true false.
Example C114_met : latex_name (vi_name lift) /\ str_name (vi_name lift) /\ classes (vi_lineage lift) /\
  key_str everything lift = "Aircraft.Wing1.C_{L}[2]" /\ key_latex everything lift = "{{\vec{C_{L}}}_{2}}_{Aircraft.Wing1}" /\
  key_latex (Excl false true false false false) lift = "{\vec{C_{L}}}_{2}" /\ key_str (Excl false false true true false) lift = "Aircraft.Wing.C_{L}" /\
  key_str everything (VInfo "x" [] [] true false) = "x[:]".
Proof.
  split; [split; intros r; discriminate|]. split; [split; unfold free; simpl; intuition discriminate|].
  split; [|repeat split; reflexivity].
  constructor; [class; exists (list_ascii_of_string "Aircraf"); eexists; split; [reflexivity|unfold is_digit; simpl; intuition discriminate]|].
  constructor; [class; exists (list_ascii_of_string "Win"); eexists; split; [reflexivity|unfold is_digit; simpl; intuition discriminate]|]. constructor.
Qed.
