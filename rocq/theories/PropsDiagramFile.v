(** C120: each sensitivity diagram is saved in a file of its own. *)
From Coq Require Import Strings.String Strings.Ascii.
From Verif Require Import Base DiagramFile.
Local Open Scope string_scope.
Local Arguments String.append !s1 s2 /.

(** What [cleanfilename] is to replace: characters that names of files may not have *)
Definition invalid : list ascii := list_ascii_of_string (String backslash (String "034" "/?|><:*")).
Definition has (c : ascii) (s : string) : Prop := In c (list_ascii_of_string s).
Definition valid (s : string) : Prop := forall c, has c s -> ~ In c invalid.

Lemma has_app c a b : has c (a ++ b) <-> has c a \/ has c b.
Proof. unfold has. induction a as [|d a IH]; simpl; [tauto|]. rewrite IH. tauto. Qed.

Lemma clean_cons c s : c <> backslash -> c <> "034"%char -> cleanfilename (String c s) = String c (cleanfilename s).
Proof.
  intros H1 H2. cbn [cleanfilename]. destruct (Ascii.eqb_spec c backslash); [contradiction|].
  unfold five. destruct (Ascii.eqb_spec c "034"); [contradiction|]. simpl.
  destruct s as [|? [|? [|? [|? ?]]]]; reflexivity.
Qed.
Lemma clean_same s : ~ has backslash s -> ~ has "034"%char s -> cleanfilename s = s.
Proof.
  unfold has. induction s as [|c s IH]; intros H1 H2; [auto|]. simpl in H1, H2. rewrite clean_cons; [f_equal; apply IH; tauto| |]; intros ->; tauto.
Qed.
Lemma clean_prefix a s : ~ has backslash a -> ~ has "034"%char a -> cleanfilename (a ++ s) = a ++ cleanfilename s.
Proof.
  unfold has. induction a as [|c a IH]; intros H1 H2; [auto|]. simpl in H1, H2. cbn [String.append]. change (String c a ++ s) with (String c (a ++ s)).
  change (String c a ++ cleanfilename s) with (String c (a ++ cleanfilename s)). rewrite clean_cons; [f_equal; apply IH; tauto| |]; intros ->; tauto.
Qed.

(** No backslash is left, and none is made of other characters. *)
Theorem C120_backslash_partial : forall s, ~ has backslash (cleanfilename s).
Proof.
  assert (H : forall n s, (String.length s <= n)%nat -> ~ has backslash (cleanfilename s)).
  { induction n as [|n IH]; intros [|c s] Hl; try (intros []; fail); [simpl in Hl; lia|]. simpl in Hl.
    assert (Hk : forall d r, d <> backslash -> ~ has backslash (cleanfilename r) -> ~ has backslash (String d (cleanfilename r))) by (intros d r Hd Hr [E|E]; auto).
    cbn [cleanfilename]. destruct (Ascii.eqb_spec c backslash) as [->|Hc].
    - destruct s as [|d s]; [intros [E|[]]; discriminate|]. simpl in Hl. destruct (Ascii.eqb d slash); apply Hk; try discriminate; apply IH; simpl; lia.
    - destruct s as [|c2 [|c3 [|c4 [|c5 r]]]]; try (apply Hk; [auto|apply IH; simpl in *; lia]).
      destruct (five c c2 c3 c4 c5); apply Hk; auto; try discriminate; apply IH; simpl in *; lia. }
  intros s. apply (H (String.length s)). auto.
Qed.
Print Assumptions C120_backslash_partial.

(** Labels and variables of valid characters are kept, so that different variables of a model have different files in the folder for them. *)
Theorem C120_valid_partial : forall label v extension, valid label -> valid v ->
  diagram_file label (Some v) extension = "sankey_autosaves/" ++ label ++ "_" ++ v ++ extension /\
  forall w, valid w -> diagram_file label (Some v) extension = diagram_file label (Some w) extension -> v = w.
Proof.
  assert (Happ : forall a b c, (a ++ b) ++ c = a ++ (b ++ c)) by (induction a as [|x a IH]; intros b c; simpl; [auto|f_equal; apply IH]).
  assert (Hr : forall a b c, a ++ c = b ++ c -> a = b).
  { assert (Hlen : forall a b, String.length (a ++ b) = (String.length a + String.length b)%nat) by (induction a as [|x a IH]; intros b; simpl; [auto|f_equal; apply IH]).
    induction a as [|x a IH]; intros [|y b] c E; auto.
    - apply (f_equal String.length) in E. rewrite !Hlen in E. simpl in E. lia.
    - apply (f_equal String.length) in E. rewrite !Hlen in E. simpl in E. lia.
    - simpl in E. injection E as -> E. f_equal. eapply IH; eauto. }
  assert (Hl : forall a b c, a ++ b = a ++ c -> b = c) by (induction a as [|x a IH]; intros b c E; simpl in E; [auto|injection E; auto]).
  assert (Hf : forall label v extension, valid label -> valid v -> diagram_file label (Some v) extension = "sankey_autosaves/" ++ label ++ "_" ++ v ++ extension).
  { intros label v extension H1 H2. unfold diagram_file. rewrite clean_same; [rewrite !Happ; auto| |].
    - rewrite !has_app. intros [K|[K|K]]; [apply (H1 _ K); left; auto|destruct K as [K|[]]; discriminate|apply (H2 _ K); left; auto].
    - rewrite !has_app. intros [K|[K|K]]; [apply (H1 _ K); right; left; auto|destruct K as [K|[]]; discriminate|apply (H2 _ K); right; left; auto]. }
  intros label v extension H1 H2. split; [apply Hf; auto|]. intros w H3. rewrite !Hf by auto. intros E. apply Hl, Hl, Hl, Hr in E. auto.
Qed.
Print Assumptions C120_valid_partial.

(** The other eight characters are not replaced: no text without a backslash and a quote is changed. So the diagram of a variable called W/S is to
    be saved in a folder that is not there, whatever the label. *)
Theorem C120_kept_refuted :
  (forall s, ~ has backslash s -> ~ has "034"%char s -> cleanfilename s = s) /\
  (forall s c, ~ has backslash s -> ~ has "034"%char s -> In c invalid -> has c s -> has c (cleanfilename s)) /\
  forall label extension, valid label -> diagram_file label (Some "W/S") extension = "sankey_autosaves/" ++ (label ++ "_W/S") ++ extension.
Proof.
  split; [exact clean_same|]. split; [intros s c H1 H2 _ H3; rewrite clean_same; auto|]. intros label extension Hv. unfold diagram_file.
  change ("_" ++ "W/S") with "_W/S". rewrite clean_same; auto; rewrite has_app; (intros [K|K]; [apply (Hv _ K); simpl; auto|]); vm_compute in K; intuition discriminate.
Qed.
Print Assumptions C120_kept_refuted.

(** Variables \v and _v of a model have the same file. *)
Theorem C120_collision_refuted : forall label v extension, valid label -> valid v ->
  diagram_file label (Some (String backslash v)) extension = diagram_file label (Some ("_" ++ v)) extension.
Proof.
  intros label v extension H1 H2. unfold diagram_file. f_equal. f_equal.
  rewrite !(clean_prefix label) by (intros K; apply (H1 _ K); simpl; auto). f_equal.
  change ("_" ++ String backslash v) with (String "_" (String backslash v)). change ("_" ++ "_" ++ v) with (String "_" (String "_" v)).
  rewrite (clean_cons "_" (String backslash v)), (clean_cons "_" (String "_" v)), (clean_cons "_" v) by discriminate. f_equal. rewrite (clean_same v) by (intros K; apply (H2 _ K); simpl; auto).
  cbn [cleanfilename]. rewrite Ascii.eqb_refl. f_equal. destruct v as [|d v]; [auto|].
  destruct (Ascii.eqb_spec d slash) as [->|]; [exfalso; apply (H2 slash); [left; auto|vm_compute; tauto]|].
  apply clean_same; intros K; apply (H2 _ K); simpl; auto.
Qed.
Print Assumptions C120_collision_refuted.

Example C120_met : valid "Wing" /\ valid "x_max" /\ diagram_file "Wing" (Some "x_max") ".png" = "sankey_autosaves/Wing_x_max.png" /\
  cleanfilename (String backslash "alpha") = "_alpha".
Proof. split; [|split; [|split; reflexivity]]; intros c Hc Hi; vm_compute in Hc, Hi; intuition (subst; discriminate). Qed.
