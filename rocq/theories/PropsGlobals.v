(** C48-C50, C60: environments, lineages and the identity of variables. *)
From Verif Require Import Base Globals GlobalsProofs VarKeyProofs.
From Coq Require Import Strings.String Strings.Ascii.
Open Scope string_scope.
Open Scope list_scope.

(** ** C48: environments restore what they changed *)

(** Whatever a block does, and whether or not it raises, the three settings are afterwards what they were before. *)
Definition C48_for (cond : state -> Prop) : Prop :=
  forall (p : prog) (s s' : state) (r : option exn), cond s -> run p s = (s', r) ->
    signomials s' = signomials s /\ vectorization s' = vectorization s /\ current s' = current s.

(** What is missing: blocks within a SignomialsEnabled block. *)
Theorem C48_restored_partial : C48_for (fun s => signomials s = false).
Proof.
  intros p s s' r Hs E. destruct (run_shape p s s' r E) as (H1 & H2 & H3 & _). rewrite Hs. auto.
Qed.
Print Assumptions C48_restored_partial.

(** Leaving a SignomialsEnabled block disables signomials in the block around it. The state is the one inside
    of a single SignomialsEnabled block. *)
Theorem C48_restored_refuted : ~ C48_for (fun s => s = set_signomials true fresh).
Proof.
  intros H. destruct (H (Signomials Pass) _ _ _ eq_refl eq_refl) as (E & _). discriminate E.
Qed.
Print Assumptions C48_restored_refuted.

(** Vectorize and NamedVariables blocks restore theirs at any nesting. *)
Theorem C48_others_restored : forall (p : prog) (s s' : state) (r : option exn), run p s = (s', r) ->
  vectorization s' = vectorization s /\ current s' = current s.
Proof. intros p s s' r E. destruct (run_shape p s s' r E) as (H1 & H2 & _). auto. Qed.
Print Assumptions C48_others_restored.

(** A block raises what is raised in it, and nothing else. *)
Theorem C48_passes_on : forall (p : prog) (s s' : state) (r : option exn),
  (forall name, run (Named name p) s = (s', r) -> snd (run p (enter_named name s)) = r) /\
  (forall n, run (Vectorized n p) s = (s', r) -> snd (run p (set_vectorization (n :: vectorization s) s)) = r) /\
  (run (Signomials p) s = (s', r) -> snd (run p (set_signomials true s)) = r).
Proof.
  intros p s s' r. split; [|split].
  - intros name E. simpl in E. destruct (run p (enter_named name s)) as [s1 r1] eqn:E1. simpl.
    destruct (run_shape p _ _ _ E1) as (C1 & _ & _ & N1). destruct (N1 _ (le_n _) (enter_has name s)) as (vs & Hv).
    unfold exit_named in E. rewrite C1, Hv in E. injection E as _ <-. auto.
  - intros n E. simpl in E. destruct (run p _) as [s1 r1]. injection E as _ <-. auto.
  - intros E. simpl in E. destruct (run p _) as [s1 r1]. injection E as _ <-. auto.
Qed.
Print Assumptions C48_passes_on.

(** ** C49: lineages are unique *)

(** In a session the environments entered all have different lineages, so that variables made in two of them differ. *)
Definition C49_for (cond : prog -> Prop) : Prop :=
  forall (p : prog) (s : state) (r : option exn), cond p -> run p fresh = (s, r) ->
    forall i j Li Lj, entered s !! i = Some Li -> entered s !! j = Some Lj -> i <> j ->
      Li <> Lj /\
      forall v w, vk_lineage v = Some Li -> vk_lineage w = Some Lj -> plain v -> plain w -> vk_eq v w = false.

(** What is missing: sessions that call NamedVariables.reset_modelnumbers(). *)
Theorem C49_unique_partial : C49_for no_reset.
Proof.
  intros p s r Hn E i j Li Lj Hi Hj Hij.
  assert (Hd : Li <> Lj).
  { intros ->. apply Hij. eapply NoDup_lookup; eauto. apply (run_inv p fresh s r); auto. apply inv_fresh. }
  split; auto. intros v w Hv Hw Pv Pw. unfold vk_eq. destruct (String.string_dec _ _) as [Es|]; auto.
  exfalso. apply eqstr_inj in Es as (_ & El & _); auto. congruence.
Qed.
Print Assumptions C49_unique_partial.

(** After the numbers are reset they are given out again. *)
Theorem C49_unique_refuted : ~ C49_for (fun p => True).
Proof.
  intros H. destruct (H (Seq (Named "A" Pass) (Seq ResetNumbers (Named "A" Pass))) _ _ I eq_refl 0 1 [("A", 0)] [("A", 0)]) as [Hd _];
    try reflexivity; [discriminate|]. apply Hd. reflexivity.
Qed.
Print Assumptions C49_unique_refuted.

(** ** C60: a model's own variables *)

(** The list an environment gives out contains, once it is left, the variables made in it (and not in those within it), in
    order. A model takes from it what it calls its own (model.py:49-69). *)
Definition C60_for (cond : prog -> Prop) : Prop :=
  forall (p : prog) (s : state) (r : option exn), cond p -> run p fresh = (s, r) ->
    forall L vs, In (L, vs) (left_ s) -> vs = List.filter (fun v => bool_decide (vk_lineage v = Some L)) (rev (made s)).
Theorem C60_own_partial : C60_for no_reset.
Proof.
  intros p s r Hn E L vs Hin. assert (Hi : inv s) by (eapply (run_inv p fresh); eauto; apply inv_fresh).
  apply (inv_left s Hi L vs Hin).
Qed.
Print Assumptions C60_own_partial.

(** After a reset, two environments share a lineage, and neither list contains the other's. *)
Theorem C60_own_refuted : ~ C60_for (fun p => True).
Proof.
  intros H. specialize (H (Seq (Named "A" (MakeVar "x" None "")) (Seq ResetNumbers (Named "A" (MakeVar "y" None "")))) _ _ I eq_refl).
  specialize (H [("A", 0)] [VKey "y" (Some [("A", 0)]) None ""] (or_introl eq_refl)). vm_compute in H. discriminate H.
Qed.
Print Assumptions C60_own_refuted.

(** Every environment entered is left again and so has such a list. *)
Theorem C60_all_left_partial : forall (p : prog) (s : state) (r : option exn), no_reset p -> run p fresh = (s, r) ->
  forall L, In L (entered s) -> exists vs, In (L, vs) (left_ s).
Proof.
  intros p s r Hn E L Hin. assert (Hi : inv s) by (eapply (run_inv p fresh); eauto; apply inv_fresh).
  destruct (inv_entered_left s Hi L Hin) as [HL|]; auto. exfalso.
  destruct (run_shape p fresh s r E) as (Hc & _). rewrite Hc in HL. apply prefix_nil_inv in HL as ->.
  destruct (inv_num s Hi [] Hin) as (L' & name & num & E' & _). destruct L'; discriminate.
Qed.
Print Assumptions C60_all_left_partial.

(** ** C50: what identifies a variable *)

(** Names, lineages, indices and units (as written) agree. *)
Definition agree (a b : vkey) : Prop :=
  vk_name a = vk_name b /\ vk_lineage a = vk_lineage b /\ vk_idx a = vk_idx b /\
  (vk_units a = vk_units b \/ (vk_units a ∈ [""; "-"] /\ vk_units b ∈ [""; "-"])).

Definition C50_for (cond : vkey -> Prop) : Prop :=
  forall a b, cond a -> cond b -> vk_eq a b = true <-> agree a b.

(** What is missing: names with brackets, parentheses or quotes. *)
Theorem C50_identity_partial : C50_for plain.
Proof.
  intros a b Ha Hb. unfold vk_eq. destruct (String.string_dec (eqstr a) (eqstr b)) as [E|E]; split; try discriminate; auto.
  - intros _. apply eqstr_inj in E as (H1 & H2 & H3 & H4); auto. split_and!; auto. unfold unitrepr in H4.
    repeat case_bool_decide; auto.
    + exfalso. apply H0. rewrite <- H4. right. left.
    + exfalso. apply H. rewrite H4. right. left.
  - intros (H1 & H2 & H3 & H4). exfalso. apply E. unfold eqstr, full_name. rewrite H1, H2, H3. f_equal. f_equal. unfold unitrepr.
    destruct H4 as [->|[Hu Hv]]; auto. rewrite !bool_decide_eq_true_2; auto.
Qed.
Print Assumptions C50_identity_partial.

(** A variable called x[0] is the first element of a vector x. *)
Theorem C50_identity_refuted : ~ C50_for (fun k => vk_idx k <> Some [] /\ vk_lineage k = None).
Proof.
  intros H. destruct (H (VKey "x[0]" None None "m") (VKey "x" None (Some [0]) "m")) as [H1 _]; [split; [discriminate|reflexivity]..|].
  destruct (H1 eq_refl) as (E & _). discriminate E.
Qed.
Print Assumptions C50_identity_refuted.

(** Units are compared as written: with units that mean the same, variables differ. *)
Definition C50_units : Prop :=
  forall (U : Type) (units_of : string -> U) (a b : vkey), plain a -> plain b ->
    vk_name a = vk_name b -> vk_lineage a = vk_lineage b -> vk_idx a = vk_idx b ->
    units_of (vk_units a) = units_of (vk_units b) -> vk_eq a b = true.
Lemma no_capital_n u : free "N"%char u -> no_none u.
Proof. intros Hf a b E. apply Hf. rewrite E. apply in_app_iff. right. left. reflexivity. Qed.
Lemma plain_ex u : In u ["m"; "meter"] -> plain (VKey "x" None None u).
Proof.
  intros Hu. unfold plain, free. simpl. split_and!; try (intros [H|[]]; discriminate H); try discriminate.
  - destruct Hu as [<-|[<-|[]]]; simpl; intros H; repeat (destruct H as [H|H]; [discriminate H|]); auto.
  - apply no_capital_n. destruct Hu as [<-|[<-|[]]]; unfold free; simpl; intros H; repeat (destruct H as [H|H]; [discriminate H|]); auto.
Qed.
Theorem C50_units_refuted : ~ C50_units.
Proof.
  intros H. specialize (H unit (fun _ => tt) (VKey "x" None None "m") (VKey "x" None None "meter")).
  discriminate H; auto; apply plain_ex; simpl; auto.
Qed.
Print Assumptions C50_units_refuted.

(** Equality is an equivalence that is compatible with hashing. *)
Theorem C50_equivalence : forall (H : Type) (hash : string -> H) (a b c : vkey),
  vk_eq a a = true /\ (vk_eq a b = true -> vk_eq b a = true) /\ (vk_eq a b = true -> vk_eq b c = true -> vk_eq a c = true) /\
  (vk_eq a b = true -> vk_hash hash a = vk_hash hash b).
Proof.
  intros H hash a b c. unfold vk_eq, vk_hash.
  destruct (String.string_dec (eqstr a) (eqstr a)), (String.string_dec (eqstr a) (eqstr b)), (String.string_dec (eqstr b) (eqstr a)),
    (String.string_dec (eqstr b) (eqstr c)), (String.string_dec (eqstr a) (eqstr c)); split_and!; congruence.
Qed.
Print Assumptions C50_equivalence.

(** ** Non-vacuity *)

(** Two instances of a model with a submodel, the second of which fails, and one outside. *)
Definition session : prog :=
  let wing := Named "Wing" (Seq (MakeVar "S" None "m^2") (MakeVar "c" (Some [0]) "m")) in
  Seq (Named "Aircraft" (Seq (MakeVar "S" None "m^2") (Seq wing (MakeVar "W" None "N"))))
      (Seq (Catch (Named "Aircraft" (Vectorized 3 (Signomials (Seq wing (Raise ValueErrorE))))) wing) (MakeVar "x" None "")).
Example session_ok : no_reset session /\ entered (fst (run session fresh)) =
  [[("Wing", 0)]; [("Aircraft", 1); ("Wing", 0)]; [("Aircraft", 1)]; [("Aircraft", 0); ("Wing", 0)]; [("Aircraft", 0)]].
Proof. split; [simpl; tauto|]. vm_compute. reflexivity. Qed.
Example session_left : dget (left_ (fst (run session fresh))) [("Aircraft", 0)] =
  Some [VKey "S" (Some [("Aircraft", 0)]) None "m^2"; VKey "W" (Some [("Aircraft", 0)]) None "N"].
Proof. vm_compute. reflexivity. Qed.
Example session_settings : let s := fst (run session fresh) in (signomials s, vectorization s, current s, namedvars s) = (false, [], [], []).
Proof. vm_compute. reflexivity. Qed.
Example key_ex : eqstr (VKey "c" (Some [("Aircraft", 1); ("Wing", 0)]) (Some [0; 12]) "m") = "Aircraft.Wing.c[0,12](('Aircraft', 1), ('Wing', 0))m".
Proof. vm_compute. reflexivity. Qed.
Example key_plain : plain (VKey "c" (Some [("Aircraft", 1)]) (Some [0; 12]) "m").
Proof.
  unfold plain, free. simpl. split_and!; try (intros H; repeat (destruct H as [H|H]; [discriminate H|]); exact H); try discriminate.
  - intros l [= <-]. split; [discriminate|]. split; repeat constructor; unfold free; simpl; intros H; repeat (destruct H as [H|H]; [discriminate H|]); exact H.
  - apply no_capital_n. unfold free. simpl. intros H; repeat (destruct H as [H|H]; [discriminate H|]); exact H.
Qed.
