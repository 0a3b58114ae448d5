(** C67, C68: what is substituted in a model. *)
From Verif Require Import Base SetInit.
Open Scope nat_scope.

(** ** Dictionaries *)
Section Dicts.
Context {V : Type}.
Implicit Types d l : list (nat * V).

Lemma dget_app d l k : dget (d ++ l) k = match dget d k with Some v => Some v | None => dget l k end.
Proof. induction d as [|[k' v] d IH]; simpl; auto. case_decide; auto. Qed.
Lemma dget_fold l : forall d k, dget (fold_left (fun d kv => dset d (fst kv) (snd kv)) l d) k = match dget (rev l) k with Some v => Some v | None => dget d k end.
Proof.
  induction l as [|[k' v] l IH]; intros d k; simpl; auto. rewrite IH, dget_app. destruct (dget (rev l) k); auto. rewrite dget_dset. simpl. repeat case_decide; congruence.
Qed.
Lemma dkeys_rev d : dkeys (rev d) = rev (dkeys d).
Proof. unfold dkeys. apply map_rev. Qed.
Lemma dget_rev d k : NoDup (dkeys d) -> dget (rev d) k = dget d k.
Proof.
  intros Hn. destruct (dget d k) as [v|] eqn:E.
  - apply In_dget; [|apply in_rev; rewrite rev_involutive; apply dget_In; auto]. rewrite dkeys_rev. apply NoDup_ListNoDup, NoDup_rev, NoDup_ListNoDup. auto.
  - apply dget_None in E. apply dget_None. rewrite dkeys_rev. rewrite <- in_rev. auto.
Qed.
Lemma NoDup_fold l : forall d, NoDup (dkeys d) -> NoDup (dkeys (fold_left (fun d kv => dset d (fst kv) (snd kv)) l d)).
Proof. induction l as [|[k v] l IH]; intros d Hd; simpl; auto. apply IH, NoDup_dset. auto. Qed.
Lemma dget_dupdate d l k : NoDup (dkeys l) -> dget (dupdate d l) k = match dget l k with Some v => Some v | None => dget d k end.
Proof. intros Hl. unfold dupdate. rewrite dget_fold, dget_rev; auto. Qed.
Lemma NoDup_dupdate d l : NoDup (dkeys d) -> NoDup (dkeys (dupdate d l)).
Proof. apply NoDup_fold. Qed.
Lemma NoDup_values (descr : list (nat * V)) vks : NoDup (dkeys (values descr vks)).
Proof. apply NoDup_fold. constructor. Qed.
Lemma dget_values (descr : list (nat * V)) vks k : dget (values descr vks) k = if decide (k ∈ vks) then dget descr k else None.
Proof.
  unfold values, dict_of. rewrite dget_fold. simpl. set (l := flat_map _ vks).
  assert (Hl : forall v, In (k, v) (rev l) <-> k ∈ vks /\ dget descr k = Some v).
  { intros v. rewrite <- in_rev. unfold l. rewrite in_flat_map, elem_of_list_In. split.
    - intros (k' & Hk & Hi). destruct (dget descr k') eqn:E; [|destruct Hi]. destruct Hi as [Hi|[]]. injection Hi as -> ->. auto.
    - intros (Hk & E). exists k. split; auto. rewrite E. left. auto. }
  destruct (dget (rev l) k) as [v|] eqn:E.
  - apply dget_In in E. apply Hl in E as [Hk E]. rewrite decide_True; auto.
  - case_decide as Hk; auto. destruct (dget descr k) as [v|] eqn:Ed; auto. exfalso. apply dget_None in E. apply E. apply in_map_iff. exists (k, v). split; auto. apply Hl. auto.
Qed.
End Dicts.

(** ** What a set gathers *)
Section Gathering.
Context {V : Type}.
Variable constant : nat -> bool.

(** What an element says about a variable: a constraint, the variable's value; a set, its substitution *)
Definition says (descr : list (nat * V)) (k : nat) (e : element V) : option V :=
  match e with
  | Bare vks => if decide (k ∈ vks) then dget descr k else None
  | Subset s => dget (cs_subs s) k
  end.
(** The last of what is said *)
Fixpoint last_said (l : list (option V)) : option V :=
  match l with [] => None | o :: l' => match last_said l' with Some v => Some v | None => o end end.
Definition first_said (l : list (option V)) : option V := fold_right (fun o r => match o with Some v => Some v | None => r end) None l.
Definition element_wf (e : element V) : Prop := match e with Bare _ => True | Subset s => NoDup (dkeys (cs_subs s)) end.

Lemma gather descr elements : forall st, Forall element_wf elements -> NoDup (dkeys (cs_subs st)) ->
  let st' := fold_left (update_with descr) elements st in
  NoDup (dkeys (cs_subs st')) /\ (forall k, dget (cs_subs st') k = first_said [last_said (map (says descr k) elements); dget (cs_subs st) k]) /\
  (forall k, In k (cs_vks st') <-> In k (cs_vks st) \/ exists e, In e elements /\ In k (match e with Bare vks => vks | Subset s => cs_vks s end)).
Proof.
  induction elements as [|e elements IH]; intros st Hw Hn; cbn [fold_left].
  - split; auto. split; [intros k; simpl; destruct (dget (cs_subs st) k); auto|]. intros k. split; auto. intros [|(e & [] & _)]; auto.
  - inversion Hw as [|? ? He Hel]; subst.
    assert (H1 : NoDup (dkeys (cs_subs (update_with descr st e)))) by (destruct e; apply NoDup_dupdate; auto).
    destruct (IH _ Hel H1) as (I1 & I2 & I3). split; auto. split.
    + intros k. rewrite I2. cbn [map first_said fold_right last_said]. destruct (last_said (map (says descr k) elements)); auto.
      destruct e as [vks|s]; cbn [says update_with cs_subs].
      * rewrite dget_dupdate by apply NoDup_values. rewrite dget_values. destruct (if decide (k ∈ vks) then dget descr k else None); auto.
      * rewrite dget_dupdate by auto. destruct (dget (cs_subs s) k); auto.
    + intros k. rewrite I3. assert (Hv : In k (cs_vks (update_with descr st e)) <-> In k (cs_vks st) \/ In k (match e with Bare vks => vks | Subset s => cs_vks s end)).
      { destruct e; simpl; rewrite in_app_iff; tauto. }
      rewrite Hv. split.
      * intros [[H|H]|(e' & H & H')]; [left; auto|right; exists e; split; [left|]; auto|right; exists e'; split; [right|]; auto].
      * intros [H|(e' & [<-|H] & H')]; auto. right. exists e'. auto.
Qed.

(** What is substituted for a variable in a model is what was given for it; else its value, if it is in the cost; else what the last element that
    says something says; else, if it is the model's own, its value. *)
Theorem C67_what_is_substituted : forall own elements cost given descr s descr', Forall element_wf elements -> NoDup (map fst given) ->
  init_costed constant own elements cost given descr = (s, descr') ->
  (forall k, dget (cs_subs s) k = first_said [dget given k; if decide (k ∈ cost) then dget descr k else None;
     last_said (map (says descr k) elements); if decide (k ∈ own) then dget descr k else None]) /\
  (forall k, In k (cs_vks s) <-> In k own \/ In k cost \/ exists e, In e elements /\ In k (match e with Bare vks => vks | Subset s => cs_vks s end)) /\
  NoDup (map fst (cs_subs s)).
Proof.
  intros own elements cost given descr s descr' Hw Hg E. unfold init_costed, init in E.
  pose proof (gather descr elements (CSet own (values descr own)) Hw (NoDup_values _ _)) as (G1 & G2 & G3). cbn zeta in G1, G2, G3.
  set (st := fold_left _ elements _) in *. injection E as <- <-. cbn [cs_subs cs_vks] in *. split; [|split].
  - intros k. rewrite dget_dupdate by (apply NoDup_dupdate, NoDup_values). rewrite dget_dupdate by auto. rewrite dget_values, G2, dget_values.
    cbn [first_said fold_right]. destruct (dget given k); auto.
  - intros k. rewrite in_app_iff, G3. tauto.
  - apply NoDup_dupdate. auto.
Qed.

(** The values left in the variables *)
Lemma take_spec subs vks : forall (descr : list (nat * V)) k, NoDup (dkeys descr) ->
  NoDup (dkeys (take_values constant subs vks descr)) /\
  dget (take_values constant subs vks descr) k = if decide (k ∈ vks /\ k ∈ dkeys subs /\ constant k = false) then None else dget descr k.
Proof.
  unfold take_values. induction vks as [|x vks IH]; intros descr k Hn; cbn [fold_left].
  - split; auto.
  - destruct (dmem subs x && dmem descr x && negb (constant x)) eqn:E.
    + apply andb_true_iff in E as [E1 E2]. apply andb_true_iff in E1 as [E1 E3]. apply negb_true_iff in E2. apply (dmem_In subs) in E1. apply elem_of_list_In in E1.
      destruct (IH (ddel descr x) k (NoDup_ddel descr x Hn)) as [I1 I2]. split; auto. rewrite I2. destruct (Nat.eq_dec k x) as [->|Hne].
      * rewrite (decide_True (P := x ∈ x :: vks /\ _)) by (split; auto using elem_of_list_here). case_decide; auto. apply dget_ddel_eq. auto.
      * rewrite dget_ddel_ne by auto. repeat case_decide; auto; exfalso; rewrite elem_of_cons in *; tauto.
    + destruct (IH descr k Hn) as [I1 I2]. split; auto. rewrite I2. destruct (Nat.eq_dec k x) as [->|Hne].
      * case_decide as H1; case_decide as H2; auto; [exfalso; apply H2; rewrite elem_of_cons; tauto|].
        destruct H2 as (_ & H2 & H3). apply elem_of_list_In in H2. apply (dmem_In subs) in H2. rewrite H2, H3 in E. simpl in E. rewrite andb_true_r in E.
        unfold dmem in E. destruct (dget descr x); congruence.
      * repeat case_decide; auto; exfalso; rewrite elem_of_cons in *; tauto.
Qed.
End Gathering.
Print Assumptions C67_what_is_substituted.

(** ** Sessions *)

(** No operation gives or changes a substitution for [k]. *)
Definition untouched {V} (k : nat) (o : op V) : Prop :=
  match o with Build _ _ _ given => ~ In k (map fst given) | Edit _ k' _ => k' <> k end.
Definition given_ok {V} (o : op V) : Prop := match o with Build _ _ _ given => NoDup (map fst given) | _ => True end.

(** In every set in which it is, a variable has the value that it was declared with. *)
Definition C67_for {V : Type} (ok : (nat -> bool) -> list (nat * V) -> list (op V) -> nat -> Prop) : Prop :=
  forall constant (descr : list (nat * V)) ops k v, NoDup (map fst descr) -> Forall given_ok ops -> Forall (untouched k) ops ->
  dget descr k = Some v -> ok constant descr ops k ->
  forall s, In s (sets (run constant descr ops)) -> In k (cs_vks s) -> dget (cs_subs s) k = Some v.

(** [k] is in the cost, among the own variables or in a constraint that is put directly in the set. *)
Definition direct (k : nat) (own : list nat) (parts : list part) (cost : list nat) : Prop :=
  In k own \/ In k cost \/ exists vks, In (Constr vks) parts /\ In k vks.
(** Whenever a variable that is in a set already is used directly in another, then this contains a set with the variable. *)
Definition nested {V} (constant : nat -> bool) (descr : list (nat * V)) (ops : list (op V)) (k : nat) : Prop :=
  forall pre own parts cost given post, ops = pre ++ Build own parts cost given :: post -> direct k own parts cost ->
  (exists s, In s (sets (run constant descr pre)) /\ In k (cs_vks s)) ->
  exists i s, In (Built i) parts /\ nth_error (sets (run constant descr pre)) i = Some s /\ In k (cs_vks s).

Lemma run_snoc {V} constant (descr : list (nat * V)) ops o : run constant descr (ops ++ [o]) = step constant (run constant descr ops) o.
Proof. unfold run. rewrite fold_left_app. auto. Qed.
Lemma last_said_all {V} (l : list (option V)) v : (forall o, In o l -> o = None \/ o = Some v) -> (exists o, In o l /\ o = Some v) -> last_said l = Some v.
Proof.
  intros Ha. induction l as [|o l IH]; intros (o' & Hi & ->); [destruct Hi|]. simpl.
  destruct (last_said l) as [w|] eqn:E.
  - assert (Hw : In (Some w) l). { clear - E. induction l as [|o l IH]; simpl in *; [discriminate|]. destruct (last_said l); [right; auto|left; auto]. }
    destruct (Ha _ (or_intror Hw)); congruence.
  - destruct Hi as [->|Hi]; auto. exfalso. assert (Hx : None = Some v) by (apply IH; [intros o' Ho; apply Ha; right; auto|eauto]). discriminate Hx.
Qed.
Lemma last_said_none {V} (l : list (option V)) v : (forall o, In o l -> o = None \/ o = Some v) -> last_said l = None \/ last_said l = Some v.
Proof.
  induction l as [|o l IH]; intros Ha; simpl; auto. destruct IH as [-> | ->]; [intros o' Ho; apply Ha; right; auto| |auto]. apply Ha. left. auto.
Qed.
Lemma last_said_nothing {V} (l : list (option V)) : (forall o, In o l -> o = None) -> last_said l = None.
Proof. induction l as [|o l IH]; intros Hn; simpl; auto. rewrite IH by (intros; apply Hn; right; auto). apply Hn. left. auto. Qed.
Lemma resolve_In {V} (st : session V) p e : In e (resolve st p) ->
  (exists vks, p = Constr vks /\ e = Bare vks) \/ (exists i s, p = Built i /\ nth_error (sets st) i = Some s /\ e = Subset s).
Proof.
  destruct p as [vks|i]; simpl; [intros [<-|[]]; left; exists vks; auto|].
  destruct (nth_error (sets st) i) as [s|] eqn:E; [intros [<-|[]]; right; exists i, s; auto|intros []].
Qed.

(** What holds of all sessions: dictionaries stay dictionaries, and variables that are not constants and are in a set have no value of their own left. *)
Lemma session_inv {V} constant (descr : list (nat * V)) ops : NoDup (map fst descr) -> Forall given_ok ops ->
  let st := run constant descr ops in
  NoDup (dkeys (descr_values st)) /\ (forall s, In s (sets st) -> NoDup (dkeys (cs_subs s))) /\
  (forall k, constant k = true -> dget (descr_values st) k = dget descr k) /\
  (forall k, dget (descr_values st) k = None \/ dget (descr_values st) k = dget descr k) /\
  (forall k s, constant k = false -> In s (sets st) -> In k (cs_vks s) -> dget (descr_values st) k = None) /\
  (forall k, dget (descr_values st) k <> dget descr k -> exists s, In s (sets st) /\ In k (cs_vks s)).
Proof.
  intros Hd. induction ops as [|o ops IH] using rev_ind; intros Hg; cbn zeta.
  - simpl. split; auto. split; [intros s []|]. split; auto. split; auto. split; [intros k s _ []|]. congruence.
  - apply Forall_app in Hg as [Hg Ho]. inversion Ho as [|? ? Ho' _]; subst. clear Ho. specialize (IH Hg). cbn zeta in IH. rewrite run_snoc.
    set (st := run constant descr ops) in *. destruct IH as (I1 & I2 & I3 & I4 & I5 & I6). destruct o as [own parts cost given|i k v]; cbn [step].
    + destruct (init_costed constant own (flat_map (resolve st) parts) cost given (descr_values st)) as [s d'] eqn:E.
      assert (Hw : Forall element_wf (flat_map (resolve st) parts)).
      { apply List.Forall_forall. intros e He. apply in_flat_map in He as (p & Hp & He). apply resolve_In in He as [(vks & _ & ->)|(j & s' & _ & Hj & ->)]; simpl; auto.
        apply I2. eapply nth_error_In; eauto. }
      pose proof (C67_what_is_substituted constant _ _ _ _ _ _ _ Hw Ho' E) as (S1 & S2 & S3).
      assert (Ed : d' = take_values constant (cs_subs s) (cs_vks s) (descr_values st)). { unfold init_costed, init in E. injection E as <- <-. reflexivity. }
      assert (Hd' : forall k, dget d' k = if decide (k ∈ cs_vks s /\ k ∈ dkeys (cs_subs s) /\ constant k = false) then None else dget (descr_values st) k).
      { intros k. rewrite Ed. apply take_spec. auto. }
      cbn [sets descr_values]. split; [rewrite Ed; apply (take_spec constant _ _ _ 0 I1)|]. split.
      { intros s' Hs. apply in_app_or in Hs as [Hs|[<-|[]]]; auto. }
      split. { intros k Hk. rewrite Hd'. rewrite decide_False; auto. intros (_ & _ & ?). congruence. }
      split. { intros k. rewrite Hd'. case_decide; auto. }
      split.
      * intros k s' Hk Hs Hin. rewrite Hd'. case_decide as Hdec; auto. apply in_app_or in Hs as [Hs|[<-|[]]]; [apply (I5 k s'); auto|].
        (* it is in the new set: it had no value, or it has a substitution *)
        destruct (dget (descr_values st) k) as [v|] eqn:Ev; auto. exfalso. apply Hdec. split; [apply elem_of_list_In; auto|]. split; auto.
        apply elem_of_list_In. apply (dmem_In (cs_subs s)). unfold dmem. rewrite S1. apply S2 in Hin. cbn [first_said fold_right]. destruct (dget given k); auto.
        destruct (decide (k ∈ cost)) as [|Hnc]; [rewrite Ev; auto|]. destruct (last_said (map (says (descr_values st) k) (flat_map (resolve st) parts))) eqn:El; auto.
        destruct (decide (k ∈ own)) as [|Hno]; [rewrite Ev; auto|]. exfalso. destruct Hin as [Hin|[Hin|(e & He & Hin)]]; [apply Hno, elem_of_list_In; auto|apply Hnc, elem_of_list_In; auto|].
        assert (Hsay : In (says (descr_values st) k e) (map (says (descr_values st) k) (flat_map (resolve st) parts))) by (apply in_map; auto).
        apply in_flat_map in He as (p & Hp & He). apply resolve_In in He as [(vks & _ & ->)|(j & s' & _ & Hj & ->)].
        -- simpl in Hsay. rewrite decide_True in Hsay by (apply elem_of_list_In; auto). rewrite Ev in Hsay. clear - Hsay El.
           induction (map (says (descr_values st) k) (flat_map (resolve st) parts)) as [|o l IH]; [destruct Hsay|]. simpl in El. destruct (last_said l) eqn:E; [discriminate El|].
           destruct Hsay as [->|Hsay]; [discriminate El|auto].
        -- rewrite (I5 k s') in Ev; [discriminate Ev|auto|eapply nth_error_In; eauto|auto].
      * intros k Hk. rewrite Hd' in Hk. case_decide as Hdec.
        -- exists s. split; [apply in_or_app; right; left; auto|]. apply elem_of_list_In. tauto.
        -- destruct (I6 k Hk) as (s' & Hs' & Hin). exists s'. split; auto. apply in_or_app. auto.
    + cbn [descr_values sets]. destruct (nth_error (sets st) i) as [s|] eqn:Ei; [|repeat split; auto].
      assert (Hin : forall s', In s' (firstn i (sets st) ++ CSet (cs_vks s) (dset (cs_subs s) k v) :: skipn (S i) (sets st)) ->
        In s' (sets st) \/ s' = CSet (cs_vks s) (dset (cs_subs s) k v)).
      { intros s' Hs. apply in_app_or in Hs as [Hs|[<-|Hs]]; auto; left; [rewrite <- (firstn_skipn i)|rewrite <- (firstn_skipn (S i))]; apply in_or_app; auto. }
      assert (Hs : In s (sets st)) by (eapply nth_error_In; eauto).
      split; auto. split.
      { intros s' Hs'. apply Hin in Hs' as [Hs'| ->]; auto. apply (NoDup_dset (cs_subs s)). auto. }
      split; auto. split; auto. split.
      { intros k' s' Hk' Hs' Hv'. apply Hin in Hs' as [Hs'| ->]; eauto. }
      intros k' Hk'. destruct (I6 k' Hk') as (s' & Hs' & Hv'). apply In_nth_error in Hs' as (j & Hj). destruct (Nat.eq_dec j i) as [->|Hne].
      * exists (CSet (cs_vks s) (dset (cs_subs s) k v)). split; [apply in_or_app; right; left; auto|]. simpl. congruence.
      * exists s'. split; auto. destruct (Nat.lt_ge_cases j i) as [Hlt|Hge]; apply in_or_app.
        -- left. apply nth_error_In with j. rewrite <- Hj. rewrite <- (firstn_skipn i (sets st)) at 2. rewrite nth_error_app1; auto.
           rewrite firstn_length. assert (j < length (sets st)) by (apply nth_error_Some; congruence). lia.
        -- right. right. apply nth_error_In with (j - S i). rewrite <- Hj. rewrite <- (firstn_skipn (S i) (sets st)) at 2.
           assert (j < length (sets st)) by (apply nth_error_Some; congruence).
           assert (length (firstn (S i) (sets st)) = S i) by (rewrite firstn_length; lia). rewrite nth_error_app2 by lia. f_equal. lia.
Qed.

Theorem C67_value_holds_partial : forall V, C67_for (V := V) (fun constant descr ops k => constant k = true \/ nested constant descr ops k).
Proof.
  intros V constant descr ops k v Hd. induction ops as [|o ops IH] using rev_ind; intros Hg Hu Hv Hok s Hs Hin; [destruct Hs|].
  pose proof Hg as Hgall. apply Forall_app in Hg as [Hg Ho]. inversion Ho as [|? ? Ho' _]; subst. apply Forall_app in Hu as [Hu Huo]. inversion Huo as [|? ? Hu' _]; subst.
  assert (Hok' : constant k = true \/ nested constant descr ops k).
  { destruct Hok as [|Hok]; auto. right. intros pre own parts cost given post E. apply (Hok pre own parts cost given (post ++ [o])). rewrite E, <- app_assoc. auto. }
  specialize (IH Hg Hu Hv Hok'). pose proof (session_inv constant descr ops Hd Hg) as Hinv. cbn zeta in Hinv. rewrite run_snoc in Hs.
  set (st := run constant descr ops) in *. destruct Hinv as (I1 & I2 & I3 & I4 & I5 & I6). destruct o as [own parts cost given|i k' v']; cbn [step] in Hs.
  - destruct (init_costed constant own (flat_map (resolve st) parts) cost given (descr_values st)) as [s0 d'] eqn:E.
    cbn [sets] in Hs. apply in_app_or in Hs as [Hs|[<-|[]]]; [auto|].
    assert (Hw : Forall element_wf (flat_map (resolve st) parts)).
    { apply List.Forall_forall. intros e He. apply in_flat_map in He as (p & Hp & He). apply resolve_In in He as [(vks & _ & ->)|(j & s' & _ & Hj & ->)]; simpl; auto.
      apply I2. eapply nth_error_In; eauto. }
    pose proof (C67_what_is_substituted constant _ _ _ _ _ _ _ Hw Ho' E) as (S1 & S2 & S3).
    rewrite S1. assert (Eg : dget given k = None) by (apply dget_None; exact Hu'). cbn [first_said fold_right]. rewrite Eg.
    assert (Hdv : dget (descr_values st) k = None \/ dget (descr_values st) k = Some v) by (destruct (I4 k) as [-> | ->]; auto).
    assert (Hdv' : dget (descr_values st) k = None -> exists s, In s (sets st) /\ In k (cs_vks s)) by (intros Hx; apply I6; congruence).
    assert (Hsub : forall i s, nth_error (sets st) i = Some s -> In k (cs_vks s) -> dget (cs_subs s) k = Some v) by (intros i s Hi; apply IH; eapply nth_error_In; eauto).
    assert (Hall : forall s, In s (sets st) -> dget (cs_subs s) k = None \/ dget (cs_subs s) k = Some v).
    { clear - Hd Hg Hu Hv IH I2. intros s Hs. destruct (In_dec Nat.eq_dec k (cs_vks s)) as [Hi|Hi]; [right; auto|]. left.
      (* substitutions are for variables in the set, as none is given or changed *)
      assert (G : forall ops, Forall given_ok ops -> Forall (untouched k) ops -> forall s, In s (sets (run constant descr ops)) -> ~ In k (cs_vks s) -> dget (cs_subs s) k = None).
      { clear - Hd. intros ops. induction ops as [|o ops IH] using rev_ind; intros Hg Hu s Hs Hni; [destruct Hs|].
        apply Forall_app in Hg as [Hg Ho]. inversion Ho as [|? ? Ho' _]; subst. apply Forall_app in Hu as [Hu Huo]. inversion Huo as [|? ? Hu' _]; subst.
        specialize (IH Hg Hu). pose proof (session_inv constant descr ops Hd Hg) as (I1 & I2 & _). rewrite run_snoc in Hs. set (st := run constant descr ops) in *.
        destruct o as [own parts cost given|i k' v']; cbn [step] in Hs.
        - destruct (init_costed constant own (flat_map (resolve st) parts) cost given (descr_values st)) as [s0 d'] eqn:E.
          cbn [sets] in Hs. apply in_app_or in Hs as [Hs|[<-|[]]]; [auto|].
          assert (Hw : Forall element_wf (flat_map (resolve st) parts)).
          { apply List.Forall_forall. intros e He. apply in_flat_map in He as (p & Hp & He). apply resolve_In in He as [(vks & _ & ->)|(j & s' & _ & Hj & ->)]; simpl; auto.
            apply I2. eapply nth_error_In; eauto. }
          pose proof (C67_what_is_substituted constant _ _ _ _ _ _ _ Hw Ho' E) as (S1 & S2 & S3). rewrite S1.
          assert (Eg : dget given k = None) by (apply dget_None; exact Hu'). cbn [first_said fold_right]. rewrite Eg.
          rewrite decide_False by (intros Hx; apply Hni, S2; right; left; apply elem_of_list_In; auto).
          assert (El : last_said (map (says (descr_values st) k) (flat_map (resolve st) parts)) = None).
          { assert (Hn : forall o, In o (map (says (descr_values st) k) (flat_map (resolve st) parts)) -> o = None).
            { intros o Hoo. apply in_map_iff in Hoo as (e & <- & He). assert (Hke : ~ In k (match e with Bare vks => vks | Subset s => cs_vks s end)).
              { intros Hx. apply Hni, S2. right. right. exists e. auto. }
              apply in_flat_map in He as (p & Hp & He). apply resolve_In in He as [(vks & _ & ->)|(j & s' & _ & Hj & ->)]; simpl.
              - rewrite decide_False; auto. rewrite elem_of_list_In. auto.
              - apply IH; auto. eapply nth_error_In; eauto. }
            apply last_said_nothing. exact Hn. }
          rewrite El. rewrite decide_False; auto. intros Hx; apply Hni, S2; left; apply elem_of_list_In; auto.
        - destruct (nth_error (sets st) i) as [s1|] eqn:Ei; [|auto]. cbn [sets] in Hs. apply in_app_or in Hs as [Hs|[<-|Hs]].
          + apply IH; auto. rewrite <- (firstn_skipn i). apply in_or_app. auto.
          + simpl in *. rewrite dget_dset_ne by (simpl in Hu'; congruence). apply IH; auto. eapply nth_error_In; eauto.
          + apply IH; auto. rewrite <- (firstn_skipn (S i)). apply in_or_app. auto. }
      apply (G ops); auto. }
    assert (Hsays : forall o, In o (map (says (descr_values st) k) (flat_map (resolve st) parts)) -> o = None \/ o = Some v).
    { intros o Hi. apply in_map_iff in Hi as (e & <- & He). apply in_flat_map in He as (p & Hp & He).
      apply resolve_In in He as [(vks & _ & ->)|(j & s' & _ & Hj & ->)]; simpl; [case_decide; auto|]. apply Hall. eapply nth_error_In; eauto. }
    assert (Hcase : direct k own parts cost -> dget (descr_values st) k = Some v \/ last_said (map (says (descr_values st) k) (flat_map (resolve st) parts)) = Some v).
    { intros Hdir. destruct Hdv as [Hnone|]; auto. right. destruct Hok as [Hc|Hnest]; [rewrite I3 in Hnone by auto; congruence|].
      destruct (Hnest ops own parts cost given [] eq_refl Hdir (Hdv' Hnone)) as (i & s' & Hi & Hs' & Hk). apply last_said_all; auto.
      exists (Some v). split; auto. apply in_map_iff. exists (Subset s'). split; [simpl; eapply Hsub; eauto|].
      apply in_flat_map. exists (Built i). split; auto. simpl. change (sets (run constant descr ops)) with (sets st) in Hs'. rewrite Hs'. left. auto. }
    assert (Hlast := last_said_none _ _ Hsays).
    apply S2 in Hin as [Hin|[Hin|(e & He & Hin)]].
    + destruct (Hcase (or_introl Hin)) as [Hx|Hx]; [|rewrite Hx; destruct (decide (k ∈ cost)); auto; destruct Hdv as [-> | ->]; auto].
      rewrite Hx. destruct (decide (k ∈ cost)); auto. destruct Hlast as [-> | ->]; auto. rewrite decide_True; auto. apply elem_of_list_In. auto.
    + destruct (Hcase (or_intror (or_introl Hin))) as [Hx|Hx].
      * rewrite decide_True by (apply elem_of_list_In; auto). rewrite Hx. auto.
      * rewrite Hx. destruct (decide (k ∈ cost)); auto. destruct Hdv as [-> | ->]; auto.
    + assert (Hlast' : last_said (map (says (descr_values st) k) (flat_map (resolve st) parts)) = Some v).
      { pose proof He as He0. apply in_flat_map in He0 as (p & Hp & He0). apply resolve_In in He0 as [(vks & Ep & Ee)|(j & s' & Ep & Hj & Ee)].
        - subst p e. destruct (Hcase (or_intror (or_intror (ex_intro _ vks (conj Hp Hin))))) as [Hx|Hx]; auto.
          apply last_said_all; auto. exists (Some v). split; auto. apply in_map_iff. exists (Bare vks). split; auto. simpl. rewrite decide_True by (apply elem_of_list_In; auto). auto.
        - subst p e. apply last_said_all; auto. exists (Some v). split; auto. apply in_map_iff. exists (Subset s'). split; auto. simpl. eapply Hsub; eauto. }
      rewrite Hlast'. destruct (decide (k ∈ cost)); auto. destruct Hdv as [-> | ->]; auto.
  - destruct (nth_error (sets st) i) as [s1|] eqn:Ei; [|auto]. cbn [sets] in Hs. apply in_app_or in Hs as [Hs|[<-|Hs]].
    + apply IH; auto. rewrite <- (firstn_skipn i). apply in_or_app. auto.
    + simpl in *. rewrite dget_dset_ne by congruence. apply IH; auto. eapply nth_error_In; eauto.
    + apply IH; auto. rewrite <- (firstn_skipn (S i)). apply in_or_app. auto.
Qed.
Print Assumptions C67_value_holds_partial.

(** Two models of the same variable: in the second it has no value. *)
Definition two_models : list (op nat) := [Build [] [Constr [1]] [1] []; Build [] [Constr [1; 2]] [2] []].
Theorem C67_second_model_refuted : ~ C67_for (V := nat) (fun _ _ _ _ => True).
Proof.
  intros Hf. specialize (Hf (fun _ => false) [(1, 3)] two_models 1 3).
  assert (Hn : NoDup (map fst [(1, 3)])) by (apply (bool_decide_unpack _); vm_compute; exact I).
  assert (E : sets (run (fun _ => false) [(1, 3)] two_models) = [CSet [1; 1] [(1, 3)]; CSet [1; 2; 2] []]) by (vm_compute; reflexivity).
  rewrite E in Hf. assert (Hg : Forall given_ok two_models) by (repeat constructor). assert (Hu : Forall (untouched 1) two_models) by (repeat constructor; simpl; tauto).
  specialize (Hf Hn Hg Hu eq_refl I (CSet [1; 2; 2] []) (or_intror (or_introl eq_refl)) (or_introl eq_refl)). discriminate Hf.
Qed.
Print Assumptions C67_second_model_refuted.

(** Non-vacuity: a model in a model, and a constant in two models *)
Definition nested_models : list (op nat) := [Build [] [Constr [1]] [1] []; Build [] [Built 0; Constr [1; 2]] [2] []].
Example C67_nonvacuous : nested (fun _ => false) [(1, 3)] nested_models 1 /\
  sets (run (fun _ => false) [(1, 3)] nested_models) = [CSet [1; 1] [(1, 3)]; CSet [1; 1; 1; 2; 2] [(1, 3)]] /\
  map (fun s => dget (cs_subs s) 1) (sets (run (fun _ => true) [(1, 3)] two_models)) = [Some 3; Some 3].
Proof.
  split; [|vm_compute; auto]. intros pre own parts cost given post E Hdir (s & Hs & _). unfold nested_models in E. destruct pre as [|o [|o2 [|o3 pre]]]; simpl in E.
  - destruct Hs.
  - injection E as <- <- <- <- <- <-. exists 0, (CSet [1; 1] [(1, 3)]). split; [left; auto|]. split; [vm_compute; reflexivity|left; auto].
  - discriminate E.
  - injection E as _ _ E. destruct pre; discriminate E.
Qed.

(** ** C68: substitutions made in a model carry over to models that contain it *)
Definition C68_for {V : Type} (ok : (nat -> bool) -> nat -> Prop) : Prop :=
  forall constant (descr : list (nat * V)) ops own parts cost given k v i s, NoDup (map fst descr) -> Forall given_ok ops -> NoDup (map fst given) -> ok constant k ->
  let st := run constant descr ops in
  nth_error (sets st) i = Some s -> In (Built i) parts -> In k (cs_vks s) -> dget (cs_subs s) k = Some v ->
  (forall j s', In (Built j) parts -> nth_error (sets st) j = Some s' -> dget (cs_subs s') k = None \/ dget (cs_subs s') k = Some v) ->   (* no other model disagrees *)
  ~ In k (map fst given) ->
  exists s', nth_error (sets (run constant descr (ops ++ [Build own parts cost given]))) (length (sets st)) = Some s' /\ dget (cs_subs s') k = Some v.

Theorem C68_carried_over_partial : forall V, C68_for (V := V) (fun constant k => constant k = false).
Proof.
  intros V constant descr ops own parts cost given k v i s Hd Hg Hgiven Hk st Hi Hp Hin Hv Hall Hng.
  pose proof (session_inv constant descr ops Hd Hg) as (I1 & I2 & I3 & I4 & I5 & I6). fold st in I1, I2, I3, I4, I5, I6. rewrite run_snoc. fold st. cbn [step].
  destruct (init_costed constant own (flat_map (resolve st) parts) cost given (descr_values st)) as [s0 d'] eqn:E. exists s0. cbn [sets].
  split; [rewrite nth_error_app2, Nat.sub_diag; auto|].
  assert (Hw : Forall element_wf (flat_map (resolve st) parts)).
  { apply List.Forall_forall. intros e He. apply in_flat_map in He as (p & Hpp & He). apply resolve_In in He as [(vks & _ & ->)|(j & s' & _ & Hj & ->)]; simpl; auto.
    apply I2. eapply nth_error_In; eauto. }
  pose proof (C67_what_is_substituted constant _ _ _ _ _ _ _ Hw Hgiven E) as (S1 & _ & _). rewrite S1.
  assert (Eg : dget given k = None) by (apply dget_None; exact Hng). cbn [first_said fold_right]. rewrite Eg.
  assert (Hnone : dget (descr_values st) k = None) by (eapply I5; eauto; eapply nth_error_In; eauto). rewrite Hnone.
  assert (Hl : last_said (map (says (descr_values st) k) (flat_map (resolve st) parts)) = Some v).
  { apply last_said_all.
    - intros o Ho. apply in_map_iff in Ho as (e & <- & He). apply in_flat_map in He as (p & Hpp & He).
      apply resolve_In in He as [(vks & -> & ->)|(j & s' & -> & Hj & ->)]; simpl; [case_decide; auto|eauto].
    - exists (Some v). split; auto. apply in_map_iff. exists (Subset s). split; auto. apply in_flat_map. exists (Built i). split; auto. simpl. rewrite Hi. left. auto. }
  rewrite Hl. destruct (decide (k ∈ cost)); auto.
Qed.
Print Assumptions C68_carried_over_partial.

(** A variable declared with [constant=True]: the substitution changed in a model is back to the declared value in a model that contains it and has the
    variable in its cost, or in a constraint listed after it. *)
Theorem C68_constants_in_cost_refuted : ~ C68_for (V := nat) (fun constant k => constant k = true).
Proof.
  intros Hf. specialize (Hf (fun _ => true) [(1, 3)] [Build [] [Constr [1]] [2] []; Edit 0 1 5] [] [Built 0] [1] [] 1 5 0 (CSet [1; 2] [(1, 5)])).
  assert (Hn : NoDup (map fst [(1, 3)])) by (apply (bool_decide_unpack _); vm_compute; exact I).
  destruct Hf as (s' & Hs & Hv); auto.
  - repeat constructor.
  - constructor.
  - left; auto.
  - left; auto.
  - intros j s' [E|[]] Hj. injection E as <-. vm_compute in Hj. injection Hj as <-. right. auto.
  - vm_compute in Hs. injection Hs as <-. vm_compute in Hv. discriminate Hv.
Qed.
Print Assumptions C68_constants_in_cost_refuted.
Theorem C68_order_of_constraints : exists (ops : list (op nat)) given_before given_after,
  let st := run (fun _ => true) [(1, 3)] ops in
  given_before = dget (cs_subs (fst (init_costed (fun _ => true) [] (flat_map (resolve st) [Built 0; Constr [1]]) [] [] (descr_values st)))) 1 /\
  given_after = dget (cs_subs (fst (init_costed (fun _ => true) [] (flat_map (resolve st) [Constr [1]; Built 0]) [] [] (descr_values st)))) 1 /\
  given_before = Some 3 /\ given_after = Some 5.
Proof. exists [Build [] [Constr [1]] [2] []; Edit 0 1 5]. eexists _, _. vm_compute. auto. Qed.

(** Non-vacuity: a changed substitution of a variable that is no constant *)
Example C68_nonvacuous : exists s s', sets (run (fun _ => false) [(1, 3)] [Build [] [Constr [1]] [2] []; Edit 0 1 5; Build [] [Constr [1]; Built 0] [1] []]) = [s; s'] /\
  dget (cs_subs s) 1 = Some 5 /\ dget (cs_subs s') 1 = Some 5.
Proof. eexists _, _. split; [vm_compute; reflexivity|]. vm_compute. auto. Qed.
