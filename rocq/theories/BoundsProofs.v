(** Proofs about bounds. *)
From Coq Require Import Classical_Prop Permutation.
From Verif Require Import Base HashVec Nomial NomialSem NomialProofs Constraint GPGen GPGenProofs Bounds BoundsSem.
Open Scope nat_scope.

Lemma bmem_In b s : bmem b s = true <-> In b s.
Proof.
  unfold bmem. rewrite existsb_exists. split.
  - intros (x & Hx & E). apply bool_decide_eq_true in E. subst; auto.
  - intros Hb. exists b. split; auto. apply bool_decide_eq_true; auto.
Qed.
Lemma bmem_false b s : bmem b s = false <-> ~ In b s.
Proof. rewrite <- bmem_In. destruct (bmem b s); split; congruence. Qed.
Lemma bdel_In b s x : In x (bdel b s) <-> In x s /\ x <> b.
Proof.
  unfold bdel. rewrite filter_In, negb_true_iff. split; intros [Hx E]; split; auto.
  - intros ->. apply bool_decide_eq_false in E. auto.
  - apply bool_decide_eq_false. auto.
Qed.
Lemma bdel_nil b s : bdel b s = [] <-> forall x, In x s -> x = b.
Proof.
  split.
  - intros E x Hx. destruct (decide (x = b)); auto. exfalso.
    assert (Hi : In x (bdel b s)) by (apply bdel_In; auto). rewrite E in Hi. destruct Hi.
  - intros Hs. destruct (bdel b s) as [|x l] eqn:E; auto. exfalso.
    assert (Hi : In x (bdel b s)) by (rewrite E; left; auto). apply bdel_In in Hi as [Hi Hn]. auto.
Qed.

Lemma conds_of_ddel q b x : NoDup (dkeys q) -> conds_of (ddel q b) x = if decide (x = b) then [] else conds_of q x.
Proof.
  intros Hn. unfold conds_of. destruct (decide (x = b)) as [->|Hne].
  - rewrite dget_ddel_eq; auto.
  - rewrite dget_ddel_ne; auto.
Qed.
Lemma conds_of_In q b c : In c (conds_of q b) -> In b (dkeys q).
Proof.
  unfold conds_of. destruct (dget q b) eqn:E; [|intros []]. intros _. eapply dget_In_keys; eauto.
Qed.
Lemma length_ddel_key {V} (q : list (bound * V)) b : In b (dkeys q) -> S (length (ddel q b)) = length q.
Proof.
  induction q as [|[a v] q IH]; cbn; [intros []|]. destruct (decide (b = a)); cbn; auto.
  intros [->|Hi]; [congruence|]. auto.
Qed.
Lemma length_ddel_le {V} (q : list (bound * V)) b : length (ddel q b) <= length q.
Proof. induction q as [|[a v] q IH]; cbn; [lia|]. destruct (decide (b = a)); cbn; lia. Qed.

(** ** ConstraintSet's bounds *)
Section Closure.
Implicit Types (s : list bound) (q : conds).

Lemma closure_mono (P P' : bound -> Prop) (Q Q' : bound -> list bound -> Prop) :
  (forall b, P b -> closure P' Q' b) ->
  (forall b c, Q b c -> (forall x, In x c -> closure P' Q' x) -> closure P' Q' b) ->
  forall b, closure P Q b -> closure P' Q' b.
Proof.
  intros HP HQ. fix IH 2. intros b [b' Hb|b' c Hr Hc]; [auto|].
  apply (HQ b' c Hr). intros x Hx. apply IH. auto.
Qed.

Definition rule_of q (b : bound) (c : list bound) : Prop := In c (conds_of q b).

(** The same consequences whatever else is known. *)
Definition ctxeq s q s' q' : Prop := forall (X : bound -> Prop) (Y : bound -> list bound -> Prop) b,
  closure (fun b => In b s \/ X b) (fun b c => rule_of q b c \/ Y b c) b <->
  closure (fun b => In b s' \/ X b) (fun b c => rule_of q' b c \/ Y b c) b.

Lemma ctxeq_refl s q : ctxeq s q s q.
Proof. intros X Y b. tauto. Qed.
Lemma ctxeq_trans s1 q1 s2 q2 s3 q3 : ctxeq s1 q1 s2 q2 -> ctxeq s2 q2 s3 q3 -> ctxeq s1 q1 s3 q3.
Proof. intros H1 H2 X Y b. rewrite (H1 X Y b). apply H2. Qed.

Lemma add_step_ok s q alive b : NoDup (dkeys q) ->
  let '(s', q', alive') := add_step (s, q, alive) b in
  NoDup (dkeys q') /\ ctxeq s q s' q' /\ (length q' <= length q) /\
  (alive' = true -> alive = true \/ length q' < length q) /\
  (alive = true -> alive' = true) /\
  (alive' = false -> s' = s /\ (In b s -> conds_of q' b = []) /\
     (~ In b s -> forall c, In c (conds_of q b) -> ~ forall x, In x c -> In x s)) /\
  (forall x, x <> b -> conds_of q' x = conds_of q x) /\ (forall c, In c (conds_of q' b) -> In c (conds_of q b)).
Proof.
  intros Hn. cbn [add_step]. destruct (bmem b s) eqn:Eb.
  - apply bmem_In in Eb. split; [apply NoDup_ddel; auto|]. split; [|split; [apply length_ddel_le|split; [auto|split; [auto|split; [|split]]]]].
    + intros X Y x. split; apply closure_mono.
      * intros y Hy. apply cl_base; auto.
      * intros y c [Hr|Hy] Hc.
        -- destruct (decide (y = b)) as [->|Hne]; [apply cl_base; auto|].
           apply (cl_rule _ _ y c); auto. left. unfold rule_of. rewrite conds_of_ddel by auto. rewrite decide_False; auto.
        -- apply (cl_rule _ _ y c); auto.
      * intros y Hy. apply cl_base; auto.
      * intros y c [Hr|Hy] Hc; [|apply (cl_rule _ _ y c); auto].
        unfold rule_of in Hr. rewrite conds_of_ddel in Hr by auto. destruct (decide (y = b)); [destruct Hr|].
        apply (cl_rule _ _ y c); auto; left; auto.
    + intros _. split; auto. split; [intros _; rewrite conds_of_ddel, decide_True by auto; auto|contradiction].
    + intros x Hx. rewrite conds_of_ddel, decide_False by auto. auto.
    + intros c. rewrite conds_of_ddel, decide_True by auto. intros [].
  - apply bmem_false in Eb.
    destruct (existsb (fun c => forallb (fun x => bmem x s) c) (conds_of q b)) eqn:Ec.
    + apply existsb_exists in Ec as (c & Hc & Hall). rewrite forallb_forall in Hall.
      assert (Hin : forall x, In x c -> In x s) by (intros x Hx; apply bmem_In; auto).
      pose proof (length_ddel_key q b (conds_of_In _ _ _ Hc)) as Hlen.
      split; [apply NoDup_ddel; auto|]. split; [|split; [lia|split; [intros _; right; lia|split; [auto|split; [discriminate|split]]]]].
      * intros X Y x. split; apply closure_mono.
        -- intros y [Hy|Hy]; apply cl_base; [left; apply in_app_iff; auto|right; auto].
        -- intros y c' [Hr|Hy] Hc'.
           ++ destruct (decide (y = b)) as [->|Hne]; [apply cl_base; left; apply in_app_iff; right; left; auto|].
              apply (cl_rule _ _ y c'); auto. left. unfold rule_of. rewrite conds_of_ddel by auto. rewrite decide_False; auto.
           ++ apply (cl_rule _ _ y c'); auto.
        -- intros y [Hy|Hy]; [|apply cl_base; auto]. apply in_app_iff in Hy as [Hy|[<-|[]]]; [apply cl_base; auto|].
           apply (cl_rule _ _ b c); [left; auto|]. intros z Hz. apply cl_base. auto.
        -- intros y c' [Hr|Hy] Hc'; [|apply (cl_rule _ _ y c'); auto].
           unfold rule_of in Hr. rewrite conds_of_ddel in Hr by auto. destruct (decide (y = b)); [destruct Hr|].
           apply (cl_rule _ _ y c'); auto; left; auto.
      * intros x Hx. rewrite conds_of_ddel, decide_False by auto. auto.
      * intros c'. rewrite conds_of_ddel, decide_True by auto. intros [].
    + split; auto. split; [apply ctxeq_refl|]. split; [lia|]. split; [auto|]. split; [auto|]. split; [|auto].
      intros _. split; auto. split; [contradiction|]. intros _ c Hc Hall.
      assert (Ht : existsb (fun c => forallb (fun x => bmem x s) c) (conds_of q b) = true).
      { apply existsb_exists. exists c. split; auto. apply forallb_forall. intros x Hx. apply bmem_In. auto. }
      congruence.
Qed.

Lemma add_pass_ok ks : forall s q alive, NoDup (dkeys q) -> List.NoDup ks ->
  let '(s', q', alive') := fold_left add_step ks (s, q, alive) in
  NoDup (dkeys q') /\ ctxeq s q s' q' /\ (length q' <= length q) /\
  (alive' = true -> alive = true \/ length q' < length q) /\
  (alive = true -> alive' = true) /\
  (alive' = false -> s' = s /\
     forall b, In b ks -> ~ In b s -> forall c, In c (conds_of q b) -> ~ forall x, In x c -> In x s) /\
  (forall b c, In c (conds_of q' b) -> In c (conds_of q b)).
Proof.
  induction ks as [|b ks IH]; intros s q alive Hn Hk; cbn [fold_left].
  - split; auto. split; [apply ctxeq_refl|]. split; [lia|]. split; [auto|]. split; [auto|]. split; [intros _; split; [auto|intros b []]|auto].
  - inversion Hk as [|? ? Hb Hk']; subst. pose proof (add_step_ok s q alive b Hn) as H1.
    destruct (add_step (s, q, alive) b) as [[s1 q1] a1]. destruct H1 as (N1 & C1 & L1 & A1 & M1 & F1 & S1 & S1').
    specialize (IH s1 q1 a1 N1 Hk'). destruct (fold_left add_step ks (s1, q1, a1)) as [[s2 q2] a2].
    destruct IH as (N2 & C2 & L2 & A2 & M2 & F2 & S2).
    split; auto. split; [eapply ctxeq_trans; eauto|]. split; [lia|]. split; [|split; [auto|split]].
    + intros Ha. destruct (A2 Ha) as [Ha1|Hl]; [|right; lia]. destruct (A1 Ha1) as [|Hl]; [auto|right; lia].
    + intros Ha2. assert (Ha1 : a1 = false) by (destruct a1; auto; specialize (M2 eq_refl); congruence).
      destruct (F1 Ha1) as (-> & Fin & Fout). destruct (F2 Ha2) as (-> & F). split; auto.
      intros x [<-|Hx] Hns c Hc; [apply Fout; auto|].
      assert (x <> b) by (intros ->; contradiction). apply (F x); auto. rewrite S1; auto.
    + intros x c Hc. apply S2 in Hc. destruct (decide (x = b)) as [->|Hne]; [auto|rewrite S1 in Hc; auto].
Qed.

Lemma add_loop_ok n : forall s q fuel, NoDup (dkeys q) -> length q < n -> n <= fuel ->
  exists s' q', add_meq_bounds fuel s q = Some (s', q') /\ NoDup (dkeys q') /\ ctxeq s q s' q' /\
    forall b c, ~ In b s' -> In c (conds_of q' b) -> ~ forall x, In x c -> In x s'.
Proof.
  induction n as [|n IH]; intros s q fuel Hn Hl Hf; [lia|]. destruct fuel as [|fuel]; [lia|]. cbn [add_meq_bounds].
  assert (Hk : List.NoDup (dkeys q)) by (apply NoDup_ListNoDup; auto).
  pose proof (add_pass_ok (dkeys q) s q false Hn Hk) as H1.
  destruct (fold_left add_step (dkeys q) (s, q, false)) as [[s1 q1] a1]. destruct H1 as (N1 & C1 & L1 & A1 & M1 & F1 & S1).
  destruct a1.
  - destruct (A1 eq_refl) as [|Hlt]; [discriminate|].
    destruct (IH s1 q1 fuel N1) as (s' & q' & E & N' & C' & F'); [lia|lia|].
    exists s', q'. split; auto. split; auto. split; auto. eapply ctxeq_trans; eauto.
  - destruct (F1 eq_refl) as [-> F]. exists s, q1. split; auto. split; auto. split; auto.
    intros b c Hb Hc. apply S1 in Hc. apply (F b); auto. eapply conds_of_In; eauto.
Qed.

(** The result is the closure. *)
Lemma closed_closure s q : (forall b c, ~ In b s -> In c (conds_of q b) -> ~ forall x, In x c -> In x s) ->
  forall b, closure (fun b => In b s) (rule_of q) b <-> In b s.
Proof.
  intros Hc b. split; [|intros Hb; apply cl_base; exact Hb]. revert b. fix IH 2. intros b [b' Hb|b' c Hr Hall]; auto.
  destruct (bmem b' s) eqn:E; [apply bmem_In; auto|]. apply bmem_false in E. exfalso. apply (Hc b' c E Hr).
  intros x Hx. apply IH. auto.
Qed.
Lemma closure_ext (P P' : bound -> Prop) (Q Q' : bound -> list bound -> Prop) :
  (forall b, P b <-> P' b) -> (forall b c, Q b c <-> Q' b c) -> forall b, closure P Q b <-> closure P' Q' b.
Proof.
  intros HP HQ b. split; apply closure_mono.
  - intros x Hx. apply cl_base, HP, Hx.
  - intros x c Hx Hc. apply (cl_rule _ _ x c); [apply HQ; auto|auto].
  - intros x Hx. apply cl_base, HP, Hx.
  - intros x c Hx Hc. apply (cl_rule _ _ x c); [apply HQ; auto|auto].
Qed.

(** Merging. *)
Lemma rule_of_update q q' b c : In c (conds_of (conds_update q q') b) <->
  In c (conds_of q b) \/ exists cs, In (b, cs) q' /\ In c cs.
Proof.
  unfold conds_update. revert q. induction q' as [|[b' cs'] q' IH]; intros q; cbn [fold_left fst snd].
  - split; auto. intros [|(cs & [] & _)]; auto.
  - rewrite IH. unfold conds_of at 1. rewrite dget_dset. split.
    + intros [Hc|(cs & Hi & Hc)]; [|right; exists cs; split; [right; auto|auto]].
      destruct (decide (b = b')) as [->|Hne]; [|left; exact Hc]. apply in_app_iff in Hc as [Hc|Hc]; [left; auto|].
      right. exists cs'. split; [left; auto|auto].
    + intros [Hc|(cs & [[= <- <-]|Hi] & Hc)].
      * left. destruct (decide (b = b')) as [->|]; [apply in_app_iff; auto|exact Hc].
      * left. rewrite decide_True by auto. apply in_app_iff. auto.
      * right. eauto.
Qed.
Lemma nodup_update q q' : NoDup (dkeys q) -> NoDup (dkeys (conds_update q q')).
Proof.
  unfold conds_update. revert q. induction q' as [|bc q' IH]; intros q Hn; cbn [fold_left]; auto.
  apply IH, NoDup_dset, Hn.
Qed.
Lemma rule_of_nodup q b c : NoDup (dkeys q) -> rule_of q b c <-> exists cs, In (b, cs) q /\ In c cs.
Proof.
  intros Hn. unfold rule_of, conds_of. split.
  - destruct (dget q b) eqn:E; [|intros []]. intros Hc. exists l. split; auto. apply dget_In; auto.
  - intros (cs & Hi & Hc). rewrite (In_dget q b cs Hn Hi). auto.
Qed.

(** ** A tree of constraint sets *)
Definition any_base (ts : list ctree) (b : bound) : Prop := exists t, In t ts /\ tree_base t b.
Definition any_rule (ts : list ctree) (b : bound) (c : list bound) : Prop := exists t, In t ts /\ tree_rule t b c.
Lemma tree_base_node ts subs b : tree_base (CNode ts subs) b <-> any_base ts b \/ In (fst b) subs.
Proof.
  cbn [tree_base]. assert (E : (fix any (ts : list ctree) : Prop :=
         match ts with [] => False | t :: ts' => tree_base t b \/ any ts' end) ts <-> any_base ts b); [|tauto].
  unfold any_base. induction ts as [|t ts IH]; [split; [intros []|intros (t & [] & _)]|]. rewrite IH. split.
  - intros [Ht|(t' & Hi & Ht)]; [exists t; cbn; auto|exists t'; cbn; auto].
  - intros (t' & [<-|Hi] & Ht); [auto|right; eauto].
Qed.
Lemma tree_rule_node ts subs b c : tree_rule (CNode ts subs) b c <-> any_rule ts b c.
Proof.
  cbn [tree_rule]. unfold any_rule. induction ts as [|t ts IH]; [split; [intros []|intros (t & [] & _)]|]. rewrite IH. split.
  - intros [Ht|(t' & Hi & Ht)]; [exists t; cbn; auto|exists t'; cbn; auto].
  - intros (t' & [<-|Hi] & Ht); [auto|right; eauto].
Qed.

(** Enough fuel for every set of the tree. *)
Definition rules_of (q : conds) (b : bound) (c : list bound) : Prop := exists cs, In (b, cs) q /\ In c cs.

(** The result of a tree stands for the tree in any context. *)
Definition stands (t : ctree) (s : list bound) (q : conds) : Prop :=
  forall (X : bound -> Prop) (Y : bound -> list bound -> Prop) b,
  closure (fun b => In b s \/ X b) (fun b c => rules_of q b c \/ Y b c) b <->
  closure (fun b => tree_base t b \/ X b) (fun b c => tree_rule t b c \/ Y b c) b.

Fixpoint all_sets (fuel : nat) (ts : list ctree) (bounded : list bound) (q : conds) : option (list bound * conds) :=
  match ts with
  | [] => Some (bounded, q)
  | t :: ts' =>
      match cset_bounds fuel t with
      | Some (b', q') => all_sets fuel ts' (bounded ++ b') (conds_update q q')
      | None => None
      end
  end.
Lemma cset_bounds_node fuel ts subs : cset_bounds fuel (CNode ts subs) =
  match all_sets fuel ts [] [] with
  | Some (bounded, q) => add_meq_bounds fuel (bounded ++ flat_map (fun k => [(k, true); (k, false)]) subs) q
  | None => None
  end.
Proof.
  cbn [cset_bounds].
  assert (E : forall ts s q, (fix all (ts : list ctree) (bounded : list bound) (q : conds) {struct ts} : option (list bound * conds) :=
        match ts with
        | [] => Some (bounded, q)
        | t :: ts' =>
            match cset_bounds fuel t with
            | Some (b', q') => all ts' (bounded ++ b') (conds_update q q')
            | None => None
            end
        end) ts s q = all_sets fuel ts s q).
  { induction ts0 as [|t ts0 IH]; intros s q; cbn [all_sets]; auto. destruct (cset_bounds fuel t) as [[b' q']|]; auto. }
  rewrite E. reflexivity.
Qed.

Fixpoint ctree_rect' (P : ctree -> Prop) (HL : forall b q, P (CLeaf b q))
  (HN : forall ts subs, Forall P ts -> P (CNode ts subs)) (t : ctree) : P t :=
  match t with
  | CLeaf b q => HL b q
  | CNode ts subs => HN ts subs ((fix go (ts : list ctree) : Forall P ts :=
      match ts with [] => Forall_nil_2 P | t :: ts' => Forall_cons_2 P t ts' (ctree_rect' P HL HN t) (go ts') end) ts)
  end.

Lemma length_update q q' : length (conds_update q q') <= length q + length q'.
Proof.
  unfold conds_update. revert q. induction q' as [|bc q' IH]; intros q; cbn [fold_left length]; [lia|].
  eapply Nat.le_trans; [apply IH|]. assert (Hl : forall (d : conds) k v, length (dset d k v) <= S (length d)).
  { clear. intros d k v. induction d as [|[a b] d IH]; cbn; [lia|]. destruct (decide (k = a)); cbn; lia. }
  specialize (Hl q (fst bc) (conds_of q (fst bc) ++ snd bc)). lia.
Qed.

Lemma tree_ok t : forall fuel, count_conditional t < fuel -> exists s q, cset_bounds fuel t = Some (s, q) /\ stands t s q /\
  length q <= count_conditional t /\
  match t with CNode _ _ => NoDup (dkeys q) /\ forall b c, ~ In b s -> In c (conds_of q b) -> ~ forall x, In x c -> In x s | _ => True end.
Proof.
  induction t as [b0 q0|ts subs IH] using ctree_rect'; intros fuel Hfuel.
  - exists b0, q0. split; auto. split; [|split; [cbn; lia|auto]]. intros X Y b. cbn [tree_base tree_rule]. unfold rules_of. tauto.
  - rewrite cset_bounds_node.
    assert (HA : forall ts0, Forall (fun t => forall fuel, count_conditional t < fuel -> exists s q, cset_bounds fuel t = Some (s, q) /\ stands t s q /\
                    length q <= count_conditional t /\
                    match t with CNode _ _ => NoDup (dkeys q) /\ forall b c, ~ In b s -> In c (conds_of q b) -> ~ forall x, In x c -> In x s | _ => True end) ts0 ->
      forall s0 q0, count_conditional (CNode ts0 subs) < fuel -> NoDup (dkeys q0) ->
      exists s q, all_sets fuel ts0 s0 q0 = Some (s, q) /\ NoDup (dkeys q) /\ length q <= length q0 + count_conditional (CNode ts0 subs) /\
        forall (X : bound -> Prop) (Y : bound -> list bound -> Prop) b,
        closure (fun b => In b s \/ X b) (fun b c => rule_of q b c \/ Y b c) b <->
        closure (fun b => (In b s0 \/ any_base ts0 b) \/ X b) (fun b c => (rule_of q0 b c \/ any_rule ts0 b c) \/ Y b c) b).
    { clear. induction 1 as [|t ts0 Ht Hts IH]; intros s0 q0 Hd Hn.
      - exists s0, q0. cbn [all_sets]. split; auto. split; auto. split; [lia|]. intros X Y b. apply closure_ext.
        + intros x. split; [tauto|]. intros [[Hx|Hx]|Hx]; [auto|destruct Hx as (t & [] & _)|auto].
        + intros x c. split; [tauto|]. intros [[Hx|Hx]|Hx]; [auto|destruct Hx as (t & [] & _)|auto].
      - cbn [count_conditional] in Hd. destruct (Ht fuel) as (s1 & q1 & E1 & S1 & L1 & _); [lia|].
        cbn [all_sets]. rewrite E1.
        destruct (IH (s0 ++ s1) (conds_update q0 q1)) as (s & q & E & N & L & S); [cbn [count_conditional]; lia|apply nodup_update; auto|].
        exists s, q. split; auto. split; auto. split; [cbn [count_conditional] in *; pose proof (length_update q0 q1); lia|].
        intros X Y b. rewrite (S X Y b).
        rewrite (closure_ext _ (fun b => In b s1 \/ (In b s0 \/ any_base ts0 b \/ X b)) _
                               (fun b c => rules_of q1 b c \/ (rule_of q0 b c \/ any_rule ts0 b c \/ Y b c))).
        + rewrite (S1 (fun b => In b s0 \/ any_base ts0 b \/ X b) (fun b c => rule_of q0 b c \/ any_rule ts0 b c \/ Y b c) b).
          apply closure_ext.
          * intros x. unfold any_base. split.
            -- intros [Hx|[Hx|[(t' & Hi & Hx)|Hx]]]; [left; right; exists t; cbn; auto|auto|left; right; exists t'; cbn; auto|auto].
            -- intros [[Hx|(t' & [<-|Hi] & Hx)]|Hx]; [auto|auto|right; right; left; eauto|auto].
          * intros x c. unfold any_rule. split.
            -- intros [Hx|[Hx|[(t' & Hi & Hx)|Hx]]]; [left; right; exists t; cbn; auto|auto|left; right; exists t'; cbn; auto|auto].
            -- intros [[Hx|(t' & [<-|Hi] & Hx)]|Hx]; [auto|auto|right; right; left; eauto|auto].
        + intros x. rewrite in_app_iff. tauto.
        + intros x c. unfold rule_of at 1. rewrite rule_of_update. unfold rules_of, rule_of. tauto. }
    destruct (HA ts IH [] [] Hfuel) as (s & q & E & N & L & S); [constructor|]. rewrite E. cbn [length] in L.
    destruct (add_loop_ok (Datatypes.S (length q)) (s ++ flat_map (fun k => [(k, true); (k, false)]) subs) q fuel N)
      as (s' & q' & E' & N' & C' & F'); [lia|cbn [count_conditional] in *; lia|].
    exists s', q'. split; auto. split; [|split; [|auto]].
    + intros X Y b. rewrite (closure_ext _ (fun b => In b s' \/ X b) _ (fun b c => rule_of q' b c \/ Y b c));
        [|tauto|intros x c; rewrite (rule_of_nodup q' x c N'); reflexivity].
      rewrite <- (C' X Y b).
      rewrite (closure_ext _ (fun b => In b s \/ (In (fst b) subs \/ X b)) _ (fun b c => rule_of q b c \/ Y b c)); [|intros x|tauto].
      * rewrite (S (fun b => In (fst b) subs \/ X b) Y b). apply closure_ext.
        -- intros x. rewrite tree_base_node. cbn [In]. tauto.
        -- intros x c. rewrite tree_rule_node. unfold rule_of. cbn. tauto.
      * rewrite in_app_iff. assert (Hs : In x (flat_map (fun k => [(k, true); (k, false)]) subs) <-> In (fst x) subs); [|tauto].
        rewrite in_flat_map. split.
        -- intros (k & Hk & [<-|[<-|[]]]); auto.
        -- intros Hk. exists (fst x). split; auto. destruct x as [k [|]]; cbn; auto.
    + assert (Hle : forall fuel s q s' q', NoDup (dkeys q) -> add_meq_bounds fuel s q = Some (s', q') -> length q' <= length q).
      { clear. induction fuel as [|fuel IH]; intros s q s' q' Hn E; [discriminate|]. cbn [add_meq_bounds] in E.
        pose proof (add_pass_ok (dkeys q) s q false Hn ltac:(apply NoDup_ListNoDup; auto)) as H1.
        destruct (fold_left add_step (dkeys q) (s, q, false)) as [[s1 q1] a1]. destruct H1 as (N1 & _ & L1 & _).
        destruct a1; [apply IH in E; auto; lia|injection E as <- <-; auto]. }
      apply Hle in E'; auto. lia.
Qed.
End Closure.

(** ** check_bounds *)
Section Check.
Variable g : gpdata R.
Variables (ord : var_order R) (sh1 sh2 : shuffle) (rows : list nat).
Hypothesis Hord : forall e, List.NoDup (ord e) /\ forall k, In k (ord e) <-> e !! k <> None.
Hypothesis Hsh1 : forall n l, Permutation l (sh1 n l).
Hypothesis Hsh2 : forall n l, Permutation l (sh2 n l).
Hypothesis Hrows : forall i, In i rows <-> In i (g_first g).

(** [v] is a variable of the program. *)
Definition variable (v : nat) : Prop := exists i e, g_exps g !! i = Some e /\ e !! v <> None.
Variable M0 : list bound.
Hypothesis HM0 : forall b, In b M0 -> variable (fst b).

Lemma sh_In n l b : In b (sh1 n l) <-> In b l.
Proof. split; apply Permutation_in; [apply Permutation_sym|]; auto. Qed.

(** [b] is needed for [(v, up)] in the equality [e]. *)
Definition premise (e : expv R) (v : nat) (up : bool) (b : bound) : Prop :=
  exists x k y, e !! v = Some x /\ e !! k = Some y /\ k <> v /\ b = (k, if same_side x y then negb up else up).

Record cinv (missing : list bound) (q : conds) : Prop := {
  ci_sub : forall b, In b missing -> In b M0;
  ci_keys : forall b, In b (dkeys q) -> In b M0;
  ci_nd : NoDup (dkeys q);
  ci_gone : forall b, variable (fst b) -> ~ In b missing -> has_bound g b;
  ci_conds : forall b c x, In c (conds_of q b) -> In x c -> In x M0;
  ci_rule : forall b c, In c (conds_of q b) -> (forall x, In x c -> has_bound g x) -> has_bound g b }.

Definition covered (missing : list bound) (q : conds) (i : nat) : Prop :=
  forall e v up, g_exps g !! i = Some e -> e !! v <> None -> In (v, up) missing ->
  exists c, In c (conds_of q (v, up)) /\ forall x, In x c -> premise e v up x.

Definition grows (st st' : list bound * conds) : Prop :=
  (forall b, In b (fst st') -> In b (fst st)) /\ forall b c, In c (conds_of (snd st) b) -> In c (conds_of (snd st') b).
Lemma grows_refl st : grows st st.
Proof. split; auto. Qed.
Lemma grows_trans a b c : grows a b -> grows b c -> grows a c.
Proof. intros [H1 H2] [H3 H4]. split; auto. Qed.
Lemma covered_grows st st' i : grows st st' -> covered (fst st) (snd st) i -> covered (fst st') (snd st') i.
Proof.
  intros [H1 H2] Hc e v up He Hv Hm. destruct (Hc e v up He Hv (H1 _ Hm)) as (c & Hi & Hp). exists c. split; auto.
Qed.

Lemma conds_of_add q b c x c' : In c' (conds_of (cond_add q b c) x) <-> In c' (conds_of q x) \/ (x = b /\ c' = c).
Proof.
  unfold cond_add, conds_of at 1. rewrite dget_dset. destruct (decide (x = b)) as [->|Hne].
  - rewrite in_app_iff. cbn. intuition.
  - unfold conds_of. intuition congruence.
Qed.

Definition givens (missing : list bound) (e : expv R) (vars : list nat) (pos up : bool) : list bound :=
  missing_of missing e vars (negb pos) up ++ missing_of missing e vars pos (negb up).

Lemma missing_of_In missing e pos up b : In b (missing_of missing e (ord e) pos up) <->
  snd b = up /\ In b missing /\ exists x, e !! fst b = Some x /\ Rltb 0 x = pos.
Proof.
  unfold missing_of. rewrite in_map_iff. split.
  - intros (k & <- & Hk). apply filter_In in Hk as [Hk Hf]. destruct (e !! k) as [x|] eqn:Ex; [|discriminate].
    apply andb_true_iff in Hf as [H1 H2]. apply Bool.eqb_prop in H1. apply bmem_In in H2. cbn. split; auto. split; auto.
    exists x. split; auto.
  - intros (<- & Hm & x & Hx & Hp). exists (fst b). destruct b as [k up]. cbn [fst snd] in *. split; auto.
    apply filter_In. split.
    + apply (proj2 (Hord e)). congruence.
    + rewrite Hx. apply andb_true_iff. split; [apply Bool.eqb_true_iff; exact Hp|apply bmem_In; auto].
Qed.

Lemma givens_premise missing e pos up given v x z :
  (forall b, In b given <-> In b (givens missing e (ord e) pos up)) ->
  e !! v = Some x -> Rltb 0 x = pos -> In z (bdel (v, negb up) given) -> premise e v up z.
Proof.
  intros Hg Hv Hp Hz. apply bdel_In in Hz as [Hz Hne]. apply Hg in Hz. unfold givens in Hz. rewrite in_app_iff, !missing_of_In in Hz.
  destruct z as [k s]. cbn [fst snd] in Hz. unfold premise.
  destruct Hz as [(-> & Hm & y & Hy & Hs)|(-> & Hm & y & Hy & Hs)]; exists x, k, y; split; auto; split; auto.
  - assert (Hss : same_side x y = false) by (unfold same_side; rewrite Hp, Hs; destruct pos; auto). rewrite Hss.
    split; auto. intros ->. rewrite Hv in Hy. injection Hy as <-. rewrite Hp in Hs. destruct pos; discriminate.
  - assert (Hss : same_side x y = true) by (unfold same_side; rewrite Hp, Hs; destruct pos; auto). rewrite Hss.
    split; auto. intros ->. auto.
Qed.

Lemma givens_enough missing e pos up given v x i :
  (forall b, In b given <-> In b (givens missing e (ord e) pos up)) ->
  In i (g_first g) -> g_exps g !! i = Some e -> e !! v = Some x -> Rltb 0 x = pos ->
  (forall b, variable (fst b) -> ~ In b missing -> has_bound g b) ->
  (forall z, In z (bdel (v, negb up) given) -> has_bound g z) -> has_bound g (v, up).
Proof.
  intros Hg Hi He Hv Hp Hgone Hall. apply (hb_equality g i e v x up Hi He Hv). intros k y Hy Hne.
  destruct (bmem (k, if same_side x y then negb up else up) missing) eqn:E.
  - apply bmem_In in E. apply Hall. apply bdel_In. split; [|congruence]. apply Hg. unfold givens.
    rewrite in_app_iff, !missing_of_In. cbn [fst snd].
    unfold same_side in *. rewrite Hp in *. destruct (Rltb 0 y) eqn:Ey; destruct pos; cbn in *.
    + right. split; auto. split; auto. eauto.
    + left. split; auto. split; auto. eauto.
    + left. split; auto. split; auto. eauto.
    + right. split; auto. split; auto. eauto.
  - apply bmem_false in E. apply Hgone; auto. cbn. exists i, e. split; auto. congruence.
Qed.

Lemma seek_fold i e pos up given missing0 L : In i (g_first g) -> g_exps g !! i = Some e ->
  (forall b, In b given <-> In b (givens missing0 e (ord e) pos up)) ->
  (forall b, variable (fst b) -> ~ In b missing0 -> has_bound g b) ->
  (forall b, In b missing0 -> In b M0) ->
  (forall b, In b L -> snd b = up /\ In b M0 /\ exists x, e !! fst b = Some x /\ Rltb 0 x = pos) ->
  forall m q, cinv m q ->
  let st' := fold_left (seek up given) L (m, q) in
  cinv (fst st') (snd st') /\ grows (m, q) st' /\
  forall v, In (v, up) L -> In (v, up) (fst st') ->
    exists c, In c (conds_of (snd st') (v, up)) /\ forall x, In x c -> premise e v up x.
Proof.
  intros Hi He Hg Hgone Hsub0. induction L as [|[k s] L IH]; intros HL m q Hc; cbn [fold_left].
  - cbn. split; auto. split; [apply grows_refl|]. intros v [].
  - destruct (HL (k, s) (or_introl eq_refl)) as (Hs & Hk0 & x & Hx & Hp). cbn [fst snd] in Hs, Hx. subst s.
    assert (HL' : forall b, In b L -> snd b = up /\ In b M0 /\ exists x, e !! fst b = Some x /\ Rltb 0 x = pos)
      by (intros b Hb; apply HL; right; auto).
    pose proof (fun Ha => givens_enough missing0 e pos up given k x i Hg Hi He Hx Hp Hgone Ha) as Henough.
    pose proof (fun z => givens_premise missing0 e pos up given k x z Hg Hx Hp) as Hprem.
    cbn [seek fst]. destruct (bdel (k, negb up) given) as [|z zs] eqn:Ed.
    + assert (Hc1 : cinv (bdel (k, up) m) q).
      { destruct Hc as [C1 C2 C3 C4 C6 C5]. split; auto.
        - intros b Hb. apply bdel_In in Hb as [Hb _]. auto.
        - intros b Hb Hn. destruct (decide (b = (k, up))) as [->|Hne]; [apply Henough; intros z []|].
          apply C4; auto. intros Hm. apply Hn, bdel_In. auto. }
      assert (G1 : grows (m, q) (bdel (k, up) m, q)).
      { split; cbn; [|auto]. intros b Hb. apply bdel_In in Hb as [Hb _]. auto. }
      destruct (IH HL' _ _ Hc1) as (C' & G' & K'). split; auto. split; [eapply grows_trans; eauto|].
      intros v [[= ->]|Hv] Hm; [|auto]. exfalso. apply (proj1 G') in Hm. cbn in Hm. apply bdel_In in Hm as [_ Hm]. auto.
    + assert (Hc1 : cinv m (cond_add q (k, up) (z :: zs))).
      { destruct Hc as [C1 C2 C3 C4 C6 C5]. split; auto.
        - intros b Hb. unfold cond_add in Hb. apply dkeys_dset_In in Hb as [->|Hb]; auto.
        - apply NoDup_dset; auto.
        - intros b c x' Hb Hx'. apply conds_of_add in Hb as [Hb|[-> ->]]; [eauto|]. apply Hsub0.
          rewrite <- Ed in Hx'. apply bdel_In in Hx' as [Hx' _]. apply Hg in Hx'. unfold givens in Hx'.
          rewrite in_app_iff, !missing_of_In in Hx'. tauto.
        - intros b c Hb Hall. apply conds_of_add in Hb as [Hb|[-> ->]]; [eauto|]. apply Henough. auto. }
      assert (G1 : grows (m, q) (m, cond_add q (k, up) (z :: zs))).
      { split; cbn; [auto|]. intros b c Hb. apply conds_of_add. auto. }
      destruct (IH HL' _ _ Hc1) as (C' & G' & K'). split; auto. split; [eapply grows_trans; eauto|].
      intros v [[= ->]|Hv] Hm; [|auto]. exists (z :: zs). split; [|auto]. apply (proj2 G'). cbn. apply conds_of_add. auto.
Qed.

Lemma row_ok i m q : In i (g_first g) -> cinv m q ->
  let st' := meq_row ord sh1 (g_exps g) (m, q) i in
  cinv (fst st') (snd st') /\ grows (m, q) st' /\ covered (fst st') (snd st') i.
Proof.
  intros Hi Hc. unfold meq_row. destruct (g_exps g !! i) as [e|] eqn:He.
  2:{ cbn. split; auto. split; [apply grows_refl|]. intros e v up He'. congruence. }
  cbn [fst].
  assert (HL : forall n pos up b, In b (sh1 n (missing_of m e (ord e) pos up)) ->
            snd b = up /\ In b M0 /\ exists x, e !! fst b = Some x /\ Rltb 0 x = pos).
  { intros n pos up b Hb. apply sh_In, missing_of_In in Hb as (H1 & H2 & H3). split; auto. split; auto.
    apply (ci_sub _ _ Hc). auto. }
  pose proof (ci_gone _ _ Hc) as Hgone. pose proof (ci_sub _ _ Hc) as Hsub0.
  set (p_upper := missing_of m e (ord e) true true). set (p_lower := missing_of m e (ord e) true false).
  set (n_upper := missing_of m e (ord e) false true). set (n_lower := missing_of m e (ord e) false false).
  destruct (seek_fold i e true true (n_upper ++ p_lower) m (sh1 (4 * i) p_upper) Hi He ltac:(reflexivity) Hgone Hsub0
              (HL _ true true) m q Hc) as (C1 & G1 & K1).
  destruct (fold_left (seek true (n_upper ++ p_lower)) (sh1 (4 * i) p_upper) (m, q)) as [m1 q1].
  destruct (seek_fold i e false true (p_upper ++ n_lower) m (sh1 (4 * i + 1) n_upper) Hi He ltac:(reflexivity) Hgone Hsub0
              (HL _ false true) m1 q1 C1) as (C2 & G2 & K2).
  destruct (fold_left (seek true (p_upper ++ n_lower)) (sh1 (4 * i + 1) n_upper) (m1, q1)) as [m2 q2].
  destruct (seek_fold i e true false (p_upper ++ n_lower) m (sh1 (4 * i + 2) p_lower) Hi He
              ltac:(intros b; unfold givens; rewrite !in_app_iff; cbn; tauto) Hgone Hsub0
              (HL _ true false) m2 q2 C2) as (C3 & G3 & K3).
  destruct (fold_left (seek false (p_upper ++ n_lower)) (sh1 (4 * i + 2) p_lower) (m2, q2)) as [m3 q3].
  destruct (seek_fold i e false false (n_upper ++ p_lower) m (sh1 (4 * i + 3) n_lower) Hi He
              ltac:(intros b; unfold givens; rewrite !in_app_iff; cbn; tauto) Hgone Hsub0
              (HL _ false false) m3 q3 C3) as (C4 & G4 & K4).
  destruct (fold_left (seek false (n_upper ++ p_lower)) (sh1 (4 * i + 3) n_lower) (m3, q3)) as [m4 q4].
  pose proof (grows_trans _ _ _ G3 G4) as G34. pose proof (grows_trans _ _ _ G2 G34) as G234.
  pose proof (grows_trans _ _ _ G1 G234) as G. split; auto. split; auto.
  intros e' v up He' Hv Hm. rewrite He in He'. injection He' as <-. destruct (e !! v) as [x|] eqn:Hx; [|congruence].
  pose proof (proj1 G _ Hm) as Hm0. cbn [fst snd] in *.
  assert (Hmo : forall n, In (v, up) (sh1 n (missing_of m e (ord e) (Rltb 0 x) up))).
  { intros n. apply sh_In, missing_of_In. cbn. split; auto. split; auto. eauto. }
  destruct (Rltb 0 x) eqn:Ep; destruct up.
  - destruct (K1 v (Hmo _)) as (c & Hc' & Hp); [apply (proj1 G234); auto|]. exists c. split; [apply (proj2 G234); auto|auto].
  - destruct (K3 v (Hmo _)) as (c & Hc' & Hp); [apply (proj1 G4); auto|]. exists c. split; [apply (proj2 G4); auto|auto].
  - destruct (K2 v (Hmo _)) as (c & Hc' & Hp); [apply (proj1 G34); auto|]. exists c. split; [apply (proj2 G34); auto|auto].
  - destruct (K4 v (Hmo _)) as (c & Hc' & Hp); [auto|]. exists c. split; auto.
Qed.

Lemma rows_ok rs : forall m q done, (forall i, In i rs -> In i (g_first g)) -> cinv m q -> (forall i, In i done -> covered m q i) ->
  let st' := fold_left (meq_row ord sh1 (g_exps g)) rs (m, q) in
  cinv (fst st') (snd st') /\ grows (m, q) st' /\ forall i, In i (done ++ rs) -> covered (fst st') (snd st') i.
Proof.
  induction rs as [|r rs IH]; intros m q done Hin Hc Hd; cbn [fold_left].
  - rewrite app_nil_r. split; auto. split; [apply grows_refl|auto].
  - destruct (row_ok r m q (Hin r (or_introl eq_refl)) Hc) as (C1 & G1 & K1).
    destruct (meq_row ord sh1 (g_exps g) (m, q) r) as [m1 q1].
    destruct (IH m1 q1 (done ++ [r])) as (C2 & G2 & K2).
    + intros i Hi. apply Hin. right; auto.
    + auto.
    + intros i Hi. apply in_app_iff in Hi as [Hi|[<-|[]]]; [|auto]. apply (covered_grows (m, q) (m1, q1) i G1). auto.
    + split; auto. split; [eapply grows_trans; eauto|]. rewrite <- app_assoc in K2. exact K2.
Qed.

(** Bounds still missing that cannot be derived any more. *)
Definition stuck (missing : list bound) (q : conds) : Prop :=
  forall b c, In b missing -> In c (conds_of q b) -> exists x, In x c /\ In x missing.

Lemma fulfill_step_ok m q alive b : cinv m q -> (forall i, In i (g_first g) -> covered m q i) ->
  let '(m', q', alive') := fulfill_step (m, q, alive) b in
  cinv m' q' /\ (forall i, In i (g_first g) -> covered m' q' i) /\ length q' <= length q /\
  (forall x, In x m' -> In x m) /\
  (alive' = true -> alive = true \/ length q' < length q) /\ (alive = true -> alive' = true) /\
  (alive' = false -> m' = m /\ (In b m -> forall c, In c (conds_of q b) -> exists x, In x c /\ In x m) /\
     (In b (dkeys q') -> In b m)) /\
  (forall x, In x (dkeys q') -> In x (dkeys q)) /\
  (forall x c, In c (conds_of q' x) -> In c (conds_of q x)) /\ (forall x, x <> b -> conds_of q' x = conds_of q x).
Proof.
  intros Hc Hcov. cbn [fulfill_step]. pose proof (ci_nd _ _ Hc) as Hn.
  assert (Hdel : forall m', (forall x, In x m' -> In x m) -> ~ In b m' -> (variable (fst b) -> has_bound g b) ->
             (forall x, In x m -> x <> b -> In x m') ->
             cinv m' (ddel q b) /\ (forall i, In i (g_first g) -> covered m' (ddel q b) i)).
  { intros m' Hsub Hb Hhb Hkeep. destruct Hc as [C1 C2 C3 C4 C6 C5]. split; [split|].
    - auto.
    - intros x Hx. apply C2. apply dkeys_ddel_In in Hx. auto.
    - apply NoDup_ddel; auto.
    - intros x Hx Hnx. destruct (decide (x = b)) as [->|Hne]; auto.
    - intros x c z Hx Hz. rewrite conds_of_ddel in Hx by auto. destruct (decide (x = b)); [destruct Hx|eauto].
    - intros x c Hx Hall. rewrite conds_of_ddel in Hx by auto. destruct (decide (x = b)); [destruct Hx|eauto].
    - intros i Hi e v up He Hv Hm. destruct (Hcov i Hi e v up He Hv (Hsub _ Hm)) as (c & Hin & Hp). exists c. split; auto.
      rewrite conds_of_ddel by auto. rewrite decide_False; auto. intros E. rewrite E in Hm. auto. }
  assert (Hsub : forall x c, In c (conds_of (ddel q b) x) -> In c (conds_of q x)).
  { intros x c Hx. rewrite conds_of_ddel in Hx by auto. destruct (decide (x = b)); [destruct Hx|auto]. }
  destruct (bmem b m) eqn:Eb; cbn [negb].
  - apply bmem_In in Eb.
    destruct (existsb (fun c => negb (existsb (fun x => bmem x m) c)) (conds_of q b)) eqn:Ec.
    + apply existsb_exists in Ec as (c & Hin & Hne). apply negb_true_iff in Hne.
      assert (Hfree : forall x, In x c -> ~ In x m).
      { intros x Hx Hm. assert (Ht : existsb (fun x => bmem x m) c = true) by (apply existsb_exists; exists x; split; [auto|apply bmem_In; auto]).
        congruence. }
      destruct (Hdel (bdel b m)) as [D1 D2].
      * intros x Hx. apply bdel_In in Hx as [Hx _]. auto.
      * intros Hx. apply bdel_In in Hx as [_ Hx]. auto.
      * intros Hv. (* premises of conditions are variables' bounds *)
        apply (ci_rule _ _ Hc b c Hin). intros x Hx. apply (ci_gone _ _ Hc); auto.
        apply HM0, (ci_conds _ _ Hc b c x Hin Hx).
      * intros x Hx Hxb. apply bdel_In. auto.
      * pose proof (length_ddel_key q b (conds_of_In _ _ _ Hin)) as Hlen.
        split; auto. split; auto. split; [lia|]. split; [intros x Hx; apply bdel_In in Hx as [Hx _]; auto|].
        split; [intros _; right; lia|]. split; [auto|]. split; [discriminate|].
        split; [intros x Hx; apply dkeys_ddel_In in Hx; auto|]. split; auto.
        intros x Hx. rewrite conds_of_ddel, decide_False by auto. auto.
    + split; auto. split; auto. split; [lia|]. split; [auto|]. split; [auto|]. split; [auto|]. split; [|auto].
      intros _. split; auto. split; auto. intros _ c Hin.
      destruct (existsb (fun x => bmem x m) c) eqn:Ex.
      * apply existsb_exists in Ex as (x & Hx & Hm). exists x. split; auto. apply bmem_In; auto.
      * exfalso. assert (Ht : existsb (fun c => negb (existsb (fun x => bmem x m) c)) (conds_of q b) = true)
          by (apply existsb_exists; exists c; split; [auto|rewrite Ex; auto]). congruence.
  - apply bmem_false in Eb. destruct (Hdel m) as [D1 D2]; auto; [intros Hv; apply (ci_gone _ _ Hc); auto|].
    split; auto. split; auto. split; [apply length_ddel_le|]. split; [auto|]. split; [auto|]. split; [auto|]. split.
    + intros _. split; auto. split; [contradiction|]. intros Hx. exfalso. apply (proj1 (dget_None (ddel q b) b)); [apply dget_ddel_eq; auto|auto].
    + split; [intros x Hx; apply dkeys_ddel_In in Hx; auto|]. split; auto.
      intros x Hx. rewrite conds_of_ddel, decide_False by auto. auto.
Qed.

Lemma fulfill_pass_ok ks : forall m q alive, cinv m q -> (forall i, In i (g_first g) -> covered m q i) -> List.NoDup ks ->
  let '(m', q', alive') := fold_left fulfill_step ks (m, q, alive) in
  cinv m' q' /\ (forall i, In i (g_first g) -> covered m' q' i) /\ length q' <= length q /\
  (forall x, In x m' -> In x m) /\
  (alive' = true -> alive = true \/ length q' < length q) /\ (alive = true -> alive' = true) /\
  (alive' = false -> m' = m /\ (forall b, In b ks -> In b m -> forall c, In c (conds_of q b) -> exists x, In x c /\ In x m) /\
     (forall b, In b ks -> In b (dkeys q') -> In b m)) /\
  (forall x, In x (dkeys q') -> In x (dkeys q)) /\
  (forall x c, In c (conds_of q' x) -> In c (conds_of q x)).
Proof.
  induction ks as [|b ks IH]; intros m q alive Hc Hcov Hk; cbn [fold_left].
  - split; [auto|]. split; [auto|]. split; [lia|]. split; [auto|]. split; [auto|]. split; [auto|]. split; [|auto].
    intros _. split; [auto|]. split; intros b [].
  - inversion Hk as [|? ? Hb Hk']; subst. pose proof (fulfill_step_ok m q alive b Hc Hcov) as H1.
    destruct (fulfill_step (m, q, alive) b) as [[m1 q1] a1]. destruct H1 as (C1 & V1 & L1 & S1 & A1 & M1 & F1 & K1 & D1 & E1).
    specialize (IH m1 q1 a1 C1 V1 Hk'). destruct (fold_left fulfill_step ks (m1, q1, a1)) as [[m2 q2] a2].
    destruct IH as (C2 & V2 & L2 & S2 & A2 & M2 & F2 & K2 & D2).
    split; [auto|]. split; [auto|]. split; [lia|]. split; [auto|]. split.
    { intros Ha. destruct (A2 Ha) as [Ha1|Hl]; [|right; lia]. destruct (A1 Ha1) as [|Hl]; [auto|right; lia]. }
    split; [auto|]. split; [|split; auto].
    intros Ha2. assert (Ha1 : a1 = false) by (destruct a1; auto; specialize (M2 eq_refl); congruence).
    destruct (F1 Ha1) as (-> & Fb & Fk). destruct (F2 Ha2) as (-> & Fb2 & Fk2). split; [auto|]. split.
    + intros x [<-|Hx] Hm c Hin; [auto|]. apply (Fb2 x Hx Hm). rewrite E1; auto. intros ->. auto.
    + intros x [<-|Hx] Hin; [apply Fk; auto|auto].
Qed.

Lemma fulfill_loop_ok n : forall m q fuel, cinv m q -> (forall i, In i (g_first g) -> covered m q i) ->
  length q < n -> n <= fuel ->
  exists m' q', fulfill_loop fuel sh2 m q = Some (m', q') /\ cinv m' q' /\ (forall i, In i (g_first g) -> covered m' q' i) /\
    (forall x, In x m' -> In x m) /\ stuck m' q' /\ forall b, In b (dkeys q') -> In b m'.
Proof.
  induction n as [|n IH]; intros m q fuel Hc Hcov Hl Hf; [lia|]. destruct fuel as [|fuel]; [lia|]. cbn [fulfill_loop].
  assert (Hk : List.NoDup (sh2 (S fuel) (dkeys q))).
  { eapply Permutation.Permutation_NoDup; [apply Hsh2|]. apply NoDup_ListNoDup, (ci_nd _ _ Hc). }
  pose proof (fulfill_pass_ok (sh2 (S fuel) (dkeys q)) m q false Hc Hcov Hk) as H1.
  destruct (fold_left fulfill_step (sh2 (S fuel) (dkeys q)) (m, q, false)) as [[m1 q1] a1].
  destruct H1 as (C1 & V1 & L1 & S1 & A1 & M1 & F1 & K1 & D1). destruct a1.
  - destruct (A1 eq_refl) as [|Hlt]; [discriminate|].
    destruct (IH m1 q1 fuel C1 V1) as (m' & q' & E & C' & V' & S' & T' & K'); [lia|lia|].
    exists m', q'. split; [auto|]. split; [auto|]. split; [auto|]. split; [auto|]. split; auto.
  - destruct (F1 eq_refl) as (-> & Fb & Fk). exists m, q1. split; [auto|]. split; [auto|]. split; [auto|]. split; [auto|].
    assert (Hin : forall b, In b (dkeys q) -> In b (sh2 (S fuel) (dkeys q))) by (intros b; apply Permutation_in; auto).
    split.
    + intros b c Hb Hc'. apply D1 in Hc'. apply (Fb b); auto. apply Hin. eapply conds_of_In; eauto.
    + intros b Hb. apply Fk; auto.
Qed.

Lemma stuck_complete m q : (forall b, In b m -> In b M0) ->
  (forall i e v x, g_exps g !! i = Some e -> ~ In i (g_all g) -> e !! v = Some x -> ~ In (v, Rltb 0 x) M0) ->
  (forall i, In i (g_first g) -> covered m q i) -> stuck m q -> forall b, has_bound g b -> ~ In b m.
Proof.
  intros Hsub Hineq Hcov Hst. fix IH 2. intros b [i e v x He Hi Hv|i e v x up Hi He Hv Hall].
  - intros Hm. apply Hsub in Hm. revert Hm. eapply Hineq; eauto.
  - intros Hm. destruct (Hcov i Hi e v up He ltac:(congruence) Hm) as (c & Hin & Hp).
    destruct (Hst _ _ Hm Hin) as (z & Hz & Hzm). destruct (Hp z Hz) as (x' & k & y & Hx' & Hy & Hne & ->).
    rewrite Hv in Hx'. injection Hx' as <-. revert Hzm. apply (IH _ (Hall k y Hy Hne)).
Qed.
End Check.

Lemma check_ok ord hmaps (sh1 sh2 : shuffle) rows fuel :
  (forall e : expv R, List.NoDup (ord e) /\ forall k, In k (ord e) <-> e !! k <> None) ->
  (forall n l, Permutation l (sh1 n l)) -> (forall n l, Permutation l (sh2 n l)) ->
  let g := gen ord hmaps in
  (forall i, In i rows <-> In i (g_first g)) -> 2 * length (g_varlocs g) < fuel ->
  exists missing, check_bounds fuel ord sh1 sh2 rows g = Some missing /\
    forall b, In b missing <-> variable g (fst b) /\ ~ has_bound g b.
Proof.
  intros Hord Hs1 Hs2 g Hrows Hfuel.
  pose proof (gen_loop_inv ord Hord hmaps (map (fun mh => length (snd mh)) hmaps)) as HI.
  assert (Ee : g_exps g = map fst (terms hmaps)) by (unfold g; rewrite gen_eq; apply (gi_exps _ _ HI)).
  assert (HV : exists m coo, vinv (g_exps g) (g_varlocs g) m coo).
  { rewrite Ee. unfold g. rewrite gen_eq. cbn [g_varlocs]. eexists _, _. apply (gi_v _ _ HI). }
  clearbody g. clear HI Ee. destruct HV as (mm & coo & [_ Vnd Vk Vl _]).
  set (M0 := flat_map (var_missing g) (g_varlocs g)).
  assert (Hvar : forall v, variable g v <-> In v (dkeys (g_varlocs g))).
  { intros v. rewrite Vk. unfold variable, has. split.
    - intros (i & e & He & Hv). exists i. rewrite He. destruct (e !! v); congruence.
    - intros [i Hi]. destruct (g_exps g !! i) as [e|] eqn:E; [|discriminate]. exists i, e. split; auto. destruct (e !! v); congruence. }
  assert (Hin0 : forall v up, In (v, up) M0 <-> variable g v /\
             ~ exists i e x, g_exps g !! i = Some e /\ ~ In i (g_all g) /\ e !! v = Some x /\ Rltb 0 x = up).
  { intros v up. unfold M0. rewrite in_flat_map.
    assert (Hone : forall locs, In (v, locs) (g_varlocs g) -> In (v, up) (var_missing g (v, locs)) <->
              ~ exists i e x, g_exps g !! i = Some e /\ ~ In i (g_all g) /\ e !! v = Some x /\ Rltb 0 x = up).
    { intros locs Hl. assert (El : locs = List.filter (has (g_exps g) v) (seq 0 (length (g_exps g)))).
      { rewrite <- Vl. unfold locs_of. rewrite (In_dget _ _ _ Vnd Hl). auto. }
      set (sign i := match g_exps g !! i with Some e => match e !! v with Some x => Rltb 0 x | None => false end | None => false end).
      set (rs := List.filter (fun i => negb (existsb (Nat.eqb i) (g_all g))) locs).
      assert (Hrs : forall i, In i rs <-> (exists e x, g_exps g !! i = Some e /\ e !! v = Some x) /\ ~ In i (g_all g)).
      { intros i. unfold rs. rewrite filter_In, El, filter_In, in_seq, negb_true_iff. unfold has.
        assert (Hex : existsb (Nat.eqb i) (g_all g) = false <-> ~ In i (g_all g)).
        { destruct (existsb (Nat.eqb i) (g_all g)) eqn:E.
          - apply existsb_exists in E as (j & Hj & Ej). apply Nat.eqb_eq in Ej. subst. split; [discriminate|contradiction].
          - split; auto. intros _ Hj. assert (Ht : existsb (Nat.eqb i) (g_all g) = true) by (apply existsb_exists; exists i; split; [auto|apply Nat.eqb_refl]). congruence. }
        rewrite Hex. split.
        - intros [[_ Hh] Hn]. split; auto. destruct (g_exps g !! i) as [e|]; [|discriminate]. destruct (e !! v) as [x|] eqn:Ex; [|discriminate]. eauto.
        - intros [(e & x & He & Hx) Hn]. split; auto. split; [apply lookup_lt_Some in He; lia|]. rewrite He, Hx. auto. }
      assert (Hsg : forall s, (exists i, In i rs /\ sign i = s) <->
               exists i e x, g_exps g !! i = Some e /\ ~ In i (g_all g) /\ e !! v = Some x /\ Rltb 0 x = s).
      { intros s. split.
        - intros (i & Hi & Hs). apply Hrs in Hi as [(e & x & He & Hx) Hn]. unfold sign in Hs. rewrite He, Hx in Hs. exists i, e, x. auto.
        - intros (i & e & x & He & Hn & Hx & Hs). exists i. split; [apply Hrs; eauto|]. unfold sign. rewrite He, Hx. auto. }
      rewrite <- Hsg. change (var_missing g (v, locs)) with
        ((if existsb sign rs then [] else [(v, true)]) ++ (if existsb (fun i => negb (sign i)) rs then [] else [(v, false)])).
      rewrite in_app_iff. destruct up.
      - split.
        + intros [Hx|Hx].
          * destruct (existsb sign rs) eqn:E; [destruct Hx|]. intros (i & Hi & Hs).
            assert (Ht : existsb sign rs = true) by (apply existsb_exists; eauto). congruence.
          * exfalso. destruct (existsb (fun i => negb (sign i)) rs); [destruct Hx|]. destruct Hx as [Hx|[]]. discriminate.
        + intros Hn. left. destruct (existsb sign rs) eqn:E; [|left; auto]. exfalso. apply Hn.
          apply existsb_exists in E as (i & Hi & Hs). eauto.
      - split.
        + intros [Hx|Hx].
          * exfalso. destruct (existsb sign rs); [destruct Hx|]. destruct Hx as [Hx|[]]. discriminate.
          * destruct (existsb (fun i => negb (sign i)) rs) eqn:E; [destruct Hx|]. intros (i & Hi & Hs).
            assert (Ht : existsb (fun i => negb (sign i)) rs = true) by (apply existsb_exists; exists i; rewrite Hs; auto). congruence.
        + intros Hn. right. destruct (existsb (fun i => negb (sign i)) rs) eqn:E; [|left; auto]. exfalso. apply Hn.
          apply existsb_exists in E as (i & Hi & Hs). exists i. split; auto. destruct (sign i); auto; discriminate. }
    split.
    - intros ([w locs] & Hl & Hb).
      assert (w = v).
      { unfold var_missing in Hb. apply in_app_iff in Hb as [Hb|Hb];
          match type of Hb with In _ (if ?c then _ else _) => destruct c end; cbn in Hb; intuition congruence. }
      subst w. split; [apply Hvar; unfold dkeys; apply in_map_iff; exists (v, locs); auto|]. apply (Hone locs Hl); auto.
    - intros [Hv Hn]. apply Hvar in Hv. unfold dkeys in Hv. apply in_map_iff in Hv as ([w locs] & Ew & Hl). cbn in Ew. subst w.
      exists (v, locs). split; auto. apply (Hone locs Hl); auto. }
  assert (HM0 : forall b, In b M0 -> variable g (fst b)) by (intros [v up] Hb; apply Hin0 in Hb as [Hb _]; auto).
  assert (Hc0 : cinv g M0 M0 []).
  { split; auto.
    - intros b [].
    - constructor.
    - intros [v up] Hv Hn. cbn in Hv.
      assert (Hx : ~ ~ exists i e x, g_exps g !! i = Some e /\ ~ In i (g_all g) /\ e !! v = Some x /\ Rltb 0 x = up)
        by (intros Hx; apply Hn, Hin0; auto).
      apply Classical_Prop.NNPP in Hx as (i & e & x & He & Hi & Hx & <-). eapply hb_inequality; eauto.
    - intros b c x [].
    - intros b c []. }
  assert (Hineq : forall i e v x, g_exps g !! i = Some e -> ~ In i (g_all g) -> e !! v = Some x -> ~ In (v, Rltb 0 x) M0).
  { intros i e v x He Hi Hx Hm. apply Hin0 in Hm as [_ Hm]. apply Hm. exists i, e, x. auto. }
  destruct (rows_ok g ord sh1 Hord Hs1 M0 rows M0 [] []) as (C1 & G1 & K1); auto.
  { intros i Hi. apply Hrows; auto. }
  { intros i []. }
  assert (HQ : exists m1 q1, gen_meq_bounds ord sh1 (g_exps g) rows M0 = (m1, q1) /\ cinv g M0 m1 q1 /\ grows (M0, []) (m1, q1) /\
             forall i, In i rows -> covered g m1 q1 i).
  { eexists _, _. split; [apply surjective_pairing|]. split; [exact C1|]. split; [|exact K1]. rewrite <- surjective_pairing. exact G1. }
  clear C1 G1 K1. unfold check_bounds. fold M0. destruct M0 as [|b0 M0'] eqn:EM.
  - exists []. split; auto. intros [v up]. cbn [In fst]. split; [intros []|]. intros [Hv Hn].
    apply (proj2 (Hin0 v up)). split; auto. intros (i & e & x & He & Hi & Hx & <-). apply Hn. eapply hb_inequality; eauto.
  - rewrite <- EM in *. destruct HQ as (m1 & q1 & EF & C1 & G1 & K1). rewrite EF.
    assert (Hlen : length q1 < fuel).
    { replace (length q1) with (length (dkeys q1)) by (unfold dkeys; apply map_length).
      assert (Hi : length (dkeys q1) <= length M0).
      { apply NoDup_incl_length; [apply NoDup_ListNoDup, (ci_nd _ _ _ _ C1)|]. intros b Hb. apply (ci_keys _ _ _ _ C1). auto. }
      assert (Hm : length M0 <= 2 * length (g_varlocs g)).
      { rewrite EM. rewrite <- EM. unfold M0. clear. induction (g_varlocs g) as [|[v l] vl IH]; cbn [flat_map length]; [lia|].
        rewrite app_length. unfold var_missing at 1. rewrite app_length.
        destruct (existsb _ _); destruct (existsb _ _); cbn [length]; lia. }
      lia. }
    destruct (fulfill_loop_ok g sh2 Hs2 M0 HM0 (S (length q1)) m1 q1 fuel C1) as (m' & q' & E & C' & V' & S' & T' & K').
    + intros i Hi. apply K1. cbn. apply Hrows. auto.
    + lia.
    + lia.
    + unfold fulfill_meq_bounds. rewrite E. eexists. split; [reflexivity|]. intros b.
      assert (Hb : In b (m' ++ List.filter (fun b => negb (bmem b m')) (dkeys q')) <-> In b m').
      { rewrite in_app_iff, filter_In. split; [|auto]. intros [Hb|[Hb _]]; auto. }
      rewrite Hb. split.
      * intros Hm. split; [apply HM0, (ci_sub _ _ _ _ C'); auto|]. intros Hh. revert Hm.
        apply (stuck_complete g M0 m' q'); auto. apply (ci_sub _ _ _ _ C').
      * intros [Hv Hn]. destruct (bmem b m') eqn:Em; [apply bmem_In; auto|]. apply bmem_false in Em.
        exfalso. apply Hn, (ci_gone _ _ _ _ C'); auto.
Qed.
