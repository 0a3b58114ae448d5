(** C54: the checks that run after a solve. *)
From Verif Require Import Base Flat FlatProofs Checks.
From Coq Require Import Sorting.Sorted Lra.
Open Scope R_scope.

(** The members of a list of which [P] holds, in order. *)
Inductive picked {A} (P : A -> Prop) : list A -> list A -> Prop :=
  | picked_nil : picked P [] []
  | picked_keep a l out : P a -> picked P l out -> picked P (a :: l) (a :: out)
  | picked_drop a l out : ~ P a -> picked P l out -> picked P (a :: l) out.

(** The constraints of nested sets, in reading order. *)
Definition constraints_are {C} (l : list (item C)) (cs : list C) : Prop :=
  lists_all before l is_leaf (map Leaf cs).

Definition given_or (default : R) (given : option R) : R := match given with Some t => t | None => default end.

(** ** Lemmas *)

Lemma Rleb_true a b : Rleb a b = true <-> a <= b.
Proof. unfold Rleb. destruct (Rle_dec a b); split; auto; discriminate. Qed.
Lemma Rltb_true a b : Rltb a b = true <-> a < b.
Proof. unfold Rltb. destruct (Rlt_dec a b); split; auto; discriminate. Qed.
Lemma nabs_R x : nabs x = Rabs x.
Proof.
  unfold nabs. simpl. destruct (Rltb x 0) eqn:E.
  - apply Rltb_true in E. rewrite Rabs_left; auto.
  - rewrite Rabs_right; auto. assert (~ x < 0) by (intros Hx; apply Rltb_true in Hx; congruence). lra.
Qed.

Lemma flat_constraints {C} (l : list (item C)) : Forall plain_arrays l -> exists cs, flat l = map Leaf cs /\ constraints_are l cs.
Proof.
  intros Hp. assert (Hl : Forall is_leaf (flat l)).
  { apply List.Forall_forall. intros x Hx. apply in_flat_map in Hx as (i & Hi & Hx).
    rewrite List.Forall_forall in Hp. specialize (Hp i Hi). apply visit_are_leaves in Hp. rewrite List.Forall_forall in Hp. auto. }
  assert (Hcs : exists cs, flat l = map Leaf cs).
  { induction Hl as [|x m Hx Hm IH]; [exists []; auto|]. destruct IH as (cs & E). destruct x; try contradiction.
    exists (c :: cs). simpl. f_equal; auto. }
  destruct Hcs as (cs & E). exists cs. split; auto. unfold constraints_are. rewrite <- E. apply flat_leaves. auto.
Qed.

Lemma tight_loop_picks {C} (lhs rhs : C -> R) tol cs :
  exists w, tight_loop lhs rhs tol (map Leaf cs) = Ok w /\ picked (fun c => not_tight lhs rhs tol c = true) cs w.
Proof.
  induction cs as [|c cs (w & E & Hw)]; simpl; [exists []; split; auto; constructor|].
  rewrite E. simpl. destruct (not_tight lhs rhs tol c) eqn:En; eexists; (split; [reflexivity|]); constructor; auto. congruence.
Qed.
Lemma picked_iff {A} (P Q : A -> Prop) l out : (forall a, P a <-> Q a) -> picked P l out -> picked Q l out.
Proof. intros H. induction 1; constructor; auto; rewrite <- H; auto. Qed.

Lemma not_tight_spec {C} (lhs rhs : C -> R) tol c :
  not_tight lhs rhs tol c = true <->
    (rhs c <> 0 /\ tol * Rabs (rhs c) <= Rabs (lhs c - rhs c)) \/ (rhs c = 0 /\ lhs c <> 0).
Proof.
  unfold not_tight. change (n0 : R) with 0. destruct (decide (rhs c = 0)) as [E|E].
  - rewrite negb_true_iff, bool_decide_eq_false. split; [auto|]. intros [[? _]|[_ ?]]; [contradiction|auto].
  - change (nleb : R -> R -> bool) with Rleb. rewrite Rleb_true, nabs_R. unfold nsub, ndiv. simpl.
    assert (Hpos : 0 < Rabs (rhs c)) by (apply Rabs_pos_lt; auto).
    assert (Hk : Rabs (1 + - (lhs c * / rhs c)) * Rabs (rhs c) = Rabs (lhs c - rhs c)).
    { rewrite <- Rabs_mult, (Rabs_minus_sym (lhs c)). f_equal. field. auto. }
    split.
    + intros Hle. left. split; auto. rewrite <- Hk. apply Rmult_le_compat_r; lra.
    + intros [[_ Hle]|[? _]]; [|contradiction]. rewrite <- Hk in Hle. apply Rmult_le_reg_r in Hle; auto.
Qed.

(** ** Tight *)

(** Tight warns about exactly the constraints whose sides differ by the tolerance or more,
    relative to the right-hand side. *)
Definition C54_tight_for (cond : option R -> Prop) : Prop :=
  forall (C : Type) (lhs rhs : C -> R) (given : option R) (l : list (item C)),
    Forall plain_arrays l -> cond given ->
    exists cs w, constraints_are l cs /\ tight_warnings lhs rhs given l = Ok w /\
      picked (fun c => (rhs c <> 0 /\ given_or (1 / 1000) given * Rabs (rhs c) <= Rabs (lhs c - rhs c)) \/
                       (rhs c = 0 /\ lhs c <> 0)) cs w.

(** What is missing: a tolerance of zero. *)
Theorem C54_tight_partial : C54_tight_for (fun given => given <> Some 0).
Proof.
  intros C lhs rhs given l Hp Hg. destruct (flat_constraints l Hp) as (cs & E & Hcs).
  unfold tight_warnings. rewrite E.
  replace (tolerance (ndiv n1 (nofZ 1000)) given) with (given_or (1 / 1000) given).
  - destruct (tight_loop_picks lhs rhs (given_or (1 / 1000) given) cs) as (w & Ew & Hw).
    exists cs, w. split; [auto|]. split; [auto|]. eapply picked_iff; [|exact Hw]. intros c. apply not_tight_spec.
  - destruct given as [t|]; simpl; [|reflexivity]. destruct (decide (t = 0)) as [->|]; [contradiction|reflexivity].
Qed.
Print Assumptions C54_tight_partial.

(** Asked to warn about any difference, Tight allows a tenth of a percent. *)
Theorem C54_tight_refuted : ~ C54_tight_for (fun given => True).
Proof.
  intros H. destruct (H unit (fun _ => 1) (fun _ => 10001 / 10000) (Some 0) [Leaf tt]) as (cs & w & Hcs & E & Hp).
  { repeat constructor. } { exact I. }
  unfold tight_warnings in E. simpl in E. destruct (decide (0 = 0)) as [_|]; [|contradiction].
  destruct (not_tight _ _ _ tt) eqn:En.
  - apply not_tight_spec in En. unfold ndiv in En. simpl in En. destruct En as [[_ En]|[En _]]; [|lra].
    rewrite (Rabs_right (10001 / 10000)), Rabs_left in En; lra.
  - injection E as <-. assert (cs = []) as ->.
    { inversion Hp as [| |a ? ? Hn Hp']; auto. exfalso. apply Hn. left. split; [lra|]. simpl.
      rewrite Rmult_0_l. apply Rabs_pos. }
    destruct Hcs as (ps & _ & Hin & Hall). inversion Hall; subst. apply (in_nil (a := [0%nat])). apply Hin.
    exists (Leaf tt). split; [reflexivity|exact I].
Qed.
Print Assumptions C54_tight_refuted.

(** ** Loose *)

(** Loose warns about exactly the constraints whose sensitivity reaches the
    tolerance, those without sensitivity counting as zero; with raiseerror it
    raises instead if there is one. *)
Definition C54_loose_for (cond : option R -> Prop) : Prop :=
  forall (C : Type) (sens : C -> option R) (given : option R) (raiseerror : bool) (l : list (item C)),
    Forall plain_arrays l -> cond given ->
    exists cs w, constraints_are l cs /\
      picked (fun c => given_or (1 / 100000) given <= given_or 0 (sens c)) cs w /\
      loose_warnings sens given raiseerror l = (if raiseerror then match w with [] => Ok [] | _ => Err RuntimeWarningE end else Ok w).

Lemma loose_loop_picks {C} (sens : C -> option R) tol raiseerror cs :
  exists w, picked (fun c => tol <= given_or 0 (sens c)) cs w /\
    loose_loop sens tol raiseerror (map Leaf cs) = (if raiseerror then match w with [] => Ok [] | _ => Err RuntimeWarningE end else Ok w).
Proof.
  induction cs as [|c cs (w & Hw & E)]; simpl; [exists []; split; [constructor|destruct raiseerror; auto]|].
  change (match sens c with Some s => s | None => 0 end) with (given_or 0 (sens c)).
  destruct (Rleb tol (given_or 0 (sens c))) eqn:El.
  - exists (c :: w). split; [constructor; auto; apply Rleb_true; auto|]. destruct raiseerror; auto. rewrite E. reflexivity.
  - exists w. split; [|auto]. constructor; auto. intros Hle. apply Rleb_true in Hle. congruence.
Qed.

(** What is missing: a tolerance of zero. *)
Theorem C54_loose_partial : C54_loose_for (fun given => given <> Some 0).
Proof.
  intros C sens given raiseerror l Hp Hg. destruct (flat_constraints l Hp) as (cs & E & Hcs).
  unfold loose_warnings. rewrite E.
  replace (tolerance (ndiv n1 (nofZ 100000)) given) with (given_or (1 / 100000) given).
  - destruct (loose_loop_picks sens (given_or (1 / 100000) given) raiseerror cs) as (w & Hw & Ew). exists cs, w. auto.
  - destruct given as [t|]; simpl; [|reflexivity]. destruct (decide (t = 0)) as [->|]; [contradiction|reflexivity].
Qed.
Print Assumptions C54_loose_partial.

Theorem C54_loose_refuted : ~ C54_loose_for (fun given => True).
Proof.
  intros H. destruct (H unit (fun _ => Some (1 / 1000000)) (Some 0) false [Leaf tt]) as (cs & w & Hcs & Hp & E).
  { repeat constructor. } { exact I. }
  unfold loose_warnings in E. simpl in E. destruct (decide (0 = 0)) as [_|]; [|contradiction].
  destruct (Rleb _ _) eqn:En.
  - apply Rleb_true in En. unfold ndiv in En. simpl in En. lra.
  - injection E as <-. assert (cs = []) as ->.
    { inversion Hp as [| |a ? ? Hn Hp']; auto. exfalso. apply Hn. simpl. lra. }
    destruct Hcs as (ps & _ & Hin & Hall). inversion Hall; subst. apply (in_nil (a := [0%nat])). apply Hin.
    exists (Leaf tt). split; [reflexivity|exact I].
Qed.
Print Assumptions C54_loose_refuted.

(** ** Bounded *)

(** When a variable is said to be at a bound, if there is one (it is not 0): its sensitivity to the bound reaches
    1e-7, or it is within a factor of e^3 of the bound. *)
Definition at_bound (lower upper : R) (value of_lower of_upper : R) (n : near) : Prop :=
  match n with
  | SensitiveLower => lower <> 0 /\ 1 / 10000000 <= of_lower
  | NearLower => lower <> 0 /\ value <= lower * exp 3
  | SensitiveUpper => upper <> 0 /\ 1 / 10000000 <= of_upper
  | NearUpper => upper <> 0 /\ upper <= value * exp 3
  end.

Lemma ln_le3 a b : 0 < a -> 0 < b -> (ln (a / b) <= 3 <-> a <= b * exp 3).
Proof.
  intros Ha Hb. assert (Hd : 0 < a / b) by (apply Rdiv_lt_0_compat; auto). split; intros Hle.
  - assert (He : a / b <= exp 3).
    { rewrite <- (exp_ln (a / b)); auto. destruct Hle as [Hlt|E]; [left; apply exp_increasing; auto|rewrite E; lra]. }
    apply (Rmult_le_compat_l b) in He; [|lra]. replace (b * (a / b)) with a in He by (field; lra). lra.
  - assert (He : a / b <= exp 3). { apply (Rmult_le_reg_l b); auto. replace (b * (a / b)) with a by (field; lra). lra. }
    rewrite <- (ln_exp 3). destruct He as [Hlt|E]; [left; apply ln_increasing; auto|rewrite E; lra].
Qed.

Lemma in_if {A} (b : bool) (x y : A) : In x (if b then [y] else []) <-> b = true /\ x = y.
Proof. destruct b; simpl; split; [intros [->|[]]; auto|intros [_ ->]; auto|tauto|intros [[=] _]]. Qed.

Lemma check_variable_spec lower upper value of_lower of_upper : 0 <= lower -> 0 <= upper -> 0 < value ->
  exists out, check_variable ln lower upper value (bound_senss lower upper of_lower of_upper) = Ok out /\
    forall n, In n out <-> at_bound lower upper value of_lower of_upper n.
Proof.
  intros Hl Hu Hv. unfold check_variable, bound_senss. change (n0 : R) with 0.
  destruct (decide (lower = 0)) as [El|El], (decide (upper = 0)) as [Eu|Eu]; simpl; (eexists; split; [reflexivity|]);
    intros n'; rewrite ?app_nil_r, ?in_app_iff, ?in_if, ?Rleb_true; unfold ndiv; simpl;
    change (value * / lower) with (value / lower); change (upper * / value) with (upper / value);
    rewrite ?ln_le3 by lra; replace (1 * / 10000000) with (1 / 10000000) by reflexivity.
  - destruct n'; simpl; tauto.
  - destruct n'; simpl; (split; [intros [[? E]|[? E]]; try discriminate E; auto|try (intros [? ?]; tauto)]).
  - destruct n'; simpl; (split; [intros [[? E]|[? E]]; try discriminate E; auto|try (intros [? ?]; tauto)]).
  - destruct n'; simpl; (split; [intros [[[? E]|[? E]]|[[? E]|[? E]]]; try discriminate E; auto|intros [? ?]; auto 10]).
Qed.

(** Bounded reports, for each of its variables, exactly the bounds it is at. *)
Theorem C54_bounded : forall (lower upper : R) (value of_lower of_upper : nat -> R) (vks : list nat),
  0 <= lower -> 0 <= upper -> (forall k, In k vks -> 0 < value k) ->
  exists out, check_boundaries ln lower upper value vks (map (fun k => bound_senss lower upper (of_lower k) (of_upper k)) vks) = Ok out /\
    forall n k, In (n, k) out <-> In k vks /\ at_bound lower upper (value k) (of_lower k) (of_upper k) n.
Proof.
  intros lower upper value of_lower of_upper vks Hl Hu. induction vks as [|k vks IH]; intros Hv; simpl.
  - exists []. split; auto. intros n k. simpl. tauto.
  - destruct (check_variable_spec lower upper (value k) (of_lower k) (of_upper k)) as (w & Ew & Hw); auto; [apply Hv; simpl; auto|].
    destruct IH as (ws & Ews & Hws); [intros; apply Hv; simpl; auto|]. rewrite Ew. simpl. rewrite Ews. simpl.
    eexists. split; [reflexivity|]. intros n j. rewrite in_app_iff, in_map_iff, Hws. split.
    + intros [(m & [= <- <-] & Hm)|[Hj Hn]]; [split; [auto|apply Hw; auto]|auto].
    + intros [[<-|Hj] Hn]; [left; exists n; split; auto; apply Hw; auto|right; auto].
Qed.
Print Assumptions C54_bounded.

(** The result's summary of bounds, after the check of one set: for each kind of warning and its bound, all the variables
    there are warnings of, in order; and what it said before of other bounds, and of kinds there is no warning of. *)
Theorem C54_summary_one : forall (before : list ((near * R) * list nat)) (lower upper : R) (out : list (near * nat)),
  let summary := boundedness before lower upper out in
  (forall n, (exists k, In (n, k) out) ->
     exists ks, dget summary (n, bound_of lower upper n) = Some ks /\ exists ps, picked (fun p => fst p = n) out ps /\ ks = map snd ps) /\
  (forall n b, b <> bound_of lower upper n \/ (forall k, ~ In (n, k) out) -> dget summary (n, b) = dget before (n, b)).
Proof.
  intros before lower upper out. cbv zeta. unfold boundedness, by_message.
  assert (P : forall n, picked (fun p : near * nat => fst p = n) out (List.filter (fun p => near_eqb n (fst p)) out)).
  { intros n. clear. induction out as [|[m k] out IH]; [constructor|]. simpl. destruct (near_eqb n m) eqn:E; constructor; auto; simpl; destruct n, m; try discriminate E; congruence. }
  assert (Q : forall n, (forall k, ~ In (n, k) out) <-> List.filter (fun p => near_eqb n (fst p)) out = []).
  { intros n. clear. induction out as [|[m k] out IH]; simpl; [tauto|]. destruct (near_eqb n m) eqn:E.
    - split; [|discriminate]. intros H. exfalso. apply (H k). left. destruct n, m; try discriminate E; auto.
    - rewrite <- IH. split; intros H j I; apply (H j); auto. destruct I as [[= -> ->]|I]; auto. destruct n; discriminate E. }
  set (f := fun n => List.filter (fun p => near_eqb n (fst p)) out) in *.
  set (g := fun n => match f n with [] => [] | (_ :: _) as ps => [((n, bound_of lower upper n), map snd ps)] end).
  assert (G : forall ks d n b, List.NoDup ks ->
    dget (fold_left (fun d kv => dset d (fst kv) (snd kv)) (flat_map g ks) d) (n, b) =
    (if decide (b = bound_of lower upper n /\ n ∈ ks /\ f n <> []) then Some (map snd (f n)) else dget d (n, b))).
  { induction ks as [|m ks IH]; intros d n b N; simpl flat_map; [simpl; destruct (decide _) as [(_ & I & _)|]; [inversion I|auto]|].
    inversion N as [|? ? Nm N']; subst. rewrite fold_left_app, IH by exact N'. unfold g at 1.
    destruct (decide (b = bound_of lower upper n /\ n ∈ ks /\ f n <> [])) as [(-> & I & F)|Z].
    - rewrite decide_True; [auto|]. split; [auto|]. split; [right; exact I|exact F].
    - destruct (f m) as [|p ps] eqn:Em; simpl fold_left.
      + destruct (decide _) as [(-> & I & F)|_]; [|auto]. exfalso. apply elem_of_cons in I as [->|I]; [contradiction|]. apply Z. auto.
      + destruct (decide ((n, b) = (m, bound_of lower upper m))) as [[= -> ->]|D].
        * rewrite dget_dset_eq. rewrite decide_True; [rewrite Em; auto|]. split; [auto|]. split; [left|congruence].
        * rewrite dget_dset_ne by exact D. destruct (decide _) as [(-> & I & F)|_]; [|auto]. exfalso.
          apply elem_of_cons in I as [->|I]; [apply D; auto|apply Z; auto]. }
  assert (NK : List.NoDup kinds) by (unfold kinds; repeat constructor; simpl; intuition discriminate).
  assert (AK : forall n, n ∈ kinds) by (intros n; unfold kinds; destruct n; set_solver).
  change (flat_map _ kinds) with (flat_map g kinds). split.
  - intros n [k Hk]. rewrite (G kinds) by exact NK. rewrite decide_True.
    + exists (map snd (f n)). split; [auto|]. exists (f n). split; [apply P|auto].
    + split; [auto|]. split; [apply AK|]. intros E. apply (proj2 (Q n) E k Hk).
  - intros n b Hn. rewrite (G kinds) by exact NK. rewrite decide_False; [auto|]. intros (E & _ & F). destruct Hn as [Hn|Hn]; [contradiction|].
    apply F, Q, Hn.
Qed.
Print Assumptions C54_summary_one.

(** The result's summary of bounds, of two sets with the same bounds, one after the other. *)
Definition C54_summary : Prop :=
  forall (lower upper : R) (out1 out2 : list (near * nat)) (n : near) (k : nat),
    In (n, k) out1 \/ In (n, k) out2 ->
    exists ks, dget (boundedness (boundedness [] lower upper out1) lower upper out2) (n, bound_of lower upper n) = Some ks /\ In k ks.

(** The second set's variables replace those of the first. *)
Theorem C54_summary_refuted : ~ C54_summary.
Proof.
  intros H. destruct (H 1 2 [(NearLower, 0%nat)] [(NearLower, 1%nat)] NearLower 0%nat) as (ks & E & Hk); [simpl; auto|].
  unfold boundedness, by_message in E. simpl in E. repeat (case_decide; [|congruence]). simpl in E.
  repeat (case_decide; [|congruence]). injection E as <-. destruct Hk as [[=]|[]].
Qed.
Print Assumptions C54_summary_refuted.

(** ** get_relaxed *)

(** What is relaxed enough to be reported: what is relaxed by more than 1 %, or by more than
    0.1 % and more than a tenth of every relaxation. *)
Definition relaxed_enough (vals : list R) (v : R) : Prop :=
  101 / 100 < v \/ (1001 / 1000 < v /\ forall w, In w vals -> (w - 1) / 10 < v - 1).

Section Sorting.
Context {A : Type}.
Implicit Types l : list (R * A).
Definition descending l : Prop := StronglySorted (fun p q => fst q <= fst p) l.

Lemma insert_In (x : R * A) l y : In y (insert_desc x l) <-> y = x \/ In y l.
Proof. induction l as [|z l IH]; simpl; [intuition|]. destruct (Rltb _ _); simpl; rewrite ?IH; intuition. Qed.
Lemma insert_sorted (x : R * A) l : descending l -> descending (insert_desc x l).
Proof.
  induction 1 as [|z l Hs IH Hz]; simpl; [repeat constructor|]. destruct (Rltb (fst x) (fst z)) eqn:E.
  - apply Rltb_true in E. constructor; auto. rewrite List.Forall_forall in *. intros y Hy. apply insert_In in Hy as [-> |Hy]; [lra|auto].
  - assert (fst z <= fst x). { assert (~ fst x < fst z) by (intros Hx; apply Rltb_true in Hx; congruence). lra. }
    constructor; [constructor; auto|]. constructor; auto. rewrite List.Forall_forall in *. intros y Hy. specialize (Hz y Hy). simpl in Hz. lra.
Qed.
Lemma sort_sorted l : descending (sort_desc l).
Proof. induction l; simpl; [constructor|]. apply insert_sorted. auto. Qed.
Lemma sort_In l y : In y (sort_desc l) <-> In y l.
Proof. induction l as [|x l IH]; simpl; [tauto|]. rewrite insert_In, IH. intuition. Qed.

(** The entries with a value, in order. *)
Definition entries (v : R) l : list (R * A) := List.filter (fun p => if Req_EM_T (fst p) v then true else false) l.

Lemma insert_entries v x l : entries v (insert_desc x l) = entries v (x :: l).
Proof.
  induction l as [|z l IH]; simpl; auto. destruct (Rltb (fst x) (fst z)) eqn:E; [|reflexivity].
  apply Rltb_true in E. simpl. unfold entries in *. rewrite IH. simpl. destruct (Req_EM_T (fst z) v), (Req_EM_T (fst x) v); auto. lra.
Qed.
Lemma sort_entries v l : entries v (sort_desc l) = entries v l.
Proof. induction l as [|x l IH]; simpl; auto. rewrite insert_entries. unfold entries in *. simpl. rewrite IH. auto. Qed.

Definition keep (most v : R) : Prop := ~ (v <= 101 / 100 /\ v - 1 <= (most - 1) / 10).
Lemma above_sorted most l : descending l -> descending (above most l) /\ (forall y, In y (above most l) -> In y l).
Proof.
  induction 1 as [|[v a] l Hs IH Hz]; simpl; [repeat constructor; auto|]. destruct IH as [IH1 IH2].
  destruct (_ && _); [split; [constructor|intros y []]|]. split.
  - constructor; auto. rewrite List.Forall_forall in *. auto.
  - intros y [->|Hy]; simpl; auto.
Qed.
Lemma above_entries most v l : descending l -> (keep most v -> entries v (above most l) = entries v l) /\ (~ keep most v -> entries v (above most l) = []).
Proof.
  induction 1 as [|[u a] l Hs IH Hz]; simpl; [auto|]. destruct IH as [IH1 IH2].
  destruct (_ && _) eqn:E.
  - apply andb_true_iff in E as [E1 E2]. apply Rleb_true in E1, E2. unfold nsub, ndiv in *. simpl in *. split; [|auto].
    intros Hk. assert (Hno : forall l', (forall p, In p l' -> fst p <= u) -> entries v l' = []).
    { induction l' as [|p l' IHl]; simpl; auto. intros Hall. destruct (Req_EM_T (fst p) v) as [Ev|].
      - exfalso. apply Hk. specialize (Hall p (or_introl eq_refl)). lra.
      - apply IHl. intros; apply Hall; auto. }
    symmetry. apply (Hno ((u, a) :: l)). intros p [<-|Hp]; simpl; [lra|]. rewrite List.Forall_forall in Hz. specialize (Hz p Hp). simpl in Hz. lra.
  - simpl. unfold entries in *. simpl. destruct (Req_EM_T u v) as [->|].
    + split; [intros Hk; rewrite IH1; auto|]. intros Hk. exfalso. apply Hk. intros [H1 H2].
      apply andb_false_iff in E as [E|E]; [assert (Rleb v (ndiv (nofZ 101) (nofZ 100)) = true) by (apply Rleb_true; unfold ndiv; simpl; lra)
        |assert (Rleb (nsub v n1) (ndiv (nsub most n1) (nofZ 10)) = true) by (apply Rleb_true; unfold ndiv, nsub; simpl; lra)]; simpl in *; congruence.
    + auto.
Qed.
End Sorting.

(** get_relaxed returns exactly the relaxations above the thresholds, largest first,
    and equal ones in the order given. *)
Definition C54_relaxed_for (cond : list R -> Prop) : Prop :=
  forall (A : Type) (vals : list R) (mapped : list A),
    length vals = length mapped -> cond vals ->
    exists out, get_relaxed vals mapped = Ok out /\ descending out /\
      forall v, (relaxed_enough vals v -> entries v out = entries v (combine vals mapped)) /\
                (~ relaxed_enough vals v -> entries v out = []).

(** What is missing: nothing to choose from. *)
Theorem C54_relaxed_partial : C54_relaxed_for (fun vals => vals <> []).
Proof.
  intros A vals mapped Hlen Hne. unfold get_relaxed.
  assert (Hs := sort_sorted (combine vals mapped)). assert (Hin := sort_In (combine vals mapped)).
  assert (Hent := fun v => sort_entries v (combine vals mapped)).
  destruct (sort_desc (combine vals mapped)) as [|[m a] l] eqn:E.
  { exfalso. destruct vals as [|v vals], mapped as [|b mapped]; simpl in *; try discriminate; auto.
    apply (proj2 (Hin (v, b))). auto. }
  set (s := (m, a) :: l) in *. cbv zeta.
  assert (Hmem : In m vals). { apply (in_combine_l vals mapped m a). apply Hin. left; auto. }
  assert (Hmax : forall w, In w vals -> w <= m).
  { intros w Hw. assert (exists b, In (w, b) (combine vals mapped)) as (b & Hb).
    { apply In_nth_error in Hw as (i & Hi). destruct (nth_error mapped i) as [b|] eqn:Eb.
      - exists b. clear - Hi Eb. revert mapped i Hi Eb. induction vals as [|v vals IH]; intros [|c mapped] [|i]; simpl; try discriminate.
        + intros [= ->] [= ->]. auto.
        + intros. right. eapply IH; eauto.
      - apply nth_error_None in Eb. assert (i < length vals)%nat by (apply nth_error_Some; congruence). lia. }
    apply Hin in Hb. destruct Hb as [[= <- _]|Hb]; [lra|]. inversion Hs as [|? ? _ Hf]; subst. rewrite List.Forall_forall in Hf. apply (Hf _ Hb). }
  eexists. split; [reflexivity|]. destruct (above_sorted (if nltb m (ndiv (nofZ 101) (nofZ 100)) then ndiv (nofZ 101) (nofZ 100) else m) s Hs) as [Hd _].
  split; [exact Hd|]. intros v.
  assert (Hiff : relaxed_enough vals v <-> keep (if nltb m (ndiv (nofZ 101) (nofZ 100)) then ndiv (nofZ 101) (nofZ 100) else m) v).
  { unfold relaxed_enough, keep. unfold ndiv. simpl. destruct (Rltb m (101 * / 100)) eqn:Em.
    - apply Rltb_true in Em. split.
      + intros [Hv|[Hv Hw]] [H1 H2]; lra.
      + intros Hk. destruct (Rlt_dec (101 / 100) v) as [|Hn]; [auto|]. right.
        assert (Hv : 1001 / 1000 < v) by (apply Rnot_le_lt; intros Hle; apply Hk; split; lra). split; [auto|].
        intros w Hw. specialize (Hmax w Hw). lra.
    - assert (Hge : 101 / 100 <= m). { assert (~ m < 101 * / 100) by (intros Hx; apply Rltb_true in Hx; congruence). lra. }
      split.
      + intros [Hv|[Hv Hw]] [H1 H2]; [lra|]. specialize (Hw m Hmem). lra.
      + intros Hk. destruct (Rlt_dec (101 / 100) v) as [|Hn]; [auto|]. right.
        assert (Hv : (m - 1) / 10 < v - 1) by (apply Rnot_le_lt; intros Hle; apply Hk; split; lra). split; [lra|].
        intros w Hw. specialize (Hmax w Hw). lra. }
  destruct (above_entries (if nltb m (ndiv (nofZ 101) (nofZ 100)) then ndiv (nofZ 101) (nofZ 100) else m) v s Hs) as [H1 H2].
  split.
  - intros Hr. rewrite H1 by (apply Hiff; auto). apply Hent.
  - intros Hr. apply H2. rewrite <- Hiff. auto.
Qed.
Print Assumptions C54_relaxed_partial.

(** With nothing relaxed it raises IndexError, as in debug() of a model whose constants are all zero. *)
Theorem C54_relaxed_refuted : ~ C54_relaxed_for (fun vals => True).
Proof. intros H. destruct (H unit [] [] eq_refl I) as (out & E & _). discriminate E. Qed.
Print Assumptions C54_relaxed_refuted.

(** ** Non-vacuity *)

Example tight_case : tight_warnings (T := Q) (fun c : nat => match c with O => 1 | S O => 998 # 1000 | S (S O) => 0 | _ => 1 end)%Q
    (fun c : nat => match c with O => 1 | S O => 1 | _ => 0 end)%Q None [Leaf 0; Lst [Leaf 1; CSet 0 [Leaf 2]]; Leaf 3]%nat = Ok [1; 3]%nat.
Proof. vm_compute. reflexivity. Qed.
Example loose_case : loose_warnings (T := Q) (fun c : nat => match c with O => Some (1 # 100) | S O => Some (- (1))%Q | _ => None end)%Q
    None false [Leaf 0; Leaf 1; Leaf 2]%nat = Ok [0%nat].
Proof. vm_compute. reflexivity. Qed.
Example loose_raises : loose_warnings (T := Q) (fun _ : nat => Some (1 # 100))%Q None true [Leaf 0%nat] = Err RuntimeWarningE.
Proof. vm_compute. reflexivity. Qed.
Example bounded_case : check_boundaries (T := Q) (fun q => q) 1%Q 100%Q (fun k : nat => match k with O => 2 | _ => 20 end)%Q [0; 1]%nat
    [[1 # 10; 0]; [0; 0]]%Q = Ok [(SensitiveLower, 0%nat); (NearLower, 0%nat)].
Proof. vm_compute. reflexivity. Qed.
Example relaxed_case : get_relaxed (T := Q) [101 # 100; 2; 1; 3]%Q [0; 1; 2; 3]%nat = Ok [(3%Q, 3%nat); (2%Q, 1%nat)].
Proof. vm_compute. reflexivity. Qed.
