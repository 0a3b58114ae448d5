(** C103: values read from solutions.
    Specification vocabulary: NomialSem.v; [at_path], [distinct] and [all_like] of PropsSolution.v. *)
From Verif Require Import Base HashVec Nomial NomialSem NomialProofs CanonProofs Sub SubSem SubProofs SubExtra MonoProofs ConstraintProofs Solution PropsSolution SolRead.
Open Scope R_scope.

(** ** Specification *)

(** A solution says that the value of variable [k] is [v]: that of its key or, for an element, what is there in the vector of its length. *)
Definition held (vk : nat -> nat * option (nat * nat)) (s : tree (val R)) (k : nat) (v : val R) : Prop :=
  exists w, at_path s [variables_key; fst (vk k)] = Some (Some w) /\
    match snd (vk k) with
    | None => v = w
    | Some (i, n) => exists l, w = Array l /\ length l = n /\ nth_error l i = Some v /\ (forall u, In u l -> exists x, u = Scalar x)
    end.
Definition absent (vk : nat -> nat * option (nat * nat)) (s : tree (val R)) (k : nat) : Prop := at_path s [variables_key; fst (vk k)] = None.
(** A solution of a program: a cost, and variables. *)
Definition solution (s : tree (val R)) : Prop :=
  distinct s /\ (exists c, at_path s [cost_key] = Some (Some (Scalar c))) /\ at_path s [variables_key] = Some None.
(** What solving gives, for one solution or those of a sweep. *)
Definition result_of (sols : list (tree (val R))) (sol : tree (val R)) : Prop :=
  exists d, append_all None sols = Ok (Some d) /\ sol = to_arrays d.
(** The numbers of an answer: one by itself, those of a sweep as constants, in order. *)
Definition numbers (r : answer R) (xs : list R) : Prop :=
  match xs with
  | [x] => r = Number (Scalar x)
  | _ => r = Answers (map (fun x => Nom (num_hmap x)) xs)
  end.
Definition any_order (pick : expv R -> hmap R -> schedule) : Prop := forall fixed h, valid_schedule fixed h (pick fixed h).

(** ** Proofs *)

Lemma entry_at (s : tree (val R)) k : at_path s [k] = match entry s k with Some (Leaf v) => Some (Some v) | Some (Node _) => Some None | None => None end.
Proof. destruct s as [v|kvs]; auto. Qed.
Lemma variables_at (s : tree (val R)) : at_path s [variables_key] = Some None ->
  exists vs, variables s = Ok vs /\ forall p, at_path s (variables_key :: p) = at_path (Node vs) p.
Proof.
  intros E. rewrite entry_at in E. unfold variables. destruct s as [v|kvs]; simpl entry in *; [discriminate|].
  destruct (dget kvs variables_key) as [[v|vs]|] eqn:Ed; try discriminate. exists vs. split; auto. intros p. simpl. simpl in Ed. rewrite Ed. auto.
Qed.

Section Reads.
Variable vk : nat -> nat * option (nat * nat).
Variable pick : expv R -> hmap R -> schedule.
Hypothesis Hpick : any_order pick.
Variable inf : R.
Variable se : bool.

Lemma given_held s vs k x : (forall p, at_path s (variables_key :: p) = at_path (Node vs) p) -> held vk s k (Scalar x) -> given vk vs k = Ok (Some x).
Proof.
  intros Hp (w & Ew & Hw). rewrite Hp in Ew. simpl in Ew. unfold given. destruct (dget vs (fst (vk k))) as [[w'|d]|]; try discriminate. injection Ew as ->.
  destruct (snd (vk k)) as [[i n]|]; [|subst w; auto]. destruct Hw as (l & -> & El & En & Ha). rewrite El, Nat.eqb_refl.
  assert (F : forallb (fun w : val R => match w with Scalar _ => true | Array _ => false end) l = true).
  { apply forallb_forall. intros u Hu. destruct (Ha u Hu) as (y & ->). auto. }
  rewrite F. simpl. rewrite En. auto.
Qed.
Lemma given_absent s vs k : (forall p, at_path s (variables_key :: p) = at_path (Node vs) p) -> absent vk s k -> given vk vs k = Ok None.
Proof.
  intros Hp E. unfold absent in E. rewrite Hp in E. simpl in E. unfold given. destruct (dget vs (fst (vk k))) as [[w'|d]|]; try discriminate. auto.
Qed.
Lemma fixed_by_ok vs (g : nat -> option R) ks : (forall k, In k ks -> given vk vs k = Ok (g k)) ->
  exists fixed, fixed_by vk vs ks = Ok fixed /\ forall k, fixed !! k = if in_dec Nat.eq_dec k ks then g k else None.
Proof.
  induction ks as [|k ks IH]; intros Hg; cbn [fixed_by].
  - exists ∅. split; auto.
  - rewrite (Hg k) by (left; auto). destruct IH as (fixed & -> & Hf); [intros; apply Hg; right; auto|]. simpl rbind.
    eexists. split; [reflexivity|]. intros j.
    destruct (decide (j = k)) as [->|Hne].
    + destruct (in_dec Nat.eq_dec k (k :: ks)) as [_|N]; [|exfalso; apply N; left; auto].
      destruct (g k) as [x|] eqn:Ex; [apply lookup_insert|]. rewrite Hf, Ex. destruct (in_dec _ _ _); auto.
    + replace ((match g k with Some x => <[k:=x]> fixed | None => fixed end) !! j) with (fixed !! j).
      2:{ destruct (g k); auto. rewrite lookup_insert_ne; auto. }
      rewrite Hf. destruct (in_dec Nat.eq_dec j ks) as [i|n], (in_dec Nat.eq_dec j (k :: ks)) as [i'|n']; auto.
      * exfalso. apply n'. right. auto.
      * destruct i'; [congruence|contradiction].
Qed.
Lemma vks_in_iff (h : hmap R) k : In k (vks_in h) <-> in_vks h k = true.
Proof.
  unfold vks_in, in_vks. rewrite in_flat_map, existsb_exists. split; intros (t & Ht & Hk); exists t; split; auto.
  - apply in_map_iff in Hk as ([k' x] & E & Hk). simpl in E. subst k'. apply elem_of_list_In, elem_of_map_to_list in Hk. rewrite Hk. auto.
  - destruct (fst t !! k) as [x|] eqn:E; [|discriminate]. apply in_map_iff. exists (k, x). split; auto. apply elem_of_list_In, elem_of_map_to_list. auto.
Qed.
Lemma sub_vars_value s vs h env : (forall p, at_path s (variables_key :: p) = at_path (Node vs) p) -> canonical h -> h <> [] -> positive_point env ->
  (forall k, in_vks h k = true -> held vk s k (Scalar (env k))) ->
  sub_vars inf pick vk se vs h = signomial_init se true (num_hmap (eval env h)).
Proof.
  intros Hp Hc Hne He Hk. unfold sub_vars.
  destruct (fixed_by_ok vs (fun k => Some (env k)) (vks_in h)) as (fixed & -> & Hf).
  { intros k Hin. apply (given_held s); auto. apply Hk, vks_in_iff. auto. }
  simpl rbind. destruct (sub_constant inf h fixed (pick fixed h) (proj1 Hc) Hne) as (st & -> & Es).
  - intros k v Hv. rewrite Hf in Hv. destruct (in_dec _ _ _); [|discriminate]. injection Hv as <-. apply He.
  - intros k Hv. rewrite Hf. apply in_vks_true, vks_in_iff in Hv. destruct (in_dec _ _ _); [congruence|contradiction].
  - apply Hpick.
  - simpl rbind. rewrite Es. unfold num_hmap. do 3 f_equal. apply eval_agree. intros k Hv. unfold override. rewrite Hf. apply vks_in_iff in Hv.
    destruct (in_dec _ _ _); [auto|contradiction].
Qed.
Lemma num_positive x : 0 < x -> signomial_init se true (num_hmap x) = Ok (num_hmap x).
Proof.
  intros Hx. unfold signomial_init, any_nonpositive, num_hmap. cbn [existsb snd]. destruct (nleb x n0) eqn:E; auto.
  change (Rleb x 0 = true) in E. apply Rleb_true in E. lra.
Qed.
Lemma num_nonpositive x : x <= 0 -> signomial_init se true (num_hmap x) = if se then Ok (num_hmap x) else Err InvalidPosynomialE.
Proof.
  intros Hx. unfold signomial_init, any_nonpositive, num_hmap. cbn [existsb snd]. replace (nleb x n0) with true by (symmetry; apply Rleb_true; auto).
  destruct se; auto.
Qed.
Lemma num_class x : 0 < x -> classify (num_hmap x) = CMonomial.
Proof.
  intros Hx. unfold classify, any_nonpositive, num_hmap. cbn [existsb snd]. destruct (nleb x n0) eqn:E; auto.
  change (Rleb x 0 = true) in E. apply Rleb_true in E. lra.
Qed.

Lemma result_one s sol : result_of [s] sol -> same sol s.
Proof.
  intros (d & E & ->). injection E as <-. intros p. unfold to_arrays, enlist. rewrite !at_tmap. destruct (at_path s p) as [[v|]|]; auto.
Qed.
Lemma result_many sols sol : result_of sols sol -> (forall s, In s sols -> solution s) -> all_like sols -> (1 < length sols)%nat ->
  (forall i s, nth_error sols i = Some s -> same (atindex i sol) s) /\
  (forall p vs, Forall2 (fun s v => at_path s p = Some (Some v)) sols vs -> at_path sol p = Some (Some (Array vs))) /\
  (forall p, (forall s, In s sols -> at_path s p = None) -> at_path sol p = None) /\
  at_path sol [variables_key] = Some None /\ sol_len sol = length sols.
Proof.
  intros (d & E & ->) Hs Hl Hn. destruct sols as [|s0 ss]; [simpl in Hn; lia|].
  destruct (like_history (s0 :: ss) s0 ss eq_refl) as (d' & E' & H); auto. { intros s Hi. apply Hs. auto. }
  assert (d' = d) as -> by congruence. clear E'.
  assert (Hlong : forall l : list (val R), length l = length (s0 :: ss) -> enray_leaf l = Array l).
  { intros [|a [|b l]] Hlen; auto; simpl in Hlen, Hn; lia. }
  split; [|split; [|split; [|split]]].
  - destruct (C45_arrays_partial R (s0 :: ss)) as (d' & E' & Hsame); [discriminate|intros s Hi; apply Hs; auto| |].
    + split; auto. intros L. rewrite L in Hn. lia.
    + assert (d' = d) as -> by congruence. exact Hsame.
  - intros p vs HF. unfold to_arrays. rewrite at_tmap.
    assert (H0 := H p 0%nat s0 eq_refl). inversion HF as [|? v0 ? vs' Hv0 HF']; subst. rewrite Hv0 in H0. destruct H0 as (l & El & _ & Hlen).
    rewrite El. rewrite (Hlong l Hlen). do 3 f_equal. apply list_eq. intros i.
    assert (Hlen2 := Forall2_length _ _ _ HF).
    destruct (lt_dec i (length (s0 :: ss))) as [Hi|Hi].
    + destruct (nth_error (s0 :: ss) i) as [s|] eqn:Es; [|apply nth_error_None in Es; lia].
      assert (Ev : exists v, nth_error (v0 :: vs') i = Some v /\ at_path s p = Some (Some v)).
      { clear -HF Es. revert i Es. induction HF as [|a b la lb Hab HF IH]; intros [|i] Es; simpl in *; try discriminate; eauto. injection Es as ->. eauto. }
      destruct Ev as (v & Ev & Hv). assert (Hi' := H p i s Es). rewrite Hv in Hi'. destruct Hi' as (l' & El' & Hn' & _).
      assert (l' = l) as -> by congruence. transitivity (Some v); [|symmetry].
      * rewrite <- Hn'. clear. revert i. induction l; intros [|i]; simpl; auto.
      * rewrite <- Ev. generalize (v0 :: vs'). clear. intros l. revert i. induction l; intros [|i]; simpl; auto.
    + rewrite !lookup_ge_None_2 by lia. auto.
  - intros p Ha. unfold to_arrays. rewrite at_tmap. assert (H0 := H p 0%nat s0 eq_refl). rewrite (Ha s0) in H0 by (left; auto). rewrite H0. auto.
  - unfold to_arrays. rewrite at_tmap. assert (H0 := H [variables_key] 0%nat s0 eq_refl).
    destruct (Hs s0 (or_introl eq_refl)) as (_ & _ & Ev). rewrite Ev in H0. rewrite H0. auto.
  - assert (H0 := H [cost_key] 0%nat s0 eq_refl). destruct (Hs s0 (or_introl eq_refl)) as (_ & (c & Ec) & _). rewrite Ec in H0. destruct H0 as (l & El & _ & Hlen).
    assert (Ea : at_path (to_arrays d) [cost_key] = Some (Some (Array l))).
    { unfold to_arrays. rewrite at_tmap, El. rewrite (Hlong l Hlen). auto. }
    rewrite entry_at in Ea. unfold sol_len. destruct (entry (to_arrays d) cost_key) as [[v|kvs]|]; try discriminate. injection Ea as ->. auto.
Qed.
Lemma held_same s s' k v : same s' s -> held vk s k v -> held vk s' k v.
Proof. intros Hs (w & Ew & Hw). exists w. rewrite Hs. auto. Qed.

Definition attempt (x : R) : res (answer R) := let! h := signomial_init se true (num_hmap x) in Ok (Nom h).
Lemma subinto_one_expr s s' h env : same s' s -> solution s -> canonical h -> h <> [] -> positive_point env ->
  (forall k, in_vks h k = true -> held vk s k (Scalar (env k))) ->
  subinto_one inf pick vk se s' (Expr h) = attempt (eval env h).
Proof.
  intros Hs (_ & _ & Hv) Hc Hne He Hk. rewrite <- Hs in Hv. destruct (variables_at s' Hv) as (vs & E & Hp). unfold subinto_one, attempt. rewrite E. simpl.
  rewrite (sub_vars_value s' vs h env); auto. intros k Hin. apply (held_same s); auto.
Qed.
Lemma each_index_ok f : forall is xs, Forall2 (fun i x => f i = Ok x) is xs -> each_index (T := R) f is = Ok xs.
Proof. induction is as [|i is IH]; intros xs HF; inversion HF; subst; simpl; auto. rewrite H1. simpl. rewrite (IH _ H3). auto. Qed.
Lemma each_index_err f e : forall is, (forall i, In i is -> (exists x, f i = Ok x) \/ f i = Err e) -> (exists i, In i is /\ f i = Err e) -> each_index (T := R) f is = Err e.
Proof.
  induction is as [|i is IH]; intros Ha (j & Hj & Ej); [destruct Hj|]. simpl. destruct (Ha i (or_introl eq_refl)) as [(x & Ex)|Ex]; rewrite Ex; simpl; auto.
  destruct Hj as [->|Hj]; [congruence|]. rewrite IH; auto. { intros; apply Ha; right; auto. } eauto.
Qed.
End Reads.

(** ** C103: A solution gives the values of expressions and variables, at each of its points *)

(** *** Expressions *)

(** The solutions [sols] have their variables at the points [envs]. *)
Definition points (vk : nat -> nat * option (nat * nat)) (h : hmap R) (sols : list (tree (val R))) (envs : list point) : Prop :=
  Forall2 (fun s env => positive_point env /\ forall k, in_vks h k = true -> held vk s k (Scalar (env k))) sols envs.
Definition C103_expressions_for (cond : bool -> list R -> Prop) : Prop :=
  forall inf pick vk se sols envs h sol, any_order pick -> sols <> [] -> (forall s, In s sols -> solution s) -> all_like sols ->
    canonical h -> h <> [] -> points vk h sols envs -> cond se (map (fun env => eval env h) envs) -> result_of sols sol ->
    exists r, call inf pick vk se sol (Expr h) = Ok r /\ numbers r (map (fun env => eval env h) envs).

Lemma points_nth vk h sols envs : points vk h sols envs -> forall i s, nth_error sols i = Some s ->
  exists env, nth_error envs i = Some env /\ positive_point env /\ forall k, in_vks h k = true -> held vk s k (Scalar (env k)).
Proof.
  intros HF. induction HF as [|s env sols envs [H1 H2] HF IH]; intros [|i] s' E; simpl in *; try discriminate.
  - injection E as ->. eauto.
  - apply IH. auto.
Qed.
Lemma call_many inf pick vk se sols envs h sol : any_order pick -> (1 < length sols)%nat -> (forall s, In s sols -> solution s) -> all_like sols ->
  canonical h -> h <> [] -> points vk h sols envs -> result_of sols sol ->
  call inf pick vk se sol (Expr h) = (let! l := each_index (fun i => subinto_one inf pick vk se (atindex i sol) (Expr h)) (seq 0 (length envs)) in Ok (Answers l)) /\
  forall i env, nth_error envs i = Some env -> subinto_one inf pick vk se (atindex i sol) (Expr h) = attempt se (eval env h).
Proof.
  intros Hp Hn Hs Hl Hc Hne HF Hr. destruct (result_many sols sol Hr Hs Hl Hn) as (Hi & _ & _ & Hv & Hlen).
  assert (Hlen2 := Forall2_length _ _ _ HF). destruct (variables_at sol Hv) as (vs & E & _). split.
  - unfold call, subinto. rewrite E. cbn [rbind found]. rewrite Hlen. destruct (Nat.ltb_spec 1 (length sols)) as [_|]; [|lia]. rewrite Hlen2.
    destruct (each_index _ _); auto.
  - intros i env Ee. destruct (nth_error sols i) as [s|] eqn:Es.
    2:{ apply nth_error_None in Es. assert (i < length sols)%nat by (rewrite Hlen2; apply nth_error_Some; congruence). lia. }
    destruct (points_nth vk h sols envs HF i s Es) as (env' & Ee' & H1 & H2). assert (env' = env) as -> by congruence.
    apply (subinto_one_expr vk pick Hp inf se s); auto. apply Hs. eapply nth_error_In; eauto.
Qed.
Lemma call_single inf pick vk se s env h sol : any_order pick -> solution s -> canonical h -> h <> [] -> points vk h [s] [env] -> result_of [s] sol ->
  call inf pick vk se sol (Expr h) = let! r := attempt se (eval env h) in Ok (coefficient r).
Proof.
  intros Hp Hs Hc Hne HF Hr. inversion HF as [|? ? ? ? [H1 H2] _]; subst. assert (Hsame := result_one s sol Hr).
  assert (Hone := subinto_one_expr vk pick Hp inf se s sol h env Hsame Hs Hc Hne H1 H2). destruct Hs as (_ & (c & Ec) & Hv).
  rewrite <- Hsame in Hv, Ec. destruct (variables_at sol Hv) as (vs & E & _). unfold call. rewrite <- Hone. unfold subinto, subinto_one. rewrite E. cbn [rbind found].
  assert (El : sol_len sol = 1%nat).
  { rewrite entry_at in Ec. unfold sol_len. destruct (entry sol cost_key) as [[v|kvs]|]; try discriminate. injection Ec as ->. auto. }
  rewrite El. auto.
Qed.

(** Missing: expressions whose value is not positive. *)
Theorem C103_expressions_partial : C103_expressions_for (fun _ xs => forall x, In x xs -> 0 < x).
Proof.
  intros inf pick vk se sols envs h sol Hp Hne Hs Hl Hc Hh HF Hpos Hr. destruct sols as [|s [|s' ss]]; [contradiction| |].
  - destruct envs as [|env [|]]; inversion HF as [|? ? ? ? ? HF']; subst; [|inversion HF'].
    rewrite (call_single inf pick vk se s env h sol); auto; [|apply Hs; left; auto]. assert (Hx : 0 < eval env h) by (apply Hpos; left; auto).
    unfold attempt. rewrite (num_positive se _ Hx). cbn [rbind coefficient]. rewrite (num_class _ Hx). simpl. eauto.
  - destruct (call_many inf pick vk se (s :: s' :: ss) envs h sol) as [-> Hi]; auto; [simpl; lia|].
    rewrite (each_index_ok _ _ (map (fun env => Nom (num_hmap (eval env h))) envs)).
    + cbn [rbind]. eexists. split; [reflexivity|]. inversion HF as [|? env ? envs' _ HF']; subst. inversion HF' as [|? env' ? envs'' _ HF'']; subst. simpl.
      rewrite map_map. auto.
    + apply Forall2_same_length_lookup_2. { rewrite seq_length, map_length. auto. }
      intros i j r Ej Er. apply lookup_seq in Ej as [-> Hlt]. simpl. rewrite list_lookup_fmap in Er. destruct (envs !! i) as [env|] eqn:Ee; [|discriminate]. injection Er as <-.
      rewrite (Hi i env). 2:{ rewrite <- Ee. clear. revert i. induction envs; intros [|i]; simpl; auto. }
      unfold attempt. rewrite num_positive; auto. apply Hpos. apply in_map_iff. exists env. split; auto. apply elem_of_list_In, elem_of_list_lookup. eauto.
Qed.
Print Assumptions C103_expressions_partial.

(** Then there are none for any point, unless signomials are enabled, when a single solution gives a nomial instead of a number. *)
Theorem C103_not_positive : forall inf pick vk sols envs h sol, any_order pick -> sols <> [] -> (forall s, In s sols -> solution s) -> all_like sols ->
  canonical h -> h <> [] -> points vk h sols envs -> (exists env, In env envs /\ eval env h <= 0) -> result_of sols sol ->
  call inf pick vk false sol (Expr h) = Err InvalidPosynomialE /\
  forall env, envs = [env] -> call inf pick vk true sol (Expr h) = Ok (Nom (num_hmap (eval env h))).
Proof.
  intros inf pick vk sols envs h sol Hp Hne Hs Hl Hc Hh HF (env & Hin & Hle) Hr. destruct sols as [|s [|s' ss]]; [contradiction| |].
  - destruct envs as [|env0 [|]]; inversion HF as [|? ? ? ? ? HF']; subst; [|inversion HF']. destruct Hin as [->|[]].
    split; [|intros e [= <-]]; rewrite (call_single inf pick vk _ s env h sol) by (auto; apply Hs; left; auto); unfold attempt; rewrite num_nonpositive by auto; auto.
    cbn [rbind coefficient]. unfold classify, any_nonpositive, num_hmap. cbn [existsb snd]. replace (nleb (eval env h) n0) with true by (symmetry; apply Rleb_true; auto). auto.
  - split.
    2:{ intros e ->. inversion HF as [|? ? ? ? ? HF']; subst. inversion HF'. }
    destruct (call_many inf pick vk false (s :: s' :: ss) envs h sol) as [-> Hi]; auto; [simpl; lia|].
    rewrite (each_index_err _ InvalidPosynomialE); auto.
    + intros i Hseq. apply in_seq in Hseq. destruct (nth_error envs i) as [env'|] eqn:Ee; [|apply nth_error_None in Ee; lia]. rewrite (Hi i env' Ee). unfold attempt.
      destruct (Rlt_le_dec 0 (eval env' h)); [rewrite num_positive by auto; simpl; eauto|rewrite num_nonpositive by auto; auto].
    + apply In_nth_error in Hin as (i & Ei). exists i. split. { apply in_seq. assert (i < length envs)%nat by (apply nth_error_Some; congruence). lia. }
      rewrite (Hi i env Ei). unfold attempt. rewrite num_nonpositive by auto. auto.
Qed.
Print Assumptions C103_not_positive.

(** *** Variables *)

Definition C103_variables_for (cond : option (nat * nat) -> list (tree (val R)) -> Prop) : Prop :=
  forall inf pick vk se sols k vs sol, any_order pick -> sols <> [] -> (forall s, In s sols -> solution s) -> all_like sols ->
    Forall2 (fun s v => held vk s k v) sols vs -> cond (snd (vk k)) sols -> result_of sols sol ->
    call inf pick vk se sol (Var k) = Ok (Number match vs with [v] => v | _ => Array vs end).

(** Missing: elements of vectors in sweeps. *)
Theorem C103_variables_partial : C103_variables_for (fun element sols => element = None \/ length sols = 1%nat).
Proof.
  intros inf pick vk se sols k vs sol Hp Hne Hs Hl HF Hc Hr. destruct sols as [|s [|s' ss]]; [contradiction| |].
  - inversion HF as [|? v ? vs' Hh HF']; subst. inversion HF'; subst. assert (Hsame := result_one s sol Hr). destruct (Hs s (or_introl eq_refl)) as (_ & _ & Hv).
    rewrite <- Hsame in Hv. destruct (variables_at sol Hv) as (vs & E & Hpth). apply (held_same vk s sol k v Hsame) in Hh. destruct Hh as (w & Ew & Hw).
    rewrite Hpth in Ew. simpl in Ew. unfold call, subinto. rewrite E. cbn [rbind found]. unfold contains. cbn [looked_up]. unfold getitem.
    destruct (dget vs (fst (vk k))) as [[w'|d]|]; try discriminate. injection Ew as ->. destruct (snd (vk k)) as [[i n]|]; [|subst v; auto].
    destruct Hw as (l & -> & _ & En & Ha). unfold index. rewrite En. cbn [rbind]. destruct (Ha v (nth_error_In _ _ En)) as (x & ->). simpl. auto.
  - destruct Hc as [Hc|Hc]; [|discriminate]. destruct (result_many (s :: s' :: ss) sol Hr Hs Hl) as (_ & Hall & _ & Hv & _); [simpl; lia|].
    specialize (Hall [variables_key; fst (vk k)] vs). destruct (variables_at sol Hv) as (d & E & Hpth). rewrite Hpth in Hall.
    assert (Ea : at_path (Node d) [fst (vk k)] = Some (Some (Array vs))).
    { apply Hall. eapply Forall2_impl; [exact HF|]. intros t v (w & Ew & Hw). rewrite Hc in Hw. subst w. auto. }
    simpl in Ea. unfold call, subinto. rewrite E. cbn [rbind found]. unfold contains. cbn [looked_up]. unfold getitem. rewrite Hc.
    destruct (dget d (fst (vk k))) as [[w'|d']|]; try discriminate. injection Ea as ->. simpl.
    inversion HF as [|? v ? vs' _ HF']; subst. inversion HF'; subst. auto.
Qed.
Print Assumptions C103_variables_partial.

(** In a sweep the number of the element is taken for that of a point: looking it up gives the whole vector there. *)
Theorem C103_elements : forall vk sols ws k i n sol vs, (1 < length sols)%nat -> (forall s, In s sols -> solution s) -> all_like sols -> snd (vk k) = Some (i, n) ->
  Forall2 (fun s w => at_path s [variables_key; fst (vk k)] = Some (Some w)) sols ws -> result_of sols sol -> variables sol = Ok vs ->
  getitem vk vs k = match nth_error ws i with Some w => Ok w | None => Err IndexErrorE end.
Proof.
  intros vk sols ws k i n sol vs Hn Hs Hl Hk HF Hr Ev. destruct (result_many sols sol Hr Hs Hl Hn) as (_ & Hall & _ & Hv & _).
  destruct (variables_at sol Hv) as (d & E & Hpth). assert (d = vs) as -> by congruence. specialize (Hall _ _ HF). rewrite Hpth in Hall. simpl in Hall.
  unfold getitem. rewrite Hk. destruct (dget vs (fst (vk k))) as [[w'|d']|]; try discriminate. injection Hall as ->. reflexivity.
Qed.
Print Assumptions C103_elements.

(** *** Variables that are not in the solution *)

Definition C103_absent_for (cond : hmap R -> list (tree (val R)) -> Prop) : Prop :=
  forall inf pick vk se sols h sol r, any_order pick -> sols <> [] -> (forall s, In s sols -> solution s) -> all_like sols ->
    canonical h -> (exists k, in_vks h k = true /\ forall s, In s sols -> absent vk s k) -> cond h sols -> result_of sols sol ->
    call inf pick vk se sol (Expr h) = Ok r -> forall x, r <> Number x.

(** They are taken to be 1 in Monomials, by themselves or not. *)
Theorem C103_absent_are_one : forall inf pick vk se s a e c env sol, any_order pick -> solution s ->
  hmap_of a = [(e, c)] -> canonical [(e, c)] -> 0 < c -> positive_point env ->
  (forall k, e !! k <> None -> held vk s k (Scalar (env k)) \/ absent vk s k /\ env k = 1) ->
  result_of [s] sol -> call inf pick vk se sol a = Ok (Number (Scalar (eval env [(e, c)]))).
Proof.
  intros inf pick vk se s a e c env sol Hp Hs Ha Hc Hpos He Hk Hr. assert (Hsame := result_one s sol Hr). destruct Hs as (_ & (cost & Ec) & Hv).
  rewrite <- Hsame in Hv, Ec. destruct (variables_at sol Hv) as (vs & E & Hpth).
  assert (El : sol_len sol = 1%nat).
  { rewrite entry_at in Ec. unfold sol_len. destruct (entry sol cost_key) as [[v|kvs]|]; try discriminate. injection Ec as ->. auto. }
  assert (Hk' : forall k, e !! k <> None -> (exists v, given vk vs k = Ok v /\ match v with Some x => x = env k | None => env k = 1 end)).
  { intros k Hin. destruct (Hk k Hin) as [Hh|[Hb H1]].
    - exists (Some (env k)). split; auto. apply (given_held vk sol vs); auto. apply (held_same vk s); auto.
    - exists None. split; auto. apply (given_absent vk sol vs); auto. unfold absent. rewrite Hsame. auto. }
  assert (Hsub : exists e', sub_vars inf pick vk se vs [(e, c)] = Ok [(e', eval env [(e, c)])]).
  { set (g := fun k => match given vk vs k with Ok v => v | Err _ => None end). unfold sub_vars.
    assert (Hin : forall k, In k (vks_in [(e, c)]) <-> e !! k <> None).
    { intros k. rewrite vks_in_iff. unfold in_vks. cbn [existsb fst]. destruct (e !! k); split; intros; try discriminate; auto; try congruence. }
    destruct (fixed_by_ok vk vs g (vks_in [(e, c)])) as (fixed & -> & Hf).
    { intros k Hi. apply Hin in Hi. destruct (Hk' k Hi) as (v & Ev & _). unfold g. rewrite Ev. auto. }
    assert (Hfp : forall k v, fixed !! k = Some v -> 0 < v).
    { intros k v Ev. rewrite Hf in Ev. destruct (in_dec _ _ _) as [Hi|]; [|discriminate]. apply Hin in Hi. destruct (Hk' k Hi) as (w & Ew & Hw).
      unfold g in Ev. rewrite Ew in Ev. subst w. rewrite Hw. apply He. }
    assert (Hpd := positive_defined fixed [(e, c)] Hfp). assert (Hval := Hp fixed [(e, c)]). simpl rbind.
    destruct (sub_main inf [(e, c)] fixed (proj1 Hc) Hpd _ Hval) as (st & Es & Hg & _). rewrite Es. simpl rbind.
    assert (Hcoef := fun e0 => final_coef inf [(e, c)] fixed (proj1 Hc) Hpd _ st e0 Hval Es). cbn [lsum fst snd] in Hcoef.
    assert (Hx : c * subval fixed e = eval env [(e, c)]).
    { rewrite subval_mono_valp. cbn [eval]. rewrite Rplus_0_r. f_equal.
      transitivity (eval (override (fun _ => 1) fixed) [(e, 1)]).
      - rewrite <- (evalp_pos _ [(e, 1)]) by (apply override_positive; auto; intros ?; lra). cbn [evalp]. lra.
      - rewrite (eval_agree _ env [(e, 1)]); [cbn [eval]; lra|]. intros k Hi. assert (Hi' : e !! k <> None).
        { apply in_vks_true in Hi as (e1 & c1 & [[= <- <-]|[]] & Hi). auto. }
        unfold override. rewrite Hf. destruct (in_dec _ _ _) as [_|N]; [|exfalso; apply N, Hin; auto]. destruct (Hk' k Hi') as (w & Ew & Hw).
        unfold g. rewrite Ew. destruct w; auto. }
    assert (Hxp : 0 < eval env [(e, c)]). { apply eval_all_positive; [|discriminate]. intros e1 c1 [[= <- <-]|[]]; auto. }
    assert (Hcan : canonical (s_cp st)).
    { destruct (sub_canonical _ _ _ _ _ Hc Hpd Hval Es) as [C|Z]; auto. exfalso. specialize (Hcoef (surviving fixed e)).
      rewrite decide_True in Hcoef by auto. rewrite Hx, Z in Hcoef.
      assert (Z0 : coef zero_hmap (surviving fixed e) = 0) by (unfold coef, zero_hmap; cbn [dget]; destruct (decide _); reflexivity).
      rewrite Z0 in Hcoef. clear -Hcoef Hxp. set (x := eval env [(e, c)]) in *. clearbody x. lra. }
    assert (Hone : s_cp st = [(surviving fixed e, eval env [(e, c)])]).
    { assert (Hall : forall e1 c1, In (e1, c1) (s_cp st) -> e1 = surviving fixed e /\ c1 = eval env [(e, c)]).
      { intros e1 c1 Hi. assert (C1 : c1 <> 0) by (apply (proj2 Hcan) in Hi; tauto). specialize (Hcoef e1). unfold coef in Hcoef.
        rewrite (In_dget (s_cp st) e1 c1) in Hcoef; [|apply Hcan|auto]. destruct (decide (surviving fixed e = e1)) as [<-|]; [split; auto; lra|lra]. }
      destruct (s_cp st) as [|[e1 c1] [|[e2 c2] rest]].
      - specialize (Hcoef (surviving fixed e)). rewrite decide_True in Hcoef by auto. unfold coef in Hcoef. simpl in Hcoef. lra.
      - destruct (Hall e1 c1 (or_introl eq_refl)) as [-> ->]. auto.
      - exfalso. destruct (Hall e1 c1 (or_introl eq_refl)) as [-> _]. destruct (Hall e2 c2 (or_intror (or_introl eq_refl))) as [-> _].
        destruct Hcan as [Hn _]. cbn [dkeys map fst] in Hn. inversion Hn as [|? ? Hno _]. apply Hno. left. }
    rewrite Hone. exists (surviving fixed e). unfold signomial_init, any_nonpositive. cbn [existsb snd]. destruct (nleb _ n0) eqn:En; auto.
    change (Rleb (eval env [(e, c)]) 0 = true) in En. apply Rleb_true in En. lra. }
  assert (Hxp : 0 < eval env [(e, c)]). { apply eval_all_positive; [|discriminate]. intros e1 c1 [[= <- <-]|[]]; auto. }
  destruct Hsub as (e' & Hsub).
  assert (Hfall : (let! h := sub_vars inf pick vk se vs (hmap_of a) in Ok (Nom h)) = Ok (Nom [(e', eval env [(e, c)])])) by (rewrite Ha, Hsub; auto).
  assert (Hcl : coefficient (Nom [(e', eval env [(e, c)])]) = Number (Scalar (eval env [(e, c)]))).
  { unfold coefficient, classify, any_nonpositive. cbn [existsb snd]. destruct (nleb _ n0) eqn:En; auto.
    change (Rleb (eval env [(e, c)]) 0 = true) in En. apply Rleb_true in En. lra. }
  unfold call, subinto. rewrite E. cbn [rbind]. rewrite El. cbn [Nat.ltb Nat.leb]. rewrite Hfall. cbn [rbind].
  destruct a as [k|h]; cbn [found rbind]; [|rewrite Hcl; auto].
  simpl in Ha. injection Ha as <- <-.
  destruct (Hk' k) as (v & Eg & Hv'). { rewrite lookup_singleton. discriminate. }
  destruct (Hk k) as [Hh|[Hb H1]]. { rewrite lookup_singleton. discriminate. }
  - apply (held_same vk s sol k _ Hsame) in Hh. destruct Hh as (w & Ew & Hw). rewrite Hpth in Ew. simpl in Ew. unfold contains. cbn [looked_up]. unfold getitem.
    assert (Hev : eval env [({[k := 1]}, 1)] = env k).
    { apply (eval_var env k). apply He. }
    change (n1 : R) with 1. rewrite Hev.
    destruct (dget vs (fst (vk k))) as [[w'|d]|]; try discriminate. injection Ew as ->. destruct (snd (vk k)) as [[i n]|]; [|subst w; auto].
    destruct Hw as (l & -> & _ & En & _). unfold index. rewrite En. cbn [rbind]. simpl. auto.
  - unfold absent in Hb. rewrite <- Hsame, Hpth in Hb. simpl in Hb. unfold contains.
    destruct (dget vs (fst (vk k))) as [[w'|d]|]; try discriminate. cbn [rbind]. rewrite Hcl. auto.
Qed.
Print Assumptions C103_absent_are_one.

(** *** Cases that meet the hypotheses, and cases that refute the full claims *)

(** A variable 2; a vector of two elements, 3 and 4, under key 5; a vector of one, 6, under key 7; and 9, which is not in the solutions. *)
Definition ex_vk (k : nat) : nat * option (nat * nat) :=
  match k with 3%nat => (5%nat, Some (0, 2)%nat) | 4%nat => (5%nat, Some (1, 2)%nat) | 6%nat => (7%nat, Some (0, 1)%nat) | _ => (k, None) end.
Definition ex_sol (x : R) : tree (val R) :=
  Node [(cost_key, Leaf (Scalar x));
        (variables_key, Node [(2%nat, Leaf (Scalar x)); (5%nat, Leaf (Array [Scalar (2 * x); Scalar (3 * x)])); (7%nat, Leaf (Array [Scalar x]))])].
Definition ex_env (x : R) : point := fun k => match k with 2%nat | 6%nat => x | 3%nat => 2 * x | 4%nat => 3 * x | _ => 1 end.
Definition ex_swept (x y : R) : tree (val R) :=
  Node [(cost_key, Leaf (Array [Scalar x; Scalar y]));
        (variables_key, Node [(2%nat, Leaf (Array [Scalar x; Scalar y]));
                              (5%nat, Leaf (Array [Array [Scalar (2 * x); Scalar (3 * x)]; Array [Scalar (2 * y); Scalar (3 * y)]]));
                              (7%nat, Leaf (Array [Array [Scalar x]; Array [Scalar y]]))])].

Lemma ex_distinct x : distinct (ex_sol x).
Proof.
  apply distinct_node. { simpl. repeat constructor; set_solver. }
  intros kv [<-|[<-|[]]]; simpl; [constructor|]. apply distinct_node. { simpl. repeat constructor; set_solver. }
  intros kv [<-|[<-|[<-|[]]]]; constructor.
Qed.
Lemma ex_solution x : solution (ex_sol x).
Proof. split; [apply ex_distinct|]. split; [exists x|]; reflexivity. Qed.
Lemma ex_like xs : all_like (map ex_sol xs).
Proof.
  intros s s' Hs Hs'. apply in_map_iff in Hs as (x & <- & _). apply in_map_iff in Hs' as (y & <- & _).
  intros [|k p]; [exact I|]. destruct k as [|[|k]]; simpl; [destruct p; exact I| |destruct p; exact I].
  destruct p as [|k p]; [exact I|]. destruct k as [|[|[|[|[|[|[|[|k]]]]]]]]; simpl; destruct p; exact I.
Qed.
Lemma ex_result x : result_of [ex_sol x] (ex_sol x).
Proof. eexists. split; reflexivity. Qed.
Lemma ex_sweep x y : result_of [ex_sol x; ex_sol y] (ex_swept x y).
Proof. eexists. split; reflexivity. Qed.
Lemma ex_positive x : 0 < x -> positive_point (ex_env x).
Proof. intros Hx k. unfold ex_env. do 7 (destruct k as [|k]; try lra). Qed.
Lemma std_any : any_order std_schedule.
Proof. intros fixed h. apply std_schedule_valid. Qed.

(** [x + u[1]]. *)
Definition ex_expr : hmap R := [({[2%nat := 1]}, 1); ({[4%nat := 1]}, 1)].
Lemma ex_expr_canonical : canonical ex_expr.
Proof.
  split.
  - simpl. repeat constructor; [|set_solver]. intros Hin. apply elem_of_list_singleton in Hin. apply (f_equal (fun e : expv R => e !! 2%nat)) in Hin.
    rewrite lookup_singleton, lookup_singleton_ne in Hin by auto. discriminate.
  - intros e c [[= <- <-]|[[= <- <-]|[]]]; (split; [|lra]); intros k x Hk; apply lookup_singleton_Some in Hk as [_ <-]; lra.
Qed.
Lemma ex_held x k : k = 2%nat \/ k = 3%nat \/ k = 4%nat \/ k = 6%nat -> held ex_vk (ex_sol x) k (Scalar (ex_env x k)).
Proof.
  intros [->|[->|[->| ->]]]; (eexists; split; [reflexivity|]); simpl; auto;
    eexists; (split; [reflexivity|]); (split; [reflexivity|]); (split; [reflexivity|]); intros u Hu; simpl in Hu; intuition subst; eauto.
Qed.
Lemma ex_points xs : (forall x, In x xs -> 0 < x) -> points ex_vk ex_expr (map ex_sol xs) (map ex_env xs).
Proof.
  intros Hp. induction xs as [|x xs IH]; simpl; constructor; [|apply IH; intros; apply Hp; right; auto].
  split; [apply ex_positive, Hp; left; auto|]. intros k Hk. apply ex_held. apply in_vks_true in Hk as (e & c & [[= <- <-]|[[= <- <-]|[]]] & Hk).
  - destruct (decide (k = 2%nat)); auto. rewrite lookup_singleton_ne in Hk by auto. congruence.
  - destruct (decide (k = 4%nat)); auto. rewrite lookup_singleton_ne in Hk by auto. congruence.
Qed.
Lemma ex_expr_value x : 0 < x -> eval (ex_env x) ex_expr = 4 * x.
Proof.
  intros Hx. cbn [ex_expr eval]. assert (P := ex_positive x Hx). rewrite !mono_val_singleton by apply P. simpl. lra.
Qed.
Example C103_expressions_nonvacuous : exists r,
  call 0 std_schedule ex_vk false
    (ex_swept 1 2) (Expr ex_expr) = Ok r /\
  numbers r [4 * 1; 4 * 2].
Proof.
  assert (Hp : forall x, In x [1; 2] -> 0 < x) by (intros x [<-|[<-|[]]]; lra).
  destruct (C103_expressions_partial 0 std_schedule ex_vk false (map ex_sol [1; 2]) (map ex_env [1; 2]) ex_expr (ex_swept 1 2) std_any) as (r & E & Hr);
    [discriminate| |apply ex_like|apply ex_expr_canonical|discriminate|apply ex_points, Hp| |exact (ex_sweep 1 2)|].
  - intros s Hs. apply in_map_iff in Hs as (x & <- & _). apply ex_solution.
  - intros x Hx. cbn [map In] in Hx. rewrite !ex_expr_value in Hx by lra. destruct Hx as [<-|[<-|[]]]; lra.
  - exists r. split; auto. cbn [map] in Hr. rewrite !ex_expr_value in Hr by lra. auto.
Qed.

(** [x - u[1]] *)
Definition ex_minus : hmap R := [({[2%nat := 1]}, 1); ({[4%nat := 1]}, -1)].
Lemma ex_minus_canonical : canonical ex_minus.
Proof.
  split; [apply ex_expr_canonical|]. intros e c [[= <- <-]|[[= <- <-]|[]]]; (split; [|lra]); intros k x Hk; apply lookup_singleton_Some in Hk as [_ <-]; lra.
Qed.
Lemma ex_minus_points : points ex_vk ex_minus [ex_sol 1] [ex_env 1].
Proof.
  assert (H := ex_points [1]). simpl in H. assert (P : points ex_vk ex_expr [ex_sol 1] [ex_env 1]) by (apply H; intros x [<-|[]]; lra).
  inversion P as [|? ? ? ? [H1 H2] _]; subst. constructor; [split; auto|constructor].
Qed.
Lemma ex_minus_value : eval (ex_env 1) ex_minus = -2.
Proof. cbn [ex_minus eval]. assert (P := ex_positive 1 Rlt_0_1). rewrite !mono_val_singleton by apply P. simpl. lra. Qed.
Lemma ex_minus_raises : call 0 std_schedule ex_vk false (ex_sol 1) (Expr ex_minus) = Err InvalidPosynomialE.
Proof.
  apply (C103_not_positive 0 std_schedule ex_vk [ex_sol 1] [ex_env 1]); auto using std_any, ex_minus_canonical, ex_minus_points, ex_result; try discriminate.
  - intros s [<-|[]]. apply ex_solution.
  - apply (ex_like [1]).
  - exists (ex_env 1). split; [left; auto|]. rewrite ex_minus_value. lra.
Qed.
Theorem C103_expressions_refuted : ~ C103_expressions_for (fun _ _ => True).
Proof.
  intros C. destruct (C 0 std_schedule ex_vk false [ex_sol 1] [ex_env 1] ex_minus (ex_sol 1)) as (r & E & _);
    auto using std_any, ex_minus_canonical, ex_minus_points, ex_result; try discriminate.
  - intros s [<-|[]]. apply ex_solution.
  - apply (ex_like [1]).
  - rewrite ex_minus_raises in E. discriminate.
Qed.
Print Assumptions C103_expressions_refuted.
(** Also when they are enabled. *)
Theorem C103_signomials_refuted : ~ C103_expressions_for (fun se _ => se = true).
Proof.
  intros C. destruct (C 0 std_schedule ex_vk true [ex_sol 1] [ex_env 1] ex_minus (ex_sol 1)) as (r & E & Hr);
    auto using std_any, ex_minus_canonical, ex_minus_points, ex_result; try discriminate.
  - intros s [<-|[]]. apply ex_solution.
  - apply (ex_like [1]).
  - destruct (C103_not_positive 0 std_schedule ex_vk [ex_sol 1] [ex_env 1] ex_minus (ex_sol 1)) as [_ H];
      auto using std_any, ex_minus_canonical, ex_minus_points, ex_result; try discriminate.
    + intros s [<-|[]]. apply ex_solution.
    + apply (ex_like [1]).
    + exists (ex_env 1). split; [left; auto|]. rewrite ex_minus_value. lra.
    + rewrite (H _ eq_refl) in E. injection E as <-. discriminate.
Qed.
Print Assumptions C103_signomials_refuted.

Example C103_variables_nonvacuous :
  call 0 std_schedule ex_vk false (ex_sol 1) (Var 4) = Ok (Number (Scalar (3 * 1))) /\
  call 0 std_schedule ex_vk false (ex_swept 1 2) (Var 2) = Ok (Number (Array [Scalar 1; Scalar 2])).
Proof.
  split.
  - apply (C103_variables_partial 0 std_schedule ex_vk false [ex_sol 1] 4%nat [Scalar (3 * 1)] (ex_sol 1) std_any);
      [discriminate| |apply (ex_like [1])| |right; reflexivity|apply ex_result].
    + intros s [<-|[]]. apply ex_solution.
    + constructor; [apply (ex_held 1); auto|constructor].
  - apply (C103_variables_partial 0 std_schedule ex_vk false (map ex_sol [1; 2]) 2%nat [Scalar 1; Scalar 2] (ex_swept 1 2) std_any);
      [discriminate| |apply ex_like| |left; reflexivity|apply ex_sweep].
    + intros s Hs. apply in_map_iff in Hs as (x & <- & _). apply ex_solution.
    + constructor; [apply (ex_held 1); auto|]. constructor; [apply (ex_held 2); auto|constructor].
Qed.
(** An element of a vector of two. *)
Theorem C103_variables_refuted : ~ C103_variables_for (fun _ _ => True).
Proof.
  intros C. specialize (C 0 std_schedule ex_vk false (map ex_sol [1; 2]) 4%nat [Scalar (3 * 1); Scalar (3 * 2)] (ex_swept 1 2) std_any).
  assert (E : Err ValueErrorE = Ok (Number (Array [Scalar (3 * 1); Scalar (3 * 2)]) : answer R)); [|discriminate].
  rewrite <- C; [reflexivity|discriminate| |apply ex_like| |exact I|apply ex_sweep].
  - intros s Hs. apply in_map_iff in Hs as (x & <- & _). apply ex_solution.
  - constructor; [apply (ex_held 1); auto|]. constructor; [apply (ex_held 2); auto|constructor].
Qed.
Print Assumptions C103_variables_refuted.
(** Of that of a vector of one, the first point's value stands for all. *)
Theorem C103_first_point_refuted : ~ C103_variables_for (fun element _ => element = Some (0, 1)%nat).
Proof.
  intros C. specialize (C 0 std_schedule ex_vk false (map ex_sol [1; 2]) 6%nat [Scalar 1; Scalar 2] (ex_swept 1 2) std_any).
  assert (E : Ok (Number (Array [Scalar 1])) = Ok (Number (Array [Scalar 1; Scalar 2]) : answer R)); [|discriminate].
  rewrite <- C; [reflexivity|discriminate| |apply ex_like| |reflexivity|apply ex_sweep].
  - intros s Hs. apply in_map_iff in Hs as (x & <- & _). apply ex_solution.
  - constructor; [apply (ex_held 1); auto|]. constructor; [apply (ex_held 2); auto|constructor].
Qed.
Print Assumptions C103_first_point_refuted.
(** [u[1]] of the first of the two points is 3: [sol["variables"][u[1]]] is all of the vector at the second. *)
Example C103_elements_nonvacuous : forall vs,
  variables (ex_swept 1 2) = Ok vs ->
  getitem ex_vk vs 4 = Ok (Array [Scalar (2 * 2); Scalar (3 * 2)]).
Proof.
  intros vs Hv. rewrite (C103_elements ex_vk (map ex_sol [1; 2]) [Array [Scalar (2 * 1); Scalar (3 * 1)]; Array [Scalar (2 * 2); Scalar (3 * 2)]] 4 1 2 (ex_swept 1 2) vs); [reflexivity|simpl; lia| |apply ex_like|reflexivity| |apply ex_sweep|exact Hv].
  - intros s Hs. apply in_map_iff in Hs as (x & <- & _). apply ex_solution.
  - repeat constructor.
Qed.

(** A variable, 9, that is not in the solution. *)
Lemma ex_absent : call 0 std_schedule ex_vk false (ex_sol 1) (Var 9) = Ok (Number (Scalar 1)) /\
  call 0 std_schedule ex_vk false (ex_sol 1) (Expr [({[9%nat := 1]}, 5)]) = Ok (Number (Scalar 5)).
Proof.
  assert (P1 : positive_point (fun _ => 1)) by (intros ?; lra).
  assert (A : forall k, ({[9%nat := 1]} : expv R) !! k <> None -> held ex_vk (ex_sol 1) k (Scalar 1) \/ absent ex_vk (ex_sol 1) k /\ 1 = 1).
  { intros k Hk. destruct (decide (k = 9%nat)) as [->|]; [|rewrite lookup_singleton_ne in Hk by auto; congruence]. right. split; auto. reflexivity. }
  assert (C : forall c, 0 < c -> canonical [({[9%nat := 1]}, c)]).
  { intros c Hc. split; [apply NoDup_singleton|]. intros e c' [[= <- <-]|[]]. split; [|lra]. intros k x Hk. apply lookup_singleton_Some in Hk as [_ <-]. lra. }
  split.
  - rewrite (C103_absent_are_one 0 std_schedule ex_vk false (ex_sol 1) (Var 9) {[9%nat := 1]} 1 (fun _ => 1) (ex_sol 1)); auto using std_any, ex_solution, ex_result; try lra.
    + cbn [eval]. rewrite mono_val_singleton by lra. do 3 f_equal. lra.
    + apply C. lra.
  - rewrite (C103_absent_are_one 0 std_schedule ex_vk false (ex_sol 1) (Expr [({[9%nat := 1]}, 5)]) {[9%nat := 1]} 5 (fun _ => 1) (ex_sol 1)); auto using std_any, ex_solution, ex_result; try lra.
    + cbn [eval]. rewrite mono_val_singleton by lra. do 3 f_equal. lra.
    + apply C. lra.
Qed.
Theorem C103_absent_refuted : ~ C103_absent_for (fun _ _ => True).
Proof.
  intros C. apply (C 0 std_schedule ex_vk false [ex_sol 1] [({[9%nat := 1]}, 5)] (ex_sol 1) (Number (Scalar 5))) with (x := Scalar 5);
    auto using std_any, ex_result; try discriminate.
  - intros s [<-|[]]. apply ex_solution.
  - apply (ex_like [1]).
  - split; [apply NoDup_singleton|]. intros e c [[= <- <-]|[]]. split; [|lra]. intros k x Hk. apply lookup_singleton_Some in Hk as [_ <-]. lra.
  - exists 9%nat. split; [reflexivity|]. intros s [<-|[]]. reflexivity.
  - apply ex_absent.
Qed.
Print Assumptions C103_absent_refuted.
