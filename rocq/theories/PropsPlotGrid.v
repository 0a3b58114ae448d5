(** C109: grids of plots of sweeps. *)
From Coq Require Import Strings.String.
From Verif Require Import Base Sweep SweepProofs PlotGrid.
Local Open Scope list_scope.
Open Scope nat_scope.

(** *** Specification *)
(** Substitutions that are those of the model but for one variable *)
Definition but_for {V} (subs : list (nat * sub V)) (k : nat) (v : sub V) (subs' : list (nat * sub V)) : Prop :=
  dget subs' k = Some v /\ forall k', k' <> k -> dget subs' k' = dget subs k'.
Section Spec.
Context {V S : Type}.
Variable solve : list (nat * sub V) -> res S.
Variable points : V -> V -> list V.
Definition solved_with (subs : list (nat * sub V)) (k : nat) (v : sub V) (s : S) : Prop := exists subs', but_for subs k v subs' /\ solve subs' = Ok s.
(** Solutions with one variable swept and all others as in the model *)
Definition solutions_over (subs : list (nat * sub V)) (k : nat) (o : over V) (sols : list S) : Prop :=
  match o with
  | Values vs => exists s, sols = [s] /\ solved_with subs k (Sweep vs) s
  | Pair lo hi => Forall2 (fun v s => solved_with subs k (Value v) s) (points lo hi) sols
  end.
(** The grid: column [i] has the curves of the [i]-th sweep, row [j] those of the [j]-th expression; the original solution is a dot in the
    plots of variables that have values. *)
Definition right_grid (subs : list (nat * sub V)) (sweeps : list (swept * over V)) (ps : list posy) (origsol : option S) (ds : list (drawn V S)) : Prop :=
  (forall i s o j p, nth_error sweeps i = Some (s, o) -> nth_error ps j = Some p ->
     (exists sols, In (Curve i j p sols) ds /\ solutions_over subs (key s) o sols) /\
     (forall x, dget subs (key s) = Some x ->
        exists sol, In (Dot i j x p sol) ds /\ match origsol with Some s => sol = s | None => solve subs = Ok sol end)) /\
  (forall d, In d ds -> match d with
     | Curve i j p sols => exists s o, nth_error sweeps i = Some (s, o) /\ nth_error ps j = Some p /\ solutions_over subs (key s) o sols
     | Dot i j x p sol => exists s o, nth_error sweeps i = Some (s, o) /\ nth_error ps j = Some p /\ dget subs (key s) = Some x /\
         match origsol with Some s => sol = s | None => solve subs = Ok sol end
     end).
End Spec.
(** What the caller asks for: a text is the name of one variable. *)
Definition asked_for (a : shown) : list posy := match a with One p => [p] | Several ps => ps end.

(** *** Sweeps of one variable *)
Section One.
Context {V S : Type}.
Variable is_zero : V -> bool.
Variable solve : list (nat * sub V) -> res S.
Variable points : V -> V -> list V.
Lemma restored k (subs subs' : list (nat * sub V)) : NoDup (dkeys subs') -> (forall k', k' <> k -> dget subs' k' = dget subs k') ->
  let r := restore is_zero k (dget subs k) subs' in
  NoDup (dkeys r) /\ (forall k', k' <> k -> dget r k' = dget subs k') /\ (dget subs k = None -> dget r k = None).
Proof.
  intros Hn He. unfold restore. destruct (dget subs k) as [v|]; [destruct (truthy is_zero (Some v))|]; cbn zeta.
  - split; [apply NoDup_dset; auto|]. split; [intros k' Hk; rewrite dget_dset_ne; auto|discriminate].
  - split; [apply NoDup_ddel; auto|]. split; [intros k' Hk; rewrite dget_ddel_ne; auto|discriminate].
  - split; [apply NoDup_ddel; auto|]. split; [intros k' Hk; rewrite dget_ddel_ne; auto|intros _; apply Base.dget_ddel_eq; auto].
Qed.
Lemma solve_at_spec k subs0 vs : forall subs subs' sols, NoDup (dkeys subs) -> (forall k', k' <> k -> dget subs k' = dget subs0 k') ->
  solve_at solve k vs subs = (subs', Ok sols) ->
  NoDup (dkeys subs') /\ (forall k', k' <> k -> dget subs' k' = dget subs0 k') /\ Forall2 (fun v s => solved_with solve subs0 k (Value v) s) vs sols.
Proof.
  induction vs as [|v vs IH]; intros subs subs' sols Hn He Hs; cbn [solve_at] in Hs; [injection Hs as <- <-; auto|].
  destruct (solve (dset subs k (Value v))) as [s|] eqn:Es; [|discriminate].
  destruct (solve_at solve k vs (dset subs k (Value v))) as [subs'' out] eqn:Er. destruct out as [ss|]; [|discriminate]. injection Hs as <- <-.
  destruct (IH (dset subs k (Value v)) subs'' ss) as (A & B & C); auto; [apply NoDup_dset; auto|intros k' Hk; rewrite dget_dset_ne; auto|].
  split; auto. split; auto. constructor; auto. exists (dset subs k (Value v)). split; auto.
  split; [apply dget_dset_eq|intros k' Hk; rewrite dget_dset_ne; auto].
Qed.
Lemma swept_once k o (subs subs' : list (nat * sub V)) sols : NoDup (dkeys subs) ->
  match o with Pair lo hi => autosweep_subs is_zero solve k (points lo hi) subs | Values vs => model_sweep is_zero solve [(k, vs)] subs end = (subs', Ok sols) ->
  NoDup (dkeys subs') /\ (forall k', k' <> k -> dget subs' k' = dget subs k') /\ (dget subs k = None -> dget subs' k = None) /\ solutions_over solve points subs k o sols.
Proof.
  intros Hn Ho. destruct o as [lo hi|vs].
  - unfold autosweep_subs in Ho. destruct (solve_at solve k (points lo hi) subs) as [subs1 [ss|]] eqn:Es; [|discriminate]. injection Ho as <- <-.
    destruct (solve_at_spec k subs (points lo hi) subs subs1 ss Hn ltac:(auto) Es) as (A & B & C).
    destruct (restored k subs subs1 A B) as (D & E & F). auto.
  - cbn [model_sweep] in Ho. destruct (solve (dset subs k (Sweep vs))) as [s|] eqn:Es; [|discriminate]. injection Ho as <- <-.
    destruct (restored k subs (dset subs k (Sweep vs))) as (D & E & F); [apply NoDup_dset; auto|intros k' Hk; rewrite dget_dset_ne; auto|].
    repeat split; auto. exists s. split; auto. exists (dset subs k (Sweep vs)). split; auto.
    split; [apply dget_dset_eq|intros k' Hk; rewrite dget_dset_ne; auto].
Qed.
Lemma update_spec (subs0 : list (nat * sub V)) orig : (forall k v, In (k, v) orig -> dget subs0 k = Some v) -> forall d k,
  dget (update d orig) k = if decide (k ∈ dkeys orig) then dget subs0 k else dget d k.
Proof.
  induction orig as [|[j v] orig IH]; intros Ho d k; [reflexivity|]. change (update d ((j, v) :: orig)) with (update (dset d j v) orig).
  rewrite IH by (intros k' v' Hin; apply Ho; right; auto). change (dkeys ((j, v) :: orig)) with (j :: dkeys orig).
  destruct (decide (k ∈ dkeys orig)) as [Hi|Hi].
  - rewrite decide_True by (right; auto). auto.
  - destruct (decide (k = j)) as [->|Hne].
    + rewrite decide_True by (left; auto). rewrite dget_dset_eq. symmetry. apply Ho. left. auto.
    + rewrite decide_False by (intros Hx; apply elem_of_cons in Hx as [|]; auto). apply dget_dset_ne. auto.
Qed.
Lemma update_nodup (orig : list (nat * sub V)) : forall d, NoDup (dkeys d) -> NoDup (dkeys (update d orig)).
Proof. induction orig as [|[j v] orig IH]; intros d Hd; auto. apply (IH (dset d j v)). apply NoDup_dset; auto. Qed.
Lemma orig_values (subs : list (nat * sub V)) sweeps k v : In (k, v) (origsubs subs sweeps) -> dget subs k = Some v.
Proof.
  unfold origsubs. intros Hin. apply in_flat_map in Hin as ((s & o) & _ & Hin). destruct (dget subs (key s)) as [w|] eqn:E; [|destruct Hin].
  destruct Hin as [[= <- <-]|[]]. auto.
Qed.
Lemma orig_all (subs : list (nat * sub V)) sweeps s o v : In (s, o) sweeps -> dget subs (key s) = Some v -> In (key s, v) (origsubs subs sweeps).
Proof. intros Hin Hv. unfold origsubs. apply in_flat_map. exists (s, o). split; auto. rewrite Hv. left. auto. Qed.
Lemma enumerate_in {A} (l : list A) i j x : In (j, x) (enumerate i l) <-> exists m, j = i + m /\ nth_error l m = Some x.
Proof.
  revert i. induction l as [|y l IH]; intros i; cbn [enumerate].
  - split; [intros []|intros (m & _ & Hm); destruct m; discriminate].
  - split.
    + intros [[= <- <-]|Hin]; [exists 0; split; auto|]. apply IH in Hin as (m & -> & Hm). exists (Datatypes.S m). split; [lia|auto].
    + intros ([|m] & -> & Hm); [left; injection Hm as ->; f_equal; lia|]. right. apply IH. exists m. split; [lia|auto].
Qed.

(** *** The loop *)
Variable subs : list (nat * sub V).
Variable sweeps : list (swept * over V).
Variable ps : list posy.
Variable origsol : option S.
Notation orig := (origsubs subs sweeps).
Definition same (d : list (nat * sub V)) : Prop := NoDup (dkeys d) /\ forall k, dget d k = dget subs k.
Lemma solutions_same d k o sols : same d -> solutions_over solve points d k o sols -> solutions_over solve points subs k o sols.
Proof.
  intros [_ Hd]. assert (A : forall v s, solved_with solve d k v s -> solved_with solve subs k v s).
  { intros v s (d' & [B C] & Hs). exists d'. split; auto. split; auto. intros k' Hk. rewrite C, Hd; auto. }
  destruct o as [lo hi|vs]; simpl.
  - intros HF. induction HF; constructor; auto.
  - intros (s & -> & Hs). eauto.
Qed.
Definition of_sweep (i : nat) (s : swept) (o : over V) (d : drawn V S) : Prop :=
  match d with
  | Curve i' j p sols => i' = i /\ nth_error ps j = Some p /\ solutions_over solve points subs (key s) o sols
  | Dot i' j x p sol => i' = i /\ nth_error ps j = Some p /\ dget subs (key s) = Some x /\ origsol = Some sol
  end.
Definition complete (i : nat) (s : swept) (o : over V) (ds : list (drawn V S)) : Prop :=
  forall j p, nth_error ps j = Some p -> (exists sols, In (Curve i j p sols) ds /\ solutions_over solve points subs (key s) o sols) /\
    (forall x, dget subs (key s) = Some x -> exists sol, In (Dot i j x p sol) ds /\ origsol = Some sol).
Lemma one_sweep_spec d i s o d' ds : same d -> In (s, o) sweeps -> one_sweep is_zero solve points orig origsol ps d i s o = (d', Ok ds) ->
  same d' /\ (forall x, In x ds -> of_sweep i s o x) /\ complete i s o ds.
Proof.
  intros Hd Hin Hs. unfold one_sweep in Hs.
  destruct (match o with Pair lo hi => autosweep_subs is_zero solve (key s) (points lo hi) d | Values vs => model_sweep is_zero solve [(key s, vs)] d end) as [d1 [sols|]] eqn:Eo; [|discriminate].
  destruct (swept_once (key s) o d d1 sols (proj1 Hd) Eo) as (Hn1 & He & Hz & Hsols). apply (solutions_same d) in Hsols; auto. destruct Hd as [Hn Hd].
  destruct (match orig with [] => _ | _ => _ end) as [dots|] eqn:Ed; [|discriminate]. destruct s as [k|k]; [|discriminate]. injection Hs as <- <-. cbn [key] in *.
  assert (Hup : forall k', dget (update d1 orig) k' = dget subs k').
  { intros k'. rewrite (update_spec subs) by apply orig_values. destruct (decide (k' ∈ dkeys orig)) as [|Hnot]; auto.
    destruct (decide (k' = k)) as [->|Hne]; [|rewrite He; auto]. destruct (dget subs k) as [v|] eqn:Ev.
    - exfalso. apply Hnot. apply elem_of_list_In. apply in_map_iff. exists (k, v). split; auto. apply (orig_all subs sweeps (Var k) o); auto.
    - apply Hz. rewrite Hd. auto. }
  split; [split; [apply update_nodup; auto|auto]|].
  assert (Hdots : (dget subs k = None -> dots = []) /\ forall x, dget subs k = Some x -> exists sol, origsol = Some sol /\ dots = map (fun '(j, p) => Dot i j x p sol) (enumerate 0 ps)).
  { assert (Ho := orig_values subs sweeps k). assert (Ha := orig_all subs sweeps (Var k) o). cbn [key] in Ha. destruct orig as [|y l] eqn:Eorig.
    - injection Ed as <-. split; auto. intros x Hx. destruct (Ha x Hin Hx).
    - rewrite <- Eorig in *. destruct origsol as [sol|]; [|discriminate]. destruct (dget orig k) as [x|] eqn:Ex; [|discriminate]. injection Ed as <-.
      assert (Hx : dget subs k = Some x). { apply Ho. apply dget_In. auto. }
      split; [congruence|]. intros x' Hx'. assert (x' = x) by congruence. subst x'. eauto. }
  destruct Hdots as [Hno Hyes]. split.
  - intros x Hx. apply in_app_or in Hx as [Hx|Hx].
    + apply in_map_iff in Hx as ((j & p) & <- & Hj). apply enumerate_in in Hj as (m & -> & Hm). simpl. auto.
    + destruct (dget subs k) as [v|] eqn:Ev; [|rewrite Hno in Hx by auto; destruct Hx]. destruct (Hyes v eq_refl) as (sol & Hsol & ->).
      apply in_map_iff in Hx as ((j & p) & <- & Hj). apply enumerate_in in Hj as (m & -> & Hm). simpl. auto.
  - intros j p Hj. assert (Hi : In (j, p) (enumerate 0 ps)) by (apply enumerate_in; exists j; auto). split.
    + exists sols. split; auto. apply in_or_app. left. apply in_map_iff. exists (j, p). auto.
    + intros x Hx. cbn [key] in Hx. destruct (Hyes x Hx) as (sol & Hsol & ->). exists sol. split; auto. apply in_or_app. right. apply in_map_iff. exists (j, p). auto.
Qed.
Lemma sweep_all_spec : forall l i d d' ds, same d -> (forall x, In x l -> In x sweeps) -> sweep_all is_zero solve points orig origsol ps d (enumerate i l) = (d', Ok ds) ->
  same d' /\ (forall x, In x ds -> exists m s o, nth_error l m = Some (s, o) /\ of_sweep (i + m) s o x) /\ (forall m s o, nth_error l m = Some (s, o) -> complete (i + m) s o ds).
Proof.
  induction l as [|[s o] l IH]; intros i d d' ds Hd Hl Hs; cbn [enumerate sweep_all] in Hs.
  - injection Hs as <- <-. split; auto. split; [intros x []|intros m s o Hm; destruct m; discriminate].
  - destruct (one_sweep is_zero solve points orig origsol ps d i s o) as [d1 [ds1|]] eqn:E1; [|discriminate].
    destruct (sweep_all is_zero solve points orig origsol ps d1 (enumerate (i + 1) l)) as [d2 out] eqn:E2. injection Hs as <- Hs.
    destruct out as [ds2|]; [|discriminate]. injection Hs as <-.
    destruct (one_sweep_spec d i s o d1 ds1 Hd (Hl _ (or_introl eq_refl)) E1) as (A & B & C).
    destruct (IH (i + 1) d1 d2 ds2 A (fun x Hx => Hl x (or_intror Hx)) E2) as (D & E & F). split; auto. split.
    + intros x Hx. apply in_app_or in Hx as [Hx|Hx].
      * exists 0, s, o. rewrite Nat.add_0_r. auto.
      * destruct (E x Hx) as (m & s' & o' & Hm & Hof). exists (Datatypes.S m), s', o'. split; auto. replace (i + Datatypes.S m) with (i + 1 + m) by lia. auto.
    + intros [|m] s' o' Hm j p Hj.
      * injection Hm as <- <-. rewrite Nat.add_0_r. destruct (C j p Hj) as [(sols & Hi & Hso) Hdot]. split; [exists sols; split; auto; apply in_or_app; auto|].
        intros x Hx. destruct (Hdot x Hx) as (sol & Hi' & Hsol). exists sol. split; auto. apply in_or_app; auto.
      * replace (i + Datatypes.S m) with (i + 1 + m) by lia. destruct (F m s' o' Hm j p Hj) as [(sols & Hi & Hso) Hdot]. split; [exists sols; split; auto; apply in_or_app; auto|].
        intros x Hx. destruct (Hdot x Hx) as (sol & Hi' & Hsol). exists sol. split; auto. apply in_or_app; auto.
Qed.
End One.

Lemma plot_spec {V S} is_zero solve points (subs : list (nat * sub V)) sweeps a (origsol : option S) d' ds : NoDup (dkeys subs) ->
  plot_1dsweepgrid is_zero solve points subs sweeps a origsol = (d', Ok ds) ->
  (forall k, dget d' k = dget subs k) /\ right_grid solve points subs sweeps (posys a) origsol ds.
Proof.
  intros Hn Hp. unfold plot_1dsweepgrid in Hp.
  destruct (match origsubs subs sweeps with [] => Ok origsol | _ :: _ => _ end) as [os|] eqn:Eo; [|discriminate].
  assert (Hr : exists p ps s l, posys a = p :: ps /\ sweeps = s :: l /\ sweep_all is_zero solve points (origsubs subs sweeps) os (posys a) subs (enumerate 0 sweeps) = (d', Ok ds)).
  { destruct (posys a) as [|p ps]; [discriminate|]. destruct sweeps as [|s l]; [discriminate|]. repeat eexists. exact Hp. }
  destruct Hr as (_ & _ & _ & _ & _ & _ & Hs).
  destruct (sweep_all_spec is_zero solve points subs sweeps (posys a) os sweeps 0 subs d' ds) as ([_ A] & B & C); auto; [split; auto|]. split; auto.
  assert (Hsol : forall sol, os = Some sol -> origsubs subs sweeps <> [] -> match origsol with Some s => sol = s | None => solve subs = Ok sol end).
  { intros sol -> Hne. destruct (origsubs subs sweeps); [congruence|]. destruct origsol as [s|]; [congruence|].
    destruct (solve subs) as [s|]; [|discriminate]. simpl in Eo. congruence. }
  assert (Hone : forall s o x, In (s, o) sweeps -> dget subs (key s) = Some x -> origsubs subs sweeps <> []).
  { intros s o x Hi Hx E. assert (I := orig_all subs sweeps s o x Hi Hx). rewrite E in I. destruct I. }
  split.
  - intros i s o j p Hi Hj. destruct (C i s o Hi j p Hj) as [Hc Hd]. split; auto. intros x Hx. destruct (Hd x Hx) as (sol & Hin & Hos). exists sol. split; auto.
    apply Hsol; auto. apply (Hone s o x); auto. eapply nth_error_In; eauto.
  - intros x Hx. destruct (B x Hx) as (m & s & o & Hm & Hof). simpl in Hof. destruct x as [i j p sols|i j x p sol]; simpl in Hof.
    + destruct Hof as (-> & Hj & Hso). exists s, o. auto.
    + destruct Hof as (-> & Hj & Hsub & Hos). exists s, o. split; auto. split; auto. split; auto. apply Hsol; auto. apply (Hone s o x); auto. eapply nth_error_In; eauto.
Qed.

(** *** The grid *)
Definition C109_grid_for (cond : shown -> Prop) : Prop :=
  forall V S is_zero solve points (subs : list (nat * sub V)) sweeps a (origsol : option S) d' ds, NoDup (dkeys subs) -> cond a ->
    plot_1dsweepgrid is_zero solve points subs sweeps a origsol = (d', Ok ds) -> right_grid solve points subs sweeps (asked_for a) origsol ds.
(** Not a text alone, or one letter. *)
Definition no_word (a : shown) : Prop := match a with One (Text s) => String.length s = 1 | _ => True end.
Theorem C109_grid_partial : C109_grid_for no_word.
Proof.
  intros V S is_zero solve points subs sweeps a origsol d' ds Hn Ha Hp. apply plot_spec in Hp as [_ Hg]; auto.
  replace (asked_for a) with (posys a); auto. destruct a as [[e|s]|ps]; auto. simpl in *. destruct s as [|c [|c' s]]; try discriminate. auto.
Qed.
Print Assumptions C109_grid_partial.

(** Plotting leaves the model as it was. *)
Definition C109_unchanged_for (cond : forall V S, list (nat * sub V) * res (list (drawn V S)) -> Prop) : Prop :=
  forall V S is_zero solve points (subs : list (nat * sub V)) sweeps a (origsol : option S), NoDup (dkeys subs) ->
    cond V S (plot_1dsweepgrid is_zero solve points subs sweeps a origsol) ->
    forall k, dget (fst (plot_1dsweepgrid is_zero solve points subs sweeps a origsol)) k = dget subs k.
Definition nothing_raised V S (r : list (nat * sub V) * res (list (drawn V S))) : Prop := exists ds, snd r = Ok ds.
Theorem C109_unchanged_partial : C109_unchanged_for nothing_raised.
Proof.
  intros V S is_zero solve points subs sweeps a origsol Hn [ds Hds] k. destruct (plot_1dsweepgrid is_zero solve points subs sweeps a origsol) as [d' r] eqn:E.
  simpl in *. subst r. apply plot_spec in E as [H _]; auto.
Qed.
Print Assumptions C109_unchanged_partial.

(** *** When a grid is made *)
Definition C109_made_for (cond : forall V, list (nat * sub V) -> list (swept * over V) -> Prop) : Prop :=
  forall V S is_zero solve points (subs : list (nat * sub V)) sweeps a (origsol : option S), NoDup (dkeys subs) -> (forall d, exists s : S, solve d = Ok s) ->
    sweeps <> [] -> asked_for a <> [] -> no_word a -> cond V subs sweeps -> nothing_raised V S (plot_1dsweepgrid is_zero solve points subs sweeps a origsol).
(** Variables, not names, all of which have values, or none. *)
Definition plottable V (subs : list (nat * sub V)) (sweeps : list (swept * over V)) : Prop :=
  (forall s o, In (s, o) sweeps -> exists k, s = Var k) /\
  ((forall s o, In (s, o) sweeps -> dget subs (key s) <> None) \/ (forall s o, In (s, o) sweeps -> dget subs (key s) = None)).
Lemma sweeps_ok {V S} is_zero (solve : list (nat * sub V) -> res S) points k o d : (forall d, exists s, solve d = Ok s) ->
  exists d' sols, match o with Pair lo hi => autosweep_subs is_zero solve k (points lo hi) d | Values vs => model_sweep is_zero solve [(k, vs)] d end = (d', Ok sols).
Proof.
  intros Hok. destruct o as [lo hi|vs].
  - unfold autosweep_subs. assert (A : forall vs d, exists d' sols, solve_at solve k vs d = (d', Ok sols)).
    { induction vs as [|v vs IH]; intros d0; cbn [solve_at]; eauto. destruct (Hok (dset d0 k (Value v))) as (s & ->).
      destruct (IH (dset d0 k (Value v))) as (d' & sols & ->). simpl. eauto. }
    destruct (A (points lo hi) d) as (d' & sols & ->). eauto.
  - cbn [model_sweep]. destruct (Hok (dset d k (Sweep vs))) as (s & ->). simpl. eauto.
Qed.
Lemma orig_empty {V} (subs : list (nat * sub V)) sweeps : (forall s o, In (s, o) sweeps -> dget subs (key s) = None) -> origsubs subs sweeps = [].
Proof.
  intros Hno. unfold origsubs. induction sweeps as [|[s o] sweeps IH]; auto. cbn [flat_map]. rewrite (Hno s o) by (left; auto). apply IH. intros s' o' Hi. apply (Hno s' o'). right. auto.
Qed.
Theorem C109_made_partial : C109_made_for plottable.
Proof.
  intros V S is_zero solve points subs sweeps a origsol Hn Hok Hne Ha Hw [Hv Hall]. unfold nothing_raised, plot_1dsweepgrid.
  assert (Hps : posys a = asked_for a). { destruct a as [[e|s]|ps]; auto. simpl in *. destruct s as [|c [|c' s]]; try discriminate. auto. }
  assert (Ho : exists os, match origsubs subs sweeps, origsol with _ :: _, None => let! s := solve subs in Ok (Some s) | _, _ => Ok origsol end = Ok os /\
    (origsubs subs sweeps <> [] -> os <> None)).
  { destruct (origsubs subs sweeps); [exists origsol; split; auto; congruence|]. destruct origsol as [s|]; [exists (Some s); split; auto; congruence|].
    destruct (Hok subs) as (s & ->). exists (Some s). split; auto; congruence. }
  destruct Ho as (os & -> & Hos).
  assert (L : forall l i d, (forall x, In x l -> In x sweeps) -> exists ds, snd (sweep_all is_zero solve points (origsubs subs sweeps) os (posys a) d (enumerate i l)) = Ok ds).
  { induction l as [|[s o] l IH]; intros i d Hl; cbn [enumerate sweep_all]; [eexists; reflexivity|].
    assert (Hi : In (s, o) sweeps) by (apply Hl; left; auto). destruct (Hv s o Hi) as (k & ->).
    assert (E : exists d' ds, one_sweep is_zero solve points (origsubs subs sweeps) os (posys a) d i (Var k) o = (d', Ok ds)).
    { unfold one_sweep. cbn [key]. destruct (sweeps_ok is_zero solve points k o d Hok) as (d1 & sols & ->). destruct Hall as [Hall|Hall].
      - destruct (dget subs k) as [x|] eqn:Ex; [|destruct (Hall _ _ Hi Ex)]. assert (I := orig_all subs sweeps (Var k) o x Hi Ex). cbn [key] in I.
        destruct (dget (origsubs subs sweeps) k) as [y|] eqn:Ey; [|apply dget_None in Ey; exfalso; apply Ey; apply in_map_iff; exists (k, x); auto].
        destruct (origsubs subs sweeps) eqn:Eorig; [destruct I|]. destruct os as [sol|]; [|exfalso; apply Hos; auto; discriminate]. eauto.
      - rewrite (orig_empty subs sweeps Hall). eauto. }
    destruct E as (d1 & ds & ->). destruct (IH (i + 1) d1) as (ds' & Hds); [intros x Hx; apply Hl; right; auto|].
    destruct (sweep_all _ _ _ _ _ _ d1 _) as [d2 out]. simpl in *. rewrite Hds. simpl. eauto. }
  destruct (L sweeps 0 subs ltac:(auto)) as (ds & Hds). rewrite Hps in *. destruct (asked_for a); [congruence|]. destruct sweeps; [congruence|]. eauto.
Qed.
Print Assumptions C109_made_partial.

(** *** Refutations *)
(** Values are naturals; a solution is the substitutions it was made with. *)
Definition ex_solve (d : list (nat * sub nat)) : res (list (nat * sub nat)) := Ok d.
Definition ex_points (lo hi : nat) : list nat := [lo; hi].
Definition ex_subs : list (nat * sub nat) := [(0, Value 3); (1, Value 0)].
Lemma ex_nodup : NoDup (dkeys ex_subs).
Proof. apply (bool_decide_unpack _). vm_compute. exact I. Qed.
(** The name "AR" is taken for the names "A" and "R". *)
Theorem C109_words_refuted : ~ C109_grid_for (fun _ => True).
Proof.
  intros Hc. specialize (Hc nat _ (Nat.eqb 0) ex_solve ex_points ex_subs [(Var 0, Values [1; 2])] (One (Text "AR")) None _ _ ex_nodup I eq_refl).
  destruct Hc as [Hc _]. destruct (Hc 0 (Var 0) (Values [1; 2]) 0 (Text "AR") eq_refl eq_refl) as [(sols & Hin & _) _].
  repeat (destruct Hin as [Hin|Hin]; [discriminate Hin|]). destruct Hin.
Qed.
Print Assumptions C109_words_refuted.
(** The example of the docstring, which names the variable to be swept *)
Theorem C109_names_refuted : ~ C109_made_for (fun V subs sweeps => forall s o, In (s, o) sweeps -> dget subs (key s) <> None).
Proof.
  intros Hc. destruct (Hc nat _ (Nat.eqb 0) ex_solve ex_points ex_subs [(Named 0, Values [1; 2])] (One (Text "y")) None ex_nodup) as (ds & Hds).
  - intros d. eexists. reflexivity.
  - discriminate.
  - discriminate.
  - reflexivity.
  - intros s o [[= <- <-]|[]]. discriminate.
  - discriminate Hds.
Qed.
Print Assumptions C109_names_refuted.
(** A variable that has a value, and one that has none *)
Theorem C109_mixed_refuted : ~ C109_made_for (fun V subs sweeps => forall s o, In (s, o) sweeps -> exists k, s = Var k).
Proof.
  intros Hc. destruct (Hc nat _ (Nat.eqb 0) ex_solve ex_points ex_subs [(Var 0, Values [1; 2]); (Var 2, Pair 1 2)] (One (Expr 0)) None ex_nodup) as (ds & Hds).
  - intros d. eexists. reflexivity.
  - discriminate.
  - discriminate.
  - exact I.
  - intros s o [[= <- <-]|[[= <- <-]|[]]]; eauto.
  - discriminate Hds.
Qed.
Print Assumptions C109_mixed_refuted.
(** When an exception is raised, a variable that was 0 is left without a value. *)
Theorem C109_unchanged_refuted : ~ C109_unchanged_for (fun _ _ _ => True).
Proof. intros Hc. specialize (Hc nat _ (Nat.eqb 0) ex_solve ex_points ex_subs [(Named 1, Values [1; 2])] (One (Expr 0)) None ex_nodup I 1). discriminate. Qed.
Print Assumptions C109_unchanged_refuted.

(** *** Cases *)
(** Two variables with values, one of them 0, against two expressions *)
Example C109_nonvacuous : NoDup (dkeys ex_subs) /\ plottable nat ex_subs [(Var 1, Values [1; 2]); (Var 0, Pair 4 5)] /\
  plot_1dsweepgrid (Nat.eqb 0) ex_solve ex_points ex_subs [(Var 1, Values [1; 2]); (Var 0, Pair 4 5)] (Several [Expr 0; Text "AR"]) None =
  ([(0, Value 3); (1, Value 0)],
   Ok [Curve 0 0 (Expr 0) [[(0, Value 3); (1, Sweep [1; 2])]]; Curve 0 1 (Text "AR") [[(0, Value 3); (1, Sweep [1; 2])]];
       Dot 0 0 (Value 0) (Expr 0) ex_subs; Dot 0 1 (Value 0) (Text "AR") ex_subs;
       Curve 1 0 (Expr 0) [[(0, Value 4); (1, Value 0)]; [(0, Value 5); (1, Value 0)]]; Curve 1 1 (Text "AR") [[(0, Value 4); (1, Value 0)]; [(0, Value 5); (1, Value 0)]];
       Dot 1 0 (Value 3) (Expr 0) ex_subs; Dot 1 1 (Value 3) (Text "AR") ex_subs]).
Proof.
  split; [apply ex_nodup|]. split; [split|reflexivity].
  - intros s o [[= <- <-]|[[= <- <-]|[]]]; eauto.
  - left. intros s o [[= <- <-]|[[= <- <-]|[]]]; discriminate.
Qed.
