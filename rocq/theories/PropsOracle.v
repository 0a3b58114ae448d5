(** C112: samples of autosweeps, and plots that compare models. *)
From Coq Require Import Reals Strings.String Strings.Ascii.
From Verif Require Import Base Autosweep AutosweepProofs PropsAutosweep Oracle.
Open Scope R_scope.

(** *** Specification *)
(** What the caller asks for: a text is one name, a tuple or list is several things. *)
Definition asked_for (a : shown) : list key := match a with One (Items l) => l | One k => [k] | Several ks => ks end.
(** What is asked of the [i]-th of [n] models: its own of as many items, or the same thing as of the others. *)
Definition wanted (n i : nat) (k : key) : key :=
  match k with Items l => if Nat.eqb (List.length l) n then nth i l k else k | _ => k end.
Definition means_cost (m : model) (k : key) : Prop := k = Text "cost" \/ k = Nom (fst (cost m)) (snd (cost m)).
Definition meant (m : model) (k : key) : option (nat * nat) := match k with Nom h u => Some (h, u) | Text s => named m s | Items _ => None end.
(** A hundred values from [lo] to [hi] *)
Definition hundred (lo hi : R) : list R := map (fun j => lo + INR j * ((hi - lo) / 99)) (seq 0 100).
(** Bounds at [x] of a cost that is [f]; the lower one is known to hold where it is not the upper one (C46) *)
Definition bounds_cost (f : R -> R) (lo hi tol x l u : R) : Prop :=
  0 < l /\ l <= u /\ f x <= u /\ (l <> u -> l <= f x) /\ ln u - ln l <= 2 * tol /\ (x = lo \/ x = hi -> l = f x /\ u = f x).
(** A value at [x] of what is [p] at solutions: between those at two solutions around [x], and exact at the ends *)
Definition around (p : R -> R) (lo hi x y : R) : Prop :=
  (exists a b, lo <= a <= x /\ x <= b <= hi /\ Rmin (p a) (p b) <= y <= Rmax (p a) (p b)) /\ (x = lo \/ x = hi -> y = p x).
(** The curve of the [i]-th model *)
Definition right_drawing (m : model) (f : R -> R) (lo hi tol : R) (i : nat) (k : key) (d : drawn) : Prop :=
  (means_cost m k -> exists ls us, d = Region (i mod 2) (hundred lo hi) (ls, snd (cost m)) (us, snd (cost m)) /\
     List.length ls = 100%nat /\ List.length us = 100%nat /\
     forall j x l u, nth_error (hundred lo hi) j = Some x -> nth_error ls j = Some l -> nth_error us j = Some u -> bounds_cost f lo hi tol x l u) /\
  (~ means_cost m k -> forall h un, meant m k = Some (h, un) -> exists ys, d = Curve (i mod 2) (hundred lo hi) (ys, un) /\
     Forall2 (around (fun v => s_posy (solve m v) h) lo hi) (hundred lo hi) ys).
(** A model with a cost, and posynomials that are positive *)
Definition sound (lo hi : R) (m : model) (f : R -> R) : Prop :=
  convex_cost f lo hi /\ solves f lo hi (solve m) /\ forall h x, 0 < s_posy (solve m x) h.
(** Each thing asked for has its axes, in which there is the curve of each model. *)
Definition C112_for (cond : list model -> shown -> Prop) : Prop :=
  forall ms fs lo hi tol a, 0 < lo -> lo < hi -> 0 < tol -> ms <> [] -> asked_for a <> [] -> Forall2 (sound lo hi) ms fs ->
    (forall k i m, In k (asked_for a) -> nth_error ms i = Some m ->
       means_cost m (wanted (List.length ms) i k) \/ meant m (wanted (List.length ms) i k) <> None) ->
    cond ms a ->
    exists fuel rows, compare fuel ms lo hi tol a = Some (Ok rows) /\ List.length rows = List.length (asked_for a) /\
      forall r k ds, nth_error (asked_for a) r = Some k -> nth_error rows r = Some ds -> List.length ds = List.length ms /\
        forall i m f d, nth_error ms i = Some m -> nth_error fs i = Some f -> nth_error ds i = Some d ->
          right_drawing m f lo hi tol i (wanted (List.length ms) i k) d.

(** *** Proofs *)
Lemma recurse_more solve_ tol fuel : forall t r fuel', recurse_splits solve_ tol fuel t = Some r -> (fuel <= fuel')%nat -> recurse_splits solve_ tol fuel' t = Some r.
Proof.
  induction fuel as [|fuel IH]; intros t r [|fuel'] H Hle; try discriminate; [lia|]. cbn [recurse_splits] in *.
  destruct (get_tol (root t)) as [[x lb] ub]. destruct (Rle_dec tol ((ub - lb) / 2)); auto.
  destruct (add_split t x (solve_ x)) as [[n|n l r']|]; auto.
  destruct (recurse_splits solve_ tol fuel l) as [[[l' tl_]|]|] eqn:El; [| |discriminate]; rewrite (IH _ _ fuel' El) by lia; auto.
  destruct (recurse_splits solve_ tol fuel r') as [[[r'' tr]|]|] eqn:Er; [| |discriminate]; rewrite (IH _ _ fuel' Er) by lia; auto.
Qed.
Lemma sweep_more solve_ tol fuel lo hi r fuel' : autosweep_1d solve_ tol fuel lo hi = Some r -> (fuel <= fuel')%nat -> autosweep_1d solve_ tol fuel' lo hi = Some r.
Proof. unfold autosweep_1d. destruct (new lo hi (solve_ lo) (solve_ hi)); auto. intros H Hle. apply (recurse_more _ _ fuel); auto. Qed.

(** The oracle of a model *)
Definition swept_by (lo hi tol : R) (fuel : nat) (m : model) (o : oracle) : Prop :=
  sampled_at o = hundred lo hi /\ costposy o = cost m /\ names o = named m /\ exists T, autosweep_1d (solve m) tol fuel lo hi = Some (Ok (o_bst o, T)) /\ 0 <= T < tol.
Lemma linspace_hundred lo hi : linspace lo hi 100 = hundred lo hi.
Proof. unfold linspace, hundred. apply map_ext. intros j. replace (INR (100 - 1)) with 99 by (simpl; lra). auto. Qed.
Lemma sweeps_end lo hi tol ms fs : 0 < lo -> lo < hi -> 0 < tol -> Forall2 (sound lo hi) ms fs ->
  exists fuel0, forall fuel, (fuel0 <= fuel)%nat -> exists os, autosweeps fuel ms lo hi tol 100 = Some (Ok os) /\ Forall2 (swept_by lo hi tol fuel) ms os.
Proof.
  intros Hlo Hlt Ht. induction 1 as [|m f ms fs (Hc & Hs & _) _ (fuel0 & IH)]; [exists 0%nat; intros fuel _; exists []; cbn [autosweeps]; auto|].
  destruct (C61_ends f lo hi (solve m) tol Hlo Hlt Hc Hs Ht) as (fuel1 & t & T & E & HT). exists (Nat.max fuel0 fuel1). intros fuel Hf.
  destruct (IH fuel ltac:(lia)) as (os & Eo & Ho). assert (E' := sweep_more _ _ _ _ _ _ fuel E ltac:(lia)).
  exists (Oracle t (linspace lo hi 100) (cost m) (named m) :: os). cbn [autosweeps]. unfold autosweep. rewrite E', Eo. split; auto.
  constructor; auto. split; [apply linspace_hundred|]. split; [auto|]. split; [auto|]. exists T. auto.
Qed.
Lemma hundred_in lo hi x : lo < hi -> In x (hundred lo hi) -> lo <= x <= hi.
Proof.
  intros Hlt H. unfold hundred in H. apply in_map_iff in H. destruct H as (j & <- & Hj). apply in_seq in Hj.
  assert (H0 := pos_INR j). assert (H1 : INR j <= 99) by (replace 99 with (INR 99) by (simpl; lra); apply le_INR; lia).
  assert (H2 : INR j * ((hi - lo) / 99) = (hi - lo) * (INR j / 99)) by field. rewrite H2. split; nra.
Qed.
Lemma each_ok {A B} (f : A -> res B) (P : A -> B -> Prop) l : (forall x, In x l -> exists y, f x = Ok y /\ P x y) -> exists ys, each f l = Ok ys /\ Forall2 P l ys.
Proof.
  induction l as [|x l IH]; intros H; [exists []; cbn [each]; auto|]. destruct (H x ltac:(left; auto)) as (y & E & Hp).
  destruct IH as (ys & E2 & H2); [intros x' Hx; apply H; right; auto|]. exists (y :: ys). cbn [each]. rewrite E. cbn [rbind]. rewrite E2. cbn [rbind]. auto.
Qed.
Lemma line_between a b A B x : 0 < a -> a < b -> a <= x <= b -> 0 < A -> 0 < B -> Rmin A B <= exp (line (ln a) (ln A) (ln b) (ln B) (ln x)) <= Rmax A B.
Proof.
  intros Ha Hab Hx HA HB. assert (Hl : ln a < ln b) by (apply ln_increasing; auto).
  assert (L1 : ln a <= ln x) by (destruct (proj1 Hx) as [H| <-]; [left; apply ln_increasing; auto|lra]).
  assert (L2 : ln x <= ln b) by (destruct (proj2 Hx) as [H| ->]; [left; apply ln_increasing; lra|lra]).
  unfold line. set (w := (ln b - ln x) / (ln b - ln a)).
  assert (Hw : 0 <= w <= 1).
  { unfold w. split; [apply Rmult_le_pos; [lra|left; apply Rinv_0_lt_compat; lra]|]. apply (Rmult_le_reg_r (ln b - ln a)); [lra|].
    unfold Rdiv. rewrite Rmult_assoc, Rinv_l by lra. lra. }
  assert (Hle : forall p q, 0 < p -> p <= q -> ln p <= ln q) by (intros p q Hp [H| ->]; [left; apply ln_increasing; auto|lra]).
  destruct (Rle_dec A B) as [H|H].
  - rewrite Rmin_left, Rmax_right by lra. assert (H' := Hle A B HA H). split; [apply exp_above|apply exp_below]; auto; nra.
  - rewrite Rmin_right, Rmax_left by lra. assert (H' := Hle B A HB ltac:(lra)). split; [apply exp_above|apply exp_below]; auto; nra.
Qed.

Section One.
Variables (lo hi tol : R) (fuel : nat) (m : model) (f : R -> R) (o : oracle).
Hypotheses (Hlo : 0 < lo) (Hlt : lo < hi) (Ht : 0 < tol) (Hm : sound lo hi m f) (Ho : swept_by lo hi tol fuel m o).
Lemma costs_at x : lo <= x <= hi -> exists l u, cost_at (o_bst o) x (Some Lower) = Ok l /\ cost_at (o_bst o) x (Some Upper) = Ok u /\ bounds_cost f lo hi tol x l u.
Proof.
  intros Hx. destruct Hm as (Hc & Hs & _). destruct Ho as (_ & _ & _ & T & E & HT).
  assert (Hb := autosweep_built f lo hi (solve m) tol fuel (o_bst o) T Hlo Hlt Hc Hs Ht E).
  destruct (tree_costs f lo hi (solve m) Hlo Hc Hs tol lo hi (o_bst o) T x Hb Hx) as (L & U & E1 & E2 & E3 & H1 & H2 & H3 & H5 & H4).
  assert (Hfx : 0 < f x) by (apply Hc; auto). exists (exp L), (exp U). split; auto. split; auto. unfold bounds_cost. rewrite !ln_exp.
  split; [apply exp_pos|]. split; [apply exp_le; auto|]. split; [apply exp_above; auto|].
  split; [intros Hne; apply exp_below; auto; destruct H4 as [H4|[-> _]]; [auto|congruence]|]. split; [lra|].
  intros He. assert (Hsv : solved (o_bst o) x) by (destruct (solved_ends lo hi (solve m) tol lo hi (o_bst o) T Hb); destruct He as [-> | ->]; auto).
  destruct (H5 (solved_leaf lo hi (solve m) tol lo hi (o_bst o) T x Hb Hsv)) as [-> ->]. rewrite exp_ln; auto.
Qed.
Lemma posys_at h x : lo <= x <= hi -> exists y, posy_at (o_bst o) h x = Ok y /\ around (fun v => s_posy (solve m v) h) lo hi x y.
Proof.
  intros Hx. destruct Hm as (Hc & Hs & Hp). destruct Ho as (_ & _ & _ & T & E & HT).
  assert (Hb := autosweep_built f lo hi (solve m) tol fuel (o_bst o) T Hlo Hlt Hc Hs Ht E).
  assert (Hex : x = lo \/ x = hi -> posy_at (o_bst o) h x = Ok (s_posy (solve m x) h)).
  { intros He. apply (C46_solved f lo hi (solve m) tol fuel (o_bst o) T x); auto.
    destruct (solved_ends lo hi (solve m) tol lo hi (o_bst o) T Hb); destruct He as [-> | ->]; auto. }
  destruct (built_bounds f lo hi (solve m) Hlo Hs tol lo hi (o_bst o) T Hb) as (_ & _ & _ & R0 & R1 & _).
  destruct (built_leaf lo hi (solve m) tol lo hi (o_bst o) T x Hb Hx) as (a' & b' & x' & lb & ub & Em & K1 & K2 & K3 & K4 & _ & _).
  unfold posy_at in *. rewrite R0, R1 in *. destruct (Rlt_dec x lo); [lra|]. destruct (Rlt_dec hi x); [lra|]. eexists. split; [reflexivity|].
  split; [|intros He; specialize (Hex He); injection Hex; auto].
  rewrite Em. simpl. rewrite interpolate_line. exists a', b'. split; [lra|]. split; [lra|]. apply line_between; auto; lra.
Qed.
Lemma drawn_right n i k : (forall s, k = Text s -> String.length s <> n) -> (forall h u, wanted n i k = Nom h u -> h = fst (cost m) -> u = snd (cost m)) ->
  means_cost m (wanted n i k) \/ meant m (wanted n i k) <> None -> exists d, draw n i o k = Ok d /\ right_drawing m f lo hi tol i (wanted n i k) d.
Proof.
  intros Hk Hu Hd. destruct Ho as (Exs & Eco & Ena & _).
  assert (Hpick : pick n i k = wanted n i k).
  { unfold pick, wanted. destruct k as [h u|s|l]; cbn [items]; auto.
    assert (Hl : forall s, List.length (letters s) = String.length s) by (induction s0 as [|c s0 IH]; simpl; auto). rewrite Hl.
    destruct (Nat.eqb_spec (String.length s) n) as [E|]; auto. exfalso. apply (Hk s); auto. }
  unfold draw. rewrite Hpick. set (w := wanted n i k) in *. clearbody w. clear Hpick.
  assert (Hc : is_cost o w = true <-> means_cost m w).
  { unfold is_cost, means_cost. rewrite Eco. destruct w as [h u|s|l].
    - rewrite Nat.eqb_eq. split; [intros E; right; rewrite <- E; f_equal; apply (Hu h u); auto|intros [H|H]; [discriminate|congruence]].
    - rewrite String.eqb_eq. split; [intros ->; auto|intros [H|H]; congruence].
    - split; [discriminate|intros [H|H]; discriminate]. }
  destruct (is_cost o w) eqn:Ec.
  - assert (Hcost : means_cost m w) by (apply Hc; auto).
    destruct (each_ok (fun x => cost_at (o_bst o) x (Some Lower)) (fun x l => cost_at (o_bst o) x (Some Lower) = Ok l) (hundred lo hi)) as (ls & E1 & F1).
    { intros x Hx. destruct (costs_at x (hundred_in _ _ _ Hlt Hx)) as (l & u & A & _). exists l. auto. }
    destruct (each_ok (fun x => cost_at (o_bst o) x (Some Upper)) (fun x l => cost_at (o_bst o) x (Some Upper) = Ok l) (hundred lo hi)) as (us & E2 & F2).
    { intros x Hx. destruct (costs_at x (hundred_in _ _ _ Hlt Hx)) as (l & u & _ & A & _). exists u. auto. }
    unfold cost_lb, cost_ub. rewrite Exs, E1. cbn [rbind]. rewrite E2. cbn [rbind]. rewrite Eco. eexists. split; [reflexivity|]. split; [|intros Hn; contradiction].
    intros _. exists ls, us. split; auto.
    assert (HL : List.length (hundred lo hi) = 100%nat) by (unfold hundred; rewrite map_length, seq_length; auto).
    split; [rewrite <- HL; symmetry; eapply Forall2_length; exact F1|]. split; [rewrite <- HL; symmetry; eapply Forall2_length; exact F2|].
    intros j x l u Ex El Eu. assert (Hx := hundred_in _ _ _ Hlt (nth_error_In _ _ Ex)). destruct (costs_at x Hx) as (l' & u' & A & B & C).
    assert (G : forall (g : R -> res R) (xs : list R) ys j x y, Forall2 (fun x y => g x = Ok y) xs ys -> nth_error xs j = Some x -> nth_error ys j = Some y -> g x = Ok y).
    { intros g xs ys j0 x0 y0 F. revert j0. induction F as [|? ? ? ? Hh F IHF]; intros [|j0] A1 A2; try discriminate; cbn [nth_error] in *; [congruence|eauto]. }
    rewrite (G (fun x => cost_at (o_bst o) x (Some Lower)) _ _ j x l F1 Ex El) in A. rewrite (G (fun x => cost_at (o_bst o) x (Some Upper)) _ _ j x u F2 Ex Eu) in B.
    injection A as <-. injection B as <-. auto.
  - assert (Hn : ~ means_cost m w) by (intros H; apply Hc in H; discriminate). destruct Hd as [Hd|Hd]; [contradiction|].
    assert (Ha : exists h un, meant m w = Some (h, un) /\ asked o w = Ok (h, un)).
    { unfold meant, asked in *. rewrite Ena. destruct w as [h u|s|l]; [exists h, u; auto| |congruence]. destruct (named m s) as [[h u]|]; [exists h, u; auto|congruence]. }
    destruct Ha as (h & un & A1 & A2). unfold getval. rewrite Ec, A2. cbn [rbind fst snd]. rewrite Exs.
    destruct (each_ok (fun x => posy_at (o_bst o) h x) (around (fun v => s_posy (solve m v) h) lo hi) (hundred lo hi)) as (ys & E1 & F1).
    { intros x Hx. apply posys_at. apply (hundred_in _ _ _ Hlt Hx). }
    rewrite E1. cbn [rbind]. eexists. split; [reflexivity|]. split; [intros H; contradiction|]. intros _ h' un' Hm'. rewrite A1 in Hm'. injection Hm' as <- <-. exists ys. auto.
Qed.
End One.
Lemma draws_right lo hi tol fuel n k ms fs : 0 < lo -> lo < hi -> 0 < tol -> Forall2 (sound lo hi) ms fs -> (forall s, k = Text s -> String.length s <> n) ->
  forall os i0, Forall2 (swept_by lo hi tol fuel) ms os ->
  (forall i m, nth_error ms i = Some m -> (forall h u, wanted n (i0 + i) k = Nom h u -> h = fst (cost m) -> u = snd (cost m)) /\
     (means_cost m (wanted n (i0 + i) k) \/ meant m (wanted n (i0 + i) k) <> None)) ->
  exists ds, draw_all n i0 os k = Ok ds /\ List.length ds = List.length ms /\
    forall i m f d, nth_error ms i = Some m -> nth_error fs i = Some f -> nth_error ds i = Some d -> right_drawing m f lo hi tol (i0 + i) (wanted n (i0 + i) k) d.
Proof.
  intros Hlo Hlt Ht Hms Hk. induction Hms as [|m f ms fs Hm _ IH]; intros os i0 Hos Hw; inversion Hos as [|? o ? os' Ho Hos']; subst.
  - exists []. cbn [draw_all]. split; auto. split; auto. intros [|i] ? ? ? H; discriminate.
  - destruct (Hw 0%nat m eq_refl) as (W1 & W2). rewrite Nat.add_0_r in W1, W2.
    destruct (drawn_right lo hi tol fuel m f o Hlo Hlt Ht Hm Ho n i0 k Hk W1 W2) as (d & E & Hd).
    destruct (IH os' (i0 + 1)%nat Hos') as (ds & E2 & L2 & H2).
    { intros i m' Hi. rewrite <- Nat.add_assoc. apply (Hw (S i) m' Hi). }
    exists (d :: ds). cbn [draw_all]. rewrite E. cbn [rbind]. rewrite E2. cbn [rbind]. split; auto. split; [cbn [List.length]; congruence|].
    intros [|i] m' f' d' A B C; cbn [nth_error] in *; [injection A as <-; injection B as <-; injection C as <-; rewrite Nat.add_0_r; auto|].
    replace (i0 + S i)%nat with (i0 + 1 + i)%nat by lia. apply H2; auto.
Qed.

(** *** The property *)
(** Proved if no text stands alone, no text has as many letters as there are models, and no posynomial has the terms of a model's cost with other units. *)
Definition no_lone_text (a : shown) : Prop := match a with One (Text _) => False | _ => True end.
Definition no_text_of (n : nat) (a : shown) : Prop := forall s, In (Text s) (asked_for a) -> String.length s <> n.
Definition cost_units (ms : list model) (a : shown) : Prop :=
  forall k i m h u, In k (asked_for a) -> nth_error ms i = Some m -> wanted (List.length ms) i k = Nom h u -> h = fst (cost m) -> u = snd (cost m).
Theorem C112_compare_partial : C112_for (fun ms a => no_lone_text a /\ no_text_of (List.length ms) a /\ cost_units ms a).
Proof.
  intros ms fs lo hi tol a Hlo Hlt Ht Hne Ha Hms Hd (N1 & N2 & N3). destruct (sweeps_end lo hi tol ms fs Hlo Hlt Ht Hms) as (fuel & H).
  destruct (H fuel (le_n _)) as (os & E & Hos). exists fuel. unfold compare. rewrite E. assert (HL := Forall2_length _ _ _ Hos).
  assert (Hp : posys a = asked_for a) by (destruct a as [[]|]; auto; contradiction). rewrite Hp.
  destruct (each_ok (draw_all (List.length os) 0 os) (fun k ds => List.length ds = List.length ms /\
    forall i m f d, nth_error ms i = Some m -> nth_error fs i = Some f -> nth_error ds i = Some d -> right_drawing m f lo hi tol i (wanted (List.length ms) i k) d) (asked_for a))
    as (rows & Er & Fr).
  { intros k Hk. rewrite <- HL. destruct (draws_right lo hi tol fuel (List.length ms) k ms fs Hlo Hlt Ht Hms) with (os := os) (i0 := 0%nat) as (ds & A & B & C); auto.
    - intros s ->. apply N2. auto.
    - intros i m Hi. cbn [Nat.add]. split; [intros h u; apply N3; auto|apply Hd; auto].
    - exists ds. split; auto. }
  exists rows. split.
  - destruct os as [|o os]; [apply Forall2_length in Hos; destruct ms; [congruence|discriminate]|]. destruct (asked_for a) as [|k ks] eqn:Ek; [congruence|].
    rewrite Er. auto.
  - split; [symmetry; eapply Forall2_length; exact Fr|]. clear - Fr. induction Fr as [|k0 ds0 ks rs H _ IH]; intros [|r] k ds A B; try discriminate; cbn [nth_error] in *.
    + injection A as <-. injection B as <-. auto.
    + apply (IH r); auto.
Qed.
Print Assumptions C112_compare_partial.

(** *** Refutations *)
Lemma sweeps_names lo hi tol fuel n ms : forall os, autosweeps fuel ms lo hi tol n = Some (Ok os) -> Forall2 (fun m o => names o = named m /\ costposy o = cost m) ms os.
Proof.
  induction ms as [|m ms IH]; intros os H; cbn [autosweeps] in H; [injection H as <-; constructor|]. unfold autosweep in H.
  destruct (autosweep_1d (solve m) tol fuel lo hi) as [[[t T]|]|]; try discriminate.
  destruct (autosweeps fuel ms lo hi tol n) as [[os'|]|] eqn:E; try discriminate. injection H as <-. constructor; auto.
Qed.
(** A model whose cost is one everywhere, with variables that have no names *)
Definition flat : model := Model (fun x => Sol 1 0 (fun _ => 1)) (0%nat, 0%nat) (fun _ => None).
Lemma flat_sound lo hi : sound lo hi flat (fun _ => 1).
Proof.
  split; [|split]; simpl; [|intros x _; split; auto; intros v _; simpl; lra|intros; lra].
  split; [intros; lra|]. intros u v t _ _ _. rewrite ln_1. lra.
Qed.
(** The cost of four models: a text of four letters is taken for four items. *)
Theorem C112_text_refuted : ~ C112_for (fun ms a => no_lone_text a /\ cost_units ms a).
Proof.
  intros H. destruct (H [flat; flat; flat; flat] [fun _ => 1; fun _ => 1; fun _ => 1; fun _ => 1] 1 2 1 (Several [Text "cost"])) as (fuel & rows & E & _); try lra; try discriminate.
  - repeat (constructor; [apply flat_sound|]); constructor.
  - intros k i m [<-|[]] _. left. left. auto.
  - split; [exact I|]. intros k i m h u [<-|[]] _ Hw. discriminate.
  - unfold compare in E. destruct (autosweeps fuel [flat; flat; flat; flat] 1 2 1 100) as [[os|]|] eqn:Es; try discriminate.
    apply sweeps_names in Es. inversion Es as [|? o1 ? os1 [Hn _] F1]; subst. assert (HL := Forall2_length _ _ _ F1). cbn [List.length] in HL.
    cbn [posys each List.length] in E. rewrite <- HL in E. cbn [draw_all] in E. unfold draw in E. cbn in E. unfold getval in E. cbn in E. rewrite Hn in E. discriminate.
Qed.
Print Assumptions C112_text_refuted.
(** A text alone, such as "cost", is taken for a list of its letters. *)
Theorem C112_lone_refuted : ~ C112_for (fun ms a => no_text_of (List.length ms) a /\ cost_units ms a).
Proof.
  intros H. destruct (H [flat] [fun _ => 1] 1 2 1 (One (Text "cost"))) as (fuel & rows & E & _); try lra; try discriminate.
  - repeat (constructor; [apply flat_sound|]); constructor.
  - intros k i m [<-|[]] _. left. left. auto.
  - split; [intros s [[= <-]|[]]; discriminate|]. intros k i m h u [<-|[]] _ Hw. discriminate.
  - unfold compare in E. destruct (autosweeps fuel [flat] 1 2 1 100) as [[os|]|] eqn:Es; try discriminate.
    apply sweeps_names in Es. inversion Es as [|? o1 ? os1 [Hn _] F1]; subst. inversion F1; subst.
    cbn [posys each List.length letters] in E. cbn [draw_all] in E. unfold draw in E. cbn in E. unfold getval in E. cbn in E. rewrite Hn in E. discriminate.
Qed.
Print Assumptions C112_lone_refuted.
(** A posynomial with the cost's terms and other units, such as a length over one second where the cost is that length, is taken for the cost. *)
Theorem C112_units_refuted : ~ C112_for (fun ms a => no_lone_text a /\ no_text_of (List.length ms) a).
Proof.
  intros H. destruct (H [flat] [fun _ => 1] 1 2 1 (Several [Nom 0 1])) as (fuel & rows & E & HL & Hr); try lra; try discriminate.
  - repeat (constructor; [apply flat_sound|]); constructor.
  - intros k i m [<-|[]] _. right. discriminate.
  - split; [exact I|]. intros s [[=]|[]].
  - unfold compare in E. destruct (autosweeps fuel [flat] 1 2 1 100) as [[os|]|] eqn:Es; try discriminate.
    apply sweeps_names in Es. inversion Es as [|? o1 ? os1 [_ Hc] F1]; subst. inversion F1; subst.
    assert (Hi : is_cost o1 (Nom 0 1) = true) by (unfold is_cost; rewrite Hc; auto).
    cbn [posys each List.length draw_all] in E. unfold draw in E. cbn [pick items] in E. unfold pick in E. cbn [items] in E. rewrite Hi in E.
    destruct (cost_lb o1) as [lb|]; [|discriminate]. destruct (cost_ub o1) as [ub|]; [|discriminate]. cbn [rbind] in E. injection E as <-.
    destruct (Hr 0%nat (Nom 0 1) _ eq_refl eq_refl) as (_ & Hd). destruct (Hd 0%nat flat (fun _ => 1) _ eq_refl eq_refl eq_refl) as (_ & Hd2).
    destruct (Hd2) with (h := 0%nat) (un := 1%nat) as (ys & Ey & _); auto; [intros [A|A]; discriminate|discriminate].
Qed.
Print Assumptions C112_units_refuted.

(** Values sampled: those of the cost are the geometric means of its bounds, and are in its units; the others are those of what was asked. *)
Theorem C112_sampled : forall lo hi tol m f fuel o, 0 < lo -> lo < hi -> 0 < tol -> sound lo hi m f -> autosweep fuel m lo hi tol 100 = Some (Ok o) ->
  (exists ls us, cost_lb o = Ok (ls, snd (cost m)) /\ cost_ub o = Ok (us, snd (cost m)) /\ List.length ls = 100%nat /\ List.length us = 100%nat /\
     forall k, means_cost m k -> exists ys, getval o k = Ok (ys, snd (cost m)) /\ List.length ys = 100%nat /\
       forall j x l u y, nth_error (hundred lo hi) j = Some x -> nth_error ls j = Some l -> nth_error us j = Some u -> nth_error ys j = Some y ->
         bounds_cost f lo hi tol x l u /\ 0 < y /\ y * y = l * u) /\
  (forall s, s <> "cost"%string -> match named m s with
     | Some (h, un) => exists ys, getval o (Text s) = Ok (ys, un) /\ Forall2 (around (fun v => s_posy (solve m v) h) lo hi) (hundred lo hi) ys
     | None => getval o (Text s) = Err ValueErrorE
     end).
Proof.
  intros lo hi tol m f fuel o Hlo Hlt Ht Hm E. unfold autosweep in E. destruct (autosweep_1d (solve m) tol fuel lo hi) as [[[t T]|]|] eqn:Es; try discriminate.
  injection E as <-. assert (Hc := Hm). destruct Hc as (Hc & Hs & Hp).
  assert (Hb := autosweep_built f lo hi (solve m) tol fuel t T Hlo Hlt Hc Hs Ht Es).
  destruct (built_bounds f lo hi (solve m) Hlo Hs tol lo hi t T Hb) as (_ & _ & _ & _ & _ & HT).
  assert (Ho : swept_by lo hi tol fuel m (Oracle t (linspace lo hi 100) (cost m) (named m))).
  { split; [apply linspace_hundred|]. split; [auto|]. split; [auto|]. exists T. auto. }
  assert (HL : List.length (hundred lo hi) = 100%nat) by (unfold hundred; rewrite map_length, seq_length; auto).
  assert (Hall : forall bd, exists l, each (fun x => cost_at t x bd) (hundred lo hi) = Ok l /\ Forall2 (fun x y => cost_at t x bd = Ok y) (hundred lo hi) l).
  { intros bd. apply each_ok. intros x Hx. apply hundred_in in Hx; auto.
    destruct (tree_costs f lo hi (solve m) Hlo Hc Hs tol lo hi t T x Hb Hx) as (L & U & E1 & E2 & E3 & _). destruct bd as [[]|]; eauto. }
  assert (G : forall (g : R -> res R) (xs : list R) ys j x y, Forall2 (fun x y => g x = Ok y) xs ys -> nth_error xs j = Some x -> nth_error ys j = Some y -> g x = Ok y).
  { intros g xs ys j0 x0 y0 F. revert j0. induction F as [|? ? ? ? Hh F IHF]; intros [|j0] A1 A2; try discriminate; cbn [nth_error] in *; [congruence|eauto]. }
  destruct (Hall (Some Lower)) as (ls & El & Fl). destruct (Hall (Some Upper)) as (us & Eu & Fu). destruct (Hall None) as (ys & Ey & Fy).
  split.
  - exists ls, us. unfold cost_lb, cost_ub. cbn [o_bst sampled_at costposy]. rewrite linspace_hundred, El, Eu. cbn [rbind]. do 2 (split; [auto|]).
    split; [rewrite <- (Forall2_length _ _ _ Fl); auto|]. split; [rewrite <- (Forall2_length _ _ _ Fu); auto|].
    intros k Hk. unfold getval.
    assert (Hi : forall xs, is_cost (Oracle t xs (cost m) (named m)) k = true) by (intros xs; destruct Hk as [-> | ->]; cbn; auto; apply Nat.eqb_refl).
    rewrite Hi. cbn [o_bst sampled_at costposy]. rewrite ?linspace_hundred, Ey. cbn [rbind]. exists ys. split; auto.
    split; [rewrite <- (Forall2_length _ _ _ Fy); auto|]. intros j x l u y Ex E1 E2 E3. assert (Hx := hundred_in _ _ _ Hlt (nth_error_In _ _ Ex)).
    assert (A1 := G (fun x => cost_at t x (Some Lower)) _ _ j x l Fl Ex E1). assert (A2 := G (fun x => cost_at t x (Some Upper)) _ _ j x u Fu Ex E2).
    assert (A3 := G (fun x => cost_at t x None) _ _ j x y Fy Ex E3). cbn beta in A1, A2, A3.
    destruct (costs_at lo hi tol fuel m f _ Hlo Hlt Ht Hm Ho x Hx) as (l' & u' & A & B & C). cbn [o_bst] in A, B. rewrite A in A1. rewrite B in A2.
    injection A1 as ->. injection A2 as ->. split; auto.
    destruct (tree_costs f lo hi (solve m) Hlo Hc Hs tol lo hi t T x Hb Hx) as (L & U & B1 & B2 & B3 & _). rewrite A in B1. rewrite B in B2. rewrite A3 in B3.
    injection B1 as ->. injection B2 as ->. injection B3 as ->. split; [apply exp_pos|]. rewrite <- !exp_plus. f_equal. lra.
  - intros s Hne. unfold getval. cbn [is_cost asked names]. destruct (String.eqb_spec s "cost"); [contradiction|].
    destruct (named m s) as [[h un]|]; [|reflexivity]. cbn [rbind fst snd sampled_at o_bst]. rewrite linspace_hundred.
    destruct (each_ok (fun x => posy_at t h x) (around (fun v => s_posy (solve m v) h) lo hi) (hundred lo hi)) as (zs & E1 & F1).
    { intros x Hx. apply (posys_at lo hi tol fuel m f _ Hlo Hlt Ht Hm Ho). apply (hundred_in _ _ _ Hlt Hx). }
    rewrite E1. cbn [rbind]. exists zs. auto.
Qed.
Print Assumptions C112_sampled.

(** Hypotheses met: the cost, a variable, and a pair of variables of two models, of which the second has a cost that is bent. *)
Definition bent_model : model := Model (fun x => Sol (bent 1 x) (if Rle_dec (ln x) 0 then -2 else 2) (fun h => exp (INR h * ln x))) (0%nat, 0%nat)
  (fun s => if String.eqb s "wing" then Some (1%nat, 3%nat) else None).
Definition flat_named : model := Model (fun x => Sol 1 0 (fun _ => 1)) (0%nat, 0%nat) (fun s => if String.eqb s "wing" then Some (2%nat, 3%nat) else None).
Example C112_met : exists fuel rows, compare fuel [flat_named; bent_model] (exp (-1)) (exp 1) 1 (Several [Text "cost"; Text "wing"; Items [Nom 5 4; Text "wing"]]) = Some (Ok rows) /\
  List.length rows = 3%nat.
Proof.
  destruct (C112_compare_partial [flat_named; bent_model] [fun _ => 1; bent 1] (exp (-1)) (exp 1) 1 (Several [Text "cost"; Text "wing"; Items [Nom 5 4; Text "wing"]]))
    as (fuel & rows & E & HL & _); try discriminate; try lra.
  - apply exp_pos.
  - apply exp_increasing. lra.
  - constructor; [|constructor; [|constructor]].
    + apply (flat_sound (exp (-1)) (exp 1)).
    + split; [apply bent_convex|]. split; [apply (bent_solves 1)|]. intros h x. apply exp_pos.
  - intros k [|[|[|i]]] m Hk Hm; try discriminate; injection Hm as <-; destruct Hk as [<-|[<-|[<-|[]]]]; cbn; try (left; left; reflexivity); right; discriminate.
  - split; [exact I|]. split; [intros s [[= <-]|[[= <-]|[|[]]]]; discriminate|].
    intros k [|[|[|i]]] m h u Hk Hm; try discriminate; injection Hm as <-; destruct Hk as [<-|[<-|[<-|[]]]]; cbn; try discriminate; intros [= <- <-]; discriminate.
  - exists fuel, rows. auto.
Qed.
