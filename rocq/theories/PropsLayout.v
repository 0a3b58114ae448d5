(** C66: tables show arrays whole, in lines that run along a dimension. *)
From Verif Require Import Base Layout.
From Coq Require Import Permutation.
Open Scope nat_scope.

(** An index of an array of this shape. *)
Definition index_of (shape idx : list nat) : Prop := Forall2 lt idx shape.
(** The index with another number at dimension [d]. *)
Definition at_dim (d i : nat) (idx : list nat) : list nat := firstn d idx ++ i :: skipn (S d) idx.
(** A line is a single element, or all those along a dimension, in order. *)
Definition along {A} (shape : list nat) (val : list nat -> A) (line : list A) : Prop :=
  (exists idx, index_of shape idx /\ line = [val idx]) \/
  (exists d idx, d < length shape /\ index_of shape idx /\ line = map (fun i => val (at_dim d i idx)) (seq 0 (nth d shape 0))).

(** Arrays of these shapes are printed in such lines, of [maxcolumns] values at most. *)
Definition C66_for (ok : list nat -> Prop) : Prop :=
  forall A maxcolumns shape (val : list nat -> A), shape <> [] -> (forall n, In n shape -> 1 <= n) -> ok shape -> 1 <= maxcolumns ->
  forall line, In line (lines maxcolumns shape val) -> along shape val line /\ length line <= maxcolumns.

(** ** Indices *)
Lemma indices_In shape idx : In idx (indices shape) <-> index_of shape idx.
Proof.
  revert idx. induction shape as [|n shape IH]; intros idx; simpl.
  - split; [intros [<-|[]]; constructor|]. intros Hi. inversion Hi. auto.
  - rewrite in_flat_map. split.
    + intros (i & Hi & Hm). apply in_seq in Hi. apply in_map_iff in Hm as (r & <- & Hr). constructor; [lia|]. apply IH. auto.
    + intros Hi. inversion Hi as [|i ? r ? Hlt Hr]; subst. exists i. split; [apply in_seq; lia|]. apply in_map_iff. exists r. split; auto. apply IH. auto.
Qed.
Lemma NoDup_flat {A B} (f : A -> list B) (l : list A) : NoDup l -> (forall x, In x l -> NoDup (f x)) ->
  (forall x y b, In x l -> In y l -> In b (f x) -> In b (f y) -> x = y) -> NoDup (flat_map f l).
Proof.
  induction l as [|x l IH]; intros Hn Hf Hd; simpl; [constructor|]. apply NoDup_cons in Hn as [Hx Hn]. rewrite elem_of_list_In in Hx.
  apply NoDup_app. split; [apply Hf; left; auto|]. split.
  - intros b Hb Hb2. rewrite elem_of_list_In in Hb, Hb2. apply in_flat_map in Hb2 as (y & Hy & Hb2).
    assert (x = y) by (eapply Hd; eauto; [left|right]; auto). subst. auto.
  - apply IH; auto.
    + intros y Hy. apply Hf. right. auto.
    + intros y z b Hy Hz. apply Hd; right; auto.
Qed.
Lemma indices_NoDup shape : NoDup (indices shape).
Proof.
  induction shape as [|n shape IH]; simpl; [repeat constructor; intros H; inversion H|]. apply NoDup_flat.
  - apply NoDup_ListNoDup, seq_NoDup.
  - intros i _. apply NoDup_ListNoDup, FinFun.Injective_map_NoDup; [intros a b E; congruence|]. apply NoDup_ListNoDup. auto.
  - intros i j b _ _ Hi Hj. apply in_map_iff in Hi as (a & <- & _). apply in_map_iff in Hj as (c & E & _). congruence.
Qed.
Lemma indices_snoc shape n : indices (shape ++ [n]) = flat_map (fun p => map (fun i => p ++ [i]) (seq 0 n)) (indices shape).
Proof.
  induction shape as [|m shape IH]; simpl.
  - rewrite app_nil_r. induction (seq 0 n); simpl; congruence.
  - rewrite IH. generalize (seq 0 m). intros l. induction l as [|i l IHl]; simpl; auto. rewrite flat_map_app, IHl. f_equal. clear.
    induction (indices shape) as [|p ps IH]; simpl; auto. rewrite map_app, IH, map_map. auto.
Qed.

Lemma chunks_blocks {A B} (f : B -> list A) n (l : list B) : 1 <= n -> (forall x, In x l -> length (f x) = n) ->
  forall fuel, length (flat_map f l) <= fuel -> chunks fuel n (flat_map f l) = map f l.
Proof.
  intros Hn. induction l as [|x l IH]; intros Hf fuel Hfuel; simpl in *.
  - destruct fuel; auto.
  - assert (Hx : length (f x) = n) by (apply Hf; auto). rewrite app_length in Hfuel. destruct fuel as [|fuel]; [lia|]. cbn [chunks].
    destruct (f x ++ flat_map f l) as [|y z] eqn:E; [apply (f_equal (@length _)) in E; rewrite app_length in E; simpl in E; lia|]. rewrite <- E. f_equal.
    + rewrite firstn_app, Hx, Nat.sub_diag. simpl. rewrite app_nil_r, <- Hx. apply firstn_all.
    + rewrite skipn_app, Hx, Nat.sub_diag. rewrite (skipn_all2 (f x)) by lia. simpl. apply IH; auto. lia.
Qed.
Lemma chunks_concat {A} n : 1 <= n -> forall fuel (l : list A), length l <= fuel -> concat (chunks fuel n l) = l.
Proof.
  intros Hn. induction fuel as [|fuel IH]; intros [|x l] Hl; cbn [chunks concat]; auto; [simpl in Hl; lia|].
  rewrite IH, firstn_skipn; auto. rewrite skipn_length. simpl in *. lia.
Qed.

(** ** The choice of a dimension *)
Lemma choose_spec mc : forall dims h n h' n', choose mc dims h n = (h', n') ->
  (h' = h /\ n' = n) \/ (In (h', n') dims /\ n <= n' <= mc).
Proof.
  induction dims as [|[d s] dims IH]; intros h n h' n' E; simpl in E; [injection E as <- <-; auto|].
  destruct ((n <=? s) && (s <=? mc)) eqn:Eb.
  - apply andb_true_iff in Eb as [E1 E2]. apply Nat.leb_le in E1, E2. destruct (IH _ _ _ _ E) as [[-> ->]|[Hi Hl]]; right; [split; [left; auto|lia]|].
    split; [right; auto|lia].
  - destruct (IH _ _ _ _ E) as [|[Hi Hl]]; auto. right. split; [right; auto|auto].
Qed.
Lemma combine_In shape k d n : In (d, n) (combine (seq k (length shape)) shape) -> k <= d < k + length shape /\ n = nth (d - k) shape 0.
Proof.
  revert k. induction shape as [|m shape IH]; intros k; simpl; [intros []|]. intros [E|Hi].
  - injection E as <- <-. rewrite Nat.sub_diag. split; [lia|auto].
  - apply IH in Hi as [H1 ->]. split; [lia|]. replace (d - k) with (S (d - S k)) by lia. auto.
Qed.
Lemma layout_spec mc shape h n : shape <> [] -> layout mc shape = (h, n) ->
  h < length shape /\ 1 <= n /\ ((h = length shape - 1 /\ n = 1) \/ (n = nth h shape 0 /\ n <= mc)).
Proof.
  intros Hs E. assert (length shape <> 0) by (destruct shape; [congruence|discriminate]).
  unfold layout in E. apply choose_spec in E as [[-> ->]|[Hi Hl]]; [split; [lia|split; [lia|auto]]|].
  apply combine_In in Hi as [H1 ->]. rewrite Nat.sub_0_r in *. split; [lia|]. split; [lia|]. right. split; auto. lia.
Qed.

(** ** The order of dimensions *)
Lemma dim_order_perm shape h : shape <> [] -> h < length shape -> Permutation (dim_order shape h) (seq 0 (length shape)).
Proof.
  intros Hs Hh. unfold dim_order, insert_at. rewrite <- Permutation_middle, firstn_skipn.
  assert (E : length shape = S (length shape - 1)) by (destruct shape; [congruence|simpl; lia]). rewrite E at 3. rewrite seq_S. rewrite Permutation_app_comm. reflexivity.
Qed.
Lemma position_nth l p : NoDup l -> p < length l -> position (nth p l 0) l = p.
Proof.
  revert p. induction l as [|x l IH]; intros p Hn Hp; simpl in *; [lia|]. apply NoDup_cons in Hn as [Hx Hn]. rewrite elem_of_list_In in Hx.
  destruct p as [|p]; [rewrite Nat.eqb_refl; auto|]. assert (Hp' : p < length l) by lia. destruct (x =? nth p l 0) eqn:E.
  - apply Nat.eqb_eq in E. exfalso. apply Hx. rewrite E. apply nth_In. auto.
  - f_equal. auto.
Qed.
Lemma position_In l d : In d l -> position d l < length l /\ nth (position d l) l 0 = d.
Proof.
  induction l as [|x l IH]; intros Hi; simpl in *; [destruct Hi|]. destruct (x =? d) eqn:E; [apply Nat.eqb_eq in E; split; [lia|auto]|].
  apply Nat.eqb_neq in E. destruct Hi as [|Hi]; [congruence|]. destruct (IH Hi). split; [lia|auto].
Qed.
Lemma nth_map_seq {A} (f : nat -> A) n d def : d < n -> nth d (map f (seq 0 n)) def = f d.
Proof. intros Hd. rewrite (nth_indep _ def (f 0)) by (rewrite map_length, seq_length; auto). rewrite map_nth, seq_nth; auto. Qed.
Lemma nth_map0 (f : nat -> nat) (l : list nat) p : p < length l -> nth p (map f l) 0 = f (nth p l 0).
Proof. intros Hp. rewrite (nth_indep (map f l) 0 (f 0)) by (rewrite map_length; auto). apply map_nth. Qed.
Lemma Forall2_nth (l l' : list nat) : Forall2 lt l l' <-> length l = length l' /\ forall d, d < length l' -> nth d l 0 < nth d l' 0.
Proof.
  split.
  - induction 1 as [|a b l l' Hab H [IH1 IH2]]; simpl; [split; auto; lia|]. split; [lia|]. intros [|d] Hd; auto. apply IH2. lia.
  - revert l'. induction l as [|a l IH]; intros [|b l'] [Hl Hd]; simpl in *; try discriminate Hl; constructor.
    + apply (Hd 0). lia.
    + apply IH. split; [lia|]. intros d Hx. apply (Hd (S d)). lia.
Qed.

Section Order.
Variables (shape order : list nat).
Hypothesis (Hperm : Permutation order (seq 0 (length shape))).
Lemma order_NoDup : NoDup order.
Proof. apply NoDup_ListNoDup. eapply Permutation_NoDup; [symmetry; exact Hperm|]. apply seq_NoDup. Qed.
Lemma order_length : length order = length shape.
Proof. rewrite (Permutation_length Hperm). apply seq_length. Qed.
Lemma order_In d : In d order <-> d < length shape.
Proof. split; intros Hd; [apply (Permutation_in _ Hperm) in Hd; apply in_seq in Hd; lia|apply (Permutation_in _ (Permutation_sym Hperm)); apply in_seq; lia]. Qed.
Lemma order_nth p : p < length shape -> nth p order 0 < length shape.
Proof. intros Hp. apply order_In, nth_In. rewrite order_length. auto. Qed.
Lemma source_length idx : length (source order idx) = length shape.
Proof. unfold source. rewrite map_length, seq_length. apply order_length. Qed.
Lemma source_nth idx d : d < length shape -> nth d (source order idx) 0 = nth (position d order) idx 0.
Proof. intros Hd. unfold source. rewrite nth_map_seq; auto. rewrite order_length. auto. Qed.
Lemma source_index idx : index_of (transposed order shape) idx -> index_of shape (source order idx).
Proof.
  unfold index_of. rewrite !Forall2_nth. unfold transposed. rewrite map_length. intros [Hl Hi]. split; [apply source_length|].
  intros d Hd. rewrite source_nth by auto. destruct (position_In order d (proj2 (order_In d) Hd)) as [H1 H2].
  specialize (Hi _ H1). rewrite nth_map0, H2 in Hi by auto. auto.
Qed.
(** The index in the transposed array *)
Definition target (idx : list nat) : list nat := map (fun d => nth d idx 0) order.
Lemma source_target idx : length idx = length shape -> source order (target idx) = idx.
Proof.
  intros Hl. apply (nth_ext _ _ 0 0); [rewrite source_length; auto|]. rewrite source_length. intros d Hd. rewrite source_nth by auto. unfold target.
  destruct (position_In order d (proj2 (order_In d) Hd)) as [H1 H2].
  rewrite nth_map0, H2 by auto. auto.
Qed.
Lemma target_source idx : length idx = length shape -> target (source order idx) = idx.
Proof.
  intros Hl. unfold target. apply (nth_ext _ _ 0 0); [rewrite map_length, order_length; auto|]. rewrite map_length, order_length. intros p Hp.
  rewrite nth_map0 by (rewrite order_length; auto).
  rewrite source_nth by (apply order_nth; auto). rewrite position_nth; [auto|apply order_NoDup|rewrite order_length; auto].
Qed.
Lemma target_index idx : index_of shape idx -> index_of (transposed order shape) (target idx).
Proof.
  unfold index_of. rewrite !Forall2_nth. unfold transposed, target. rewrite !map_length. intros [Hl Hi]. split; auto. intros p Hp.
  rewrite !nth_map0 by auto. apply Hi. apply order_nth.
  rewrite <- order_length. auto.
Qed.
Lemma sources : Permutation (map (source order) (indices (transposed order shape))) (indices shape).
Proof.
  assert (Hlen : forall idx, index_of (transposed order shape) idx -> length idx = length shape).
  { intros idx Hi. apply Forall2_nth in Hi as [Hl _]. rewrite Hl. unfold transposed. rewrite map_length. apply order_length. }
  apply NoDup_Permutation.
  - pose proof (indices_NoDup (transposed order shape)) as Hn. rewrite NoDup_ListNoDup in *.
    assert (Hi : forall i, In i (indices (transposed order shape)) -> length i = length shape) by (intros i Hi; apply indices_In in Hi; auto).
    induction Hn as [|x l Hx Hn IH]; simpl; constructor.
    + intros Hin. apply in_map_iff in Hin as (y & E & Hy). apply Hx. apply (f_equal target) in E.
      rewrite !target_source in E by (apply Hi; simpl; auto). subst. auto.
    + apply IH. intros i Hi'. apply Hi. right. auto.
  - rewrite <- NoDup_ListNoDup. apply indices_NoDup.
  - intros idx. rewrite indices_In, in_map_iff. split.
    + intros (i & <- & Hi). apply source_index. apply indices_In. auto.
    + intros Hi. exists (target idx). split; [apply source_target; apply Forall2_nth in Hi; tauto|]. apply indices_In, target_index. auto.
Qed.
End Order.

(** Every element is printed, once. *)
Theorem C66_every_element : forall A maxcolumns shape (val : list nat -> A), shape <> [] ->
  exists printed, concat (lines maxcolumns shape val) = map val printed /\ NoDup printed /\ forall idx, In idx printed <-> index_of shape idx.
Proof.
  intros A mc shape val Hs. unfold lines, flatval. destruct (layout mc shape) as [h n] eqn:E. destruct (layout_spec mc shape h n Hs E) as (Hh & Hn & _). cbn [fst snd].
  pose proof (dim_order_perm shape h Hs Hh) as Hp. pose proof (sources shape _ Hp) as Hsrc.
  exists (map (source (dim_order shape h)) (indices (transposed (dim_order shape h) shape))). split; [|split].
  - rewrite chunks_concat; auto. rewrite map_map. auto.
  - apply NoDup_ListNoDup. eapply Permutation_NoDup; [symmetry; exact Hsrc|]. apply NoDup_ListNoDup, indices_NoDup.
  - intros idx. rewrite <- indices_In. split; apply Permutation_in; [|symmetry]; auto.
Qed.
Print Assumptions C66_every_element.

(** ** Lines *)
Lemma nth_last_transposed order shape p : p < length order -> nth p (transposed order shape) 0 = nth (nth p order 0) shape 0.
Proof. intros Hp. unfold transposed. apply nth_map0. auto. Qed.

Lemma length_at_dim d i idx : d < length idx -> length (at_dim d i idx) = length idx.
Proof. intros Hd. unfold at_dim. rewrite app_length. cbn [length]. rewrite firstn_length, skipn_length. lia. Qed.
Lemma nth_at_dim d i idx e : d < length idx -> nth e (at_dim d i idx) 0 = if e =? d then i else nth e idx 0.
Proof.
  intros Hd. unfold at_dim. destruct (e =? d) eqn:E.
  - apply Nat.eqb_eq in E. subst. rewrite app_nth2; rewrite firstn_length, Nat.min_l by lia; [|lia]. rewrite Nat.sub_diag. auto.
  - apply Nat.eqb_neq in E. destruct (Nat.lt_ge_cases e d) as [Hlt|Hge].
    + rewrite app_nth1 by (rewrite firstn_length; lia). rewrite <- (firstn_skipn d idx) at 2. rewrite app_nth1 by (rewrite firstn_length; lia). auto.
    + rewrite app_nth2 by (rewrite firstn_length; lia). rewrite firstn_length, Nat.min_l by lia. destruct (e - d) as [|k] eqn:Ek; [lia|]. cbn [nth].
      rewrite <- (firstn_skipn (S d) idx) at 2. rewrite app_nth2 by (rewrite firstn_length; lia). rewrite firstn_length, Nat.min_l by lia. f_equal. lia.
Qed.

(** If the dimension chosen comes last in the order, lines run along it. *)
Lemma lines_along A mc shape (val : list nat -> A) h n : shape <> [] -> (forall m, In m shape -> 1 <= m) -> 1 <= mc -> layout mc shape = (h, n) ->
  (n = 1 \/ nth (length shape - 1) (dim_order shape h) 0 = h) -> forall line, In line (lines mc shape val) -> along shape val line /\ length line <= mc.
Proof.
  intros Hs Hpos Hmc E Hlast line Hline. unfold lines, flatval in Hline. rewrite E in Hline. cbn [fst snd] in Hline.
  destruct (layout_spec mc shape h n Hs E) as (Hh & Hn & Hcase). pose proof (dim_order_perm shape h Hs Hh) as Hp.
  set (order := dim_order shape h) in *. assert (Hol : length order = length shape) by (apply order_length; auto).
  set (f := fun idx => val (source order idx)) in *.
  destruct (Nat.eq_dec n 1) as [->|Hn1].
  - assert (G : forall fuel l, In line (chunks fuel 1 (map f l)) -> exists idx, In idx l /\ line = [f idx]).
    { clear Hline. induction fuel as [|fuel IH]; intros l Hi; simpl in Hi; [destruct Hi|]. destruct l as [|x l]; simpl in Hi; [destruct Hi|].
      destruct Hi as [<-|Hi]; [exists x; simpl; auto|]. apply IH in Hi as (i & Hi & ->). exists i. split; [right|]; auto. }
    apply G in Hline as (idx & Hi & ->). split; [|simpl; lia]. left. exists (source order idx). split; auto. apply source_index; auto. apply indices_In. auto.
  - destruct Hlast as [|Hlast]; [congruence|]. destruct Hcase as [[_ ?]|[En Hle]]; [congruence|].
    assert (L : length (transposed order shape) = length shape) by (unfold transposed; rewrite map_length; auto).
    assert (Hne : 1 <= length shape) by (destruct shape; [congruence|simpl; lia]).
    destruct (exists_last (l := transposed order shape)) as (sh & m & Esh); [intros Hx; rewrite Hx in L; simpl in L; lia|].
    assert (Lsh : length sh = length shape - 1). { rewrite Esh, app_length in L. simpl in L. lia. }
    assert (Em : m = n).
    { transitivity (nth (length shape - 1) (transposed order shape) 0).
      - rewrite Esh, <- Lsh, app_nth2, Nat.sub_diag; auto.
      - rewrite nth_last_transposed by lia. rewrite Hlast. auto. }
    rewrite Esh, indices_snoc, Em in Hline.
    assert (Efm : map f (flat_map (fun p => map (fun i => p ++ [i]) (seq 0 n)) (indices sh)) = flat_map (fun p => map (fun i => f (p ++ [i])) (seq 0 n)) (indices sh)).
    { clear. induction (indices sh) as [|p ps IH]; simpl; auto. rewrite map_app, IH, map_map. auto. }
    rewrite Efm in Hline. rewrite (chunks_blocks _ n) in Hline; [|auto|intros; rewrite map_length, seq_length; auto|auto].
    apply in_map_iff in Hline as (p & <- & Hpin). rewrite map_length, seq_length. split; [|lia].
    apply indices_In in Hpin. right. exists h, (source order (p ++ [0])).
    assert (Hpl : length p = length shape - 1). { apply Forall2_nth in Hpin as [Hx _]. congruence. }
    assert (Hi0 : index_of (transposed order shape) (p ++ [0])).
    { rewrite Esh. apply Forall2_app; auto. constructor; [lia|constructor]. }
    split; auto. split; [apply source_index; auto|]. rewrite <- En. apply map_ext_in. intros i Hi. apply in_seq in Hi. unfold f. f_equal.
    assert (Hsl : length (source order (p ++ [0])) = length shape) by (apply source_length; auto).
    apply (nth_ext _ _ 0 0); [rewrite length_at_dim; rewrite !(source_length shape order Hp); auto|]. rewrite (source_length shape order Hp). intros d Hd.
    rewrite nth_at_dim by (rewrite Hsl; auto). rewrite !(source_nth shape order Hp) by auto.
    assert (Hpos_h : position h order = length shape - 1).
    { rewrite <- Hlast at 1. apply position_nth; [apply (order_NoDup shape); auto|lia]. }
    destruct (d =? h) eqn:Ed.
    + apply Nat.eqb_eq in Ed. subst d. rewrite Hpos_h, <- Hpl, app_nth2, Nat.sub_diag; auto.
    + apply Nat.eqb_neq in Ed. destruct (position_In order d (proj2 (order_In shape order Hp d) Hd)) as [H1 H2].
      assert (position d order <> length shape - 1). { intros Hx. rewrite Hx, Hlast in H2. congruence. }
      rewrite !app_nth1 by lia. auto.
Qed.
Lemma last_of_order shape h : shape <> [] -> (h = length shape - 1 \/ S h = length shape - 1) -> nth (length shape - 1) (dim_order shape h) 0 = h.
Proof.
  intros Hs Hh. unfold dim_order, insert_at. assert (1 <= length shape) by (destruct shape; [congruence|simpl; lia]). set (k := length shape - 1) in *.
  assert (Hl : length (firstn h (seq 0 k)) = h) by (rewrite firstn_length, seq_length; lia).
  rewrite app_nth2 by lia. rewrite Hl. destruct Hh as [->|Hh].
  - rewrite Nat.sub_diag. auto.
  - replace (k - h) with 1 by lia. cbn [nth]. rewrite <- Hh at 1. rewrite seq_S, skipn_app, seq_length, Nat.sub_diag. simpl.
    rewrite skipn_all2 by (rewrite seq_length; lia). auto.
Qed.

(** The dimension chosen is the last of the longest that fit, and lines are right if it is one of the last two: for vectors and matrices always. *)
Theorem C66_lines_partial : C66_for (fun shape => length shape <= 2).
Proof.
  intros A mc shape val Hs Hpos Hl Hmc line Hline. destruct (layout mc shape) as [h n] eqn:E. destruct (layout_spec mc shape h n Hs E) as (Hh & _ & _).
  eapply lines_along; eauto. right. apply last_of_order; auto. lia.
Qed.
Print Assumptions C66_lines_partial.

(** Also with more dimensions, if one of the last two fits and none before them that fits is longer. *)
Theorem C66_more_dimensions_partial : forall A maxcolumns shape (val : list nat -> A) n m, (forall k, In k (shape ++ [n; m]) -> 1 <= k) -> 1 <= maxcolumns ->
  (exists w, (w = n \/ w = m) /\ w <= maxcolumns /\ forall k, In k shape -> k <= maxcolumns -> k <= w) ->
  forall line, In line (lines maxcolumns (shape ++ [n; m]) val) -> along (shape ++ [n; m]) val line /\ length line <= maxcolumns.
Proof.
  intros A mc shape val n m Hpos Hmc (w & Hw & Hwmc & Hbig) line Hline.
  assert (Hs : shape ++ [n; m] <> []) by (destruct shape; discriminate).
  assert (Hlen : length (shape ++ [n; m]) = S (S (length shape))) by (rewrite app_length; simpl; lia).
  destruct (layout mc (shape ++ [n; m])) as [h c] eqn:E.
  eapply lines_along; eauto. right. apply last_of_order; auto. rewrite Hlen.
  enough (length shape <= h < S (S (length shape))) by lia. destruct (layout_spec _ _ _ _ Hs E) as (Hh & Hc1 & _). split; [|lia].
  unfold layout in E. rewrite Hlen in E.
  assert (Hcomb : combine (seq 0 (S (S (length shape)))) (shape ++ [n; m]) = combine (seq 0 (length shape)) shape ++ [(length shape, n); (S (length shape), m)]).
  { assert (G : forall k (l : list nat), combine (seq k (S (S (length l)))) (l ++ [n; m]) = combine (seq k (length l)) l ++ [(k + length l, n); (k + S (length l), m)]).
    { intros k l. revert k. induction l as [|x l IH]; intros k; simpl.
      - rewrite Nat.add_0_r. repeat f_equal. lia.
      - f_equal. specialize (IH (S k)). simpl in IH. rewrite IH. repeat f_equal; lia. }
    apply (G 0). }
  rewrite Hcomb in E. cbn [Nat.sub] in E.
  assert (Capp : forall a b h0 c0, choose mc (a ++ b) h0 c0 = let '(h1, c1) := choose mc a h0 c0 in choose mc b h1 c1).
  { induction a as [|[d s] a IH]; intros b h0 c0; simpl; [auto|]. destruct (_ && _); apply IH. }
  rewrite Capp in E. destruct (choose mc (combine (seq 0 (length shape)) shape) (S (length shape)) 1) as [h1 c1] eqn:E1.
  assert (Hc : c1 <= w).
  { apply choose_spec in E1 as [[_ ->]|[Hi Hl]].
    - destruct Hw as [-> | ->]; apply Hpos; apply in_or_app; right; simpl; auto.
    - apply combine_In in Hi as [Hi ->]. rewrite Nat.sub_0_r in *. apply Hbig; [apply nth_In; lia|lia]. }
  simpl in E. destruct Hw as [-> | ->].
  - rewrite (proj2 (Nat.leb_le c1 n) Hc), (proj2 (Nat.leb_le n mc) Hwmc) in E. cbn [andb] in E. destruct ((n <=? m) && (m <=? mc)); injection E as <- <-; lia.
  - destruct ((c1 <=? n) && (n <=? mc)) eqn:En.
    + destruct ((n <=? m) && (m <=? mc)); injection E as <- <-; lia.
    + rewrite (proj2 (Nat.leb_le c1 m) Hc), (proj2 (Nat.leb_le m mc) Hwmc) in E. simpl in E. injection E as <- <-. lia.
Qed.
Print Assumptions C66_more_dimensions_partial.

(** With three dimensions, of which the first is chosen, lines run along none. *)
Theorem C66_lines_refuted : ~ C66_for (fun shape => length shape <= 3).
Proof.
  intros Hf. specialize (Hf (list nat) 5 [4; 2; 3] (fun i => i)).
  assert (Hin : In [[0; 0; 0]; [0; 1; 0]; [1; 0; 0]; [1; 1; 0]] (lines 5 [4; 2; 3] (fun i => i))) by (vm_compute; left; reflexivity).
  destruct (Hf ltac:(discriminate) ltac:(simpl; intuition lia) ltac:(simpl; lia) ltac:(lia) _ Hin) as [[(idx & _ & E)|(d & idx & Hd & Hi & E)] _]; [discriminate E|].
  inversion Hi as [|a ? i1 ? Ha H1]; subst. inversion H1 as [|b ? i2 ? Hb H2]; subst. inversion H2 as [|c ? i3 ? Hc H3]; subst. inversion H3; subst.
  simpl in Hd. destruct d as [|[|[|d]]]; [| | |lia]; cbn in E; discriminate E.
Qed.
Print Assumptions C66_lines_refuted.

(** A LaTeX table has only the first line of an array. *)
Definition C66_latex_for (ok : list nat -> nat -> Prop) : Prop :=
  forall A maxcolumns shape (val : list nat -> A), shape <> [] -> ok shape maxcolumns -> forall idx, index_of shape idx -> In (val idx) (latex_cell maxcolumns shape val).
Theorem C66_latex_partial : C66_latex_for (fun shape maxcolumns => exists n, shape = [n] /\ 1 <= n <= maxcolumns).
Proof.
  intros A mc shape val Hs (n & -> & Hn) idx Hi. unfold latex_cell, flatval, layout. cbn [length seq combine choose Nat.sub].
  rewrite (proj2 (Nat.leb_le 1 n)), (proj2 (Nat.leb_le n mc)) by lia. cbn [andb fst snd].
  inversion Hi as [|i ? r ? Hlt Hr]; subst. inversion Hr; subst. change (dim_order [n] 0) with [0]. cbn [transposed map nth].
  assert (Hl : length (map (fun idx => val (source [0] idx)) (indices [n])) = n).
  { rewrite map_length. simpl. clear. generalize 0. induction n as [|n IH]; intros k; simpl; auto. }
  rewrite <- Hl at 1. rewrite firstn_all. apply in_map_iff. exists [i]. split; auto. apply indices_In. auto.
Qed.
Print Assumptions C66_latex_partial.
Theorem C66_latex_refuted : ~ C66_latex_for (fun shape maxcolumns => length shape <= 1 /\ 1 <= maxcolumns).
Proof.
  intros Hf. specialize (Hf (list nat) 5 [6] (fun i => i) ltac:(discriminate) ltac:(simpl; lia) [1]). vm_compute in Hf.
  destruct Hf as [E|[]]; [constructor; [lia|constructor]|discriminate E].
Qed.
Print Assumptions C66_latex_refuted.

(** Non-vacuity: a matrix printed along its second dimension, and one along its first. *)
Example C66_nonvacuous : lines 5 [2; 3] (fun i => i) = [[[0; 0]; [0; 1]; [0; 2]]; [[1; 0]; [1; 1]; [1; 2]]] /\
  hd [] (lines 5 [3; 7] (fun i => i)) = [[0; 0]; [1; 0]; [2; 0]] /\
  hd [] (lines 5 [2; 3; 7] (fun i => i)) = [[0; 0; 0]; [0; 1; 0]; [0; 2; 0]].
Proof. vm_compute. auto. Qed.
