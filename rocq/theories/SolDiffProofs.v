(** Proofs about diffs of solutions. *)
From Coq Require Import Reals Permutation.
From Verif Require Import Base SolDiff SolDiffSpec.
Open Scope nat_scope.
Local Open Scope list_scope.

Section ind.
Context {A : Type} (P : arr A -> Prop) (Hs : forall x, P (Scal x)) (Ha : forall l, (forall a, In a l -> P a) -> P (Arr l)).
Fixpoint arr_ind' (a : arr A) : P a :=
  match a with
  | Scal x => Hs x
  | Arr l => Ha l ((fix all (l : list (arr A)) : forall a, In a l -> P a :=
      match l with
      | [] => fun a H => match H with end
      | a0 :: l' => fun a H => match H with or_introl E => match E in _ = y return P y with eq_refl => arr_ind' a0 end | or_intror H' => all l' a H' end
      end) l)
  end.
End ind.
Lemma lookup_In {A} (l : list A) i x : l !! i = Some x -> In x l.
Proof. intros H. apply elem_of_list_In. eapply elem_of_list_lookup_2. exact H. Qed.
Lemma In_lookup {A} (l : list A) x : In x l -> exists i, l !! i = Some x.
Proof. intros H. apply elem_of_list_lookup, elem_of_list_In, H. Qed.

(** ** Casting *)
Lemma amap_left {A B C} (f : A -> B -> C) x b : elementwise f (Scal x) b (amap (f x) b).
Proof.
  induction b as [y|l IH] using arr_ind'; cbn [amap]; constructor; [rewrite map_length; reflexivity|]. intros i b c Hb Hc.
  rewrite list_lookup_fmap, Hb in Hc. injection Hc as <-. apply IH. eapply lookup_In, Hb.
Qed.
Lemma amap_right {A B C} (f : A -> B -> C) a y : elementwise f a (Scal y) (amap (fun x => f x y) a).
Proof.
  induction a as [x|l IH] using arr_ind'; cbn [amap]; constructor; [rewrite map_length; reflexivity|]. intros i b c Hb Hc.
  rewrite list_lookup_fmap, Hb in Hc. injection Hc as <-. apply IH. eapply lookup_In, Hb.
Qed.
Lemma elementwise_fun {A B C} (f : A -> B -> C) a b c c' : elementwise f a b c -> elementwise f a b c' -> c = c'.
Proof.
  intros H. revert c'. induction H as [x y|x lb lc E H IH|y la lc E H IH|la lb lc E1 E2 H IH]; intros c' H'; inversion H' as [|? ? lc' E' K|? ? lc' E' K|? ? lc' E1' E2' K]; subst; [reflexivity| | |].
  - f_equal. apply list_eq. intros i. destruct (lc !! i) as [c|] eqn:Hc; destruct (lc' !! i) as [c'|] eqn:Hc'.
    + destruct (lookup_lt_is_Some_2 lb i) as [b Hb]; [rewrite E; eapply lookup_lt_Some, Hc|]. f_equal. eapply IH; eauto.
    + apply lookup_ge_None in Hc'. apply lookup_lt_Some in Hc. lia.
    + apply lookup_ge_None in Hc. apply lookup_lt_Some in Hc'. lia.
    + reflexivity.
  - f_equal. apply list_eq. intros i. destruct (lc !! i) as [c|] eqn:Hc; destruct (lc' !! i) as [c'|] eqn:Hc'.
    + destruct (lookup_lt_is_Some_2 la i) as [b Hb]; [rewrite E; eapply lookup_lt_Some, Hc|]. f_equal. eapply IH; eauto.
    + apply lookup_ge_None in Hc'. apply lookup_lt_Some in Hc. lia.
    + apply lookup_ge_None in Hc. apply lookup_lt_Some in Hc'. lia.
    + reflexivity.
  - f_equal. apply list_eq. intros i. destruct (lc !! i) as [c|] eqn:Hc; destruct (lc' !! i) as [c'|] eqn:Hc'.
    + destruct (lookup_lt_is_Some_2 la i) as [a Ha]; [rewrite E1; eapply lookup_lt_Some, Hc|].
      destruct (lookup_lt_is_Some_2 lb i) as [b Hb]; [rewrite E2; eapply lookup_lt_Some, Hc|]. f_equal. eapply IH; eauto.
    + apply lookup_ge_None in Hc'. apply lookup_lt_Some in Hc. lia.
    + apply lookup_ge_None in Hc. apply lookup_lt_Some in Hc'. lia.
    + reflexivity.
Qed.
Fixpoint zipc {A B C} (f : A -> B -> C) (la : list (arr A)) (lb : list (arr B)) : res (list (arr C)) :=
  match la, lb with
  | a :: la', b :: lb' => let! c := cast f a b in let! cs := zipc f la' lb' in Ok (c :: cs)
  | _, _ => Ok []
  end.
Lemma cast_same_length {A B C} (f : A -> B -> C) la lb : length la = length lb -> cast f (Arr la) (Arr lb) = let! lc := zipc f la lb in Ok (Arr lc).
Proof.
  intros E. cbn [cast]. rewrite E, Nat.eqb_refl. f_equal. clear E. revert lb. induction la as [|a la IH]; intros lb; [reflexivity|]. destruct lb as [|b lb]; [reflexivity|].
  cbn [zipc]. rewrite IH. reflexivity.
Qed.
Lemma cast_same {A B C} (f : A -> B -> C) a b : same_shape a b -> exists d, cast f a b = Ok d /\ elementwise f a b d.
Proof.
  revert b. induction a as [x|la IH] using arr_ind'; intros b H; inversion H as [|? lb E K]; subst.
  - exists (Scal (f x y)). split; [reflexivity|constructor].
  - rewrite cast_same_length by exact E. clear H.
    assert (Hz : exists lc, zipc f la lb = Ok lc /\ length la = length lc /\ forall i a b c, la !! i = Some a -> lb !! i = Some b -> lc !! i = Some c -> elementwise f a b c).
    { revert lb E K. induction la as [|a la IHl]; intros lb E K.
      - exists []. split; [destruct lb; reflexivity|]. split; [reflexivity|]. intros i a b c H. discriminate.
      - destruct lb as [|b lb]; [discriminate|]. cbn [zipc]. destruct (IH a (or_introl eq_refl) b) as (d & -> & Hd); [apply (K 0); reflexivity|]. cbn [rbind].
        destruct (IHl (fun a' Hi => IH a' (or_intror Hi)) lb) as (lc & -> & L & Hlc); [injection E; auto|intros i a' b'; apply (K (S i))|]. cbn [rbind].
        exists (d :: lc). split; [reflexivity|]. split; [cbn; congruence|]. intros [|i] a' b' c' Ha Hb Hc; cbn in *; [congruence|eauto]. }
    destruct Hz as (lc & -> & L & Hlc). cbn [rbind]. exists (Arr lc). split; [reflexivity|]. constructor; [exact L|congruence|exact Hlc].
Qed.
Lemma cast_comparable {A B C} (f : A -> B -> C) a b : comparable a b -> exists d, cast f a b = Ok d /\ elementwise f a b d.
Proof.
  intros [H|[[x ->]|[y ->]]].
  - apply cast_same, H.
  - exists (amap (f x) b). split; [reflexivity|]. apply amap_left.
  - destruct a as [x|l]; [exists (Scal (f x y)); split; [reflexivity|constructor]|]. eexists. split; [reflexivity|]. apply amap_right.
Qed.
(** Every element of the result is [f] of elements. *)
Lemma elementwise_cells {A B C} (f : A -> B -> C) a b d : elementwise f a b d -> forall c, In c (cells d) -> exists x y, In x (cells a) /\ In y (cells b) /\ c = f x y.
Proof.
  induction 1 as [x y|x lb lc E H IH|y la lc E H IH|la lb lc E1 E2 H IH]; intros c Hc; cbn [cells] in *.
  - destruct Hc as [<-|[]]. exists x, y. split; [left|split; [left|]]; reflexivity.
  - apply in_flat_map in Hc as (v & Hv & Hc). apply In_lookup in Hv as (i & Hi). destruct (lookup_lt_is_Some_2 lb i) as [b Hb]; [rewrite E; eapply lookup_lt_Some, Hi|].
    destruct (IH i b v Hb Hi c Hc) as (x' & y & Hx & Hy & ->). exists x', y. split; [exact Hx|split; [|reflexivity]]. apply in_flat_map. exists b. split; [eapply lookup_In, Hb|exact Hy].
  - apply in_flat_map in Hc as (v & Hv & Hc). apply In_lookup in Hv as (i & Hi). destruct (lookup_lt_is_Some_2 la i) as [a Ha]; [rewrite E; eapply lookup_lt_Some, Hi|].
    destruct (IH i a v Ha Hi c Hc) as (x & y' & Hx & Hy & ->). exists x, y'. split; [|split; [exact Hy|reflexivity]]. apply in_flat_map. exists a. split; [eapply lookup_In, Ha|exact Hx].
  - apply in_flat_map in Hc as (v & Hv & Hc). apply In_lookup in Hv as (i & Hi).
    destruct (lookup_lt_is_Some_2 la i) as [a Ha]; [rewrite E1; eapply lookup_lt_Some, Hi|]. destruct (lookup_lt_is_Some_2 lb i) as [b Hb]; [rewrite E2; eapply lookup_lt_Some, Hi|].
    destruct (IH i a b v Ha Hb Hi c Hc) as (x & y & Hx & Hy & ->). exists x, y. split; [|split; [|reflexivity]]; apply in_flat_map; [exists a|exists b]; split; eauto using lookup_In.
Qed.
Lemma elementwise_ne {A B C} (f : A -> B -> C) a b d : elementwise f a b d -> comparable a b -> cells a <> [] -> cells b <> [] -> cells d <> [].
Proof.
  assert (Hone : forall {A B} (g : A -> B) (a : arr A), cells a <> [] -> cells (amap g a) <> []).
  { intros A' B' g a'. induction a' as [x|l IH] using arr_ind'; [discriminate|]. cbn [amap cells]. intros H E. apply H. clear H. induction l as [|a' l IHl]; [reflexivity|].
    cbn [map flat_map] in *. apply app_eq_nil in E as [E1 E2]. assert (cells a' = []) as ->.
    { destruct (cells a') eqn:Ec; [reflexivity|]. exfalso. apply (IH a' (or_introl eq_refl)); [rewrite Ec; discriminate|exact E1]. }
    apply IHl; [intros x Hx; apply IH; right; exact Hx|exact E2]. }
  intros He [Hss|[[x ->]|[y ->]]] Ha Hb.
  - clear Hb. revert Hss Ha. induction He as [x y|x lb lc E H IH|y la lc E H IH|la lb lc E1 E2 H IH]; intros Hss Ha; [discriminate|inversion Hss|inversion Hss|].
    inversion Hss as [|? ? _ K]; subst. cbn [cells] in *. destruct (flat_map cells la) as [|x0 l0] eqn:Ef; [contradiction|].
    assert (Hin : In x0 (flat_map cells la)) by (rewrite Ef; left; reflexivity). apply in_flat_map in Hin as (a & Ha' & Hx). apply In_lookup in Ha' as (i & Hi).
    destruct (lookup_lt_is_Some_2 lc i) as [c Hc]; [rewrite <- E1; eapply lookup_lt_Some, Hi|]. destruct (lookup_lt_is_Some_2 lb i) as [b Hbi]; [rewrite E2; eapply lookup_lt_Some, Hc|].
    assert (Hne : cells c <> []). { eapply IH; eauto. intros En. rewrite En in Hx. contradiction. }
    destruct (cells c) as [|z zs] eqn:Ez; [contradiction|]. intros En. assert (Hz : In z (flat_map cells lc)); [|rewrite En in Hz; contradiction].
    apply in_flat_map. exists c. split; [eapply lookup_In, Hc|rewrite Ez; left; reflexivity].
  - rewrite (elementwise_fun f _ _ _ _ He (amap_left f x b)). apply Hone, Hb.
  - rewrite (elementwise_fun f _ _ _ _ He (amap_right f a y)). apply Hone, Ha.
Qed.

(** ** Order of magnitudes *)
Lemma nabs_R (x : R) : nabs x = Rabs x.
Proof.
  unfold nabs. cbn [nltb n0 nopp R_num]. unfold Rltb. destruct (Rlt_dec x 0); [rewrite Rabs_left by assumption|rewrite Rabs_right by lra]; reflexivity.
Qed.
Lemma ele_refl (c : ext R) : is_nan c = false -> ele c c = true.
Proof. destruct c as [x|[]|]; try discriminate; try reflexivity. intros _. cbn [ele nleb R_num]. unfold Rleb. destruct (Rle_dec x x); [reflexivity|lra]. Qed.
Lemma ele_trans (a b c : ext R) : ele a b = true -> ele b c = true -> ele a c = true.
Proof.
  destruct a as [x|[]|], b as [y|[]|], c as [z|[]|]; try discriminate; try reflexivity. cbn [ele nleb R_num]. unfold Rleb.
  destruct (Rle_dec x y), (Rle_dec y z), (Rle_dec x z); try discriminate; try reflexivity. lra.
Qed.
Lemma ele_total (a b : ext R) : is_nan a = false -> is_nan b = false -> ele a b = false -> ele b a = true.
Proof.
  destruct a as [x|[]|], b as [y|[]|]; try discriminate; try reflexivity. intros _ _. cbn [ele nleb R_num]. unfold Rleb. destruct (Rle_dec x y), (Rle_dec y x); try discriminate; try reflexivity. lra.
Qed.
Lemma ele_nan_l (a b : ext R) : ele a b = true -> is_nan a = false.
Proof. destruct a as [x|[]|]; try reflexivity. discriminate. Qed.
Lemma ele_nan_r (a b : ext R) : ele a b = true -> is_nan b = false.
Proof. destruct a as [x|[]|], b as [y|[]|]; try reflexivity; discriminate. Qed.
Lemma is_nan_eabs (c : ext R) : is_nan (eabs c) = is_nan c.
Proof. destruct c as [x|[]|]; reflexivity. Qed.
Lemma ele_eabs (tol : R) c : ele (eabs c) (Val tol) = true <-> is_nan c = false /\ ~ exceeds tol c.
Proof.
  destruct c as [x|b|]; cbn [eabs ele is_nan exceeds]; [|split; [discriminate|intros [_ H]; exfalso; apply H; exact I]|split; [discriminate|intros [H _]; discriminate]].
  cbn [nleb R_num]. rewrite nabs_R. unfold Rleb. destruct (Rle_dec (Rabs x) tol); split; try discriminate; try tauto; [intros _; split; [reflexivity|lra]|intros [_ H]; lra].
Qed.
Lemma at_most_eabs c d : ele (eabs c) (eabs d) = true -> at_most c d.
Proof.
  destruct c as [x|b|], d as [y|b'|]; cbn [eabs ele at_most]; try discriminate; try tauto. cbn [nleb R_num]. rewrite !nabs_R. unfold Rleb. destruct (Rle_dec (Rabs x) (Rabs y)); [auto|discriminate].
Qed.
Lemma eabs_nonneg (c : ext R) : is_nan c = false -> ele (Val 0%R) (eabs c) = true.
Proof. destruct c as [x|b|]; cbn; try discriminate; try reflexivity. intros _. rewrite nabs_R. unfold Rleb. destruct (Rle_dec 0 (Rabs x)); [reflexivity|]. pose proof (Rabs_pos x). lra. Qed.

(** ** What is skipped *)
Lemma nanmax_le (l : list (ext R)) (m : R) : (exists c, In c l /\ is_nan c = false) ->
  (ele (nanmax l) (Val m) = true <-> forall c, In c l -> is_nan c = false -> ele c (Val m) = true).
Proof.
  assert (Hnan : forall l : list (ext R), is_nan (nanmax l) = true <-> forall c, In c l -> is_nan c = true).
  { clear l. induction l as [|c l IH]; [split; [intros _ c []|reflexivity]|]. cbn [nanmax fold_right]. change (fold_right _ Nan l) with (nanmax l). destruct (is_nan c) eqn:Ec.
    - rewrite IH. split; [intros H c' [<-|Hi]; auto|intros H c' Hi; apply H; right; exact Hi].
    - split; [|intros H; rewrite (H c (or_introl eq_refl)) in Ec; discriminate]. destruct (is_nan (nanmax l)) eqn:En; [congruence|]. destruct (ele (nanmax l) c); congruence. }
  induction l as [|c l IH]; intros Hex; [destruct Hex as (? & [] & _)|]. cbn [nanmax fold_right]. change (fold_right _ Nan l) with (nanmax l). destruct (is_nan c) eqn:Ec.
  - rewrite IH.
    + split; [intros H c' [<-|Hi] Hn; [congruence|auto]|intros H c' Hi; apply H; right; exact Hi].
    + destruct Hex as (c' & [<-|Hi] & Hn); [congruence|]. exists c'. auto.
  - destruct (is_nan (nanmax l)) eqn:En.
    + rewrite Hnan in En. split; [intros H c' [<-|Hi] Hn; [exact H|rewrite (En c' Hi) in Hn; discriminate]|intros H; apply H; [left; reflexivity|exact Ec]].
    + assert (Hex' : exists c', In c' l /\ is_nan c' = false).
      { destruct (existsb (fun c' => negb (is_nan c')) l) eqn:Ee.
        - apply existsb_exists in Ee as (c' & Hi & Hn). exists c'. split; [exact Hi|apply negb_true_iff, Hn].
        - exfalso. assert (is_nan (nanmax l) = true); [|congruence]. apply Hnan. intros c' Hi. destruct (is_nan c') eqn:E'; [reflexivity|]. exfalso.
          assert (existsb (fun c' => negb (is_nan c')) l = true); [|congruence]. apply existsb_exists. exists c'. rewrite E'. auto. }
      specialize (IH Hex'). destruct (ele (nanmax l) c) eqn:El.
      * split; [|intros H; apply H; [left; reflexivity|exact Ec]]. intros H c' [<-|Hi] Hn; [exact H|]. apply IH; auto. eapply ele_trans; eauto.
      * split; [|intros H; apply IH; intros c' Hi; apply H; right; exact Hi]. intros H c' [<-|Hi] Hn; [|apply IH; auto]. eapply ele_trans; [|exact H]. apply ele_total; auto.
Qed.
Lemma skipped_spec (tol : R) v : skipped tol v = false <-> exists c, In c (cells v) /\ exceeds tol c.
Proof.
  unfold skipped. destruct (forallb is_nan (cells v)) eqn:Ef; cbn [orb].
  - rewrite forallb_forall in Ef. split; [discriminate|]. intros (c & Hi & H). apply Ef in Hi. destruct c; try discriminate. contradiction.
  - assert (Hex : exists c, In c (map eabs (cells v)) /\ is_nan c = false).
    { destruct (existsb (fun c => negb (is_nan c)) (cells v)) eqn:Ee.
      - apply existsb_exists in Ee as (c & Hi & Hn). exists (eabs c). split; [apply in_map, Hi|]. rewrite is_nan_eabs. apply negb_true_iff, Hn.
      - exfalso. assert (forallb is_nan (cells v) = true); [|congruence]. apply forallb_forall. intros c Hi. destruct (is_nan c) eqn:E; [reflexivity|]. exfalso.
        assert (existsb (fun c => negb (is_nan c)) (cells v) = true); [|congruence]. apply existsb_exists. exists c. rewrite E. auto. }
    pose proof (nanmax_le _ tol Hex) as Hm. destruct (ele (nanmax (map eabs (cells v))) (Val tol)) eqn:Ele.
    + split; [discriminate|]. intros (c & Hi & He). exfalso. destruct Hm as [Hm _]. specialize (Hm eq_refl (eabs c) (in_map _ _ _ Hi)). rewrite is_nan_eabs in Hm.
      assert (Hn : is_nan c = false) by (destruct c; [reflexivity|reflexivity|contradiction]). specialize (Hm Hn). apply ele_eabs in Hm as [_ Hm]. contradiction.
    + split; [intros _|reflexivity]. destruct (existsb (fun c => negb (is_nan c) && negb (ele (eabs c) (Val tol))) (cells v)) eqn:Ee.
      * apply existsb_exists in Ee as (c & Hi & Hn). apply andb_true_iff in Hn as [Hn He]. apply negb_true_iff in Hn. apply negb_true_iff in He. exists c. split; [exact Hi|].
        destruct c as [x|b|]; [|exact I|discriminate]. cbn [exceeds]. destruct (Rlt_dec tol (Rabs x)); [assumption|]. exfalso.
        assert (ele (eabs (Val x)) (Val tol) = true); [|congruence]. apply ele_eabs. split; [reflexivity|]. exact n.
      * exfalso. assert (false = true); [|discriminate]. apply Hm. intros c Hi Hn. apply in_map_iff in Hi as (c0 & <- & Hi). rewrite is_nan_eabs in Hn.
        destruct (ele (eabs c0) (Val tol)) eqn:E0; [reflexivity|]. exfalso. assert (existsb (fun c => negb (is_nan c) && negb (ele (eabs c) (Val tol))) (cells v) = true); [|congruence].
        apply existsb_exists. exists c0. rewrite Hn, E0. auto.
Qed.

(** ** What is hidden *)
Lemma exceeds_dec tol c : exceeds tol c \/ ~ exceeds tol c.
Proof. destruct c as [x|b|]; cbn [exceeds]; [destruct (Rlt_dec tol (Rabs x)); auto|left; exact I|right; intros []]. Qed.
Lemma shown_fun tol v w w' : shown_as tol v w -> shown_as tol v w' -> w = w'.
Proof.
  intros H. revert w'. induction H as [c c' Hc|l l' E H IH]; intros w' H'; inversion H' as [? d Hd|? m E' K]; subst.
  - f_equal. destruct Hc as [H1 H2], Hd as [H3 H4]. destruct (Req_dec tol 0); [rewrite H1, H3; auto|]. destruct (exceeds_dec tol c); [rewrite H1, H3; auto|rewrite H2, H4; auto].
  - f_equal. apply list_eq. intros i. destruct (l' !! i) as [c|] eqn:Hc; destruct (m !! i) as [c'|] eqn:Hc'.
    + destruct (lookup_lt_is_Some_2 l i) as [b Hb]; [rewrite E; eapply lookup_lt_Some, Hc|]. f_equal. eapply IH; eauto.
    + apply lookup_ge_None in Hc'. apply lookup_lt_Some in Hc. lia.
    + apply lookup_ge_None in Hc. apply lookup_lt_Some in Hc'. lia.
    + reflexivity.
Qed.
Lemma shown_amap tol (g : ext R -> ext R) v : (forall c, In c (cells v) -> cell_shown tol c (g c)) -> shown_as tol v (amap g v).
Proof.
  induction v as [c|l IH] using arr_ind'; intros H; cbn [amap]; constructor; [apply H; left; reflexivity|rewrite map_length; reflexivity|].
  intros i v w Hv Hw. rewrite list_lookup_fmap, Hv in Hw. injection Hw as <-. apply IH; [eapply lookup_In, Hv|]. intros c Hc. apply H. cbn [cells]. apply in_flat_map. exists v. split; [eapply lookup_In, Hv|exact Hc].
Qed.
Lemma amap_id {A} (v : arr A) : amap (fun c => c) v = v.
Proof.
  induction v as [c|l IH] using arr_ind'; [reflexivity|]. cbn [amap]. f_equal. rewrite <- (map_id l) at 2. apply map_ext_in. exact IH.
Qed.
Lemma hide_shown tol v : (exists c, In c (cells v) /\ exceeds tol c) -> shown_as tol v (hide tol v).
Proof.
  intros (c & Hc & He). destruct v as [c'|l]; cbn [hide].
  - destruct Hc as [<-|[]]. constructor. split; [auto|]. intros H. contradiction.
  - cbn [n0 R_num]. destruct (decide (tol = 0%R)) as [Ez|Ez].
    + rewrite <- (amap_id (Arr l)) at 2. apply shown_amap. intros d _. split; [reflexivity|]. intros _ H. contradiction.
    + apply shown_amap. intros d _. destruct (ele (eabs d) (Val tol)) eqn:E.
      * apply ele_eabs in E as [_ E]. split; [intros [H|H]; contradiction|reflexivity].
      * split; [reflexivity|]. intros Hn _. destruct d as [x|b|]; [|exfalso; apply Hn; exact I|reflexivity]. exfalso.
        assert (ele (eabs (Val x)) (Val tol) = true); [|congruence]. apply ele_eabs. split; [reflexivity|exact Hn].
Qed.

(** ** The largest *)
Lemma amax_spec (l : list (ext R)) : l <> [] -> (forall c, In c l -> is_nan c = false) -> exists m, amax l = Some m /\ In m l /\ is_nan m = false /\ forall c, In c l -> ele c m = true.
Proof.
  induction l as [|c l IH]; intros Hne Hn; [contradiction|]. destruct l as [|d l].
  - exists c. split; [reflexivity|]. split; [left; reflexivity|]. split; [apply Hn; left; reflexivity|]. intros c' [<-|[]]. apply ele_refl. apply Hn. left. reflexivity.
  - destruct IH as (m & E & Hi & Hm & Hle); [discriminate|intros c' Hc'; apply Hn; right; exact Hc'|]. assert (Hcn : is_nan c = false) by (apply Hn; left; reflexivity).
    change (amax (c :: d :: l)) with (match amax (d :: l) with Some m => Some (if is_nan c then Nan else if is_nan m then Nan else if ele m c then c else m) | None => None end).
    rewrite E, Hcn, Hm. destruct (ele m c) eqn:El.
    + exists c. split; [reflexivity|]. split; [left; reflexivity|]. split; [exact Hcn|]. intros c' [<-|Hc']; [apply ele_refl, Hcn|]. eapply ele_trans; [apply Hle, Hc'|exact El].
    + exists m. split; [reflexivity|]. split; [right; exact Hi|]. split; [exact Hm|]. intros c' [<-|Hc']; [apply ele_total; auto|apply Hle, Hc'].
Qed.
Definition good (v : arr (ext R)) : Prop := cells v <> [] /\ forall c, In c (cells v) -> is_nan c = false.
Definition bounded_by (v : arr (ext R)) (m : ext R) : Prop := forall c, In c (cells v) -> ele (eabs c) m = true.
Lemma absmax_loop_spec vs : (forall v, In v vs -> good v) -> forall f m,
  is_nan m = false -> (forall v, f = Some v -> good v /\ bounded_by v m /\ exists c, In c (cells v) /\ eabs c = m) -> (f = None -> m = Val 0%R) ->
  exists f' m', absmax_loop vs f m = Ok f' /\ ele m m' = true /\ (vs <> [] \/ f <> None -> f' <> None) /\
  (forall v, f' = Some v -> (f = Some v \/ In v vs) /\ good v /\ bounded_by v m' /\ exists c, In c (cells v) /\ eabs c = m') /\ (forall v, In v vs -> bounded_by v m').
Proof.
  induction vs as [|v vs IH]; intros Hg f m Hm Hf Hz.
  - exists f, m. split; [reflexivity|]. split; [apply ele_refl, Hm|]. split; [intros [?|?]; [contradiction|assumption]|]. split; [|intros v []]. intros v E. destruct (Hf v E) as (H1 & H2 & H3). auto.
  - cbn [absmax_loop]. destruct (Hg v (or_introl eq_refl)) as [Hne Hnn]. destruct (amax_spec (map eabs (cells v))) as (mx & -> & Hi & Hmx & Hle).
    { intros E. apply map_eq_nil in E. contradiction. } { intros c Hc. apply in_map_iff in Hc as (c0 & <- & Hc). rewrite is_nan_eabs. auto. }
    assert (Hb : bounded_by v mx) by (intros c Hc; apply Hle, in_map, Hc). destruct (ele m mx) eqn:El.
    + destruct (IH (fun w Hw => Hg w (or_intror Hw)) (Some v) mx Hmx) as (f' & m' & E & Em & H1 & H2 & H3).
      { intros w [= <-]. split; [split; assumption|]. split; [exact Hb|]. apply in_map_iff in Hi as (c & E & Hc). exists c. auto. } { discriminate. }
      exists f', m'. split; [exact E|]. split; [eapply ele_trans; eauto|]. split; [intros _; apply H1; right; discriminate|]. split.
      * intros w Ew. destruct (H2 w Ew) as ([[= <-]|Hw] & H4); (split; [right; cbn; auto|exact H4]).
      * intros w [<-|Hw]; [|auto]. intros c Hc. eapply ele_trans; [apply Hb, Hc|exact Em].
    + destruct f as [w0|].
      * destruct (IH (fun w Hw => Hg w (or_intror Hw)) (Some w0) m Hm Hf Hz) as (f' & m' & E & Em & H1 & H2 & H3).
        exists f', m'. split; [exact E|]. split; [exact Em|]. split; [intros _; apply H1; right; discriminate|]. split.
        -- intros w Ew. destruct (H2 w Ew) as ([He|Hw] & H4); (split; [cbn; auto|exact H4]).
        -- intros w [<-|Hw]; [|auto]. intros c Hc. eapply ele_trans; [apply Hb, Hc|]. eapply ele_trans; [apply (ele_total m mx Hm Hmx El)|exact Em].
      * exfalso. rewrite (Hz eq_refl) in El. apply in_map_iff in Hi as (c & <- & Hc). rewrite eabs_nonneg in El; [discriminate|]. apply Hnn, Hc.
Qed.
Lemma argmax_spec (l : list (ext R)) : (forall c, In c l -> is_nan c = false) -> l <> [] -> exists c, argmax l = Some c /\ In c l /\ forall c', In c' l -> ele (eabs c') (eabs c) = true.
Proof.
  unfold argmax. set (g := fun best c => match best with None => Some c | Some b => if is_nan b then best else if is_nan c then Some c else if ele (eabs c) (eabs b) then best else Some c end).
  assert (H : forall l b, is_nan b = false -> (forall c, In c l -> is_nan c = false) -> exists c, fold_left g l (Some b) = Some c /\ is_nan c = false /\ In c (b :: l) /\ forall c', In c' (b :: l) -> ele (eabs c') (eabs c) = true).
  { clear l. induction l as [|d l IH]; intros b Hb Hn.
    - exists b. split; [reflexivity|]. split; [exact Hb|]. split; [left; reflexivity|]. intros c' [<-|[]]. apply ele_refl. rewrite is_nan_eabs. exact Hb.
    - cbn [fold_left]. assert (Hd : is_nan d = false) by (apply Hn; left; reflexivity). unfold g at 2. rewrite Hb, Hd. destruct (ele (eabs d) (eabs b)) eqn:E.
      + destruct (IH b Hb (fun c Hc => Hn c (or_intror Hc))) as (c & Ec & Hcn & Hi & Hle). exists c. split; [exact Ec|]. split; [exact Hcn|]. split; [destruct Hi; [left|right; right]; assumption|].
        intros c' [<-|[<-|Hc']]; [apply Hle; left; reflexivity| |apply Hle; right; exact Hc']. eapply ele_trans; [exact E|]. apply Hle. left. reflexivity.
      + destruct (IH d Hd (fun c Hc => Hn c (or_intror Hc))) as (c & Ec & Hcn & Hi & Hle). exists c. split; [exact Ec|]. split; [exact Hcn|]. split; [right; exact Hi|].
        intros c' [<-|[<-|Hc']]; [|apply Hle; left; reflexivity|apply Hle; right; exact Hc']. eapply ele_trans; [|apply Hle; left; reflexivity]. apply ele_total; rewrite ?is_nan_eabs; auto. }
  intros Hn Hne. destruct l as [|b l]; [contradiction|]. destruct (H l b) as (c & E & _ & Hi & Hle); [apply Hn; left; reflexivity|intros c Hc; apply Hn; right; exact Hc|]. exists c. auto.
Qed.
Lemma unrolled_spec vs : vs <> [] -> (forall v, In v vs -> good v) ->
  exists c, unrolled_absmax vs = Ok (Some c) /\ (exists v, In v vs /\ In c (cells v)) /\ forall v c', In v vs -> In c' (cells v) -> at_most c' c.
Proof.
  intros Hne Hg. unfold unrolled_absmax. destruct (absmax_loop_spec vs Hg None (Val 0%R)) as (f & m & E & _ & H1 & H2 & H3); [reflexivity|discriminate|reflexivity|].
  change (@n0 R R_num) with 0%R. rewrite E. cbn [rbind]. destruct f as [v|]; [|exfalso; apply H1; auto].
  destruct (H2 v eq_refl) as ([?|Hv] & [Hvn Hvg] & Hb & c0 & Hc0 & Em); [discriminate|]. destruct v as [c|l].
  - exists c. destruct Hc0 as [<-|[]]. split; [reflexivity|]. split; [exists (Scal c); split; [exact Hv|left; reflexivity]|]. intros w c' Hw Hc'. apply at_most_eabs. rewrite Em. apply (H3 w Hw c' Hc').
  - destruct (argmax_spec (cells (Arr l)) Hvg Hvn) as (c & -> & Hc & Hle). exists c. split; [reflexivity|]. split; [exists (Arr l); auto|].
    intros w c' Hw Hc'. apply at_most_eabs. eapply ele_trans; [apply (H3 w Hw c' Hc')|]. rewrite <- Em. apply Hle, Hc0.
Qed.

(** ** Sections *)
Lemma mapM_ok {A B} (f : A -> res B) l : (forall x, In x l -> exists y, f x = Ok y) -> exists ys, mapM f l = Ok ys /\ Forall2 (fun x y => f x = Ok y) l ys.
Proof.
  induction l as [|x l IH]; intros H; [exists []; split; [reflexivity|constructor]|]. cbn [mapM]. destruct (H x (or_introl eq_refl)) as (y & Ey). rewrite Ey. cbn [rbind].
  destruct IH as (ys & -> & F); [intros x' Hx'; apply H; right; exact Hx'|]. cbn [rbind]. exists (y :: ys). split; [reflexivity|]. constructor; assumption.
Qed.
Lemma data_of_spec (f : R -> R -> ext R) (s o : list (nat * arr R)) keys : (forall k, In k keys -> exists a b, dget s k = Some a /\ dget o k = Some b /\ comparable a b) ->
  exists data, data_of f s o keys = Ok data /\ map fst data = keys /\
  forall k d, In (k, d) data <-> In k keys /\ exists a b, dget s k = Some a /\ dget o k = Some b /\ elementwise f a b d.
Proof.
  intros H. unfold data_of. match goal with |- context [mapM ?g _] => set (F := g) end.
  assert (HF : forall k, In k keys -> exists d, F k = Ok (k, d) /\ forall d', d = d' <-> exists a b, dget s k = Some a /\ dget o k = Some b /\ elementwise f a b d').
  { intros k Hk. destruct (H k Hk) as (a & b & Ea & Eb & Hc). destruct (cast_comparable f a b Hc) as (d & Ed & Hd). exists d. unfold F, getitem. rewrite Ea, Eb. cbn [rbind]. rewrite Ed. cbn [rbind]. split; [reflexivity|].
    intros d'. split; [intros <-; eauto|]. intros (a' & b' & Ea' & Eb' & Hd'). injection Ea' as <-. injection Eb' as <-. eapply elementwise_fun; eauto. }
  clear H. induction keys as [|k keys IH]; [exists []; split; [reflexivity|]; split; [reflexivity|]; intros k d; split; [intros []|intros [[] _]]|].
  cbn [mapM]. destruct (HF k (or_introl eq_refl)) as (d & -> & Hd). cbn [rbind]. destruct IH as (data & -> & Em & Hdata); [intros k' Hk'; apply HF; right; exact Hk'|]. cbn [rbind].
  exists ((k, d) :: data). split; [reflexivity|]. split; [cbn [map fst]; congruence|]. intros k' d'. split.
  - intros [E|Hi]; [injection E as <- <-; split; [left; reflexivity|]; apply Hd; reflexivity|]. apply Hdata in Hi as [Hi Hx]. split; [right; exact Hi|exact Hx].
  - intros [[<-|Hi] Hx]; [left; f_equal; apply Hd, Hx|right; apply Hdata; auto].
Qed.
Lemma rows_keys tol (data : list (nat * arr (ext R))) : NoDup (map fst data) -> NoDup (map fst (rows tol data)).
Proof.
  induction data as [|[k v] data IH]; intros H; [constructor|]. cbn [rows flat_map fst snd]. fold (rows tol data). inversion H as [|? ? H1 H2]; subst. destruct (skipped tol v); [apply IH, H2|].
  cbn [app map fst]. constructor; [|apply IH, H2]. intros Hi. apply H1. apply elem_of_list_In in Hi. apply elem_of_list_In. apply in_map_iff in Hi as ((k' & v') & E & Hi). cbn in E. subst k'.
  unfold rows in Hi. apply in_flat_map in Hi as ((k' & w) & Hw & Hi). cbn [fst snd] in Hi. destruct (skipped tol w); [contradiction|]. destruct Hi as [E|[]]. injection E as -> _. apply in_map_iff. exists (k, w). auto.
Qed.
Lemma section_spec (f : R -> R -> ext R) tol vs (s o : list (nat * arr R)) keys : (forall k, In k keys <-> vs k) -> NoDup keys -> comparable_at vs s o ->
  (forall k a b d c, vs k -> dget s k = Some a -> dget o k = Some b -> elementwise f a b d -> In c (cells d) -> is_nan c = false) ->
  exists data sec, data_of f s o keys = Ok data /\ section_of tol data = Ok sec /\ section_right f tol vs s o sec.
Proof.
  intros Hk Hnd Hc Hnn. destruct (data_of_spec f s o keys) as (data & Ed & Em & Hd). { intros k Hi. apply Hk in Hi. destruct (Hc k Hi) as (a & b & Ea & Eb & Hab & _). eauto. }
  exists data. assert (Hg : forall v, In v (map snd data) -> good v).
  { intros v Hv. apply in_map_iff in Hv as ((k & d) & E & Hi). cbn in E. subst d. apply Hd in Hi as [Hi (a & b & Ea & Eb & He)]. apply Hk in Hi. split.
    - destruct (Hc k Hi) as (a' & b' & Ea' & Eb' & Hab & Hna & Hnb). rewrite Ea in Ea'. rewrite Eb in Eb'. injection Ea' as <-. injection Eb' as <-. eapply elementwise_ne; eauto.
    - intros c Hcc. eapply Hnn; eauto. }
  assert (Hrows : forall k v, In (k, v) (rows tol data) <-> vs k /\ exists a b d, dget s k = Some a /\ dget o k = Some b /\ elementwise f a b d /\ (exists c, In c (cells d) /\ exceeds tol c) /\ shown_as tol d v).
  { intros k v. unfold rows. rewrite in_flat_map. split.
    - intros ((k' & d) & Hi & H). cbn [fst snd] in H. destruct (skipped tol d) eqn:Es; [contradiction|]. destruct H as [E|[]]. injection E as -> <-. apply skipped_spec in Es.
      apply Hd in Hi as [Hi (a & b & Ea & Eb & He)]. split; [apply Hk, Hi|]. exists a, b, d. repeat (split; [assumption|]). apply hide_shown, Es.
    - intros [Hv (a & b & d & Ea & Eb & He & Hex & Hs)]. exists (k, d). split; [apply Hd; split; [apply Hk, Hv|eauto]|]. cbn [fst snd]. rewrite (proj2 (skipped_spec tol d) Hex). left. f_equal.
      eapply shown_fun; [apply hide_shown, Hex|exact Hs]. }
  assert (Hnodup : NoDup (map fst (rows tol data))) by (apply rows_keys; rewrite Em; exact Hnd).
  unfold section_of. destruct data as [|kd data0] eqn:Edata.
  - exists (Section_ [] None). split; [exact Ed|]. split; [reflexivity|]. split; [constructor|]. split; [exact Hrows|]. split; [intros H; contradiction|].
    intros _ (k & Hv). apply Hk in Hv. rewrite <- Em in Hv. contradiction.
  - rewrite <- Edata in Ed, Em, Hd, Hg, Hrows, Hnodup. rewrite <- Edata. assert (Hne : map snd data <> []) by (rewrite Edata; discriminate). destruct (rows tol data) as [|r rs] eqn:Er.
    + destruct (unrolled_spec (map snd data) Hne Hg) as (c & -> & (v & Hv & Hcv) & Hle). cbn [rbind]. exists (Section_ [] (Some c)). split; [exact Ed|]. split; [reflexivity|].
      split; [exact Hnodup|]. split; [exact Hrows|]. split; [intros H; contradiction|]. intros _ _. exists c. split; [reflexivity|]. split.
      * apply in_map_iff in Hv as ((k & d) & E & Hi). cbn in E. subst d. apply Hd in Hi as [Hi (a & b & Ea & Eb & He)]. exists k, a, b, v. repeat (split; [first [assumption|apply Hk, Hi]|]). exact Hcv.
      * intros k a b d c' Hvk Ea Eb He Hc'. apply (Hle d c'); [|exact Hc']. apply in_map_iff. exists (k, d). split; [reflexivity|]. apply Hd. split; [apply Hk, Hvk|eauto].
    + exists (Section_ (r :: rs) None). split; [exact Ed|]. split; [reflexivity|]. split; [exact Hnodup|]. split; [exact Hrows|]. split; [reflexivity|]. intros H. discriminate.
Qed.
