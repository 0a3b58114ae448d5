(** C98: differences between solutions *)
From Coq Require Import Reals Permutation Lra.
From Verif Require Import Base SolDiff SolDiffSpec SolDiffProofs.
Open Scope nat_scope.
Local Open Scope list_scope.

Lemma elementwise_ext {A B C} (f g : A -> B -> C) a b d : elementwise f a b d -> (forall x y, In x (cells a) -> In y (cells b) -> f x y = g x y) -> elementwise g a b d.
Proof.
  induction 1 as [x y|x lb lc E H IH|y la lc E H IH|la lb lc E1 E2 H IH]; intros Hfg.
  - rewrite (Hfg x y) by (left; reflexivity). constructor.
  - constructor; [exact E|]. intros i b c Hb Hc. eapply IH; eauto. intros x' y Hx Hy. apply Hfg; [exact Hx|]. cbn [cells]. apply in_flat_map. exists b. split; [eapply lookup_In, Hb|exact Hy].
  - constructor; [exact E|]. intros i a c Ha Hc. eapply IH; eauto. intros x y' Hx Hy. apply Hfg; [|exact Hy]. cbn [cells]. apply in_flat_map. exists a. split; [eapply lookup_In, Ha|exact Hx].
  - constructor; [exact E1|exact E2|]. intros i a b c Ha Hb Hc. eapply IH; eauto. intros x y Hx Hy. apply Hfg; cbn [cells]; apply in_flat_map; [exists a|exists b]; split; eauto using lookup_In.
Qed.
Lemma data_of_ext (f g : R -> R -> ext R) s o keys : (forall k b, In k keys -> dget o k = Some b -> forall x y, In y (cells b) -> f x y = g x y) ->
  (forall k, In k keys -> exists a b, dget s k = Some a /\ dget o k = Some b /\ comparable a b) -> data_of f s o keys = data_of g s o keys.
Proof.
  unfold data_of. induction keys as [|k keys IH]; intros H Hc; [reflexivity|]. cbn [mapM]. rewrite IH; [|intros k' b Hi; apply H; right; exact Hi|intros k' Hi; apply Hc; right; exact Hi].
  destruct (Hc k (or_introl eq_refl)) as (a & b & Ea & Eb & Hab). unfold getitem. rewrite Ea, Eb. cbn [rbind]. destruct (cast_comparable f a b Hab) as (d & -> & Hd). destruct (cast_comparable g a b Hab) as (d' & -> & Hd').
  cbn [rbind]. rewrite (elementwise_fun g a b d d'); [reflexivity| |exact Hd']. eapply elementwise_ext; [exact Hd|]. intros x y _ Hy. eapply H; eauto. left. reflexivity.
Qed.
Lemma has_spec (d : list (nat * arr R)) k : has d k = true <-> dget d k <> None.
Proof. unfold has. destruct (dget d k); split; congruence. Qed.
Lemma dkeys_spec (d : list (nat * arr R)) k : In k (dkeys d) <-> dget d k <> None.
Proof.
  pose proof (dget_None d k) as H. split.
  - intros Hi E. apply H in E. apply E. exact Hi.
  - intros Hn. destruct (in_dec Nat.eq_dec k (dkeys d)) as [Hk|Hk]; [exact Hk|]. exfalso. apply Hn. apply H. exact Hk.
Qed.
Definition keys_of (sv : list nat) (d : list (nat * arr R)) : list nat := match sv with [] => dkeys d | _ => List.filter (has d) (remove_dups sv) end.
Lemma keys_of_spec sv d k : In k (keys_of sv d) <-> dget d k <> None /\ (sv = [] \/ In k sv).
Proof.
  destruct sv as [|v sv]; unfold keys_of; [rewrite dkeys_spec; tauto|]. rewrite filter_In, has_spec, <- elem_of_list_In, elem_of_remove_dups, elem_of_list_In. split; [tauto|]. intros [H [E|H']]; [discriminate|tauto].
Qed.
Lemma NoDup_lfilter {A} (p : A -> bool) l : NoDup l -> NoDup (List.filter p l).
Proof. rewrite !NoDup_ListNoDup. apply List.NoDup_filter. Qed.
Lemma keys_of_nodup sv d : NoDup (dkeys d) -> NoDup (keys_of sv d).
Proof. intros H. destruct sv as [|v sv]; [exact H|]. apply NoDup_lfilter, NoDup_remove_dups. Qed.
Lemma maybe_spec (f g : R -> R -> ext R) tol vs s o keys : (forall k, In k keys <-> vs k) -> NoDup keys ->
  (tol <> None -> comparable_at vs s o /\ forall k b, vs k -> dget o k = Some b -> forall x y, In y (cells b) -> f x y = g x y) ->
  (forall x y, is_nan (g x y) = false) ->
  exists sec, maybe tol (data_of f s o keys) = Ok sec /\ asked tol g vs s o sec.
Proof.
  intros Hk Hnd Hc Hn. destruct tol as [t|]; [|exists None; split; [reflexivity|exact I]]. destruct Hc as [Hc Hfg]; [discriminate|].
  assert (Hex : forall k, In k keys -> exists a b, dget s k = Some a /\ dget o k = Some b /\ comparable a b). { intros k Hi. apply Hk in Hi. destruct (Hc k Hi) as (a & b & Ea & Eb & Hab & _). eauto. }
  destruct (section_spec g t vs s o keys Hk Hnd Hc) as (data & sec & Ed & Es & Hs).
  { intros k a b d c _ _ _ He Hcc. destruct (elementwise_cells g a b d He c Hcc) as (x & y & _ & _ & ->). apply Hn. }
  exists (Some sec). split; [|exact Hs]. unfold maybe. rewrite (data_of_ext f g s o keys); [|intros k b Hi; apply Hfg, Hk, Hi|exact Hex]. rewrite Ed. cbn [rbind]. rewrite Es. reflexivity.
Qed.

Lemma diff_keys ord (opts : options R) s o : diff ord opts s o =
  let ks := keys_of (showvars opts) (vars s) in let ko := keys_of (showvars opts) (vars o) in
  let sh := ord (List.filter (fun k => bool_decide (k ∈ ko)) ks) in
  let! r := maybe (reltol opts) (data_of rel_diff (vars s) (vars o) sh) in
  let! a := maybe (abstol opts) (data_of abs_diff (vars s) (vars o) sh) in
  let! e := maybe (sensstol opts) (data_of abs_diff (senss s) (senss o) sh) in
  Ok (Report (ord (List.filter (fun k => bool_decide (k ∉ ko)) ks)) (ord (List.filter (fun k => bool_decide (k ∉ ks)) ko)) r a e).
Proof. unfold diff, keys_of. destruct (showvars opts); reflexivity. Qed.

(** The diff of two solutions names the variables only one of them has. For the others, of those asked for, it shows -- for each kind of difference asked for --
    the difference from the baseline of every variable that differs by more than the tolerance, and of no other, with elements of arrays up to the tolerance left
    out; and if there are none, the largest difference. Missing: arrays of different shapes; relative differences to zeros; see below. *)
Theorem C98_shown_partial (ord : list nat -> list nat) (opts : options R) (s o : solution R) :
  (forall l, Permutation (ord l) l) -> NoDup (dkeys (vars s)) -> NoDup (dkeys (vars o)) ->
  comparable_at (shared opts s o) (vars s) (vars o) ->
  (reltol opts <> None -> no_zeros (shared opts s o) (vars o)) ->
  (sensstol opts <> None -> comparable_at (shared opts s o) (senss s) (senss o)) ->
  exists r, diff ord opts s o = Ok r /\ right_report opts s o r.
Proof.
  intros Hord Hs Ho Hv Hz Hss. rewrite diff_keys.
  pose proof (keys_of_nodup (showvars opts) _ Hs) as Ns. pose proof (keys_of_nodup (showvars opts) _ Ho) as No.
  cbv zeta. set (ks := keys_of (showvars opts) (vars s)) in *. set (ko := keys_of (showvars opts) (vars o)) in *.
  assert (Hks : forall k, In k ks <-> dget (vars s) k <> None /\ (showvars opts = [] \/ In k (showvars opts))) by (intros k; apply keys_of_spec).
  assert (Hko : forall k, In k ko <-> dget (vars o) k <> None /\ (showvars opts = [] \/ In k (showvars opts))) by (intros k; apply keys_of_spec).
  assert (Hinord : forall l k, In k (ord l) <-> In k l). { intros l k. split; apply Permutation_in; [|symmetry]; apply Hord. }
  set (sh := ord (List.filter (fun k => bool_decide (k ∈ ko)) ks)).
  assert (Hsh : forall k, In k sh <-> shared opts s o k).
  { intros k. unfold sh. rewrite Hinord, filter_In, bool_decide_eq_true, elem_of_list_In, Hks, Hko. unfold shared. tauto. }
  assert (Nsh : NoDup sh). { unfold sh. rewrite (Hord _). apply NoDup_lfilter, Ns. }
  destruct (maybe_spec rel_diff percent (reltol opts) _ (vars s) (vars o) sh Hsh Nsh) as (sr & -> & Hr).
  { intros Hasked. split; [exact Hv|]. intros k b Hk Eb x y Hy. unfold rel_diff. cbn [n0 R_num]. destruct (decide (y = 0%R)) as [->|_]; [exfalso; eapply (Hz Hasked); eauto|]. reflexivity. } { reflexivity. }
  cbn [rbind]. destruct (maybe_spec abs_diff delta (abstol opts) _ (vars s) (vars o) sh Hsh Nsh) as (sa & -> & Ha); [intros _; split; [exact Hv|reflexivity]|reflexivity|].
  cbn [rbind]. destruct (maybe_spec abs_diff delta (sensstol opts) _ (senss s) (senss o) sh Hsh Nsh) as (se & -> & He); [intros H; split; [apply Hss, H|reflexivity]|reflexivity|].
  cbn [rbind]. eexists. split; [reflexivity|]. split; [|split; [|split; [exact Hr|split; [exact Ha|exact He]]]]; cbn [only_self only_other]; intros k; rewrite Hinord, filter_In, bool_decide_eq_true, elem_of_list_In, Hks, Hko.
  - destruct (dget (vars o) k); split; intuition congruence.
  - destruct (dget (vars s) k); split; intuition congruence.
Qed.
Print Assumptions C98_shown_partial.

(** ** A case *)
Definition as_is (l : list nat) : list nat := l.
(** Variable 0: 2 in the baseline, 3 here. Variable 1: a vector, (4, 8) in the baseline, (4, 6) here. Variable 2: only in the baseline. Variable 3: only here. *)
Definition here : solution R := Sol [(0, Scal 3%R); (1, Arr [Scal 4%R; Scal 6%R]); (3, Scal 1%R)] [].
Definition base : solution R := Sol [(0, Scal 2%R); (1, Arr [Scal 4%R; Scal 8%R]); (2, Scal 5%R)] [].
Definition asks : options R := Options [] (Some 1%R) (Some 5%R) None.
Example C98_nonvacuous :
  (forall l : list nat, Permutation (as_is l) l) /\ NoDup (dkeys (vars here)) /\ NoDup (dkeys (vars base)) /\ comparable_at (shared asks here base) (vars here) (vars base) /\
  no_zeros (shared asks here base) (vars base) /\
  exists r rel abs, diff as_is asks here base = Ok r /\ In 3 (only_self r) /\ In 2 (only_other r) /\ r_rel r = Some rel /\ r_abs r = Some abs /\
  In (0, Scal (Val 50%R)) (s_rows rel) /\ In (1, Arr [Scal Nan; Scal (Val (- 25)%R)]) (s_rows rel) /\ s_rows abs = [].
Proof.
  assert (Hsh : forall k, shared asks here base k -> k = 0 \/ k = 1).
  { intros k (H1 & H2 & _). destruct k as [|[|[|[|k]]]]; auto; exfalso; first [apply H1; reflexivity|apply H2; reflexivity]. }
  assert (Hp : forall l : list nat, Permutation (as_is l) l) by reflexivity.
  assert (N1 : NoDup (dkeys (vars here))) by (apply (bool_decide_unpack _); vm_compute; exact I).
  assert (N2 : NoDup (dkeys (vars base))) by (apply (bool_decide_unpack _); vm_compute; exact I).
  assert (Hc : comparable_at (shared asks here base) (vars here) (vars base)).
  { intros k Hk. destruct (Hsh k Hk) as [->| ->]; [exists (Scal 3%R), (Scal 2%R)|exists (Arr [Scal 4%R; Scal 6%R]), (Arr [Scal 4%R; Scal 8%R])]; (split; [reflexivity|]; split; [reflexivity|]; split; [left|split; discriminate]).
    + constructor.
    + constructor; [reflexivity|]. intros [|[|i]] a b Ha Hb; cbn in Ha, Hb; try discriminate; injection Ha as <-; injection Hb as <-; constructor. }
  assert (Hz : no_zeros (shared asks here base) (vars base)).
  { intros k b Hk Eb. destruct (Hsh k Hk) as [->| ->]; cbn in Eb; injection Eb as <-; cbn [cells flat_map app In]; lra. }
  split; [exact Hp|]. split; [exact N1|]. split; [exact N2|]. split; [exact Hc|]. split; [exact Hz|].
  destruct (C98_shown_partial as_is asks here base Hp N1 N2 Hc (fun _ => Hz)) as (r & E & H1 & H2 & H3 & H4 & _); [intros H; exfalso; apply H; reflexivity|].
  cbn [asks reltol abstol] in H3, H4. destruct (r_rel r) as [rel|] eqn:Er; [|contradiction]. destruct (r_abs r) as [abs|] eqn:Ea; [|contradiction].
  exists r, rel, abs. split; [exact E|]. split; [apply H1; cbn; repeat split; [discriminate|auto]|]. split; [apply H2; cbn; repeat split; [discriminate|auto]|].
  split; [exact Er|]. split; [exact Ea|]. destruct H3 as (_ & H3 & _). destruct H4 as (_ & H4 & _).
  assert (S0 : shared asks here base 0) by (split; [discriminate|split; [discriminate|left; reflexivity]]). assert (S1 : shared asks here base 1) by (split; [discriminate|split; [discriminate|left; reflexivity]]).
  assert (E0 : percent 3 2 = Val 50%R) by (unfold percent; f_equal; lra). assert (E1 : percent 4 4 = Val 0%R) by (unfold percent; f_equal; lra). assert (E2 : percent 6 8 = Val (-25)%R) by (unfold percent; f_equal; lra).
  assert (B0 : (1 < Rabs 50)%R) by (rewrite Rabs_right; lra). assert (B1 : ~ (1 < Rabs 0)%R) by (rewrite Rabs_R0; lra). assert (B2 : (1 < Rabs (-25))%R) by (rewrite Rabs_left; lra).
  split; [|split].
  - apply H3. split; [exact S0|]. exists (Scal 3%R), (Scal 2%R), (Scal (Val 50%R)). split; [reflexivity|]. split; [reflexivity|]. rewrite <- E0. split; [constructor|]. rewrite E0.
    split; [exists (Val 50%R); split; [left; reflexivity|exact B0]|]. constructor. split; [auto|intros H; contradiction].
  - apply H3. split; [exact S1|]. exists (Arr [Scal 4%R; Scal 6%R]), (Arr [Scal 4%R; Scal 8%R]), (Arr [Scal (percent 4 4); Scal (percent 6 8)]). split; [reflexivity|]. split; [reflexivity|]. split.
    + constructor; [reflexivity|reflexivity|]. intros [|[|i]] a b c Ha Hb Hcc; cbn in Ha, Hb, Hcc; try discriminate; injection Ha as <-; injection Hb as <-; injection Hcc as <-; constructor.
    + rewrite E1, E2. split; [exists (Val (-25)%R); split; [right; left; reflexivity|exact B2]|]. constructor; [reflexivity|]. intros [|[|i]] a b Ha Hb; cbn in Ha, Hb; try discriminate; injection Ha as <-; injection Hb as <-; constructor.
      * split; [intros [H|H]; [contradiction|lra]|reflexivity].
      * split; [reflexivity|intros H; contradiction].
  - destruct (s_rows abs) as [|[k v] rs]; [reflexivity|]. exfalso. destruct (H4 k v) as [H5 _]. destruct (H5 (or_introl eq_refl)) as (Hk & a & b & d & Eka & Ekb & He & (c & Hcd & Hx) & _).
    destruct (elementwise_cells _ _ _ _ He c Hcd) as (x & y & Hxx & Hyy & ->). cbn [exceeds delta] in Hx. assert (Hb' : (Rabs (x - y) <= 4)%R); [|lra].
    destruct (Hsh k Hk) as [->| ->]; cbn in Eka, Ekb; injection Eka as <-; injection Ekb as <-; cbn [cells flat_map app In] in Hxx, Hyy; destruct Hxx as [<-|Hxx], Hyy as [<-|Hyy]; try contradiction;
      try (destruct Hxx as [<-|[]]); try (destruct Hyy as [<-|[]]); apply Rabs_le; lra.
Qed.

(** ** What the property does not extend to *)
(** A sweep of [n] points has an array of points for each variable. Compared to a single solution, the elements of a vector are taken for those of different points:
    at point [i] every element is compared to element [i] of the baseline, if there are as many points as elements; else there is an error. *)
Theorem C98_sweep_refuted :
  (forall (f : R -> R -> ext R) (points : list (list R)) (b : list R), length points = length b ->
     exists d, (cast f (Arr (map (fun p => Arr (map Scal p)) points)) (Arr (map Scal b)) = Ok (Arr d)) /\ forall i p y, points !! i = Some p -> b !! i = Some y -> d !! i = Some (Arr (map (fun x => Scal (f x y)) p))) /\
  (forall (f : R -> R -> ext R) (points : list (list R)) (b : list R), length points <> length b -> length points <> 1 -> length b <> 1 ->
     cast f (Arr (map (fun p => Arr (map Scal p)) points)) (Arr (map Scal b)) = Err ValueErrorE) /\
  (* at the second of two points, and in the baseline, the vector is (1, 2); yet its first element is shown to differ by 1 *)
  exists (s o : solution R) r sec, dget (vars s) 0 = Some (Arr [Arr [Scal 1; Scal 1]; Arr [Scal 1; Scal 2]])%R /\ dget (vars o) 0 = Some (Arr [Scal 1; Scal 2])%R /\
    diff as_is (Options [] None (Some 0%R) None) s o = Ok r /\ r_abs r = Some sec /\ s_rows sec = [(0%nat, Arr [Arr [Scal (Val (1 - 1)); Scal (Val (1 - 1))]; Arr [Scal (Val (1 - 2)); Scal (Val (2 - 2))]])]%R.
Proof.
  split; [|split].
  - intros f points b E. rewrite cast_same_length by (rewrite !map_length; exact E).
    assert (H : exists d, (zipc f (map (fun p => Arr (map Scal p)) points) (map Scal b) = Ok d) /\ forall i p y, points !! i = Some p -> b !! i = Some y -> d !! i = Some (Arr (map (fun x => Scal (f x y)) p))).
    { revert b E. induction points as [|p points IH]; intros [|y b] E; try discriminate; [exists []; split; [reflexivity|intros i p y H; discriminate]|].
      destruct (IH b) as (d & Ed & Hd); [injection E; auto|]. cbn [map zipc]. rewrite Ed. cbn [cast rbind amap]. rewrite map_map. eexists. split; [reflexivity|].
      intros [|i] p' y' Hp Hy; cbn in Hp, Hy; [|cbn; eauto]. injection Hp as <-. injection Hy as <-. reflexivity. }
    destruct H as (d & -> & Hd). exists d. split; [reflexivity|exact Hd].
  - intros f points b E E1 E2. cbn [cast]. rewrite !map_length. replace (length points =? length b) with false by (symmetry; apply Nat.eqb_neq, E).
    destruct b as [|y [|y' b]]; destruct points as [|p [|p' points]]; cbn [map]; try reflexivity; cbn in *; congruence.
  - set (d := Arr [Arr [Scal (Val (1 - 1)); Scal (Val (1 - 1))]; Arr [Scal (Val (1 - 2)); Scal (Val (2 - 2))]]%R : arr (ext R)).
    exists (Sol [(0%nat, Arr [Arr [Scal 1; Scal 1]; Arr [Scal 1; Scal 2]])]%R []), (Sol [(0%nat, Arr [Scal 1; Scal 2])]%R []), (Report [] [] None (Some (Section_ [(0%nat, d)] None)) None), (Section_ [(0%nat, d)] None).
    split; [reflexivity|]. split; [reflexivity|]. split; [|split; reflexivity].
    assert (Ed : data_of abs_diff [(0%nat, Arr [Arr [Scal 1; Scal 1]; Arr [Scal 1; Scal 2]])]%R [(0%nat, Arr [Scal 1; Scal 2])]%R [0] = Ok [(0%nat, d)]) by reflexivity.
    unfold diff. cbn [maybe reltol abstol sensstol vars senss rbind]. match goal with |- context [data_of abs_diff _ _ ?k] => change k with [0] end. rewrite Ed. cbn [rbind]. unfold section_of, rows. cbn [flat_map fst snd].
    rewrite (proj2 (skipped_spec 0%R d)). { unfold hide, d. destruct (decide (0%R = n0)) as [_|H]; [reflexivity|exfalso; apply H; reflexivity]. }
    exists (Val (1 - 2)%R). split; [cbn; auto|]. cbn [exceeds]. rewrite Rabs_left; lra.
Qed.
Print Assumptions C98_sweep_refuted.

(** If the only value shown is zero in both solutions, there is an error. *)
Theorem C98_zero_refuted : forall (t : R) (k : nat), diff as_is (Options [k] (Some t) None None) (Sol [(k, Scal 0%R)] []) (Sol [(k, Scal 0%R)] []) = Err TypeErrorE.
Proof.
  intros t k. assert (Eh : has [(k, Scal 0%R)] k = true) by (unfold has; cbn [dget]; rewrite decide_True by reflexivity; reflexivity).
  unfold diff. cbn [showvars vars]. change (remove_dups [k]) with [k]. cbn [List.filter]. rewrite Eh. cbn [List.filter]. rewrite bool_decide_true by (apply elem_of_list_singleton; reflexivity).
  cbn [maybe reltol]. unfold as_is, data_of. cbn [mapM]. unfold getitem. cbn [dget]. rewrite decide_True by reflexivity. cbn [rbind cast amap]. unfold rel_diff. cbn [n0 R_num].
  destruct (decide (0%R = 0%R)) as [_|H]; [|contradiction]. reflexivity.
Qed.
Print Assumptions C98_zero_refuted.

(** An array with a zero in both solutions is not looked at for the largest difference. *)
Theorem C98_largest_refuted : exists (s o : solution R) r sec, dget (vars s) 0 = Some (Arr [Scal 0; Scal 3])%R /\ dget (vars o) 0 = Some (Arr [Scal 0; Scal 2])%R /\
  dget (vars s) 1 = Some (Scal 5%R) /\ dget (vars o) 1 = Some (Scal 5%R) /\
  diff as_is (Options [] (Some 60%R) None None) s o = Ok r /\ r_rel r = Some sec /\ s_rows sec = [] /\ s_largest sec = Some (Val 0%R).
Proof.
  exists (Sol [(0%nat, Arr [Scal 0; Scal 3]); (1%nat, Scal 5)]%R []), (Sol [(0%nat, Arr [Scal 0; Scal 2]); (1%nat, Scal 5)]%R []), (Report [] [] (Some (Section_ [] (Some (Val 0%R)))) None None), (Section_ [] (Some (Val 0%R))).
  repeat (split; [reflexivity|]). split; [|repeat split; reflexivity]. unfold diff. cbn [maybe reltol abstol sensstol vars senss].
  match goal with |- context [data_of rel_diff ?s ?o ?k] => assert (Ed : data_of rel_diff s o k = Ok [(0%nat, Arr [Scal Nan; Scal (Val 50%R)]); (1%nat, Scal (Val 0%R))]) end.
  { unfold as_is. match goal with |- context [data_of _ _ _ ?k] => change k with [0%nat; 1%nat] end. unfold data_of. cbn [mapM]. unfold getitem. cbn [vars].
    change (dget [(0%nat, Arr [Scal 0%R; Scal 3%R]); (1%nat, Scal 5%R)] 0) with (Some (Arr [Scal 0%R; Scal 3%R])). change (dget [(0%nat, Arr [Scal 0%R; Scal 2%R]); (1%nat, Scal 5%R)] 0) with (Some (Arr [Scal 0%R; Scal 2%R])).
    change (dget [(0%nat, Arr [Scal 0%R; Scal 3%R]); (1%nat, Scal 5%R)] 1) with (Some (Scal 5%R)). change (dget [(0%nat, Arr [Scal 0%R; Scal 2%R]); (1%nat, Scal 5%R)] 1) with (Some (Scal 5%R)).
    assert (E0 : rel_diff 0%R 0%R = Nan). { unfold rel_diff. cbn [n0 R_num]. destruct (decide (0%R = 0%R)); [reflexivity|contradiction]. }
    assert (E1 : rel_diff 3%R 2%R = Val 50%R). { unfold rel_diff. cbn [n0 R_num]. destruct (decide (2%R = 0%R)); [lra|]. f_equal. cbn. lra. }
    assert (E2 : rel_diff 5%R 5%R = Val 0%R). { unfold rel_diff. cbn [n0 R_num]. destruct (decide (5%R = 0%R)); [lra|]. f_equal. cbn. lra. }
    cbn [rbind cast length Nat.eqb amap]. rewrite E0, E1, E2. reflexivity. }
  rewrite Ed. cbn [rbind]. unfold section_of, rows. cbn [flat_map fst snd].
  assert (S0 : skipped 60%R (Arr [Scal Nan; Scal (Val 50%R)]) = true).
  { destruct (skipped 60%R (Arr [Scal Nan; Scal (Val 50%R)])) eqn:E; [reflexivity|]. exfalso. apply skipped_spec in E as (c & Hi & He). cbn in Hi. destruct Hi as [<-|[<-|[]]]; cbn in He; [contradiction|]. rewrite Rabs_right in He; lra. }
  assert (S1 : skipped 60%R (Scal (Val 0%R)) = true).
  { destruct (skipped 60%R (Scal (Val 0%R))) eqn:E; [reflexivity|]. exfalso. apply skipped_spec in E as (c & Hi & He). cbn in Hi. destruct Hi as [<-|[]]; cbn in He. rewrite Rabs_R0 in He; lra. }
  rewrite S0, S1. cbn [app map snd]. unfold unrolled_absmax. cbn [absmax_loop map cells flat_map app eabs amax is_nan ele]. change (@n0 R R_num) with 0%R.
  assert (El : (@nleb R R_num 0 (nabs 0))%R = true). { rewrite nabs_R, Rabs_R0. cbn. unfold Rleb. destruct (Rle_dec 0 0); [reflexivity|lra]. }
  rewrite El. cbn [absmax_loop rbind]. reflexivity.
Qed.
Print Assumptions C98_largest_refuted.

(** Differences of sensitivities cannot be shown if a shown variable has none. *)
Theorem C98_senss_refuted : forall (t : R) (k : nat) (x : R), diff as_is (Options [k] None None (Some t)) (Sol [(k, Scal x)] []) (Sol [(k, Scal x)] []) = Err KeyErrorE.
Proof.
  intros t k x. assert (Eh : has [(k, Scal x)] k = true) by (unfold has; cbn [dget]; rewrite decide_True by reflexivity; reflexivity).
  unfold diff. cbn [showvars vars]. change (remove_dups [k]) with [k]. cbn [List.filter]. rewrite Eh. cbn [List.filter]. rewrite bool_decide_true by (apply elem_of_list_singleton; reflexivity). reflexivity.
Qed.
Print Assumptions C98_senss_refuted.
