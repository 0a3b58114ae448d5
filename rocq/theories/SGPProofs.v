(** The in-place update of the matrix of a sequential geometric program. *)
From Verif Require Import Base HashVec Nomial NomialSem NomialProofs Sub Mono Constraint ConstraintSem ConstraintProofs GPGen GPGenProofs SGP SGPSem.
Open Scope R_scope.

Notation triple := (nat * nat * R)%type.

(** ** Sums over entries *)

Definition at_idx (f : triple -> R) (coo : list triple) (r : nat) : R :=
  match coo !! r with Some t => f t | None => 0 end.
Definition osum (f : triple -> R) (coo : list triple) (rs : list nat) : R := lsum (at_idx f coo) rs.

Lemma lsum_insert (f : triple -> R) coo : forall r t0 t, coo !! r = Some t0 ->
  lsum f (<[r := t]> coo) = lsum f coo - f t0 + f t.
Proof.
  induction coo as [|a coo IH]; intros [|r] t0 t Hr; try discriminate.
  - injection Hr as ->. cbn. lra.
  - change (<[S r := t]> (a :: coo)) with (a :: <[r := t]> coo). cbn [lsum]. rewrite (IH r t0 t Hr). lra.
Qed.
Lemma osum_out f coo r t rs : ~ In r rs -> osum f (<[r := t]> coo) rs = osum f coo rs.
Proof.
  intros Hr. apply lsum_ext. intros a Ha. unfold at_idx. rewrite list_lookup_insert_ne; auto. intros ->. auto.
Qed.
Lemma osum_app f coo a b : osum f coo (a ++ b) = osum f coo a + osum f coo b.
Proof. apply lsum_app. Qed.
Lemma osum_agree f coo coo' rs : (forall r, In r rs -> coo' !! r = coo !! r) -> osum f coo' rs = osum f coo rs.
Proof. intros Hr. apply lsum_ext. intros a Ha. unfold at_idx. rewrite Hr; auto. Qed.

Lemma pop_last_spec l l' r : pop_last l = Some (l', r) -> l = l' ++ [r].
Proof.
  unfold pop_last. destruct (rev l) as [|x m] eqn:E; [discriminate|]. intros [= <- <-].
  rewrite <- (rev_involutive l), E. reflexivity.
Qed.
Lemma pop_last_none l : pop_last l = None -> l = [].
Proof.
  unfold pop_last. destruct (rev l) eqn:E; [|discriminate]. intros _. rewrite <- (rev_involutive l), E. auto.
Qed.

(** ** Writing the terms of one posynomial *)
Section Put.
Variable ord : var_order R.
Hypothesis Hord : forall e, List.NoDup (ord e) /\ forall k, In k (ord e) <-> e !! k <> None.

Record pinv (coo0 : list triple) (own0 : list nat) (st : upd_st (T := R)) (done : list triple)
    (popped appended : list nat) : Prop := {
  pv_own0 : own0 = u_free st ++ popped;
  pv_own : u_own st = own0 ++ appended;
  pv_app : appended = seq (length coo0) (length appended);
  pv_len : length (u_coo st) = (length coo0 + length appended)%nat;
  pv_old : forall r, ~ In r popped -> (r < length coo0)%nat -> u_coo st !! r = coo0 !! r;
  pv_sum : forall f, lsum f (u_coo st) = lsum f coo0 - osum f coo0 popped + lsum f done;
  pv_done : forall f, osum f (u_coo st) (popped ++ appended) = lsum f done;
  pv_empty : appended <> [] -> u_free st = [] }.

Lemma pinv_start coo own : pinv coo own (US coo own own) [] [] [].
Proof.
  split; cbn; auto; try (rewrite app_nil_r; auto); try tauto; try lia.
  intros f. unfold osum. cbn. lra.
Qed.

Definition idx (g : gpdata R) (v : nat) : nat := match varidx g v with Some j => j | None => 0%nat end.
Definition cell (g : gpdata R) (row : nat) (e : expv R) (v : nat) : triple := (row, idx g v, eget e v).

Lemma put_entry_inv g row e v coo0 own0 st st' done popped appended :
  List.NoDup own0 -> (forall r, In r own0 -> (r < length coo0)%nat) ->
  pinv coo0 own0 st done popped appended -> put_entry g row e st v = Ok st' ->
  varidx g v <> None /\ exists popped' appended', pinv coo0 own0 st' (done ++ [cell g row e v]) popped' appended'.
Proof.
  intros Hnd Hlt [H1 H2 H3 H4 H5 H6 H7 H8]. unfold put_entry, cell, idx.
  destruct (varidx g v) as [j|] eqn:Ev; [|discriminate].
  change (match e !! v with Some x => x | None => n0 end) with (eget e v). set (t := (row, j, eget e v)).
  intros E. split; [discriminate|]. destruct (pop_last (u_free st)) as [[fr r]|] eqn:Ep.
  - injection E as <-. apply pop_last_spec in Ep. rewrite Ep in H1. rewrite <- app_assoc in H1. cbn in H1.
    exists (r :: popped), appended.
    assert (Hr : (r < length coo0)%nat) by (apply Hlt; rewrite H1; apply in_app_iff; right; left; auto).
    assert (Hrp : ~ In r popped).
    { rewrite H1 in Hnd. apply List.NoDup_remove_2 in Hnd. intros Hi. apply Hnd, in_app_iff. auto. }
    assert (Hra : ~ In r appended) by (rewrite H3; intros Hi; apply in_seq in Hi; lia).
    destruct (lookup_lt_is_Some_2 coo0 r Hr) as [t0 Ht0].
    assert (Ht : u_coo st !! r = Some t0) by (rewrite H5; auto).
    split; cbn [u_coo u_free u_own]; auto.
    + rewrite insert_length. auto.
    + intros q Hq Hl. cbn in Hq. rewrite list_lookup_insert_ne by tauto. apply H5; tauto.
    + intros f. rewrite (lsum_insert f _ r t0 t Ht), H6, lsum_app. unfold osum. cbn [lsum]. unfold at_idx at 2. rewrite Ht0. lra.
    + intros f. rewrite <- app_comm_cons. unfold osum. cbn [lsum]. fold (osum f (<[r:=t]> (u_coo st)) (popped ++ appended)).
      rewrite osum_out, H7, lsum_app by (rewrite in_app_iff; tauto). cbn [lsum].
      unfold at_idx. rewrite list_lookup_insert by (rewrite H4; lia). lra.
    + intros Ha. apply H8 in Ha. rewrite Ha in Ep. destruct fr; discriminate.
  - injection E as <-. apply pop_last_none in Ep. exists popped, (appended ++ [length (u_coo st)]).
    split; cbn [u_coo u_free u_own].
    + rewrite H1, Ep. auto.
    + rewrite H2, app_assoc. auto.
    + rewrite H4, app_length, seq_app. cbn. congruence.
    + rewrite !app_length. cbn. lia.
    + intros r Hr Hl. rewrite lookup_app_l by lia. auto.
    + intros f. rewrite !lsum_app, H6. cbn [lsum]. lra.
    + intros f. rewrite app_assoc, osum_app, lsum_app, <- H7.
      rewrite (osum_agree f (u_coo st)).
      2:{ intros r Hr. apply lookup_app_l. rewrite H4. apply in_app_iff in Hr as [Hr|Hr].
          - assert (r < length coo0)%nat; [|lia]. apply Hlt. rewrite H1. apply in_app_iff. auto.
          - rewrite H3 in Hr. apply in_seq in Hr. lia. }
      unfold osum at 2. cbn [lsum]. unfold at_idx. rewrite lookup_app_r, Nat.sub_diag by lia. cbn [lookup list_lookup]. lra.
    + auto.
Qed.

Lemma put_entries_inv g row e vs : forall coo0 own0 st st' done popped appended,
  List.NoDup own0 -> (forall r, In r own0 -> (r < length coo0)%nat) ->
  pinv coo0 own0 st done popped appended -> put_entries g row e st vs = Ok st' ->
  (forall v, In v vs -> varidx g v <> None) /\
  exists popped' appended', pinv coo0 own0 st' (done ++ map (cell g row e) vs) popped' appended'.
Proof.
  induction vs as [|v vs IH]; intros coo0 own0 st st' done popped appended Hn Hl Hi E; cbn [put_entries] in E.
  - injection E as <-. cbn. rewrite app_nil_r. split; [tauto|eauto].
  - apply rbind_ok in E as (st1 & E1 & E). destruct (put_entry_inv _ _ _ _ _ _ _ _ _ _ _ Hn Hl Hi E1) as (Hv & p1 & a1 & H1).
    destruct (IH _ _ _ _ _ _ _ Hn Hl H1 E) as (Hvs & p2 & a2 & H2). split.
    + intros w [<-|Hw]; auto.
    + exists p2, a2. cbn. rewrite <- app_assoc in H2. auto.
Qed.

Fixpoint cells (g : gpdata R) (row : nat) (h : hmap R) : list triple :=
  match h with
  | [] => []
  | (e, _) :: h' => map (cell g row e) (ord e) ++ cells g (S row) h'
  end.
Fixpoint overwrite {A} (row : nat) (vs : list A) (l : list A) : list A :=
  match vs with [] => l | v :: vs' => overwrite (S row) vs' (<[row := v]> l) end.

Lemma overwrite_length {A} vs : forall row (l : list A), length (overwrite row vs l) = length l.
Proof. induction vs as [|v vs IH]; intros; cbn; auto. rewrite IH, insert_length. auto. Qed.
Lemma overwrite_spec {A} vs : forall row (l : list A), (row + length vs <= length l)%nat ->
  overwrite row vs l = take row l ++ vs ++ drop (row + length vs) l.
Proof.
  induction vs as [|v vs IH]; intros row l Hl; cbn [overwrite length] in *.
  - rewrite Nat.add_0_r. cbn. rewrite take_drop. auto.
  - rewrite IH by (rewrite insert_length; lia). rewrite drop_insert_gt by lia.
    rewrite <- (take_drop row l) at 1. rewrite insert_app_r_alt by (rewrite take_length; lia).
    rewrite take_length, Nat.min_l by lia. rewrite Nat.sub_diag.
    destruct (drop row l) as [|y d] eqn:Ed.
    { assert (length (drop row l) = 0%nat) by (rewrite Ed; auto). rewrite drop_length in *. lia. }
    cbn [insert list_insert].
    replace (take row l ++ v :: d) with ((take row l ++ [v]) ++ d) by (rewrite <- app_assoc; reflexivity).
    rewrite take_app_alt by (rewrite app_length, take_length; cbn; lia).
    rewrite <- app_assoc. cbn [app]. do 4 f_equal. lia.
Qed.

Definition with_terms (g : gpdata R) (row : nat) (h : hmap R) : gpdata R :=
  GP (g_k g) (g_midxs g) (g_pidxs g) (overwrite row (dvals h) (g_cs g)) (overwrite row (dkeys h) (g_exps g))
     (g_varlocs g) (g_all g) (g_first g) (g_m g) (g_coo g).

Lemma cells_ext g g' h : g_varlocs g = g_varlocs g' -> forall row, cells g row h = cells g' row h.
Proof.
  intros Hg. induction h as [|[e c] h IH]; intros row; cbn; auto. rewrite IH. f_equal.
  apply map_ext. intros v. unfold cell, idx, varidx. rewrite Hg. auto.
Qed.

Lemma put_terms_inv h : forall row g st g' st' coo0 own0 done popped appended,
  List.NoDup own0 -> (forall r, In r own0 -> (r < length coo0)%nat) ->
  pinv coo0 own0 st done popped appended -> put_terms ord row h (g, st) = Ok (g', st') ->
  g' = with_terms g row h /\ (h <> [] -> row + length h <= length (g_exps g))%nat /\
  (forall e c, In (e, c) h -> forall v, e !! v <> None -> varidx g v <> None) /\
  exists popped' appended', pinv coo0 own0 st' (done ++ cells g row h) popped' appended'.
Proof.
  induction h as [|[e c] h IH]; intros row g st g' st' coo0 own0 done popped appended Hn Hl Hi E; cbn [put_terms] in E.
  - injection E as <- <-. split; [destruct g; auto|]. split; [tauto|]. split; [cbn; tauto|]. cbn. rewrite app_nil_r. eauto.
  - destruct (Nat.leb_spec (length (g_exps g)) row) as [|Hrow]; [discriminate|].
    apply rbind_ok in E as (st1 & E1 & E).
    destruct (put_entries_inv _ _ _ _ _ _ _ _ _ _ _ Hn Hl Hi E1) as (Hv & p1 & a1 & H1).
    destruct (IH _ _ _ _ _ _ _ _ _ _ Hn Hl H1 E) as (-> & Hlen & Hvs & p2 & a2 & H2). cbn [g_exps] in Hlen.
    rewrite insert_length in Hlen. split; [reflexivity|]. split.
    { intros _. cbn [length]. destruct h; cbn [length] in *; [lia|]. specialize (Hlen ltac:(discriminate)). lia. }
    split.
    { intros e' c' [[= <- <-]|Hin] v Hk.
      - apply Hv. apply Hord. auto.
      - exact (Hvs e' c' Hin v Hk). }
    exists p2, a2. cbn [cells]. rewrite app_assoc.
    erewrite (cells_ext g); [exact H2|reflexivity].
Qed.

Lemma zero_length (coo : list triple) rs : length (zero_entries coo rs) = length coo.
Proof.
  unfold zero_entries. revert coo. induction rs as [|r rs IH]; intros; cbn; auto. rewrite IH, insert_length. auto.
Qed.
Lemma zero_old (coo : list triple) rs r : ~ In r rs -> zero_entries coo rs !! r = coo !! r.
Proof.
  unfold zero_entries. revert coo. induction rs as [|q rs IH]; intros coo Hr; cbn; auto. cbn in Hr.
  rewrite IH by tauto. apply list_lookup_insert_ne. tauto.
Qed.
Lemma zero_sum (f : triple -> R) rs : f (0%nat, 0%nat, 0) = 0 -> forall coo, List.NoDup rs ->
  (forall r, In r rs -> (r < length coo)%nat) ->
  lsum f (zero_entries coo rs) = lsum f coo - osum f coo rs /\ osum f (zero_entries coo rs) rs = 0.
Proof.
  intros Hf. unfold zero_entries. induction rs as [|r rs IH]; intros coo Hn Hl; cbn [fold_left].
  - unfold osum. cbn. split; lra.
  - inversion Hn as [|? ? Hr Hn']; subst. destruct (lookup_lt_is_Some_2 coo r) as [t Ht]; [apply Hl; left; auto|].
    destruct (IH (<[r := (0%nat, 0%nat, n0)]> coo)) as [IH1 IH2]; auto.
    { intros q Hq. rewrite insert_length. apply Hl. right. auto. }
    rewrite IH1. rewrite (lsum_insert f coo r t) by auto. rewrite osum_out by auto.
    unfold osum in *. cbn [lsum]. rewrite IH2. cbn [n0 R_num]. rewrite Hf. unfold at_idx at 2. rewrite Ht.
    split; [lra|]. unfold at_idx. fold (zero_entries (T := R)).
    assert (E : fold_left (fun (c : list triple) q => <[q := (0%nat, 0%nat, n0)]> c) rs (<[r := (0%nat, 0%nat, n0)]> coo) !! r
                = Some (0%nat, 0%nat, 0)).
    { pose proof (zero_old (<[r := (0%nat, 0%nat, n0)]> coo) rs r Hr) as E. unfold zero_entries in E.
      rewrite E. rewrite list_lookup_insert; auto. eapply lookup_lt_Some; eauto. }
    cbn [n0 R_num] in E. rewrite E, Hf. lra.
Qed.

(** What one update does to the sums, all together. *)
Lemma put_all_terms g row h coo0 own0 g' st' :
  List.NoDup own0 -> (forall r, In r own0 -> (r < length coo0)%nat) ->
  put_terms ord row h (g, US coo0 own0 own0) = Ok (g', st') ->
  let coo' := zero_entries (u_coo st') (u_free st') in
  g' = with_terms g row h /\ (h <> [] -> row + length h <= length (g_exps g))%nat /\
  (forall e c, In (e, c) h -> forall v, e !! v <> None -> varidx g v <> None) /\
  (exists appended, u_own st' = own0 ++ appended /\ appended = seq (length coo0) (length appended) /\
     length coo' = (length coo0 + length appended)%nat) /\
  (forall r, ~ In r own0 -> (r < length coo0)%nat -> coo' !! r = coo0 !! r) /\
  (forall f, f (0%nat, 0%nat, 0) = 0 ->
     lsum f coo' = lsum f coo0 - osum f coo0 own0 + lsum f (cells g row h) /\
     osum f coo' (u_own st') = lsum f (cells g row h)).
Proof.
  intros Hn Hl E. destruct (put_terms_inv _ _ _ _ _ _ _ _ _ _ _ Hn Hl (pinv_start coo0 own0) E)
    as (-> & Hlen & Hv & popped & appended & [H1 H2 H3 H4 H5 H6 H7 H8]). cbv zeta. cbn [app] in *.
  split; [auto|]. split; [auto|]. split; [auto|].
  assert (Hfr : forall r, In r (u_free st') -> (r < length (u_coo st'))%nat).
  { intros r Hr. rewrite H4. assert (r < length coo0)%nat; [|lia]. apply Hl. rewrite H1. apply in_app_iff; auto. }
  assert (Hnf : List.NoDup (u_free st')) by (rewrite H1 in Hn; apply NoDup_ListNoDup in Hn; apply NoDup_app in Hn; apply NoDup_ListNoDup; tauto).
  assert (Hdis : forall r, In r (u_free st') -> ~ In r popped).
  { intros r Hr Hp. rewrite H1 in Hn. apply NoDup_ListNoDup, NoDup_app in Hn. destruct Hn as (_ & Hn & _).
    apply (Hn r); apply elem_of_list_In; auto. }
  split; [exists appended; rewrite zero_length; auto|]. split.
  - intros r Hr Hlt. rewrite H1, in_app_iff in Hr. rewrite zero_old by tauto. apply H5; tauto.
  - intros f Hf. destruct (zero_sum f (u_free st') Hf (u_coo st') Hnf Hfr) as [Z1 Z2]. split.
    + rewrite Z1, H6. rewrite H1, osum_app.
      rewrite (osum_agree f coo0 (u_coo st') (u_free st')); [lra|].
      intros r Hr. apply H5; auto. apply Hl. rewrite H1. apply in_app_iff; auto.
    + rewrite H2, H1, <- app_assoc, osum_app, Z2, Rplus_0_l, <- H7. apply osum_agree.
      intros r Hr. apply zero_old. intros Hi. apply in_app_iff in Hr as [Hr|Hr]; [eapply Hdis; eauto|].
      rewrite H3 in Hr. apply in_seq in Hr. assert (r < length coo0)%nat; [|lia]. apply Hl. rewrite H1. apply in_app_iff; auto.
Qed.
End Put.

(** ** The matrix through updates *)
Section Inv.
Variable ord : var_order R.
Hypothesis Hord : forall e, List.NoDup (ord e) /\ forall k, In k (ord e) <-> e !! k <> None.

(** The part of an entry in the product of row [i] with [x]. *)
Definition ent (x : nat -> R) (i : nat) (t : triple) : R :=
  if Nat.eqb (fst (fst t)) i then snd t * x (snd (fst t)) else 0.
Lemma ent_zero x i : ent x i (0%nat, 0%nat, 0) = 0.
Proof. unfold ent. cbn [fst snd]. destruct (Nat.eqb 0 i); lra. Qed.
Definition rowsum (g : gpdata R) (x : nat -> R) (e : expv R) : R := lsum (fun v => eget e v * x (idx g v)) (ord e).

Lemma ent_cells_one g x i row e : lsum (ent x i) (map (cell g row e) (ord e)) = if Nat.eqb row i then rowsum g x e else 0.
Proof.
  rewrite lsum_map. unfold cell, ent. cbn [fst snd]. destruct (Nat.eqb row i); [reflexivity|apply lsum_zero].
Qed.
Lemma cells_out g x i h : forall row, ~ (row <= i < row + length h)%nat -> lsum (ent x i) (cells ord g row h) = 0.
Proof.
  induction h as [|[e c] h IH]; intros row Hi; cbn [cells lsum length] in *; auto.
  rewrite lsum_app, ent_cells_one, IH by lia. destruct (Nat.eqb_spec row i); [lia|lra].
Qed.
Lemma cells_in g x h : forall row n e c, h !! n = Some (e, c) -> lsum (ent x (row + n)%nat) (cells ord g row h) = rowsum g x e.
Proof.
  unfold hmap. induction h as [|[e' c'] h IH]; intros row n e c Hn; [discriminate|]. cbn [cells].
  rewrite lsum_app, ent_cells_one. destruct n as [|n].
  - cbn in Hn. injection Hn as <- <-. rewrite Nat.add_0_r, Nat.eqb_refl, cells_out by lia. lra.
  - cbn in Hn. destruct (Nat.eqb_spec row (row + S n)); [lia|]. rewrite <- (IH (S row) n e c Hn).
    rewrite Rplus_0_l. f_equal. f_equal. lia.
Qed.

Record minv (n : nat) (hs : list (bool * hmap R)) (g : gpdata R) (ai : list (nat * list nat)) : Prop := {
  mi_k : g_k g = map (fun bh => length (snd bh)) hs;
  mi_midxs : g_midxs g = midx_spec hs;
  mi_pidxs : g_pidxs g = pidx_spec hs;
  mi_cs : g_cs g = map snd (terms hs);
  mi_exps : g_exps g = map fst (terms hs);
  mi_vnd : NoDup (dkeys (g_varlocs g));
  mi_var : forall e c v, In (e, c) (terms hs) -> e !! v <> None -> varidx g v <> None;
  mi_row : forall x i e, g_exps g !! i = Some e -> lsum (ent x i) (g_coo g) = rowsum g x e;
  mi_nd : forall p, (1 <= p <= n)%nat ->
    List.NoDup (own ai p) /\ forall r, In r (own ai p) -> (r < length (g_coo g))%nat;
  mi_dis : forall p q r, (1 <= p <= n)%nat -> (1 <= q <= n)%nat -> p <> q -> In r (own ai p) -> ~ In r (own ai q);
  mi_own : forall p s t x i, (1 <= p <= n)%nat -> midx_spec hs !! p = Some (s, t) ->
    osum (ent x i) (g_coo g) (own ai p) = if ((s <=? i) && (i <? t))%nat then lsum (ent x i) (g_coo g) else 0 }.

Lemma lengths_terms (hs hs' : list (bool * hmap R)) :
  map (fun bh => length (snd bh)) hs = map (fun bh => length (snd bh)) hs' -> length (terms hs) = length (terms hs').
Proof.
  revert hs'; induction hs as [|h hs IH]; intros [|h' hs'] E; try discriminate; auto.
  injection E as E1 E2. change (length (snd h ++ terms hs) = length (snd h' ++ terms hs')). rewrite !app_length.
  f_equal; [exact E1|apply IH; exact E2].
Qed.
Lemma midx_lengths (hs hs' : list (bool * hmap R)) :
  map (fun bh => length (snd bh)) hs = map (fun bh => length (snd bh)) hs' -> midx_spec hs = midx_spec hs'.
Proof.
  intros E. unfold midx_spec.
  assert (El : length hs = length hs') by (pose proof (f_equal length E) as El; rewrite !map_length in El; exact El).
  unfold hmap in *. rewrite El. apply map_ext. intros p. f_equal; apply lengths_terms.
  - rewrite <- !firstn_map, E. auto.
  - rewrite <- !firstn_map, E. auto.
Qed.
Lemma pidx_lengths (hs hs' : list (bool * hmap R)) :
  map (fun bh => length (snd bh)) hs = map (fun bh => length (snd bh)) hs' -> pidx_spec hs = pidx_spec hs'.
Proof.
  intros E. apply list_eq. intros i. pose proof (midx_lengths _ _ E) as Em.
  destruct (pidx_spec hs !! i) as [p|] eqn:E1, (pidx_spec hs' !! i) as [q|] eqn:E2; auto.
  - apply pidx_spec_ok in E1 as (s & t & H1 & H2). rewrite <- E2. symmetry. apply pidx_spec_ok. rewrite <- Em. eauto.
  - apply pidx_spec_ok in E1 as (s & t & H1 & H2). rewrite Em in H1.
    rewrite <- E2. symmetry. apply pidx_spec_ok. eauto.
  - apply pidx_spec_ok in E2 as (s & t & H1 & H2). rewrite <- Em in H1.
    rewrite <- E1. apply pidx_spec_ok. eauto.
Qed.

Lemma lengths_insert (hs : list (bool * hmap R)) p b0 h0 b h : hs !! p = Some (b0, h0) -> length h = length h0 ->
  map (fun bh => length (snd bh)) (<[p := (b, h)]> hs) = map (fun bh => length (snd bh)) hs.
Proof.
  intros Hp Hl. unfold hmap in *. apply list_eq. intros i.
  rewrite !list_lookup_fmap. destruct (decide (i = p)) as [->|Hne].
  - rewrite list_lookup_insert by (eapply lookup_lt_Some; eauto). rewrite Hp. cbn. congruence.
  - rewrite list_lookup_insert_ne by auto. auto.
Qed.
Lemma terms_insert (hs : list (bool * hmap R)) p b0 h0 b h : hs !! p = Some (b0, h0) ->
  terms (<[p := (b, h)]> hs) = terms (take p hs) ++ h ++ terms (drop (S p) hs).
Proof.
  intros Hp. rewrite (terms_slice _ p b h).
  - rewrite take_insert by lia. rewrite drop_insert_gt by lia. auto.
  - apply list_lookup_insert. eapply lookup_lt_Some; eauto.
Qed.

Lemma own_dset ai p q l : own (dset ai p l) q = if decide (q = p) then l else own ai q.
Proof. unfold own, locs_of. rewrite dget_dset. destruct (decide (q = p)); auto. Qed.

Lemma overwrite_mid {A} (a b c d : list A) : length b = length d -> overwrite (length a) d (a ++ b ++ c) = a ++ d ++ c.
Proof.
  intros Hl. rewrite overwrite_spec by (rewrite !app_length; lia).
  rewrite take_app. f_equal. f_equal. rewrite app_assoc. apply drop_app_alt. rewrite app_length. lia.
Qed.

Lemma minv_step n hs g ai p b0 h0 b h m t g' st' : minv n hs g ai -> (1 <= p <= n)%nat ->
  hs !! p = Some (b0, h0) -> length h = length h0 -> g_midxs g !! p = Some (m, t) ->
  put_terms ord m h (g, US (g_coo g) (own ai p) (own ai p)) = Ok (g', st') ->
  minv n (<[p := (b, h)]> hs)
    (GP (g_k g') (g_midxs g') (g_pidxs g') (g_cs g') (g_exps g') (g_varlocs g') (g_all g') (g_first g') (g_m g')
        (zero_entries (u_coo st') (u_free st')))
    (dset ai p (u_own st')).
Proof.
  intros [Ik Im Ip Ic Ie Ivn Iv Ir Ind Idis Iown] Hpn Hp Hlen Hm E.
  destruct (Ind p Hpn) as [Hnd Hlt].
  destruct (put_all_terms ord Hord _ _ _ _ _ _ _ Hnd Hlt E) as (-> & _ & Hvars & (app & Happ & Hseq & Hcl) & Hold & Hsum).
  set (coo' := zero_entries (u_coo st') (u_free st')) in *.
  rewrite Im in Hm. destruct (midx_lookup _ _ _ _ Hm) as (Hpl & -> & ->).
  set (m := length (terms (take p hs))) in *.
  assert (El : map (fun bh => length (snd bh)) (<[p := (b, h)]> hs) = map (fun bh => length (snd bh)) hs)
    by (eapply lengths_insert; eauto).
  assert (Et : length (terms (take (S p) hs)) = (m + length h)%nat).
  { transitivity (length (terms (take p hs ++ [(b0, h0)]))).
    - do 2 f_equal. apply take_S_r. exact Hp.
    - pose proof (f_equal length (terms_snoc (take p hs) (b0, h0))) as E1. rewrite app_length in E1.
      etransitivity; [exact E1|]. unfold m. f_equal. symmetry. exact Hlen. }
  pose proof (terms_slice hs p b0 h0 Hp) as Eold. pose proof (terms_insert hs p b0 h0 b h Hp) as Enew.
  assert (Hf : forall x i, lsum (ent x i) coo' = if ((m <=? i) && (i <? m + length h))%nat
            then lsum (ent x i) (cells ord g m h) else lsum (ent x i) (g_coo g)).
  { intros x i. destruct (Hsum (ent x i) (ent_zero x i)) as [H1 _]. rewrite H1.
    rewrite (Iown p _ _ x i Hpn Hm), Et.
    destruct (Nat.leb_spec m i), (Nat.ltb_spec i (m + length h)); cbn [andb]; try lra; rewrite cells_out by lia; lra. }
  split; cbn [g_k g_midxs g_pidxs g_cs g_exps g_varlocs g_coo with_terms].
  - rewrite El. auto.
  - rewrite Im. symmetry. apply midx_lengths. auto.
  - rewrite Ip. symmetry. apply pidx_lengths. auto.
  - rewrite Ic, Enew, Eold, !map_app. unfold m. rewrite <- (map_length snd (terms (take p hs))).
    apply (overwrite_mid (map snd (terms (take p hs))) (map snd h0) (map snd (terms (drop (S p) hs))) (dvals h)).
    unfold dvals. rewrite !map_length. auto.
  - rewrite Ie, Enew, Eold, !map_app. unfold m. rewrite <- (map_length fst (terms (take p hs))).
    apply (overwrite_mid (map fst (terms (take p hs))) (map fst h0) (map fst (terms (drop (S p) hs))) (dkeys h)).
    unfold dkeys. rewrite !map_length. auto.
  - auto.
  - intros e c v Hin Hv. unfold varidx. cbn [g_varlocs]. fold (varidx g v). rewrite Enew in Hin. rewrite !in_app_iff in Hin.
    destruct Hin as [Hin|[Hin|Hin]].
    + apply (Iv e c v); auto. rewrite Eold, !in_app_iff. auto.
    + apply (Hvars e c); auto.
    + apply (Iv e c v); auto. rewrite Eold, !in_app_iff. auto.
  - intros x i e He. rewrite Hf.
    match goal with |- _ = ?r => change r with (rowsum g x e) end.
    assert (Ee : overwrite m (dkeys h) (g_exps g) = map fst (terms (take p hs)) ++ map fst h ++ map fst (terms (drop (S p) hs))).
    { rewrite Ie, Eold, !map_app. unfold m. rewrite <- (map_length fst (terms (take p hs))).
      apply (overwrite_mid (map fst (terms (take p hs))) (map fst h0) (map fst (terms (drop (S p) hs))) (dkeys h)).
      unfold dkeys. rewrite !map_length. auto. }
    rewrite Ee in He.
    destruct (Nat.leb_spec m i) as [Hmi|Hmi]; cbn [andb].
    + destruct (Nat.ltb_spec i (m + length h)) as [Hih|Hih].
      * rewrite lookup_app_r in He by (rewrite map_length; auto). rewrite map_length in He. fold m in He.
        rewrite lookup_app_l in He by (rewrite map_length; lia). rewrite list_lookup_fmap in He.
        unfold hmap in *. destruct (h !! (i - m)%nat) as [[e' c']|] eqn:En; [|discriminate]. cbn in He. injection He as ->.
        rewrite <- (cells_in g x h m (i - m) e c' En). f_equal. f_equal. lia.
      * apply Ir. rewrite Ie, Eold, !map_app.
        rewrite lookup_app_r in He by (rewrite map_length; lia). rewrite lookup_app_r in He by (rewrite !map_length; fold m; lia).
        rewrite lookup_app_r by (rewrite map_length; lia). rewrite lookup_app_r by (rewrite !map_length; fold m; lia).
        rewrite !map_length in He. rewrite !map_length. fold m in He |- *. rewrite <- Hlen. exact He.
    + apply Ir. rewrite Ie, Eold, !map_app. rewrite lookup_app_l in He by (rewrite map_length; auto).
      rewrite lookup_app_l by (rewrite map_length; auto). auto.
  - intros q Hq. rewrite own_dset, Hcl. destruct (decide (q = p)) as [->|Hne].
    + rewrite Happ. split.
      * apply NoDup_ListNoDup, NoDup_app. split; [apply NoDup_ListNoDup; auto|]. split.
        -- intros r Hr Hr'. apply elem_of_list_In in Hr, Hr'. apply Hlt in Hr. rewrite Hseq in Hr'. apply in_seq in Hr'. lia.
        -- rewrite Hseq. apply NoDup_ListNoDup, seq_NoDup.
      * intros r Hr. apply in_app_iff in Hr as [Hr|Hr]; [apply Hlt in Hr; lia|]. rewrite Hseq in Hr. apply in_seq in Hr. lia.
    + destruct (Ind q Hq) as [H1 H2]. split; auto. intros r Hr. apply H2 in Hr. lia.
  - intros q q' r Hq Hq' Hne. rewrite !own_dset.
    assert (Hap : forall q, (1 <= q <= n)%nat -> In r (own ai q) -> ~ In r app).
    { intros q0 Hq0 Hr Hr'. apply (Ind q0 Hq0) in Hr. rewrite Hseq in Hr'. apply in_seq in Hr'. lia. }
    destruct (decide (q = p)) as [->|Hqp], (decide (q' = p)) as [->|Hqp']; try congruence.
    + rewrite Happ, in_app_iff. intros [Hr|Hr]; [apply (Idis p q'); auto; congruence|]. intros Hr'. exact (Hap q' Hq' Hr' Hr).
    + rewrite Happ, in_app_iff. intros Hr [Hr'|Hr']; [eapply (Idis q p); eauto|]. exact (Hap q Hq Hr Hr').
    + apply Idis; auto.
  - intros q s t x i Hq Hs.
    assert (Em' : midx_spec (<[p := (b, h)]> hs) = midx_spec hs) by (apply midx_lengths; auto). rewrite Em' in Hs.
    rewrite own_dset. destruct (decide (q = p)) as [->|Hne].
    + rewrite Hs in Hm. injection Hm as -> ->. destruct (Hsum (ent x i) (ent_zero x i)) as [H1 H2]. rewrite H2.
      rewrite Et, Hf. destruct (Nat.leb_spec m i), (Nat.ltb_spec i (m + length h)); cbn [andb]; auto; apply cells_out; lia.
    + rewrite (osum_agree _ (g_coo g)).
      2:{ intros r Hr. apply Hold; [apply (Idis q p); auto|]. apply (Ind q Hq). auto. }
      rewrite (Iown q s t x i Hq Hs). rewrite Hf.
      destruct ((s <=? i) && (i <? t))%nat eqn:Eb; auto.
      destruct ((m <=? i) && (i <? m + length h))%nat eqn:Eb'; auto. exfalso. apply Hne.
      apply andb_true_iff in Eb as [B1 B2]. apply andb_true_iff in Eb' as [B3 B4].
      apply Nat.leb_le in B1, B3. apply Nat.ltb_lt in B2, B4.
      assert (P1 : pidx_spec hs !! i = Some q) by (apply pidx_spec_ok; eauto).
      assert (P2 : pidx_spec hs !! i = Some p) by (apply pidx_spec_ok; exists m, (length (terms (take (S p) hs))); split; auto; lia).
      congruence.
Qed.

(** ** The start *)

Lemma own_fold g a z l : forall ai p,
  own (fold_left (own_step (T := R) g a z) l ai) p = own ai p ++
    map fst (List.filter (fun re : nat * triple => let i := fst (fst (snd re)) in
      ((a <=? i) && (i <=? z) && (nth i (g_pidxs g) 0 =? p))%nat) l).
Proof.
  induction l as [|[r [[i j] d]] l IH]; intros ai p; cbn [fold_left List.filter map].
  - rewrite app_nil_r. auto.
  - rewrite IH. cbn [own_step fst snd]. destruct ((a <=? i) && (i <=? z))%nat; cbn [andb]; auto.
    unfold own_add. rewrite own_dset. destruct (Nat.eqb_spec (nth i (g_pidxs g) 0%nat) p) as [<-|Hne].
    + destruct (decide _); [|congruence]. cbn [map fst]. rewrite <- app_assoc. auto.
    + destruct (decide (p = _)); [congruence|]. auto.
Qed.

Lemma map_fst_enumerate {A} (l : list A) : map fst (enumerate l) = seq 0 (length l).
Proof.
  unfold enumerate. generalize 0%nat as s. induction l as [|a l IH]; intros s; cbn; auto. f_equal; auto.
Qed.
Lemma nodup_filter_map {A B} (f : A -> B) (c : A -> bool) l : List.NoDup (map f l) -> List.NoDup (map f (List.filter c l)).
Proof.
  induction l as [|a l IH]; cbn; auto. intros Hn. inversion Hn as [|? ? H1 H2]; subst.
  destruct (c a); cbn; auto. constructor; auto. intros Hi. apply H1. apply in_map_iff in Hi as (b & <- & Hb).
  apply filter_In in Hb as [Hb _]. apply in_map; auto.
Qed.
Lemma lsum_enumerate (f : triple -> R) l : lsum (fun re => f (snd re)) (enumerate l) = lsum f l.
Proof. rewrite <- (lsum_map f snd), map_snd_enumerate. auto. Qed.

Lemma list_sum_terms (hs : list (bool * hmap R)) q :
  list_sum (take q (map (fun bh => length (snd bh)) hs)) = length (terms (take q hs)).
Proof.
  revert q; induction hs as [|h hs IH]; intros [|q]; auto. cbn [map take list_sum fold_right].
  change (terms (h :: take q hs)) with (snd h ++ terms (take q hs)). rewrite app_length. f_equal. apply IH.
Qed.
Lemma terms_take_mono (hs : list (bool * hmap R)) a b : (a <= b)%nat -> (length (terms (take a hs)) <= length (terms (take b hs)))%nat.
Proof.
  intros Hab. replace a with (a `min` b)%nat by lia. rewrite <- take_take. apply terms_take_le.
Qed.

Lemma minv_init n hs : minv n hs (gen ord hs) (own_init (gen ord hs) n).
Proof.
  pose proof (gen_loop_inv ord Hord hs (map (fun mh => length (snd mh)) hs)) as HI.
  assert (Hshape : g_k (gen ord hs) = map (fun bh => length (snd bh)) hs /\ g_midxs (gen ord hs) = midx_spec hs /\
    g_pidxs (gen ord hs) = pidx_spec hs /\ g_cs (gen ord hs) = map snd (terms hs) /\
    g_exps (gen ord hs) = map fst (terms hs) /\ g_varlocs (gen ord hs) = g_varlocs (gen_loop ord hs (map (fun mh => length (snd mh)) hs))).
  { rewrite gen_eq. cbn. rewrite gen_loop_k. destruct HI as [H1 H2 H3 H4 H5]. auto 8. }
  destruct Hshape as (Ek & Em & Ep & Ec & Ee & Ev). destruct (gi_v _ _ HI) as [_ Hnd Hk _ _]. rewrite <- Ev in *.
  assert (Hvar : forall e c v, In (e, c) (terms hs) -> e !! v <> None -> varidx (gen ord hs) v <> None).
  { intros e c v Hin Hv. unfold varidx. destruct (position_spec (dkeys (g_varlocs (gen ord hs))) v) as (j & -> & _); [|discriminate].
    apply Hk. apply elem_of_list_In, elem_of_list_lookup_1 in Hin as [i Hi]. exists i. unfold has. rewrite list_lookup_fmap, Hi. cbn.
    destruct (e !! v); congruence. }
  assert (Hown : forall p, own (own_init (gen ord hs) n) p = map fst (List.filter (fun re : nat * triple => let i := fst (fst (snd re)) in
      ((nth 0 (g_k (gen ord hs)) 0 <=? i) && (i <=? list_sum (take (S n) (g_k (gen ord hs)))) && (nth i (pidx_spec hs) 0 =? p))%nat)
      (enumerate (g_coo (gen ord hs))))).
  { intros p. unfold own_init. rewrite own_fold, Ep. reflexivity. }
  assert (Hrows : forall i j d, In (i, j, d) (g_coo (gen ord hs)) -> (i < length (terms hs))%nat).
  { intros i j d Hin. destruct (proj1 (coo_places ord Hord hs i j)) as [[_ Hi]|(v & _ & Hi)]; [eauto| |].
    - apply lookup_lt_Some in Hi. rewrite map_length in Hi. auto.
    - apply has_lt in Hi. rewrite map_length in Hi. auto. }
  assert (Hslice : forall p s t i, (1 <= p <= n)%nat -> midx_spec hs !! p = Some (s, t) -> (s <= i < t)%nat ->
    (nth 0 (g_k (gen ord hs)) 0 <=? i)%nat = true /\ (i <=? list_sum (take (S n) (g_k (gen ord hs))))%nat = true).
  { intros p s t i Hp Hs Hi. destruct (midx_lookup _ _ _ _ Hs) as (Hl & -> & ->). split; apply Nat.leb_le.
    - rewrite Ek. pose proof (terms_take_mono hs 1 p ltac:(lia)) as H1. destruct hs as [|h0 hs']; [cbn in Hl; lia|].
      cbn [nth map]. cbn [take terms flat_map] in H1. rewrite app_nil_r in H1. lia.
    - rewrite Ek, list_sum_terms. pose proof (terms_take_mono hs (S p) (S n) ltac:(lia)). lia. }
  split; auto.
  - intros x i e He. set (env := fun v => exp (x (idx (gen ord hs) v))).
    assert (Hx : forall v j, varidx (gen ord hs) v = Some j -> env v = exp (x j)).
    { intros v j Hj. unfold env, idx. rewrite Hj. auto. }
    pose proof (gen_row ord Hord hs i e x env He Hx) as E. rewrite mono_val_exp in E. apply exp_inv in E.
    rewrite coo_dot_lsum in E. unfold ent. rewrite E. destruct (Hord e) as [Hon Hoi].
    rewrite (dot_ks env e (ord e)); auto.
    + apply lsum_ext. intros v _. unfold env. rewrite ln_exp. auto.
    + intros k y Hy. apply Hoi. congruence.
  - intros p Hp. rewrite Hown. split.
    + apply nodup_filter_map. rewrite map_fst_enumerate. apply seq_NoDup.
    + intros r Hr. apply in_map_iff in Hr as ([r' t] & <- & Hr). apply filter_In in Hr as [Hr _].
      apply in_enumerate in Hr. apply lookup_lt_Some in Hr. auto.
  - intros p q r Hp Hq Hne. rewrite !Hown. intros H1 H2.
    apply in_map_iff in H1 as ([r1 t1] & <- & H1). apply in_map_iff in H2 as ([r2 t2] & E & H2). cbn in E. subst r2.
    apply filter_In in H1 as [H1 C1]. apply filter_In in H2 as [H2 C2]. apply in_enumerate in H1, H2.
    assert (t1 = t2) by congruence. subst t2. cbn [fst snd] in *.
    apply andb_true_iff in C1 as [_ C1]. apply andb_true_iff in C2 as [_ C2]. apply Nat.eqb_eq in C1, C2. congruence.
  - intros p s t x i Hp Hs. rewrite Hown. unfold osum. rewrite lsum_map.
    rewrite (lsum_ext _ (fun re : nat * triple => ent x i (snd re))).
    2:{ intros [r tt] Hr. apply filter_In in Hr as [Hr _]. apply in_enumerate in Hr. unfold at_idx. cbn [fst snd]. rewrite Hr. auto. }
    rewrite <- lsum_enumerate.
    match goal with |- context [List.filter ?cc _] => set (c := cc) end.
    assert (Ef : forall l, lsum (fun re : nat * triple => ent x i (snd re)) (List.filter c l)
               = lsum (fun re => if c re then ent x i (snd re) else 0) l).
    { induction l as [|a l IH]; cbn; auto. destruct (c a); cbn; rewrite IH; lra. }
    rewrite Ef. clear Ef. destruct ((s <=? i) && (i <? t))%nat eqn:Eb.
    + apply andb_true_iff in Eb as [B1 B2]. apply Nat.leb_le in B1. apply Nat.ltb_lt in B2.
      apply lsum_ext. intros [r [[i' j] d]] _. destruct (c _) eqn:Ecc; auto. unfold ent. cbn [fst snd].
      destruct (Nat.eqb_spec i' i) as [->|]; auto. exfalso. unfold c in Ecc. cbn [fst snd] in Ecc.
      destruct (Hslice p s t i Hp Hs) as [C1 C2]; [lia|]. rewrite C1, C2 in Ecc. cbn in Ecc.
      assert (P : pidx_spec hs !! i = Some p) by (apply pidx_spec_ok; eauto).
      rewrite (nth_lookup_Some _ _ 0%nat _ P), Nat.eqb_refl in Ecc. discriminate.
    + rewrite <- (lsum_zero (enumerate (g_coo (gen ord hs)))) at 1. apply lsum_ext. intros [r [[i' j] d]] Hr.
      destruct (c _) eqn:Ecc; auto. unfold ent. cbn [fst snd]. destruct (Nat.eqb_spec i' i) as [->|]; auto. exfalso.
      unfold c in Ecc. cbn [fst snd] in Ecc. apply andb_true_iff in Ecc as [_ Ecc]. apply Nat.eqb_eq in Ecc.
      apply in_enumerate, elem_of_list_lookup_2, elem_of_list_In in Hr. apply Hrows in Hr.
      destruct (lookup_lt_is_Some_2 (pidx_spec hs) i) as [q Hq]; [rewrite pidx_length; auto|].
      rewrite (nth_lookup_Some _ _ 0%nat _ Hq) in Ecc. subst q. apply pidx_spec_ok in Hq as (s' & t' & Hs' & Hi).
      rewrite Hs in Hs'. injection Hs' as <- <-.
      destruct (Nat.leb_spec s i), (Nat.ltb_spec i t); cbn in Eb; try discriminate; lia.
Qed.
End Inv.
