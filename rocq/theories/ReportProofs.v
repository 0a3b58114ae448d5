(** Proofs about the reports of a solution. *)
From Verif Require Import Base Report ReportSpec.
From Coq Require Import Sorting.Sorted Permutation.
Open Scope R_scope.

Lemma Rleb_true a b : Rleb a b = true <-> a <= b.
Proof. unfold Rleb. destruct (Rle_dec a b); split; auto; discriminate. Qed.
Lemma Rltb_true a b : Rltb a b = true <-> a < b.
Proof. unfold Rltb. destruct (Rlt_dec a b); split; auto; discriminate. Qed.
Lemma nabs_R (x : R) : nabs x = Rabs x.
Proof.
  unfold nabs. simpl. destruct (Rltb x 0) eqn:E.
  - apply Rltb_true in E. rewrite Rabs_left; auto.
  - rewrite Rabs_right; auto. assert (~ x < 0) by (intros Hx; apply Rltb_true in Hx; congruence). lra.
Qed.
Lemma minsens_R : (minsens : R) = 1 / 1000.
Proof. unfold minsens, ndiv. simpl. lra. Qed.
Lemma small_iff (x : R) : nleb (nabs x) (minsens : R) = true <-> small x.
Proof. change (nleb (nabs x) (minsens : R)) with (Rleb (nabs x) minsens). rewrite Rleb_true, nabs_R, minsens_R. reflexivity. Qed.
Lemma mags_In (v : value R) m : In m (mags v) <-> exists x, number_of v x /\ m = Rabs x.
Proof.
  unfold mags, number_of. rewrite in_flat_map. split.
  - intros ([x|] & Hi & Hm); [|destruct Hm]. simpl in Hm. destruct Hm as [<-|[]]. exists x. split; auto. apply nabs_R.
  - intros (x & Hi & ->). exists (Some x). split; auto. left. apply nabs_R.
Qed.
Lemma hidden_iff (v : value R) : forallb (fun m => nleb m (minsens : R)) (mags v) = true <-> forall x, number_of v x -> small x.
Proof.
  rewrite forallb_forall. split.
  - intros Hf x Hx. apply small_iff. rewrite nabs_R. apply Hf. apply mags_In. eauto.
  - intros Hf m Hm. apply mags_In in Hm as (x & Hx & ->). rewrite <- nabs_R. apply small_iff. auto.
Qed.

(** ** Printing *)
Lemma element_kept_refl c : element_kept c c.
Proof. left. auto. Qed.
Lemma element_kept_trans a b c : element_kept a b -> element_kept b c -> element_kept a c.
Proof. intros [->|(-> & Hs)] [->|(-> & x & He & Hx)]; try discriminate He; [left|right|right]; eauto. Qed.
Lemma value_kept_refl v : value_kept v v.
Proof. destruct v; simpl; auto. induction cs; constructor; auto using element_kept_refl. Qed.
Lemma value_kept_trans a b c : value_kept a b -> value_kept b c -> value_kept a c.
Proof.
  destruct a as [ca|la], b as [cb|lb], c as [cc|lc]; simpl; try tauto; [intros -> ->; auto|].
  intros H1. revert lc. induction H1; intros lc H2; inversion H2; subst; constructor; eauto using element_kept_trans.
Qed.
Lemma visit_kept hb (v : value R) : value_kept v (fst (visit minsens hb v)).
Proof.
  unfold visit. destruct (forallb _ _); [apply value_kept_refl|]. destruct v as [c|cs]; [apply value_kept_refl|].
  destruct (_ && _); [|apply value_kept_refl]. cbn [fst value_kept]. unfold hide. induction cs as [|c cs IH]; cbn [map]; constructor; auto.
  destruct c as [x|]; [|left; auto]. destruct (nleb (nabs x) minsens) eqn:E; [|left; auto].
  right. split; auto. exists x. split; auto. apply small_iff. apply E.
Qed.
Lemma visit_same hb (v : value R) :
  (forall cs x y, v = Many cs -> In (Some x) cs -> In (Some y) cs -> small x -> small y) -> fst (visit minsens hb v) = v.
Proof.
  intros Hm. unfold visit. destruct (forallb _ _) eqn:E; auto. destruct v as [c|cs]; auto. destruct (_ && _); auto. cbn [fst]. f_equal.
  assert (Hn : forall x, In (Some x) cs -> ~ small x).
  { intros x Hx Hs. assert (forallb (fun m => nleb m minsens) (mags (Many cs)) = true); [|congruence].
    apply hidden_iff. intros y Hy. apply (Hm cs x y eq_refl Hx Hy Hs). }
  clear E Hm. unfold hide. induction cs as [|c cs IH]; cbn [map]; auto. rewrite IH by (intros; apply Hn; right; auto). f_equal.
  destruct c as [x|]; auto. destruct (nleb (nabs x) minsens) eqn:E; auto. exfalso. apply (Hn x); [left; auto|]. apply small_iff. exact E.
Qed.

Lemma dget_map_snd {V} (f : V -> V) (d : list (nat * V)) k : dget (map (fun kv => (fst kv, f (snd kv))) d) k = option_map f (dget d k).
Proof. induction d as [|[k' v] d IH]; simpl; auto. case_decide; auto. Qed.
Lemma picked_In {V} (d : list (nat * V)) ks k v : In (k, v) (flat_map (fun k => match dget d k with Some v => [(k, v)] | None => [] end) ks) <->
  In k ks /\ dget d k = Some v.
Proof.
  rewrite in_flat_map. split.
  - intros (k' & Hk & Hi). destruct (dget d k') eqn:E; [|destruct Hi]. destruct Hi as [Hi|[]]. injection Hi as -> ->. auto.
  - intros (Hk & He). exists k. split; auto. rewrite He. left. auto.
Qed.

Section Printing.
Variables (lineage : nat -> nat) (included excluded : list nat) (arrange : table R -> table R).

(** After any table, an entry is what it was, or what one turn of the loop makes of it. *)
Lemma print_one_entries showvars a (sens : table R) : NoDup (dkeys sens) ->
  exists f, fst (print_one lineage included excluded arrange showvars a sens) = map (fun kv => (fst kv, f (snd kv) (fst kv))) sens /\
  forall k v, In (k, v) sens -> f v k = v \/ exists hb, f v k = fst (visit minsens hb v).
Proof.
  intros Hn. destruct a as [|n|m]; cbn [print_one fst].
  - exists (fun v _ => v). split; auto. rewrite <- (map_id sens) at 1. apply map_ext. intros []; auto.
  - unfold topsenss_table. destruct (topsenss_filter sens showvars n) as [data sh] eqn:E. unfold var_table. cbn [fst snd].
    exists (fun v k => match dget data k with Some w => fst (visit minsens true w) | None => v end). split.
    + apply map_ext. intros [k v]. cbn [fst snd]. rewrite (dget_map_snd (fun v => fst (visit minsens true v)) data k). destruct (dget data k); reflexivity.
    + intros k v Hi. destruct (dget data k) as [w|] eqn:Ed; auto. right. exists true. f_equal.
      assert (dget sens k = Some w).
      { apply dget_In in Ed. unfold topsenss_filter in E. injection E as <- <-. apply picked_In in Ed as [_ Ed]. auto. }
      apply (In_dget sens k v Hn) in Hi. congruence.
  - exists (fun v _ => v). split; auto. rewrite <- (map_id sens) at 1. apply map_ext. intros []; auto.
Qed.
Definition entry_kept (kv kv' : nat * value R) : Prop := fst kv' = fst kv /\ value_kept (snd kv) (snd kv').
Lemma entries_keys (l l' : table R) : Forall2 entry_kept l l' -> dkeys l' = dkeys l.
Proof. unfold dkeys. induction 1 as [|? ? ? ? [H _]]; simpl; congruence. Qed.
Lemma entries_refl (l : table R) : Forall2 entry_kept l l.
Proof. induction l; constructor; auto. split; auto using value_kept_refl. Qed.
Lemma entries_trans (a b c : table R) : Forall2 entry_kept a b -> Forall2 entry_kept b c -> Forall2 entry_kept a c.
Proof.
  intros H1. revert c. induction H1 as [|x y l l' [E1 E2]]; intros c H2; inversion H2 as [|? z ? ? [E3 E4]]; subst; constructor; auto.
  split; [congruence|]. eapply value_kept_trans; eauto.
Qed.
Lemma print_one_kept showvars a (sens : table R) : NoDup (dkeys sens) ->
  Forall2 entry_kept sens (fst (print_one lineage included excluded arrange showvars a sens)).
Proof.
  intros Hn. destruct (print_one_entries showvars a sens Hn) as (f & -> & Hf). clear Hn. induction sens as [|[k v] sens IH]; simpl; constructor.
  - split; auto. simpl. destruct (Hf k v) as [->|[hb ->]]; [left; auto|apply value_kept_refl|apply visit_kept].
  - apply IH. intros; apply Hf; right; auto.
Qed.
Lemma print_one_same showvars a (sens : table R) : NoDup (dkeys sens) -> unmixed sens ->
  fst (print_one lineage included excluded arrange showvars a sens) = sens.
Proof.
  intros Hn Hu. destruct (print_one_entries showvars a sens Hn) as (f & -> & Hf). rewrite <- (map_id sens) at 2. apply map_ext_in.
  intros [k v] Hi. simpl. f_equal. destruct (Hf k v Hi) as [->|[hb ->]]; auto. apply visit_same. intros cs x y -> Hx Hy. eapply Hu; eauto.
Qed.
Lemma print_kept showvars ts (sens : table R) : NoDup (dkeys sens) ->
  Forall2 entry_kept sens (fst (print lineage included excluded arrange showvars ts sens)).
Proof.
  revert sens. induction ts as [|a ts IH]; intros sens Hn; simpl; [apply entries_refl|].
  pose proof (print_one_kept showvars a sens Hn) as H1. destruct (print_one _ _ _ _ showvars a sens) as [s1 r]. simpl in H1.
  specialize (IH s1). destruct (print _ _ _ _ showvars ts s1) as [s2 o]. simpl in *. eapply entries_trans; eauto. apply IH.
  rewrite (entries_keys _ _ H1). auto.
Qed.
Lemma print_same showvars ts (sens : table R) : NoDup (dkeys sens) -> unmixed sens ->
  fst (print lineage included excluded arrange showvars ts sens) = sens.
Proof.
  intros Hn Hu. induction ts as [|a ts IH]; simpl; auto.
  pose proof (print_one_same showvars a sens Hn Hu) as H1. destruct (print_one _ _ _ _ showvars a sens) as [s1 r]. simpl in H1. subst s1.
  destruct (print _ _ _ _ showvars ts sens). auto.
Qed.
Lemma prints_kept calls (sens : table R) : NoDup (dkeys sens) ->
  Forall2 entry_kept sens (fst (prints lineage included excluded arrange calls sens)).
Proof.
  revert sens. induction calls as [|[sv ts] calls IH]; intros sens Hn; simpl; [apply entries_refl|].
  pose proof (print_kept sv ts sens Hn) as H1. destruct (print _ _ _ _ sv ts sens) as [s1 r]. simpl in H1.
  specialize (IH s1). destruct (prints _ _ _ _ calls s1) as [s2 o]. simpl in *. eapply entries_trans; eauto. apply IH.
  rewrite (entries_keys _ _ H1). auto.
Qed.
Lemma prints_same calls (sens : table R) : NoDup (dkeys sens) -> unmixed sens ->
  fst (prints lineage included excluded arrange calls sens) = sens.
Proof.
  intros Hn Hu. induction calls as [|[sv ts] calls IH]; simpl; auto.
  pose proof (print_same sv ts sens Hn Hu) as H1. destruct (print _ _ _ _ sv ts sens) as [s1 r]. simpl in H1. subst s1.
  destruct (prints _ _ _ _ calls sens). auto.
Qed.

(** The rows of the table of sensitivities *)
Lemma senss_rows showvars (sens : table R) k v : (forall l, Permutation (arrange l) l) ->
  In (k, v) (snd (senss_table lineage included excluded arrange showvars sens)) <->
  In (k, v) sens /\ (showvars = [] \/ In k showvars) /\ (exists x, number_of v x /\ ~ small x) /\
  (included = [] \/ In (lineage k) included \/ lineage k = 0%nat) /\ ~ In (lineage k) excluded.
Proof.
  intros Ha. unfold senss_table, var_table. cbn [fst snd]. rewrite filter_In.
  assert (Hp : forall l x, In x (arrange l) <-> In x l) by (intros l x; split; apply Permutation_in; [|symmetry]; auto).
  rewrite Hp, in_flat_map. cbn [fst snd].
  assert (Hd : In (k, v) (if decide (showvars = []) then sens else List.filter (fun kv => bool_decide (fst kv ∈ showvars)) sens) <->
    In (k, v) sens /\ (showvars = [] \/ In k showvars)).
  { destruct (decide (showvars = [])); [tauto|]. rewrite filter_In. simpl. rewrite bool_decide_eq_true, elem_of_list_In. tauto. }
  assert (Hv : forall w : value R, fst (visit minsens false w) = w).
  { intros w. unfold visit. destruct (forallb _ _); auto. destruct w; rewrite ?andb_false_r; auto. }
  assert (Hr : forall w : value R, snd (visit minsens false w) = true <-> exists x, number_of w x /\ ~ small x).
  { intros w. transitivity (forallb (fun m => nleb m (minsens : R)) (mags w) <> true).
    - unfold visit. destruct (forallb _ _); cbn [snd]; [split; congruence|]. destruct w; cbn [snd]; rewrite ?andb_false_r; cbn [snd]; split; congruence.
    - rewrite hidden_iff. split.
      + intros Hn. destruct (Classical_Prop.classic (exists x, number_of w x /\ ~ small x)) as [|Hc]; auto.
        exfalso. apply Hn. intros x Hx. destruct (Classical_Prop.classic (small x)); auto. exfalso. eauto.
      + intros (x & Hx & Hs) Hall. auto. }
  assert (Hi : in_models lineage included excluded k = true <->
    (included = [] \/ In (lineage k) included \/ lineage k = 0%nat) /\ ~ In (lineage k) excluded).
  { unfold in_models. rewrite andb_true_iff, !orb_true_iff, negb_true_iff, !bool_decide_eq_true, bool_decide_eq_false, !elem_of_list_In, Nat.eqb_eq. tauto. }
  rewrite Hi. split.
  - intros [[[k' v'] [Hin Hx]] Hm]. cbn [fst snd] in Hx. destruct (visit minsens false v') as [w row] eqn:E.
    pose proof (Hv v') as Hv'. rewrite E in Hv'. simpl in Hv'. subst w. destruct row; [|destruct Hx]. destruct Hx as [Hx|[]]. injection Hx as -> ->.
    apply Hd in Hin as (Hin & Hsv). split; auto. split; auto. split; [|auto]. apply Hr. rewrite E. auto.
  - intros (Hin & Hsv & Hx & Hm). split; auto. exists (k, v). split; [apply Hd; auto|]. apply Hr in Hx. cbn [fst snd].
    pose proof (Hv v) as Hv'. destruct (visit minsens false v) as [w row]. simpl in *. subst. left. auto.
Qed.
End Printing.

(** ** The largest sensitivities *)
Definition ascending (l : list (nat * R)) : Prop := StronglySorted (fun p q => snd p <= snd q) l.
Lemma insert_perm x (l : list (nat * R)) : Permutation (insert_asc x l) (x :: l).
Proof.
  induction l as [|y l IH]; simpl; auto. destruct (Rltb _ _); auto. etransitivity; [apply perm_skip; exact IH|]. apply perm_swap.
Qed.
Lemma sort_perm (l : list (nat * R)) : Permutation (sort_asc l) l.
Proof. induction l as [|x l IH]; simpl; auto. etransitivity; [apply insert_perm|]. auto. Qed.
Lemma insert_sorted x (l : list (nat * R)) : ascending l -> ascending (insert_asc x l).
Proof.
  induction 1 as [|z l Hs IH Hz]; simpl; [repeat constructor|]. destruct (Rltb (snd z) (snd x)) eqn:E.
  - apply Rltb_true in E. constructor; auto. rewrite List.Forall_forall in *. intros y Hy.
    apply (Permutation_in _ (insert_perm x l)) in Hy as [<-|Hy]; [lra|auto].
  - assert (snd x <= snd z). { assert (~ snd z < snd x) by (intros Hx; apply Rltb_true in Hx; congruence). lra. }
    constructor; [constructor; auto|]. constructor; auto. rewrite List.Forall_forall in *. intros y Hy. specialize (Hz y Hy). simpl in Hz. lra.
Qed.
Lemma sort_sorted (l : list (nat * R)) : ascending (sort_asc l).
Proof. induction l; simpl; [constructor|]. apply insert_sorted. auto. Qed.
Lemma ascending_filter f (l : list (nat * R)) : ascending l -> ascending (List.filter f l).
Proof.
  induction 1 as [|z l Hs IH Hz]; simpl; [constructor|]. destruct (f z); auto. constructor; auto.
  rewrite List.Forall_forall in *. intros y Hy. apply filter_In in Hy as []. auto.
Qed.
Lemma ascending_split m (l : list (nat * R)) p q : ascending l -> In p (firstn m l) -> In q (skipn m l) -> snd p <= snd q.
Proof.
  intros Ha. revert m. induction Ha as [|z l Hs IH Hz]; intros [|m]; simpl; try tauto. intros [<-|Hp] Hq; [|eauto].
  rewrite List.Forall_forall in Hz. apply Hz. rewrite <- (firstn_skipn m l). apply in_or_app. auto.
Qed.
Lemma filter_map_fst {A} (f : nat -> bool) (l : list (nat * A)) : List.filter f (map fst l) = map fst (List.filter (fun p => f (fst p)) l).
Proof. induction l as [|[k v] l IH]; simpl; auto. destruct (f k); simpl; congruence. Qed.
Lemma fewer_room s n : fewer s n = room n (Z.of_nat s).
Proof.
  unfold fewer, room. induction s as [|s IH]; simpl Nat.iter.
  - destruct (n <=? 3)%Z eqn:E; auto. apply Z.leb_gt in E. lia.
  - rewrite IH. destruct (n <=? 3)%Z eqn:E.
    + apply Z.leb_le in E. destruct (3 <? n)%Z eqn:E2; auto. apply Z.ltb_lt in E2. lia.
    + apply Z.leb_gt in E. destruct (3 <? Z.max 3 (n - Z.of_nat s))%Z eqn:E2; [apply Z.ltb_lt in E2|apply Z.ltb_ge in E2]; lia.
Qed.
Lemma has_nan_complete v : complete v -> has_nan v = false.
Proof.
  intros [_ Hc]. unfold has_nan. apply not_true_is_false. intros He. apply existsb_exists in He as (c & Hi & Hn). specialize (Hc c Hi). destruct c; congruence.
Qed.
Lemma mean_abs_mean (v : value R) m : mean_magnitude v m -> m = mean_abs v.
Proof.
  intros (xs & Hc & Hne & Hm). unfold mean_abs, mags. rewrite Hc, map_length.
  assert (E : fold_right nadd n0 (flat_map (fun c => match c with Some x => [nabs x] | None => [] end) (map Some xs)) = fold_right Rplus 0 (map Rabs xs)).
  { clear. induction xs as [|x xs IH]; [reflexivity|]. cbn [map flat_map app fold_right]. rewrite IH, nabs_R. auto. }
  rewrite E, <- Hm. unfold ndiv. simpl. rewrite <- INR_IZR_INZ. field. destruct xs; [congruence|]. apply not_0_INR. discriminate.
Qed.

Lemma picked_keys {V} (d : list (nat * V)) ks : (forall k, In k ks -> In k (dkeys d)) ->
  map fst (flat_map (fun k => match dget d k with Some v => [(k, v)] | None => [] end) ks) = ks.
Proof.
  induction ks as [|k ks IH]; intros Hk; simpl; auto. destruct (dget d k) eqn:E.
  - simpl. f_equal. apply IH. intros; apply Hk; right; auto.
  - apply dget_None in E. exfalso. apply E. apply Hk. left. auto.
Qed.

Lemma NoDup_skipn {A} n (l : list A) : NoDup l -> NoDup (skipn n l).
Proof. intros Hn. rewrite <- (firstn_skipn n l) in Hn. apply NoDup_app in Hn as (_ & _ & Hn). auto. Qed.
Lemma NoDup_filter_L {A} f (l : list A) : NoDup l -> NoDup (List.filter f l).
Proof. rewrite !NoDup_ListNoDup. apply List.NoDup_filter. Qed.

Lemma topsenss_ok (sens : table R) showvars nvars : NoDup (dkeys sens) -> (forall k v, In (k, v) sens -> complete v) -> (1 <= nvars)%Z ->
  top_ok sens showvars nvars (fst (topsenss_filter sens showvars nvars)) (snd (topsenss_filter sens showvars nvars)).
Proof.
  intros Hn Hc Hv. unfold topsenss_filter. cbn [fst snd].
  set (means := flat_map _ sens).
  assert (Em : means = map (fun kv => (fst kv, mean_abs (snd kv))) sens).
  { unfold means. clear - Hc. induction sens as [|[k v] sens IH]; simpl; auto. rewrite (has_nan_complete v) by (apply (Hc k v); left; auto).
    simpl. f_equal. apply IH. intros k' v' Hi. apply (Hc k'). right. auto. }
  clearbody means. subst means. set (P := sort_asc _).
  assert (HP : Permutation P (map (fun kv => (fst kv, mean_abs (snd kv))) sens)) by apply sort_perm.
  assert (HS : ascending P) by apply sort_sorted. clearbody P.
  assert (HK : Permutation (map fst P) (dkeys sens)).
  { rewrite HP, map_map. reflexivity. }
  assert (HKn : NoDup (map fst P)). { rewrite NoDup_ListNoDup. eapply Permutation_NoDup; [symmetry; exact HK|]. rewrite <- NoDup_ListNoDup. auto. }
  assert (HKi : forall k, In k (map fst P) <-> In k (dkeys sens)) by (intros k; split; apply Permutation_in; [|symmetry]; auto).
  set (shown := List.filter (fun k => bool_decide (k ∈ showvars)) (map fst P)).
  assert (Hshown : forall k, In k shown <-> In k showvars /\ In k (dkeys sens)).
  { intros k. unfold shown. rewrite filter_In, HKi, bool_decide_eq_true, elem_of_list_In. tauto. }
  assert (Hsn : NoDup shown) by (apply NoDup_filter_L; auto).
  clearbody shown. set (n := fewer (length shown) nvars).
  assert (En : n = room nvars (Z.of_nat (length shown))) by apply fewer_room.
  assert (Hn1 : (1 <= n)%Z). { rewrite En. unfold room. destruct (nvars <=? 3)%Z; lia. }
  pose proof (NoDup_filter_L (fun k => negb (bool_decide (k ∈ showvars))) _ HKn) as HFn.
  rewrite filter_map_fst in HFn. rewrite filter_map_fst. set (F := List.filter _ P) in HFn |- *.
  assert (HF : ascending F) by (apply ascending_filter; auto).
  assert (HFi : forall k m, In (k, m) F <-> exists v, In (k, v) sens /\ m = mean_abs v /\ ~ In k showvars).
  { intros k m. unfold F. rewrite filter_In. simpl. rewrite negb_true_iff, bool_decide_eq_false, elem_of_list_In. split.
    - intros (Hi & Hs). apply (Permutation_in _ HP) in Hi. apply in_map_iff in Hi as ([k' v] & E & Hi). injection E as -> <-. eauto.
    - intros (v & Hi & -> & Hs). split; auto. apply (Permutation_in _ (Permutation_sym HP)). apply in_map_iff. exists (k, v). auto. }
  clearbody F. clear P HP HS HK HKn HKi.
  assert (Hlast : last_n n (map fst F) = map fst (skipn (length F - Z.to_nat n) F)).
  { unfold last_n. rewrite (proj2 (Z.eqb_neq n 0)) by lia. rewrite (proj2 (Z.ltb_lt 0 n)) by lia. rewrite map_length. rewrite skipn_map. auto. }
  rewrite Hlast. set (c := (length F - Z.to_nat n)%nat). set (S := skipn c F).
  assert (HSF : forall p, In p S -> In p F). { intros p Hp. rewrite <- (firstn_skipn c F). apply in_or_app. auto. }
  assert (HSk : forall k, In k (map fst S) -> In k (dkeys sens)).
  { intros k Hk. apply in_map_iff in Hk as ([k' m] & <- & Hi). apply HSF, HFi in Hi as (v & Hi & _). apply in_map_iff. exists (k', v). auto. }
  assert (HSn : NoDup (map fst S)). { unfold S. rewrite <- skipn_map. apply NoDup_skipn. auto. }
  set (top := flat_map _ (map fst S)).
  assert (Htop : forall k v, In (k, v) top <-> In k (map fst S) /\ dget sens k = Some v) by (intros; apply picked_In).
  assert (Hkeys : map fst top = map fst S) by (apply picked_keys; auto).
  assert (Hlen : length top = length S). { rewrite <- (map_length fst top), Hkeys. apply map_length. }
  assert (HSlen : length S = Nat.min (length F) (Z.to_nat n)). { unfold S, c. rewrite skipn_length. lia. }
  assert (Hin : forall k v, In (k, v) sens -> ~ In k showvars -> In (k, v) top <-> In (k, mean_abs v) S).
  { intros k v Hi Hs. rewrite Htop. split.
    - intros (Hk & _). apply in_map_iff in Hk as ([k' m] & E & Hk). simpl in E. subst k'. pose proof Hk as Hk'. apply HSF, HFi in Hk' as (v' & Hi' & -> & _).
      apply (In_dget sens k _ Hn) in Hi. apply (In_dget sens k _ Hn) in Hi'. assert (v = v') by congruence. subst. auto.
    - intros Hk. split; [|apply In_dget; auto]. apply in_map_iff. exists (k, mean_abs v). auto. }
  split.
  - intros k v Hi. apply Htop in Hi as (Hk & Hd). apply dget_In in Hd. split; auto.
    apply in_map_iff in Hk as ([k' m] & E & Hk). simpl in E. subst k'. apply HSF, HFi in Hk as (_ & _ & _ & Hs). auto.
  - rewrite Hkeys. auto.
  - split; auto.
  - rewrite Hlen, HSlen, <- En. lia.
  - rewrite Hlen, HSlen, <- En. intros Hlt k v Hi Hs. apply Hin; auto.
    assert (c = 0%nat) by (unfold c; lia). unfold S. rewrite H. simpl. apply HFi. eauto.
  - intros k v m k' v' m' Hi Hi' Hs Hni Hm Hm'. apply mean_abs_mean in Hm, Hm'. subst.
    assert (Hs0 : In (k, v) sens /\ ~ In k showvars).
    { pose proof Hi as Hi0. apply Htop in Hi0 as (Hk & Hd). apply dget_In in Hd. split; auto.
      apply in_map_iff in Hk as ([k0 m0] & E & Hk). simpl in E. subst k0. apply HSF, HFi in Hk as (_ & _ & _ & Hs0). auto. }
    destruct Hs0 as [Hs1 Hs2]. apply (Hin k v Hs1 Hs2) in Hi.
    assert (HF' : In (k', mean_abs v') F) by (apply HFi; eauto).
    rewrite <- (firstn_skipn c F) in HF'. apply in_app_or in HF' as [HF'|HF'].
    + apply (ascending_split c F _ _ HF HF' Hi).
    + exfalso. apply Hni. apply Hin; auto.
Qed.
