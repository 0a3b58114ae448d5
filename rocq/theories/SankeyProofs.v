(** Proofs about sensitivity diagrams (C96). *)
From Coq Require Import Reals Lra Lia.
From Verif Require Import Base NomialSem Sankey SankeySpec.
Open Scope R_scope.

Notation st := (Sankey.st R).
Lemma inflow_app L1 L2 n : inflow (L1 ++ L2) n = inflow L1 n + inflow L2 n.
Proof. unfold inflow. induction L1 as [|l L1 IH]; simpl; [lra|rewrite IH; lra]. Qed.
Lemma inflow_dset L a b x n : NoDup (dkeys L) -> inflow (dset L (a, b) x) n = inflow L n + (if decide (b = n) then x - match dget L (a, b) with Some y => y | None => 0 end else 0).
Proof.
  unfold inflow. induction L as [|[k v] L IH]; intros ND; [simpl; destruct (decide (b = n)); lra|].
  cbn [dset dget lsum]. destruct (decide ((a, b) = k)) as [<-|Nk].
  - cbn [lsum fst snd]. rewrite ?decide_True by reflexivity. destruct (decide (b = n)); lra.
  - cbn [lsum fst snd]. rewrite IH; [lra|]. cbn in ND. apply NoDup_cons_1_2 in ND. exact ND.
Qed.

Definition known (s : st) (n : node) : Prop := forall p k r, n = p ++ k :: r -> (1 <= k <= count s p)%nat.
Definition inv (s : st) : Prop :=
  NoDup (dkeys (links s)) /\ (forall a b, In (a, b) (dkeys (links s)) -> (exists k, a = b ++ [k]) /\ known s a) /\ (forall n, (0 < count s n)%nat -> known s n).
Definition blk (target : node) (lo hi : nat) (n : node) : Prop := exists k r, n = target ++ k :: r /\ (lo < k <= hi)%nat.
(** Links that make [x] flow into [target] *)
Definition adds (target : node) (s : st) (x : R) (s' : st) : Prop :=
  let B := blk target (count s target) (count s' target) in
  inv s' /\ (forall n, (count s n <= count s' n)%nat) /\ (forall n, n <> target -> ~ B n -> count s' n = count s n) /\
  (forall a b, ~ B a -> dget (links s') (a, b) = dget (links s) (a, b)) /\
  (forall n, ~ B n -> inflow (links s') n = inflow (links s) n + if decide (n = target) then x else 0) /\
  (forall n a, B n -> In (a, n) (dkeys (links s')) -> exists p k, n = p ++ [k] /\ dget (links s') (n, p) = Some (inflow (links s') n)).

Lemma blk_trans target a b c n : (a <= b <= c)%nat -> blk target a c n <-> blk target a b n \/ blk target b c n.
Proof.
  intros L. split.
  - intros (k & r & -> & H). destruct (decide (k <= b)%nat); [left|right]; exists k, r; (split; [reflexivity|lia]).
  - intros [(k & r & -> & H)|(k & r & -> & H)]; exists k, r; (split; [reflexivity|lia]).
Qed.
Lemma app_cons_inj (p : node) k r k' r' : p ++ k :: r = p ++ k' :: r' -> k = k' /\ r = r'.
Proof. intros E. apply app_inv_head in E. injection E as <- <-. auto. Qed.
Lemma blk_disjoint target a b c n : blk target a b n -> blk target b c n -> False.
Proof. intros (k & r & -> & H) (k' & r' & E & H'). apply app_cons_inj in E as [<- _]. lia. Qed.
Lemma blk_self target a b : ~ blk target a b target.
Proof. intros (k & r & E & _). assert (length target = length (target ++ k :: r)) by congruence. rewrite app_length in *. simpl in *. lia. Qed.
Lemma blk_snoc target lo hi b k : blk target lo hi (b ++ [k]) -> b = target \/ blk target lo hi b.
Proof.
  intros (j & r & E & H). destruct (exists_last (l := j :: r) ltac:(discriminate)) as (r' & z & Er). rewrite Er, app_assoc in E. apply app_inj_tail in E as [-> _].
  destruct r' as [|j' r']; [left; apply app_nil_r|]. injection Er as <- _. right. exists j, r'. auto.
Qed.
Lemma adds_refl target s : inv s -> adds target s 0 s.
Proof.
  intros I. split; [exact I|]. split; [auto|]. split; [auto|]. split; [auto|]. split.
  - intros n _. destruct (decide _); lra.
  - intros n a (k & r & _ & H). lia.
Qed.
Lemma adds_trans target s1 x s2 y s3 : adds target s1 x s2 -> adds target s2 y s3 -> adds target s1 (x + y) s3.
Proof.
  intros (I2 & M2 & C2 & D2 & F2 & O2) (I3 & M3 & C3 & D3 & F3 & O3).
  assert (L : (count s1 target <= count s2 target <= count s3 target)%nat) by auto.
  split; [exact I3|]. split; [intros n; etransitivity; eauto|]. split; [|split; [|split]].
  - intros n N B. rewrite blk_trans in B by exact L. rewrite C3 by tauto. apply C2; tauto.
  - intros a b B. rewrite blk_trans in B by exact L. rewrite D3 by tauto. apply D2. tauto.
  - intros n B. rewrite blk_trans in B by exact L. rewrite F3, F2 by tauto. destruct (decide _); lra.
  - intros n a B Hn. rewrite blk_trans in B by exact L. destruct B as [B|B]; [|eapply O3; eassumption].
    assert (NB : ~ blk target (count s2 target) (count s3 target) n) by (intros B'; exact (blk_disjoint _ _ _ _ _ B B')).
    assert (Nt : n <> target) by (intros ->; apply (blk_self _ _ _ B)).
    assert (Hn2 : In (a, n) (dkeys (links s2))).
    { destruct I3 as (_ & K3 & _). destruct (K3 _ _ Hn) as [[k ->] _]. 
      destruct (dget (links s2) ((n ++ [k]) : node, n)) as [v|] eqn:E; [eapply dget_In_keys; exact E|]. exfalso.
      rewrite <- (D3 (n ++ [k]) n) in E; [apply dget_None in E; contradiction|]. intros B'. apply blk_snoc in B' as [->|B']; contradiction. }
    destruct (O2 n a B Hn2) as (p & k & -> & E). exists p, k. split; [reflexivity|]. rewrite D3 by exact NB. rewrite F3 by exact NB. rewrite decide_False by exact Nt. rewrite Rplus_0_r. exact E.
Qed.

Lemma count_add (s : st) target ti tg n : count (snd (add_node s target ti tg)) n = if decide (n = target) then S (count s target) else count s n.
Proof. unfold add_node, count. cbn [snd counts]. destruct (decide (n = target)) as [->|N]; [rewrite dget_dset_eq|rewrite dget_dset_ne by exact N]; reflexivity. Qed.
Lemma known_mono (s s' : st) n : (forall p, (count s p <= count s' p)%nat) -> known s n -> known s' n.
Proof. intros M K p k r E. specialize (K p k r E). specialize (M p). lia. Qed.
Lemma count_add_mono (s : st) target ti tg n : (count s n <= count (snd (add_node s target ti tg)) n)%nat.
Proof. rewrite count_add. destruct (decide _) as [->|]; lia. Qed.
Lemma known_snoc s target k : known s target -> (1 <= k <= count s target)%nat -> known s (target ++ [k]).
Proof.
  intros K H p j r E. destruct (decide (r = [])) as [->|Nr].
  - apply app_inj_tail in E as [<- <-]. exact H.
  - destruct (exists_last Nr) as (r' & z & ->). rewrite app_comm_cons, app_assoc in E. apply app_inj_tail in E as [-> _]. eapply K. reflexivity.
Qed.
(** A node just added: nothing is linked to it or below. *)
Lemma added s target ti tg : inv s -> known s target -> let n := fst (add_node s target ti tg) in let s1 := snd (add_node s target ti tg) in
  n = target ++ [S (count s target)] /\ inv s1 /\ known s1 n /\ links s1 = links s /\ count s1 n = 0%nat /\
  (forall m r, m = n ++ r -> forall b, ~ In (m, b) (dkeys (links s)) /\ ~ In (b, m) (dkeys (links s)) /\ count s m = 0%nat).
Proof.
  intros (ND & K & C) Kt n s1. split; [reflexivity|].
  assert (NK : forall m r, m = n ++ r -> ~ known s m).
  { intros m r -> Km. specialize (Km target (S (count s target)) r). unfold n in Km. cbn in Km. rewrite <- app_assoc in Km. specialize (Km eq_refl). lia. }
  assert (C0 : forall m r, m = n ++ r -> count s m = 0%nat) by (intros m r E; destruct (count s m) eqn:Em; [reflexivity|]; exfalso; apply (NK m r E), C; lia).
  assert (I1 : inv s1).
  { split; [exact ND|]. split.
    - intros a b Hab. destruct (K a b Hab) as [Ha Kn]. split; [exact Ha|]. eapply known_mono; [apply count_add_mono|exact Kn].
    - intros m Hm. eapply known_mono; [apply count_add_mono|]. unfold s1 in Hm. rewrite count_add in Hm. destruct (decide (m = target)) as [->|]; [exact Kt|apply C; exact Hm]. }
  split; [exact I1|]. split; [|split; [reflexivity|split]].
  - change (known s1 (target ++ [S (count s target)])). apply known_snoc; [eapply known_mono; [apply count_add_mono|exact Kt]|]. unfold s1. rewrite count_add, decide_True by reflexivity. lia.
  - unfold s1. rewrite count_add. destruct (decide (n = target)) as [E|_]; [|apply (C0 n []); symmetry; apply app_nil_r].
    exfalso. unfold n in E. cbn in E. assert (length (target ++ [S (count s target)]) = length target) by congruence. rewrite app_length in *. simpl in *. lia.
  - intros m r E b. split; [|split; [|eapply C0; exact E]].
    + intros Hi. destruct (K _ _ Hi) as [_ Kn]. eapply NK; eassumption.
    + intros Hi. destruct (K _ _ Hi) as [[k ->] Kn]. apply (NK (m ++ [k]) (r ++ [k])); [rewrite E, app_assoc; reflexivity|exact Kn].
Qed.
Lemma inflow_none L n : (forall b, ~ In (b, n) (dkeys L)) -> inflow L n = 0.
Proof.
  intros H. unfold inflow. induction L as [|[[a b] v] L IH]; [reflexivity|]. cbn [lsum fst snd]. rewrite decide_False; [rewrite IH; [lra|]|].
  - intros c Hc. apply (H c). right. exact Hc.
  - intros ->. apply (H a). left. reflexivity.
Qed.
Lemma set_bump (s : st) a b x : ~ In (a, b) (dkeys (links s)) -> set_link s a b x = bump_link s a b x.
Proof. intros N. unfold bump_link. apply dget_None in N. rewrite N. cbn [nadd n0 R_num]. rewrite Rplus_0_l. reflexivity. Qed.

(** A node added, filled, and linked *)
Lemma adds_wrap s target ti tg x s2 : inv s -> known s target -> let n := fst (add_node s target ti tg) in let s1 := snd (add_node s target ti tg) in
  adds n s1 x s2 \/ s2 = s1 -> ~ In (n, target) (dkeys (links s2)) /\ adds target s x (bump_link s2 n target x).
Proof.
  intros I Kt n s1 H. destruct (added s target ti tg I Kt) as (En & I1 & Kn & EL & Cn & Fr). fold n s1 in En, I1, Kn, EL, Cn, Fr.
  set (k := S (count s target)) in *.
  assert (Hs : inv s2 /\ (forall m, (count s1 m <= count s2 m)%nat) /\ (forall m, (forall r, m <> n ++ r) -> count s2 m = count s1 m) /\
     (forall a b, (forall r, a <> n ++ r) -> dget (links s2) (a, b) = dget (links s) (a, b)) /\ (forall b, dget (links s2) (n, b) = None) /\
     (forall m, (forall r, m <> n ++ r) -> inflow (links s2) m = inflow (links s) m) /\
     (forall m a, (exists j r, m = n ++ j :: r) -> In (a, m) (dkeys (links s2)) -> exists p k, m = p ++ [k] /\ dget (links s2) (m, p) = Some (inflow (links s2) m)) /\
     (forall a, In (a, n) (dkeys (links s2)) -> inflow (links s2) n = x)).
  { assert (NoN : forall b, dget (links s) (n, b) = None) by (intros b; apply dget_None; apply (Fr n []); symmetry; apply app_nil_r).
    destruct H as [(I2 & M2 & C2 & D2 & F2 & O2)| ->].
    - assert (NB : forall m lo hi, (forall r, m <> n ++ r) -> ~ blk n lo hi m) by (intros m lo hi N (j & r & -> & _); eapply N; reflexivity).
      split; [exact I2|]. split; [exact M2|]. split; [intros m N; apply C2; [intros ->; apply (N []); symmetry; apply app_nil_r|apply NB; exact N]|].
      split; [intros a b N; rewrite D2 by (apply NB; exact N); rewrite EL; reflexivity|].
      split; [intros b; rewrite D2 by apply blk_self; rewrite EL; apply NoN|].
      split; [intros m N; rewrite F2 by (apply NB; exact N); rewrite EL, decide_False; [lra|intros ->; apply (N []); symmetry; apply app_nil_r]|].
      split.
      + intros m a (j & r & Em) Hm. apply (O2 m a); [|exact Hm]. destruct I2 as (_ & K2 & _). destruct (K2 _ _ Hm) as [[z ->] Ka].
        exists j, r. split; [exact Em|]. rewrite Cn. specialize (Ka n j (r ++ [z])). rewrite Em, <- app_assoc in Ka. specialize (Ka eq_refl). lia.
      + intros a _. rewrite F2 by apply blk_self. rewrite decide_True by reflexivity. rewrite EL, inflow_none; [lra|]. intros b. apply (Fr n []). symmetry. apply app_nil_r.
    - rewrite EL. split; [exact I1|]. split; [auto|]. split; [auto|]. split; [auto|]. split; [exact NoN|]. split; [auto|]. split.
      + intros m a (j & r & Em) Hm. exfalso. apply (Fr m (j :: r) Em a). exact Hm.
      + intros a Ha. exfalso. destruct (Fr n [] ltac:(symmetry; apply app_nil_r) a) as (_ & Hn & _). exact (Hn Ha). }
  destruct Hs as (I2 & M2 & C2 & D2 & Dn & F2 & O2 & On).
  assert (Nn : ~ In (n, target) (dkeys (links s2))) by (apply dget_None; apply Dn). split; [exact Nn|].
  assert (Tn : forall r, target <> n ++ r).
  { intros r E. rewrite En in E. assert (L : length target = length ((target ++ [k]) ++ r)) by congruence. rewrite !app_length in L. simpl in L. lia. }
  assert (Ct : count s2 target = k) by (rewrite (C2 target Tn); unfold s1; rewrite count_add, decide_True by reflexivity; reflexivity).
  assert (Eblk : forall m, blk target (count s target) (count (bump_link s2 n target x) target) m <-> exists r, m = n ++ r).
  { intros m. change (count (bump_link s2 n target x) target) with (count s2 target). rewrite Ct. split.
    - intros (j & r & -> & Hj). exists r. rewrite En, <- app_assoc. cbn. replace j with k by (unfold k in *; lia). reflexivity.
    - intros [r ->]. exists k, r. split; [rewrite En, <- app_assoc; reflexivity|unfold k; lia]. }
  assert (Hb : forall m, ~ (exists r, m = n ++ r) -> forall r, m <> n ++ r) by (intros m N r E; apply N; eauto).
  set (L3 := links (bump_link s2 n target x)).
  assert (EL3 : L3 = dset (links s2) (n, target) x).
  { unfold L3, bump_link, set_link. cbn [links]. rewrite Dn. cbn [nadd n0 R_num]. rewrite Rplus_0_l. reflexivity. }
  destruct I2 as (ND2 & K2 & CK2).
  assert (F3 : forall m, inflow L3 m = inflow (links s2) m + if decide (m = target) then x else 0).
  { intros m. rewrite EL3, inflow_dset by exact ND2. rewrite Dn. destruct (decide (target = m)), (decide (m = target)); try congruence; lra. }
  split.
  { split; [fold L3; rewrite EL3; apply NoDup_dset; exact ND2|]. split; [|exact CK2].
    intros a b Hab. fold L3 in Hab. rewrite EL3 in Hab. apply dkeys_dset_In in Hab as [[= -> ->]|Hab]; [|apply K2; exact Hab].
    split; [exists k; exact En|]. eapply known_mono; [|exact Kn]. exact M2. }
  split; [intros m; change (count (bump_link s2 n target x) m) with (count s2 m); etransitivity; [apply (count_add_mono s target ti tg)|apply M2]|].
  split; [|split; [|split]].
  - intros m N B. rewrite Eblk in B. change (count (bump_link s2 n target x) m) with (count s2 m). rewrite C2 by (apply Hb; exact B). unfold s1. rewrite count_add, decide_False by exact N. reflexivity.
  - intros a b B. rewrite Eblk in B. fold L3. rewrite EL3, dget_dset_ne; [apply D2, Hb, B|]. intros [= -> ->]. apply B. exists []. symmetry. apply app_nil_r.
  - intros m B. rewrite Eblk in B. fold L3. rewrite F3. f_equal. apply F2, Hb, B.
  - intros m a B Hm. rewrite Eblk in B. destruct B as [r Er]. fold L3 in Hm |- *. rewrite EL3 in Hm. apply dkeys_dset_In in Hm as [[= -> ->]|Hm].
    { exfalso. eapply Tn. exact Er. }
    rewrite F3. rewrite decide_False by (intros ->; eapply Tn; exact Er). rewrite Rplus_0_r. destruct r as [|j r].
    + rewrite app_nil_r in Er. subst m. exists target, k. split; [exact En|]. rewrite EL3, dget_dset_eq. f_equal. symmetry. eapply On. exact Hm.
    + destruct (O2 m a ltac:(eauto) Hm) as (p & z & Em & E). exists p, z. split; [exact Em|]. rewrite EL3, dget_dset_ne; [exact E|].
      intros [= Emn _]. rewrite Emn in Er. assert (L : length n = length (n ++ j :: r)) by congruence. rewrite app_length in L. simpl in L. lia.
Qed.
Lemma adds_leaf s target ti tg x : inv s -> known s target ->
  adds target s x (let '(n, s1) := add_node s target ti tg in set_link s1 n target x).
Proof.
  intros I K. destruct (adds_wrap s target ti tg x (snd (add_node s target ti tg)) I K (or_intror eq_refl)) as [N H].
  rewrite <- set_bump in H by exact N. exact H.
Qed.
Lemma adds_inv target s x s' : adds target s x s' -> inv s'.
Proof. intros H. apply H. Qed.
Lemma adds_known target s x s' n : adds target s x s' -> known s n -> known s' n.
Proof. intros (_ & M & _) K. eapply known_mono; eassumption. Qed.

Definition vecok (target : node) (s0 s : st) (n : node) : Prop :=
  exists k, n = target ++ [k] /\ (count s0 target < k <= count s target)%nat /\ dget (links s) (n, target) = Some (inflow (links s) n).
Lemma snoc_ne (target : node) k r : target ++ k :: r <> target.
Proof. intros E. assert (L : length (target ++ k :: r) = length target) by congruence. rewrite app_length in L. simpl in L. lia. Qed.
Lemma vecok_later target s0 s x s' n : vecok target s0 s n -> adds target s x s' -> vecok target s0 s' n.
Proof.
  intros (k & -> & Hk & E) (_ & M & _ & D & F & _). exists k. split; [reflexivity|]. split; [specialize (M target); lia|].
  assert (NB : ~ blk target (count s target) (count s' target) (target ++ [k])) by (intros (j & r & Ej & Hj); apply app_cons_inj in Ej as [<- _]; lia).
  rewrite D, F by exact NB. rewrite decide_False by apply snoc_ne. rewrite Rplus_0_r. exact E.
Qed.
(** One more element of a vector that has a node *)
Lemma adds_vec target s0 s tot vec ti tg x : adds target s0 tot s -> known s target -> vecok target s0 s vec ->
  let s' := bump_link (let '(source, s1) := add_node s vec ti tg in set_link s1 source vec x) vec target x in
  adds target s0 (tot + x) s' /\ forall n, vecok target s0 s n -> vecok target s0 s' n.
Proof.
  intros (I & M & C & D & F & O) Kt (k & Ev & Hk & E) s'.
  assert (Kv : known s vec) by (rewrite Ev; apply known_snoc; [exact Kt|lia]).
  pose proof (adds_leaf s vec ti tg x I Kv) as A. set (s1 := let '(source, s1) := add_node s vec ti tg in set_link s1 source vec x) in *.
  destruct A as (I1 & M1 & C1 & D1 & F1 & O1). set (B1 := blk vec (count s vec) (count s1 vec)) in *.
  assert (NT : ~ B1 target).
  { intros (j & r & Ej & _). rewrite Ev, <- app_assoc in Ej. cbn in Ej. exact (snoc_ne _ _ _ (eq_sym Ej)). }
  assert (Nv : target <> vec) by (rewrite Ev; intros Ez; exact (snoc_ne _ _ _ (eq_sym Ez))).
  assert (Cs : count s' target = count s target) by (change (count s' target) with (count s1 target); apply C1; assumption).
  assert (Hv : blk target (count s0 target) (count s target) vec) by (exists k, []; auto).
  assert (Hsub : forall n, B1 n -> blk target (count s0 target) (count s target) n).
  { intros n (j & r & -> & _). exists k, (j :: r). split; [rewrite Ev, <- app_assoc; reflexivity|exact Hk]. }
  assert (Dv : dget (links s1) (vec, target) = Some (inflow (links s) vec)) by (rewrite D1 by apply blk_self; exact E).
  assert (EL : links s' = dset (links s1) (vec, target) (inflow (links s) vec + x)) by (unfold s', bump_link, set_link; cbn [links]; rewrite Dv; reflexivity).
  destruct I1 as (ND1 & K1 & CK1).
  assert (FL : forall n, inflow (links s') n = inflow (links s1) n + if decide (n = target) then x else 0).
  { intros n. rewrite EL, inflow_dset by exact ND1. rewrite Dv. destruct (decide (target = n)), (decide (n = target)); try congruence; lra. }
  assert (Ek : dkeys (links s') = dkeys (links s1)) by (rewrite EL; apply dkeys_dset_present; eapply dget_In_keys; exact Dv).
  split.
  - unfold adds. rewrite Cs. split; [|split; [|split; [|split; [|split]]]].
    + split; [rewrite Ek; exact ND1|]. split; [rewrite Ek; exact K1|exact CK1].
    + intros n. change (count s' n) with (count s1 n). etransitivity; [apply M|apply M1].
    + intros n N B. change (count s' n) with (count s1 n). rewrite C1; [apply C; assumption| |].
      * intros ->. apply B, Hv.
      * intros B'. apply B, Hsub, B'.
    + intros a b B. rewrite EL, dget_dset_ne; [|intros [= -> ->]; apply B, Hv]. rewrite D1 by (intros B'; apply B, Hsub, B'). apply D, B.
    + intros n B. rewrite FL, F1 by (intros B'; apply B, Hsub, B'). rewrite F by exact B. rewrite (decide_False (P := n = vec)) by (intros ->; apply B, Hv).
      destruct (decide (n = target)); lra.
    + intros n a B Hn. rewrite Ek in Hn. assert (Nt : n <> target) by (intros ->; apply (blk_self _ _ _ B)). rewrite FL, (decide_False (P := n = target)), Rplus_0_r by exact Nt.
      destruct (decide (n = vec)) as [->|Nn].
      { exists target, k. split; [exact Ev|]. rewrite EL, dget_dset_eq. f_equal. rewrite F1 by apply blk_self. rewrite decide_True by reflexivity. reflexivity. }
      assert (Dn : forall p, dget (links s') (n, p) = dget (links s1) (n, p)) by (intros p; rewrite EL; apply dget_dset_ne; congruence).
      destruct (K1 _ _ Hn) as [[z ->] _].
      destruct (dget (links s) ((n ++ [z]) : node, n)) as [v|] eqn:Ez.
      * assert (NB : ~ B1 n).
        { intros (j & r & Ej & Hj). apply dget_In_keys in Ez. destruct I as (_ & K & _). destruct (K _ _ Ez) as [_ Kn]. specialize (Kn vec j (r ++ [z])). rewrite Ej, <- app_assoc in Kn. specialize (Kn eq_refl). lia. }
        destruct (O n _ B (dget_In_keys _ _ _ Ez)) as (p & z' & En & Ep). exists p, z'. split; [exact En|]. rewrite Dn, D1 by exact NB. rewrite F1 by exact NB. rewrite decide_False, Rplus_0_r by exact Nn. exact Ep.
      * assert (B1z : ~ ~ B1 (n ++ [z])).
        { intros NB. rewrite <- (D1 (n ++ [z]) n NB) in Ez. apply dget_None in Ez. contradiction. }
        assert (Dec : ~ ~ B1 n) by (intros NB; apply B1z; intros B'; apply blk_snoc in B' as [->|B']; [congruence|contradiction]).
        assert (Bn : B1 n).
        { assert (Dd : B1 n \/ ~ B1 n).
          { unfold B1, blk. destruct (decide (firstn (length vec) n = vec)) as [Ef|Nf]; [|right; intros (j & r & -> & _); apply Nf; rewrite firstn_app, firstn_all, Nat.sub_diag; apply app_nil_r].
            destruct (skipn (length vec) n) as [|j r] eqn:Es; [right; intros (j & r & -> & _); rewrite skipn_app, skipn_all, Nat.sub_diag in Es; discriminate|].
            assert (En : n = vec ++ j :: r) by (rewrite <- Es, <- Ef at 1; rewrite Ef; rewrite <- Ef at 1; symmetry; apply firstn_skipn).
            destruct (decide (count s vec < j <= count s1 vec)%nat) as [Hj|Hj]; [left; eauto|]. right. intros (j' & r' & E' & Hj'). rewrite En in E'. apply app_cons_inj in E' as [<- _]. contradiction. }
          tauto. }
        destruct (O1 n _ Bn Hn) as (p & z' & En & Ep). exists p, z'. split; [exact En|]. rewrite Dn. exact Ep.
  - intros n (j & -> & Hj & Ej). exists j. split; [reflexivity|]. rewrite Cs. split; [exact Hj|]. rewrite FL, (decide_False (P := _ = target)), Rplus_0_r by apply snoc_ne.
    assert (NB : ~ B1 (target ++ [j])).
    { intros (i & r & Ei & _). rewrite Ev, <- app_assoc in Ei. apply app_inv_head in Ei. discriminate. }
    rewrite F1 by exact NB. destruct (decide (target ++ [j] = vec)) as [Ez|Nz].
    + rewrite Ez. rewrite EL, dget_dset_eq. rewrite ?decide_True by reflexivity. reflexivity.
    + rewrite ?(decide_False (P := target ++ [j] = vec)) by exact Nz. rewrite EL, dget_dset_ne by congruence. rewrite D1 by exact NB. rewrite Rplus_0_r. exact Ej.
Qed.
Lemma linkfixed_adds target s0 fixed : known s0 target -> forall vecs s tot, adds target s0 tot s -> (forall v n, dget vecs v = Some n -> vecok target s0 s n) ->
  fst (linkfixed fixed vecs target tot s) = tot + lsum abs_var_sens (List.filter f_const fixed) /\
  adds target s0 (fst (linkfixed fixed vecs target tot s)) (snd (linkfixed fixed vecs target tot s)).
Proof.
  intros K0. induction fixed as [|f fixed IH]; intros vecs s tot A V; [simpl; split; [lra|exact A]|].
  cbn [linkfixed List.filter]. destruct (f_const f) eqn:Ec; [|apply IH; assumption]. cbn [lsum].
  set (x := abs_var_sens f). pose proof (adds_inv _ _ _ _ A) as I. pose proof (adds_known _ _ _ _ _ A K0) as Kt.
  assert (Hgo : forall vecs' s', adds target s0 (tot + x) s' -> (forall v n, dget vecs' v = Some n -> vecok target s0 s' n) ->
    fst (linkfixed fixed vecs' target (nadd tot x) s') = tot + (x + lsum abs_var_sens (List.filter f_const fixed)) /\
    adds target s0 (fst (linkfixed fixed vecs' target (nadd tot x) s')) (snd (linkfixed fixed vecs' target (nadd tot x) s'))).
  { intros vecs' s' A' V'. destruct (IH vecs' s' (tot + x) A' V') as [E1 E2]. change (nadd tot x) with (tot + x). split; [rewrite E1; lra|exact E2]. }
  assert (Hold : forall vec, vecok target s0 s vec -> forall vecs', (forall v n, dget vecs' v = Some n -> vecok target s0 s n) ->
    let r := linkfixed fixed vecs' target (nadd tot x) (let '(source, s1) := add_node s vec (f_title f) TSubarray in bump_link (set_link s1 source vec x) vec target x) in
    fst r = tot + (x + lsum abs_var_sens (List.filter f_const fixed)) /\ adds target s0 (fst r) (snd r)).
  { intros vec Hv vecs' V'. destruct (adds_vec target s0 s tot vec (f_title f) TSubarray x A Kt Hv) as [A' P']. apply Hgo; [exact A'|]. intros v n E. apply P', (V' v), E. }
  assert (Hnew : forall vecs', (forall v n, dget vecs' v = Some n -> vecok target s0 s n) ->
    let r := linkfixed fixed vecs' target (nadd tot x) (let '(source, s1) := add_node s target (f_title f) TConstraint in set_link s1 source target x) in
    fst r = tot + (x + lsum abs_var_sens (List.filter f_const fixed)) /\ adds target s0 (fst r) (snd r)).
  { intros vecs' V'. pose proof (adds_leaf s target (f_title f) TConstraint x I Kt) as A'. apply Hgo; [eapply adds_trans; eassumption|]. intros v n E. eapply vecok_later; [apply (V' v), E|exact A']. }
  destruct (f_vec f) as [[v b]|] eqn:Ef; [destruct b|].
  - unfold dmem. destruct (dget vecs v) as [n|] eqn:Ev.
    + rewrite Ev. exact (Hold n (V _ _ Ev) vecs V).
    + set (a := add_node s target v TConstraint). destruct a as [n s1] eqn:Ea. unfold a in Ea. rewrite dget_dset_eq.
      destruct (added s target v TConstraint I Kt) as (En & I1 & Kn & EL & Cn & Fr). rewrite Ea in En, I1, Kn, EL, Cn, Fr. cbn [fst snd] in En, I1, Kn, EL, Cn, Fr.
      pose proof (adds_leaf s1 n (f_title f) TSubarray x I1 Kn) as A1.
      destruct (adds_wrap s target v TConstraint x (let '(n1, s2) := add_node s1 n (f_title f) TSubarray in set_link s2 n1 n x) I Kt) as [_ A2]; [rewrite Ea; left; exact A1|].
      rewrite Ea in A2. cbn [fst] in A2. apply (Hgo (dset vecs v n)); [eapply adds_trans; eassumption|].
      intros v' n' E'. destruct (decide (v' = v)) as [->|Nv].
      * rewrite dget_dset_eq in E'. injection E' as <-.
        destruct A2 as (I3 & M3 & C3 & D3 & F3 & O3). set (s3 := bump_link _ n target x) in *.
        assert (C3t : (S (count s target) <= count s3 target)%nat).
        { change (count s3 target) with (count (let '(n1, s2) := add_node s1 n (f_title f) TSubarray in set_link s2 n1 n x) target).
          etransitivity; [|apply A1]. replace s1 with (snd (add_node s target v TConstraint)) by (rewrite Ea; reflexivity). rewrite count_add, decide_True by reflexivity. lia. }
        assert (Hk : (count s0 target <= count s target)%nat) by apply A.
        exists (S (count s target)). split; [exact En|]. split; [split; [lia|exact C3t]|].
        destruct (O3 n (fst (add_node s1 n (f_title f) TSubarray))) as (p & z & Ez & Ep).
        -- exists (S (count s target)), []. split; [exact En|lia].
        -- unfold s3. cbn [add_node fst bump_link set_link links]. apply dkeys_dset_In. right. apply dkeys_dset_In. left. reflexivity.
        -- rewrite En in Ez. apply app_inj_tail in Ez as [<- _]. exact Ep.
      * rewrite dget_dset_ne in E' by exact Nv. eapply vecok_later; [apply (V v' n' E')|exact A2].
  - destruct (dget vecs v) as [n|] eqn:Ev; [exact (Hold n (V _ _ Ev) vecs V)|exact (Hnew vecs V)].
  - exact (Hnew vecs V).
Qed.

Section TreeInd.
Variable P : tree R -> Prop.
Hypothesis HL : forall c, P (Leaf c).
Hypothesis HS : forall k title labels cs, Forall P cs -> P (Set_ k title labels cs).
Fixpoint tree_ind' (t : tree R) : P t :=
  match t with
  | Leaf c => HL c
  | Set_ k title labels cs => HS k title labels cs ((fix each (cs : list (tree R)) : Forall P cs := match cs with [] => Forall_nil_2 P | c :: cs' => Forall_cons_2 P c cs' (tree_ind' c) (each cs') end) cs)
  end.
End TreeInd.

Definition fsum (var : option nat) (l : list (fvar R)) : R := match var with None => lsum abs_var_sens l | Some _ => 0 end.
Definition tsum (var : option nat) (labeled : bool) (t : tree R) : R := lsum (leaf_sens var) (cons_of t) + fsum var (fixed_of labeled t).
Lemma lsum_app {A} (f : A -> R) l1 l2 : lsum f (l1 ++ l2) = lsum f l1 + lsum f l2.
Proof. induction l1 as [|a l1 IH]; simpl; [lra|rewrite IH; lra]. Qed.
Lemma fsum_app var l1 l2 : fsum var (l1 ++ l2) = fsum var l1 + fsum var l2.
Proof. destruct var; simpl; [lra|apply lsum_app]. Qed.
Lemma tsum_set var labeled k title labels cs : tsum var labeled (Set_ k title labels cs) =
  fsum var (match k with Named fixed => if labeled then [] else List.filter f_const fixed | _ => [] end)
  + lsum (tsum var (match labels with [] => false | _ => true end)) cs.
Proof.
  unfold tsum at 1. cbn [cons_of fixed_of]. rewrite fsum_app. set (b := match labels with [] => false | _ => true end).
  enough (E : lsum (leaf_sens var) ((fix each cs := match cs with [] => [] | c :: cs' => cons_of c ++ each cs' end) cs)
    + fsum var ((fix each cs := match cs with [] => [] | c :: cs' => fixed_of b c ++ each cs' end) cs) = lsum (tsum var b) cs) by lra.
  induction cs as [|c cs IH]; [change (lsum (leaf_sens var) [] + fsum var [] = 0); destruct var; simpl; lra|]. cbn [lsum]. rewrite lsum_app, fsum_app, <- IH. unfold tsum. lra.
Qed.
Lemma position_ok (k : kind R) labels i : (k = Dict \/ forall n, ~ In (KInt n) (map fst labels)) -> position k labels i = i.
Proof.
  intros [->|H]; [reflexivity|]. unfold position. destruct k; try reflexivity; (replace (dget labels (KInt i)) with (@None nat); [reflexivity|]; symmetry; apply dget_None; apply H).
Qed.

Definition link_ok (var : option nat) (t : tree R) : Prop := forall top labeled sub target s, inv s -> known s target ->
  fst (link t top labeled sub var target s) = tsum var labeled t /\
  (adds target s (fst (link t top labeled sub var target s)) (snd (link t top labeled sub var target s)) \/ labeled = true /\ snd (link t top labeled sub var target s) = s).
(** The loops over the elements of a set *)
Lemma each_adds var cs : Forall (link_ok var) cs -> forall sub target total s, inv s -> known s target ->
  let r := (fix each cs total s := match cs with [] => (total, s) | c :: cs' => let '(x, s) := link c false false sub var target s in each cs' (nadd total x) s end) cs total s in
  fst r = total + lsum (tsum var false) cs /\ adds target s (lsum (tsum var false) cs) (snd r).
Proof.
  induction 1 as [|c cs Hc _ IH]; intros sub target total s I K; [simpl; split; [lra|apply adds_refl; exact I]|].
  cbn [lsum]. destruct (Hc false false sub target s I K) as [E A]. destruct (link c false false sub var target s) as [x s1]. cbn [fst snd] in E, A.
  destruct A as [A|[A _]]; [|discriminate]. destruct (IH sub target (total + x) s1 (adds_inv _ _ _ _ A) (adds_known _ _ _ _ _ A K)) as [E1 A1].
  change (nadd total x) with (total + x). split; [rewrite E1, E; lra|]. rewrite <- E. eapply adds_trans; eassumption.
Qed.
Lemma labeled_adds var (k : kind R) labels0 (Hp : forall i, position k labels0 i = i) cs : Forall (link_ok var) cs -> forall labels pre target total s, inv s -> known s target ->
  map snd labels = seq (length pre) (length cs) ->
  let r := fold_left (fun '(total, s) '(ky, i) =>
              let '(source, s) := add_node s target (key_title ky) TNone in
              let '(x, s) := nth (position k labels0 i) (pre ++ map (fun c => link c false true false var) cs) (fun _ s => (n0, s)) source s in
              (nadd total x, bump_link s source target x)) labels (total, s) in
  fst r = total + lsum (tsum var true) cs /\ adds target s (lsum (tsum var true) cs) (snd r).
Proof.
  induction 1 as [|c cs Hc _ IH]; intros labels pre target total s I K El.
  - destruct labels; [|discriminate]. simpl. split; [lra|apply adds_refl; exact I].
  - destruct labels as [|[ky i] labels]; [discriminate|]. cbn [map snd length seq] in El. injection El as -> El. cbn [fold_left map lsum]. rewrite Hp.
    destruct (added s target (key_title ky) TNone I K) as (_ & I1 & Kn & _).
    assert (HW := fun x s2 => adds_wrap s target (key_title ky) TNone x s2 I K).
    destruct (add_node s target (key_title ky) TNone) as [n s1]. cbn [fst snd] in I1, Kn, HW.
    rewrite app_nth2 by lia. rewrite Nat.sub_diag. cbn [nth].
    destruct (Hc false true false n s1 I1 Kn) as [E A]. destruct (link c false true false var n s1) as [x s2]. cbn [fst snd] in E, A.
    destruct (HW x s2) as [_ A1]; [destruct A as [A|[_ A]]; [left; exact A|right; exact A]|].
    set (s3 := bump_link s2 n target x) in *.
    destruct (IH labels (pre ++ [fun t s => link c false true false var t s]) target (total + x) s3 (adds_inv _ _ _ _ A1) (adds_known _ _ _ _ _ A1 K)) as [E2 A2].
    { rewrite app_length. cbn. rewrite Nat.add_1_r. exact El. }
    rewrite <- app_assoc in E2, A2. cbn [app] in E2, A2. change (nadd total x) with (total + x). split; [etransitivity; [exact E2|rewrite E; lra]|].
    rewrite <- E. eapply adds_trans; [exact A1|exact A2].
Qed.
Definition elems (var : option nat) (k : kind R) (labels : list (key * nat)) (cs : list (tree R)) (sub : bool) (target : node) (total : R) (s : st) : R * st :=
  match labels with
  | [] => (fix each cs total s := match cs with [] => (total, s) | c :: cs' => let '(x, s) := link c false false sub var target s in each cs' (nadd total x) s end) cs total s
  | _ => fold_left (fun '(total, s) '(ky, i) =>
              let '(source, s) := add_node s target (key_title ky) TNone in
              let '(x, s) := nth (position k labels i) (map (fun c => link c false true false var) cs) (fun _ s => (n0, s)) source s in
              (nadd total x, bump_link s source target x)) labels (total, s)
  end.
Definition start (var : option nat) (k : kind R) (title : nat) (top labeled sub : bool) (target : node) (s : st) : option node * node * R * bool * st :=
  match k with
  | Named fixed =>
      if labeled then (None, target, n0, sub, s)
      else
        let '(switched, target, s) := if top then (None, target, s) else let '(n, s) := add_node s target title TNone in (Some target, n, s) in
        let '(x, s) := match var with None => linkfixed fixed [] target n0 s | Some _ => (n0, s) end in
        (switched, target, nadd n0 x, sub, s)
  | Array true => let '(n, s) := add_node s target title TConstraint in (Some target, n, n0, true, s)
  | _ => (None, target, n0, sub, s)
  end.
Lemma link_set k title labels cs top labeled sub var target s : link (Set_ k title labels cs) top labeled sub var target s =
  let '(switched, target, total, sub, s) := start var k title top labeled sub target s in
  let '(total, s) := elems var k labels cs sub target total s in
  (total, match switched with Some up => bump_link s target up total | None => s end).
Proof. reflexivity. Qed.
Lemma start_adds var k title top labeled sub target s : inv s -> known s target ->
  let '(switched, target', total, sub', s') := start var k title top labeled sub target s in
  total = fsum var (match k with Named fixed => if labeled then [] else List.filter f_const fixed | _ => [] end) /\
  ((switched = None /\ target' = target /\ adds target s total s') \/
   (switched = Some target /\ exists ti tg, target' = fst (add_node s target ti tg) /\ adds target' (snd (add_node s target ti tg)) total s')).
Proof.
  intros I K. assert (Z : fsum var [] = 0) by (destruct var; reflexivity).
  destruct k as [| |many|fixed]; unfold start; [rewrite Z; split; [reflexivity|left; split; [reflexivity|split; [reflexivity|apply adds_refl; exact I]]]..| |].
  - destruct many; rewrite Z; [|split; [reflexivity|left; split; [reflexivity|split; [reflexivity|apply adds_refl; exact I]]]].
    destruct (added s target title TConstraint I K) as (_ & I1 & _). destruct (add_node s target title TConstraint) as [n s1] eqn:Ea.
    split; [reflexivity|]. right. split; [reflexivity|]. exists title, TConstraint. rewrite Ea. split; [reflexivity|]. apply adds_refl. exact I1.
  - destruct labeled; [rewrite Z; split; [reflexivity|left; split; [reflexivity|split; [reflexivity|apply adds_refl; exact I]]]|].
    assert (HF : forall target' s', inv s' -> known s' target' -> let '(x, s1) := match var with None => linkfixed fixed [] target' n0 s' | Some _ => (n0, s') end in
      nadd n0 x = fsum var (List.filter f_const fixed) /\ adds target' s' (nadd n0 x) s1).
    { intros target' s' I' K'. change (@n0 R R_num) with 0. cbn [nadd R_num]. destruct var as [v|]; cbn [fsum].
      - rewrite Rplus_0_l. split; [reflexivity|apply adds_refl; exact I'].
      - destruct (linkfixed_adds target' s' fixed K' [] s' 0 (adds_refl _ _ I') ltac:(intros v n Ev; discriminate)) as [E A].
        destruct (linkfixed fixed [] target' 0 s') as [x s1]. cbn [fst snd] in E, A. rewrite Rplus_0_l. split; [lra|exact A]. }
    destruct top.
    + specialize (HF target s I K). destruct (match var with None => linkfixed fixed [] target n0 s | Some _ => (n0, s) end) as [x s1]. destruct HF as [E A].
      split; [exact E|]. left. auto.
    + destruct (added s target title TNone I K) as (_ & I1 & Kn & _). specialize (HF _ _ I1 Kn).
      destruct (add_node s target title TNone) as [n s1] eqn:Ea. cbn [fst snd] in HF.
      destruct (match var with None => linkfixed fixed [] n n0 s1 | Some _ => (n0, s1) end) as [x s2]. destruct HF as [E A].
      split; [exact E|]. right. split; [reflexivity|]. exists title, TNone. rewrite Ea. auto.
Qed.
Lemma link_adds var t : labels_ok t -> link_ok var t.
Proof.
  induction t as [c|k title labels cs IH] using tree_ind'; intros W top labeled sub target s I K.
  - assert (E : tsum var labeled (Leaf c) = leaf_sens var c) by (unfold tsum; cbn; destruct var; simpl; lra). rewrite E.
    cbn [link]. destruct labeled; [split; [reflexivity|right; split; reflexivity]|].
    pose proof (adds_leaf s target (c_title c) (if sub then TSubarray else TConstraint) (leaf_sens var c) I K) as A.
    destruct (add_node s target (c_title c) _) as [n s1]. split; [reflexivity|left; exact A].
  - destruct W as (Wl & Wk & Wc).
    assert (Hcs : Forall (link_ok var) cs).
    { clear Wl. induction IH as [|c cs Hc _ IHc]; [constructor|]. destruct Wc as [W1 W2]. constructor; [apply Hc; exact W1|apply IHc; exact W2]. }
    clear IH Wc. rewrite tsum_set. set (Y := lsum (tsum var (match labels with [] => false | _ => true end)) cs).
    assert (H2 : forall sub' target' total' s', inv s' -> known s' target' -> let '(total, s2) := elems var k labels cs sub' target' total' s' in total = total' + Y /\ adds target' s' Y s2).
    { intros sub' target' total' s' I' K'. assert (G : fst (elems var k labels cs sub' target' total' s') = total' + Y /\ adds target' s' Y (snd (elems var k labels cs sub' target' total' s'))).
      { unfold Y. pose proof (fun i => position_ok k labels i Wk) as Hp. unfold elems. destruct labels as [|l0 labels']; [apply each_adds; assumption|].
        destruct Wl as [Wl|Wl]; [discriminate|]. apply (labeled_adds var k (l0 :: labels') Hp cs Hcs (l0 :: labels') []); assumption. }
      destruct (elems _ _ _ _ _ _ _ _) as [total s2]. exact G. }
    rewrite link_set. pose proof (start_adds var k title top labeled sub target s I K) as HS.
    destruct (start var k title top labeled sub target s) as [[[[switched target'] total0] sub'] s1]. destruct HS as [-> HS].
    set (x0 := fsum var _) in *. destruct HS as [(-> & -> & A)|(-> & ti & tg & -> & A)].
    + specialize (H2 sub' target x0 s1 (adds_inv _ _ _ _ A) (adds_known _ _ _ _ _ A K)). destruct (elems _ _ _ _ _ _ _ _) as [total s2]. destruct H2 as [-> A2].
      cbn [fst snd]. split; [reflexivity|]. left. eapply adds_trans; eassumption.
    + destruct (added s target ti tg I K) as (_ & I1 & Kn & _).
      specialize (H2 sub' _ x0 s1 (adds_inv _ _ _ _ A) (adds_known _ _ _ _ _ A Kn)). destruct (elems _ _ _ _ _ _ _ _) as [total s2]. destruct H2 as [-> A2].
      cbn [fst snd]. split; [reflexivity|]. left. apply (adds_wrap s target ti tg (x0 + Y) s2 I K). left. eapply adds_trans; eassumption.
Qed.
