(** Proofs about flattening (C25). *)
From Verif Require Import Base Flat.
From Coq Require Import Sorting.Sorted.
Open Scope nat_scope.

Section FlatProofs.
Context {C : Type}.
Notation item := (item C).

(** Induction over nested members. *)
Section Ind.
Variable P : item -> Prop.
Hypothesis Hleaf : forall c, P (Leaf c).
Hypothesis Hset : forall id l, Forall P l -> P (CSet id l).
Hypothesis Hlst : forall l, Forall P l -> P (Lst l).
Hypothesis Hdct : forall kvs, Forall (fun kv => P (snd kv)) kvs -> P (Dct kvs).
Hypothesis Harr : forall l, Forall P l -> P (Arr l).
Hypothesis Harrc : forall l, Forall P l -> P (ArrC l).
Fixpoint item_ind' (i : item) : P i :=
  let all := fix all (l : list item) : Forall P l :=
    match l with [] => List.Forall_nil _ | x :: l' => List.Forall_cons P x l' (item_ind' x) (all l') end in
  match i with
  | Leaf c => Hleaf c
  | CSet id l => Hset id l (all l)
  | Lst l => Hlst l (all l)
  | Dct kvs => Hdct kvs ((fix alld (l : list (nat * item)) : Forall (fun kv => P (snd kv)) l :=
      match l with [] => List.Forall_nil _ | x :: l' => List.Forall_cons (fun kv => P (snd kv)) x l' (item_ind' (snd x)) (alld l') end) kvs)
  | Arr l => Harr l (all l)
  | ArrC l => Harrc l (all l)
  end.
End Ind.

Lemma plain_all (l : list item) :
  (fix all l := match l with [] => True | x :: l' => plain_arrays x /\ all l' end) l <-> Forall plain_arrays l.
Proof. induction l; simpl; [split; auto|]. rewrite IHl. split; [intros [? ?]; constructor; auto|inversion 1; auto]. Qed.
Lemma plain_alld (l : list (nat * item)) :
  (fix all l := match l with [] => True | (_, x) :: l' => plain_arrays x /\ all l' end) l <-> Forall (fun kv => plain_arrays (snd kv)) l.
Proof. induction l as [|[k x] l IH]; simpl; [split; auto|]. rewrite IH. split; [intros [? ?]; constructor; auto|inversion 1; auto]. Qed.

Lemma flat_map_ext' {X Y} (f g : X -> list Y) l : (forall x, In x l -> f x = g x) -> flat_map f l = flat_map g l.
Proof. induction l; simpl; auto. intros H. rewrite H, IHl; auto. Qed.

(** ** Composing *)

Section Order.
Variable order : list nat -> list nat -> Prop.
Hypothesis Heq : forall a p q, order p q -> order (a :: p) (a :: q).
Hypothesis Hlt : forall a b p q, a < b -> order (a :: p) (b :: q).
Variable wanted : item -> Prop.

Definition item_lists (i : item) (out : list item) : Prop :=
  exists ps, StronglySorted order ps /\ (forall p, In p ps <-> exists j, at_item i p = Some j /\ wanted j) /\
    Forall2 (fun p j => at_item i p = Some j) ps out.

Lemma sorted_map f ps : (forall p q, order p q -> order (f p) (f q)) -> StronglySorted order ps -> StronglySorted order (map f ps).
Proof.
  intros Hf. induction 1 as [|p ps Hs IH Hp]; simpl; constructor; auto.
  rewrite List.Forall_forall in *. intros q Hq. apply in_map_iff in Hq as (q' & <- & Hq'). auto.
Qed.
Lemma sorted_app ps qs : StronglySorted order ps -> StronglySorted order qs -> (forall p q, In p ps -> In q qs -> order p q) ->
  StronglySorted order (ps ++ qs).
Proof.
  intros Hp Hq H. induction Hp as [|p ps Hs IH Hf]; simpl; auto. constructor.
  - apply IH. intros; apply H; simpl; auto.
  - rewrite List.Forall_forall in *. intros x Hx. apply in_app_or in Hx as [Hx|Hx]; auto. apply H; simpl; auto.
Qed.

Lemma Forall2_map {X Y Z} (R : Y -> Z -> Prop) (f : X -> Y) xs zs : Forall2 (fun x z => R (f x) z) xs zs -> Forall2 R (map f xs) zs.
Proof. induction 1; simpl; constructor; auto. Qed.

(** One path further in. *)
Definition bump (p : list nat) : list nat := match p with [] => [] | n :: p' => S n :: p' end.

(** Simplifying assumption on order for bumping: both orders compare positions. *)
Hypothesis Hbump : forall a p b q, order (a :: p) (b :: q) -> order (S a :: p) (S b :: q).

Lemma lists_flat (f : item -> list item) (l : list item) :
  (forall i, In i l -> item_lists i (f i)) -> lists_all order l wanted (flat_map f l).
Proof.
  induction l as [|i l IH]; intros H.
  - exists []. split; [constructor|]. split; [|constructor]. intros p. split; [intros []|].
    intros (j & E & _). destruct p; simpl in E; discriminate.
  - destruct (H i (or_introl eq_refl)) as (ps & Hs & Hin & Hall).
    destruct IH as (ps' & Hs' & Hin' & Hall'); [intros; apply H; right; auto|].
    assert (Hne : forall p, In p ps' -> exists n q, p = n :: q).
    { intros p Hp. apply Hin' in Hp as (j & E & _). destruct p; [discriminate|eauto]. }
    exists (map (cons 0) ps ++ map bump ps'). split; [|split].
    + apply sorted_app.
      * apply sorted_map; auto.
      * clear - Hs' Hne Hbump. induction Hs' as [|p ps Hs IH Hp]; simpl; constructor.
        -- apply IH. intros; apply Hne; right; auto.
        -- rewrite List.Forall_forall in *. intros q Hq. apply in_map_iff in Hq as (q' & <- & Hq').
           destruct (Hne p (or_introl eq_refl)) as (a & p0 & ->). destruct (Hne q' (or_intror Hq')) as (b & q0 & ->).
           simpl. apply Hbump. auto.
      * intros p q Hp Hq. apply in_map_iff in Hp as (p' & <- & _). apply in_map_iff in Hq as (q' & <- & Hq).
        destruct (Hne q' Hq) as (n & q0 & ->). simpl. apply Hlt. lia.
    + intros p. rewrite in_app_iff, !in_map_iff. split.
      * intros [(p' & <- & Hp)|(p' & <- & Hp)].
        -- apply Hin in Hp as (j & E & Hw). exists j. split; auto.
        -- apply Hin' in Hp as (j & E & Hw). exists j. split; auto. destruct p'; [discriminate|]. exact E.
      * intros (j & E & Hw). destruct p as [|[|n] p']; [discriminate| |].
        -- left. exists p'. split; auto. apply Hin. eauto.
        -- right. exists (n :: p'). split; auto. apply Hin'. eauto.
    + simpl. apply Forall2_app.
      * apply Forall2_map. exact Hall.
      * apply Forall2_map. clear - Hall' Hne. induction Hall' as [|p j ps' out' E Hall IH]; constructor.
        -- destruct p; [discriminate|]. exact E.
        -- apply IH. intros; apply Hne; right; auto.
Qed.

(** From the members of an item to the item. *)
Lemma item_from (i : item) out : lists_all order (members i) wanted out -> ~ wanted i -> item_lists i out.
Proof.
  intros (ps & Hs & Hin & Hall) Hw. exists ps. split; [auto|]. split.
  - intros p. rewrite Hin. split; intros (j & E & Hj); exists j; split; auto.
    + destruct p; [discriminate|exact E].
    + destruct p; simpl in E; [injection E as <-; contradiction|exact E].
  - eapply Forall2_impl; [exact Hall|]. intros p j E. destruct p; [discriminate|exact E].
Qed.
Lemma item_last (i : item) out : lists_all order (members i) wanted out -> wanted i ->
  (forall n p, order (n :: p) []) -> item_lists i (out ++ [i]).
Proof.
  intros (ps & Hs & Hin & Hall) Hw Hl. 
  assert (Hne : forall p, In p ps -> exists n q, p = n :: q).
  { intros p Hp. apply Hin in Hp as (j & E & _). destruct p; [discriminate|eauto]. }
  exists (ps ++ [[]]). split; [|split].
  - apply sorted_app; [auto|repeat constructor|]. intros p q Hp [<-|[]]. destruct (Hne p Hp) as (n & p' & ->). auto.
  - intros p. rewrite in_app_iff, Hin. simpl. split.
    + intros [(j & E & Hj)|[<-|[]]]; [exists j; split; [destruct p; [discriminate|exact E]|auto]|exists i; split; auto].
    + intros (j & E & Hj). destruct p as [|n p]; [auto|]. left. exists j. split; auto.
  - apply Forall2_app; [|constructor; [reflexivity|constructor]].
    eapply Forall2_impl; [exact Hall|]. intros p j E. destruct p; [discriminate|exact E].
Qed.
Lemma item_self (i : item) : members i = [] -> wanted i -> item_lists i [i].
Proof.
  intros Hm Hw. exists [[]]. split; [repeat constructor|]. split; [|repeat constructor].
  intros p. split; [intros [<-|[]]; simpl; eauto|]. intros (j & E & Hj). destruct p as [|n p]; [left; auto|]. simpl in E. rewrite Hm in E. discriminate.
Qed.
Lemma item_none (i : item) : members i = [] -> ~ wanted i -> item_lists i [].
Proof.
  intros Hm Hw. apply item_from; auto. rewrite Hm. apply (lists_flat (fun _ => [])). intros j [].
Qed.
End Order.

Lemma before_eq a p q : before p q -> before (a :: p) (a :: q). Proof. simpl. auto. Qed.
Lemma before_lt a b p q : a < b -> before (a :: p) (b :: q). Proof. simpl. auto. Qed.
Lemma before_bump a p b q : before (a :: p) (b :: q) -> before (S a :: p) (S b :: q).
Proof. simpl. intros [?|[-> ?]]; [left; lia|right; auto]. Qed.
Lemma out_eq a p q : inside_out p q -> inside_out (a :: p) (a :: q). Proof. simpl. auto. Qed.
Lemma out_lt a b p q : a < b -> inside_out (a :: p) (b :: q). Proof. simpl. auto. Qed.
Lemma out_bump a p b q : inside_out (a :: p) (b :: q) -> inside_out (S a :: p) (S b :: q).
Proof. simpl. intros [?|[-> ?]]; [left; lia|right; auto]. Qed.

(** ** Flattening *)

Lemma flat_map_snd {X Y Z} (f : Y -> list Z) (l : list (X * Y)) : flat_map (fun kv => f (snd kv)) l = flat_map f (map snd l).
Proof. induction l; simpl; congruence. Qed.

Lemma visit_leaves (i : item) : plain_arrays i -> item_lists before is_leaf i (visit (fun _ => false) i).
Proof.
  induction i as [c|id l IH|l IH|kvs IH|l IH|l IH] using item_ind'; intros Hp.
  - apply item_self; [auto|exact I].
  - simpl in Hp. apply plain_all in Hp. simpl visit. rewrite List.Forall_forall in *. apply item_from; [|intros []].
    apply lists_flat; auto using before_eq, before_lt, before_bump.
  - simpl in Hp. apply plain_all in Hp. simpl visit. rewrite List.Forall_forall in *. apply item_from; [|intros []].
    apply lists_flat; auto using before_eq, before_lt, before_bump.
  - simpl in Hp. apply plain_alld in Hp. simpl visit. rewrite flat_map_snd. apply item_from; [|intros []].
    apply lists_flat; auto using before_eq, before_lt, before_bump. intros i Hi. simpl in Hi. apply in_map_iff in Hi as (kv & <- & Hkv).
    rewrite List.Forall_forall in *. apply IH; auto.
  - simpl in Hp. simpl visit. apply item_from; [|intros []]. replace l with (flat_map (fun i => [i]) l) at 2 by (clear; induction l; simpl; congruence).
    apply lists_flat; auto using before_eq, before_lt, before_bump. intros i Hi. rewrite List.Forall_forall in Hp. simpl in Hi.
    specialize (Hp i Hi). destruct i; try contradiction. apply item_self; [auto|exact I].
  - simpl in Hp. apply plain_all in Hp. simpl visit. rewrite List.Forall_forall in *. apply item_from; [|intros []].
    apply lists_flat; auto using before_eq, before_lt, before_bump.
Qed.

Lemma flat_leaves (l : list item) : Forall plain_arrays l -> lists_all before l is_leaf (flat l).
Proof.
  intros Hp. apply lists_flat; auto using before_eq, before_lt, before_bump. intros i Hi. rewrite List.Forall_forall in Hp.
  apply visit_leaves. auto.
Qed.

Lemma visit_are_leaves (i : item) : plain_arrays i -> Forall is_leaf (visit (fun _ => false) i).
Proof.
  induction i as [c|id l IH|l IH|kvs IH|l IH|l IH] using item_ind'; intros Hp; simpl in *; auto.
  - apply plain_all in Hp. apply List.Forall_forall. intros x Hx. apply in_flat_map in Hx as (j & Hj & Hx). rewrite List.Forall_forall in *.
    specialize (IH j Hj (Hp j Hj)). rewrite List.Forall_forall in IH. auto.
  - apply plain_all in Hp. apply List.Forall_forall. intros x Hx. apply in_flat_map in Hx as (j & Hj & Hx). rewrite List.Forall_forall in *.
    specialize (IH j Hj (Hp j Hj)). rewrite List.Forall_forall in IH. auto.
  - apply plain_alld in Hp. apply List.Forall_forall. intros x Hx. apply in_flat_map in Hx as (j & Hj & Hx). rewrite List.Forall_forall in *.
    specialize (IH j Hj (Hp j Hj)). rewrite List.Forall_forall in IH. auto.
  - apply plain_all in Hp. apply List.Forall_forall. intros x Hx. apply in_flat_map in Hx as (j & Hj & Hx). rewrite List.Forall_forall in *.
    specialize (IH j Hj (Hp j Hj)). rewrite List.Forall_forall in IH. auto.
Qed.

(** ** Processing results *)

Definition set_id (i : item) : nat := match i with CSet id _ => id | _ => 0 end.
Definition is_set (i : item) : Prop := match i with CSet _ _ => True | _ => False end.

(** [processed] without the names. *)
Fixpoint sets_in (fuel : nat) (l : list item) : list item :=
  match fuel with
  | 0 => []
  | S fuel' => flat_map (fun i => match i with CSet _ l' => sets_in fuel' l' ++ [i] | _ => [] end) (flatiter is_cset l)
  end.
Lemma depth_in (l : list item) i n : list_max (map depth l) < n -> In i l -> depth i < n.
Proof.
  intros H Hi. pose proof (proj1 (list_max_le (map depth l) (list_max (map depth l))) ltac:(lia)) as Hall.
  rewrite List.Forall_forall in Hall. specialize (Hall (depth i) (in_map _ _ _ Hi)). lia.
Qed.

Lemma flat_map_flat_map {X Y Z} (f : Y -> list Z) (g : X -> list Y) l : flat_map f (flat_map g l) = flat_map (fun x => flat_map f (g x)) l.
Proof. induction l; simpl; auto. rewrite flat_map_app. congruence. Qed.

Lemma sets_lists fuel : forall l : list item, list_max (map depth l) < fuel -> Forall plain_arrays l ->
  lists_all inside_out l is_set (sets_in fuel l).
Proof.
  induction fuel as [|fuel IHf]; intros l Hd Hp; [lia|].
  simpl sets_in. set (g := fun i : item => match i with CSet _ l' => sets_in fuel l' ++ [i] | _ => [] end).
  unfold flatiter. rewrite flat_map_flat_map. apply lists_flat; auto using out_eq, out_lt, out_bump.
  intros i Hi. assert (Hdi : depth i < S fuel) by (eapply depth_in; eauto). rewrite List.Forall_forall in Hp. specialize (Hp i Hi).
  clear - IHf Hdi Hp. induction i as [c|id l IH|l IH|kvs IH|l IH|l IH] using item_ind'; simpl in Hp.
  - apply item_none; auto using out_eq, out_lt, out_bump.
  - apply plain_all in Hp. simpl. rewrite app_nil_r. apply item_last; [|exact I|simpl; auto].
    apply IHf; auto. simpl in Hdi. lia.
  - apply plain_all in Hp. simpl visit. rewrite flat_map_flat_map. apply item_from; [|intros []].
    apply lists_flat; auto using out_eq, out_lt, out_bump. intros i Hi. rewrite List.Forall_forall in *. apply IH; auto. eapply depth_in; eauto.
  - apply plain_alld in Hp. simpl visit. rewrite flat_map_flat_map. rewrite (flat_map_snd (fun i => flat_map g (visit is_cset i))).
    apply item_from; [|intros []]. apply lists_flat; auto using out_eq, out_lt, out_bump. intros i Hi. simpl in Hi.
    apply in_map_iff in Hi as (kv & <- & Hkv). rewrite List.Forall_forall in *. apply IH; auto.
    + eapply (depth_in (map snd kvs)); [rewrite map_map; exact Hdi|apply in_map; auto].
  - simpl visit. apply item_from; [|intros []]. apply lists_flat; auto using out_eq, out_lt, out_bump. intros i Hi. simpl in Hi.
    rewrite List.Forall_forall in Hp. specialize (Hp i Hi). destruct i; try contradiction. simpl. apply item_none; auto using out_eq, out_lt, out_bump.
  - apply plain_all in Hp. simpl visit. rewrite flat_map_flat_map. apply item_from; [|intros []].
    apply lists_flat; auto using out_eq, out_lt, out_bump. intros i Hi. rewrite List.Forall_forall in *. apply IH; auto. eapply depth_in; eauto.
Qed.

Lemma map_flat_map {X Y Z} (f : Y -> Z) (g : X -> list Y) l : map f (flat_map g l) = flat_map (fun x => map f (g x)) l.
Proof. induction l; simpl; auto. rewrite map_app. congruence. Qed.
Lemma processed_sets fuel : forall id (l : list item), 0 < fuel -> list_max (map depth l) < fuel -> Forall plain_arrays l ->
  processed fuel id l = map set_id (sets_in fuel l) ++ [id].
Proof.
  induction fuel as [|fuel IH]; intros id l H0 Hd Hp; [lia|]. simpl. f_equal. rewrite map_flat_map.
  assert (G : forall i, In i (flatiter is_cset l) -> is_set i -> depth i < S fuel /\ plain_arrays i).
  { intros i Hi Hs. unfold flatiter in Hi. apply in_flat_map in Hi as (j & Hj & Hi).
    assert (Hdj : depth j < S fuel) by (eapply depth_in; eauto). rewrite List.Forall_forall in Hp. specialize (Hp j Hj).
    clear - Hdj Hp Hi Hs. induction j as [c|id l IH|l IH|kvs IH|l IH|l IH] using item_ind'; simpl in *.
    - destruct Hi as [<-|[]]. contradiction.
    - destruct Hi as [<-|[]]. auto.
    - apply plain_all in Hp. apply in_flat_map in Hi as (j & Hj & Hi). rewrite List.Forall_forall in *. eapply (IH j); eauto. eapply depth_in; eauto.
    - apply plain_alld in Hp. apply in_flat_map in Hi as (j & Hj & Hi). rewrite List.Forall_forall in *. eapply (IH j); eauto.
      + eapply (depth_in (map snd kvs)); [rewrite map_map; exact Hdj|apply in_map; auto].
    - rewrite List.Forall_forall in Hp. specialize (Hp i Hi). destruct i; contradiction.
    - apply plain_all in Hp. apply in_flat_map in Hi as (j & Hj & Hi). rewrite List.Forall_forall in *. eapply (IH j); eauto. eapply depth_in; eauto. }
  induction (flatiter is_cset l) as [|i m IHm]; simpl; auto. rewrite IHm by (intros; apply G; simpl; auto). f_equal.
  destruct i as [c|id' l'|l'|kvs|l'|l']; auto. destruct (G (CSet id' l')) as [Hd' Hp']; simpl; auto. simpl in Hp', Hd'. apply plain_all in Hp'.
  rewrite map_app. simpl. apply IH; auto; lia.
Qed.

(** ** Hmaps *)

Section Hmaps.
Context {H : Type}.
Variable gen : C -> res (list H).
Definition gens (i : item) (hs : list H) : Prop := exists c, i = Leaf c /\ gen c = Ok hs.

(** What the chain of the members found makes. *)
Lemma Forall2_app_iff {X Y} (R : X -> Y -> Prop) xs xs' zs :
  Forall2 R (xs ++ xs') zs <-> exists ys ys', zs = ys ++ ys' /\ Forall2 R xs ys /\ Forall2 R xs' ys'.
Proof.
  split; [|intros (ys & ys' & -> & ? & ?); apply Forall2_app; auto].
  intros E. apply Forall2_app_inv_l in E as (ys & ys' & H1 & H2 & ->). eauto.
Qed.

Lemma chain_spec fuel ms hs :
  (forall i l, In i ms -> i = l -> is_leaf i \/ exists id l', i = CSet id l' /\
     forall hs, set_hmaps gen fuel l' = Ok hs <-> exists hss, Forall2 gens (flat l') hss /\ hs = concat hss) ->
  (let! xs := early gen ms in chained (set_hmaps gen fuel) xs) = Ok hs <->
  exists hss, Forall2 gens (flat_map (visit (fun _ => false)) ms) hss /\ hs = concat hss.
Proof.
  revert hs. induction ms as [|m ms IH]; intros hs Hm.
  - simpl. split; [intros [= <-]; exists []; split; [constructor|auto]|intros (hss & Hf & ->); inversion Hf; auto].
  - assert (IH' := fun hs => IH hs (fun i l Hi => Hm i l (or_intror Hi))). clear IH.
    simpl flat_map. destruct (Hm m m (or_introl eq_refl) eq_refl) as [Hl|(id & l' & -> & Hs)].
    + destruct m as [c| | | | |]; try contradiction. simpl.
      destruct (gen c) as [g|e] eqn:Eg; simpl.
      * destruct (early gen ms) as [xs|e] eqn:Ex; simpl in *.
        -- destruct (chained (set_hmaps gen fuel) xs) as [hs'|e] eqn:Ec; simpl.
           ++ split.
              ** intros [= <-]. destruct (proj1 (IH' hs') eq_refl) as (hss & Hf & ->). exists (g :: hss). split; [constructor; [exists c; auto|auto]|auto].
              ** intros (hss & Hf & ->). inversion Hf as [|? ? ? hss' (c' & Ei & Ec') Hf']; subst. injection Ei as <-. rewrite Eg in Ec'. injection Ec' as <-.
                 assert (Ok hs' = Ok (concat hss')) as [= ->] by (apply IH'; eauto). auto.
           ++ split; [discriminate|]. intros (hss & Hf & ->). inversion Hf as [|? ? ? hss' _ Hf']; subst.
              assert (Err e = Ok (concat hss')) by (apply IH'; eauto). discriminate.
        -- split; [discriminate|]. intros (hss & Hf & ->). inversion Hf as [|? ? ? hss' _ Hf']; subst.
           assert (Err e = Ok (concat hss')) by (apply IH'; eauto). discriminate.
      * split; [discriminate|]. intros (hss & Hf & ->). inversion Hf as [|? ? ? hss' (c' & Ei & Ec') Hf']; subst. injection Ei as <-. congruence.
    + simpl. rename Hs into Hset. fold (flat l') in *. change (flat_map (visit (fun _ => false)) l') with (flat l').
      destruct (early gen ms) as [xs|e] eqn:Ex; simpl in *.
      * destruct (set_hmaps gen fuel l') as [g|e] eqn:Eg; simpl.
        -- destruct (proj1 (Hset g) eq_refl) as (gs & Hgs & ->).
           destruct (chained (set_hmaps gen fuel) xs) as [hs'|e] eqn:Ec; simpl.
           ++ destruct (proj1 (IH' hs') eq_refl) as (hss & Hf & ->). split.
              ** intros [= <-]. exists (gs ++ hss). split; [apply Forall2_app; auto|rewrite concat_app; auto].
              ** intros (hss' & Hf' & ->). apply Forall2_app_iff in Hf' as (ys & ys' & -> & H1 & H2).
                 rewrite concat_app. assert (Ok (concat gs) = Ok (concat ys)) as [= ->] by (apply Hset; eauto).
                 assert (Ok (concat hss) = Ok (concat ys')) as [= ->] by (apply IH'; eauto). auto.
           ++ split; [discriminate|]. intros (hss' & Hf' & ->). apply Forall2_app_iff in Hf' as (ys & ys' & -> & H1 & H2).
              assert (Err e = Ok (concat ys')) by (apply IH'; eauto). discriminate.
        -- split; [discriminate|]. intros (hss' & Hf' & ->). apply Forall2_app_iff in Hf' as (ys & ys' & -> & H1 & H2).
           assert (Err e = Ok (concat ys)) by (apply Hset; eauto). discriminate.
      * split; [discriminate|]. intros (hss' & Hf' & ->). apply Forall2_app_iff in Hf' as (ys & ys' & -> & H1 & H2).
        assert (Err e = Ok (concat ys')) by (apply IH'; eauto). discriminate.
Qed.

(** Flattening in two steps. *)
Lemma visit_visit (i : item) : plain_arrays i -> flat_map (visit (fun _ => false)) (visit is_cset i) = visit (fun _ => false) i.
Proof.
  induction i as [c|id l IH|l IH|kvs IH|l IH|l IH] using item_ind'; intros Hp; simpl in *; auto.
  - rewrite app_nil_r. auto.
  - apply plain_all in Hp. rewrite flat_map_flat_map. apply flat_map_ext'. intros i Hi. rewrite List.Forall_forall in *. auto.
  - apply plain_alld in Hp. rewrite flat_map_flat_map. apply flat_map_ext'. intros i Hi. rewrite List.Forall_forall in *. apply IH; auto.
  - induction l as [|i l IHl]; simpl; auto. inversion Hp; subst. inversion IH; subst. rewrite IHl; auto. destruct i; try contradiction. auto.
  - apply plain_all in Hp. rewrite flat_map_flat_map. apply flat_map_ext'. intros i Hi. rewrite List.Forall_forall in *. auto.
Qed.

Lemma visit_kinds (i j : item) n : plain_arrays i -> depth i < n -> In j (visit is_cset i) ->
  is_leaf j \/ exists id l', j = CSet id l' /\ depth j < n /\ plain_arrays j.
Proof.
  revert j. induction i as [c|id l IH|l IH|kvs IH|l IH|l IH] using item_ind'; intros j Hp Hd Hj; simpl in *.
  - destruct Hj as [<-|[]]. left. exact I.
  - destruct Hj as [<-|[]]. right. eauto.
  - apply plain_all in Hp. apply in_flat_map in Hj as (k & Hk & Hj). rewrite List.Forall_forall in *. eapply (IH k); eauto. eapply depth_in; eauto.
  - apply plain_alld in Hp. apply in_flat_map in Hj as (k & Hk & Hj). rewrite List.Forall_forall in *. eapply (IH k); eauto.
    eapply (depth_in (map snd kvs)); [rewrite map_map; exact Hd|apply in_map; auto].
  - rewrite List.Forall_forall in Hp. left. auto.
  - apply plain_all in Hp. apply in_flat_map in Hj as (k & Hk & Hj). rewrite List.Forall_forall in *. eapply (IH k); eauto. eapply depth_in; eauto.
Qed.

Lemma set_hmaps_spec fuel : forall l hs, list_max (map depth l) < fuel -> Forall plain_arrays l ->
  set_hmaps gen fuel l = Ok hs <-> exists hss, Forall2 gens (flat l) hss /\ hs = concat hss.
Proof.
  induction fuel as [|fuel IH]; intros l hs Hd Hp; [lia|]. simpl set_hmaps.
  rewrite chain_spec.
  - replace (flat_map (visit (fun _ => false)) (flatiter is_cset l)) with (flat l); [reflexivity|].
    unfold flat, flatiter. rewrite flat_map_flat_map. apply flat_map_ext'. intros i Hi. symmetry. apply visit_visit.
    rewrite List.Forall_forall in Hp. auto.
  - intros i ? Hi <-. unfold flatiter in Hi. apply in_flat_map in Hi as (j & Hj & Hi). rewrite List.Forall_forall in Hp.
    destruct (visit_kinds j i (S fuel) (Hp j Hj) ltac:(eapply depth_in; eauto) Hi) as [Hl|(id & l' & -> & Hd' & Hp')]; [auto|].
    right. exists id, l'. split; [auto|]. intros hs'. simpl in Hd', Hp'. apply plain_all in Hp'. apply IH; [lia|auto].
Qed.
End Hmaps.

(** ** Numbering *)

Lemma map_fst_combine {X Y} (l : list X) : forall (m : list Y), length l = length m -> map fst (combine l m) = l.
Proof. induction l; intros [|y m] H; simpl in *; try discriminate; auto. f_equal. auto. Qed.
Lemma map_snd_combine {X Y} (l : list X) : forall (m : list Y), length l = length m -> map snd (combine l m) = m.
Proof. induction l; intros [|y m] H; simpl in *; try discriminate; auto. f_equal. auto. Qed.

Lemma numbered_ok n : forall l i, i + length l <= n -> numbered n i l = Ok (combine (seq i (length l)) l) (A := list (nat * item)).
Proof.
  induction l as [|c l IH]; intros i H; simpl in *; auto. replace (i <? n) with true by (symmetry; apply Nat.ltb_lt; lia).
  rewrite IH by lia. auto.
Qed.
Lemma numbered_err n : forall l i, i <= n -> n < i + length l -> numbered (C := C) n i l = Err IndexErrorE.
Proof.
  induction l as [|c l IH]; intros i Hi H; simpl in *; [lia|]. destruct (i <? n) eqn:E; auto. apply Nat.ltb_lt in E.
  rewrite IH by lia. auto.
Qed.

(** Every member found, only once. *)
Lemma flat_of_leaves (l : list item) : Forall is_leaf l -> flat l = l.
Proof. unfold flat, flatiter. induction 1 as [|x l Hx Hl IH]; simpl; auto. rewrite IH. destruct x; try contradiction; auto. Qed.
End FlatProofs.
