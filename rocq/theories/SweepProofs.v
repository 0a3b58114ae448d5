(** Proofs about linked constants and sweeps (Sweep.v), with the specification they are stated in. *)
From Verif Require Import Base Sweep.
From Coq Require Import Permutation.
Open Scope nat_scope.

(** ** Specification *)

(** Every combination of the values swept over. *)
Fixpoint product {V} (sweep : list (nat * list V)) : list (list (nat * V)) :=
  match sweep with
  | [] => [[]]
  | (k, vals) :: sweep' => flat_map (fun v => map (cons (k, v)) (product sweep')) vals
  end.

(** Differentiating does not change values. *)
Definition ad_agrees {V} (ls : list (link V)) : Prop :=
  forall l env v, In l ls -> l_ad l env = Ok v -> l_plain l env = Ok v.
(** Linked functions that only read constants that are not themselves linked. *)
Definition reads_no_linked {V} (ls : list (link V)) : Prop :=
  forall l env env', In l ls -> (forall k, ~ In k (map l_key ls) -> env k = env' k) ->
    l_ad l env = l_ad l env' /\ l_plain l env = l_plain l env'.

(** Constants [c] are those of [base], with the swept variables set to their values in the combination and linked
    ones to what their functions give for them. *)
Definition called_with {V} (base : list (nat * V)) (ls : list (link V)) (combo c : list (nat * V)) : Prop :=
  (forall k v, In (k, v) combo -> dget c k = Some v) /\
  (forall k, ~ In k (map fst combo) -> ~ In k (map l_key ls) -> dget c k = dget base k) /\
  (forall l, In l ls -> exists v, l_plain l (dget c) = Ok v /\ dget c (l_key l) = Some v).

(** The constants as changed by a combination, before linked ones. *)
Definition overlay {V} (base combo : list (nat * V)) (k : nat) : option V :=
  match dget combo k with Some v => Some v | None => dget base k end.
Definition links_work {V} (base combo : list (nat * V)) (ls : list (link V)) : Prop :=
  forall l, In l ls -> exists v, l_plain l (overlay base combo) = Ok v.

(** What the program or its solver may say when there is no solution. *)
Definition kind_of_infeasible (e : exn) : bool :=
  match e with
  | InfeasibleE => true | PrimalInfeasibleE => true | DualInfeasibleE => true | UnknownInfeasibleE => true
  | _ => false
  end.
Lemma infeasible_kinds e : infeasible e = kind_of_infeasible e.
Proof. destruct e; reflexivity. Qed.
(** A solve after which the sweep goes on; the results among some outcomes. *)
Definition settled {R} (skip : bool) (o : res R) : Prop :=
  match o with Ok _ => True | Err e => skip = true /\ kind_of_infeasible e = true end.
Fixpoint oks {R} (l : list (res R)) : list R :=
  match l with [] => [] | Ok r :: l' => r :: oks l' | Err _ :: l' => oks l' end.

(** ** Enumerating *)

Lemma seq_blocks n s : seq 0 (n * s) = flat_map (fun j => map (fun i => j * s + i) (seq 0 s)) (seq 0 n).
Proof.
  assert (G : forall n a, seq (a * s) (n * s) = flat_map (fun j => map (fun i => j * s + i) (seq 0 s)) (seq a n)).
  { clear. induction n as [|n IH]; intros a; simpl; auto. rewrite seq_app, <- (IH (S a)). simpl. f_equal; [|f_equal; lia].
    clear. generalize (a * s). intros b. assert (H : forall m z, seq (b + z) m = map (fun i => b + i) (seq z m)).
    { induction m as [|m IH]; intros z; simpl; auto. f_equal. rewrite <- IH. f_equal. lia. }
    specialize (H s 0). rewrite Nat.add_0_r in H. exact H. }
  apply (G n 0).
Qed.

Fixpoint prods (shape : list nat) : list (list nat) :=
  match shape with
  | [] => [[]]
  | n :: r => flat_map (fun j => map (cons j) (prods r)) (seq 0 n)
  end.
Lemma map_flat_map {A B C} (f : B -> C) (g : A -> list B) l : map f (flat_map g l) = flat_map (fun x => map f (g x)) l.
Proof. induction l; simpl; auto. rewrite map_app, IHl. auto. Qed.
Lemma flat_map_eq {A B} (f g : A -> list B) l : (forall x, In x l -> f x = g x) -> flat_map f l = flat_map g l.
Proof. induction l; simpl; auto. intros H. rewrite H, IHl; auto. Qed.

Lemma unravel_all shape : map (unravel shape) (seq 0 (size shape)) = prods shape.
Proof.
  induction shape as [|n r IH]; auto. simpl size. rewrite seq_blocks, map_flat_map. simpl prods. apply flat_map_eq. intros j Hj.
  rewrite map_map, <- IH, map_map. apply map_ext_in. intros i Hi. apply in_seq in Hi. simpl.
  rewrite Nat.div_add_l by lia. rewrite Nat.div_small by lia. rewrite Nat.add_0_r. f_equal. f_equal.
  rewrite Nat.add_comm, Nat.mod_add by lia. apply Nat.mod_small. lia.
Qed.

Lemma flat_map_nil {A B} (l : list A) : flat_map (fun _ => @nil B) l = [].
Proof. induction l; auto. Qed.
Lemma flat_map_app_perm {A B} (f g : A -> list B) l : Permutation (flat_map (fun x => f x ++ g x) l) (flat_map f l ++ flat_map g l).
Proof.
  induction l as [|a l IH]; simpl; auto. rewrite IH. rewrite <- !app_assoc. apply Permutation_app_head.
  rewrite !app_assoc. apply Permutation_app_tail. apply Permutation_app_comm.
Qed.
Lemma flat_map_swap {A B C} (f : A -> B -> list C) xs ys :
  Permutation (flat_map (fun x => flat_map (fun y => f x y) ys) xs) (flat_map (fun y => flat_map (fun x => f x y) xs) ys).
Proof.
  induction xs as [|x xs IH]; simpl; [rewrite flat_map_nil; auto|]. rewrite IH. symmetry. apply flat_map_app_perm.
Qed.
Lemma prods_swap lens : Permutation (map swap2 (prods (swap2 lens))) (prods lens).
Proof.
  destruct lens as [|a [|b r]].
  - simpl. auto.
  - simpl. rewrite map_flat_map. simpl. auto.
  - change (swap2 (a :: b :: r)) with (b :: a :: r). simpl prods. rewrite map_flat_map.
    rewrite (flat_map_eq _ (fun j => flat_map (fun i => map (fun l => i :: j :: l) (prods r)) (seq 0 a))).
    2: { intros j _. rewrite map_map, !map_flat_map. apply flat_map_eq. intros i _. rewrite map_map. auto. }
    rewrite (flat_map_swap (fun j i => map (fun l => i :: j :: l) (prods r))).
    rewrite (flat_map_eq (fun i => flat_map (fun j => map (fun l => i :: j :: l) (prods r)) (seq 0 b))
              (fun j => map (cons j) (flat_map (fun j0 => map (cons j0) (prods r)) (seq 0 b)))); auto.
    intros i _. rewrite map_flat_map. apply flat_map_eq. intros j _. rewrite map_map. auto.
Qed.

Section Passes.
Context {V : Type}.
Implicit Types sweep : list (nat * list V).

Lemma assign_all sweep : map (assign sweep) (prods (lengths sweep)) = map Ok (product sweep).
Proof.
  induction sweep as [|[k vals] sweep IH]; auto. simpl prods. simpl product. rewrite !map_flat_map.
  assert (G : forall (pre vs : list V) (g : V -> list (res (list (nat * V)))) ,
    flat_map (fun j => match nth_error (pre ++ vs) j with Some v => g v | None => [] end) (seq (length pre) (length vs)) = flat_map g vs).
  { intros pre vs g. revert pre. induction vs as [|v vs IHv]; intros pre; simpl; auto.
    rewrite nth_error_app2, Nat.sub_diag by lia. simpl. f_equal.
    specialize (IHv (pre ++ [v])). rewrite app_length in IHv. simpl in IHv. rewrite Nat.add_1_r, <- app_assoc in IHv. exact IHv. }
  specialize (G [] vals (fun v => map Ok (map (cons (k, v)) (product sweep)))). simpl in G. rewrite <- G.
  apply flat_map_eq. intros j Hj. apply in_seq in Hj. rewrite map_map.
  destruct (nth_error vals j) as [v|] eqn:E; [|apply nth_error_None in E; simpl in Hj; lia].
  rewrite map_map. transitivity (map (fun r => let! x := r in Ok ((k, v) :: x)) (map (assign sweep) (prods (lengths sweep)))).
  - rewrite map_map. apply map_ext. intros idx. simpl. rewrite E. auto.
  - rewrite IH, map_map. apply map_ext. auto.
Qed.

Lemma passes_all sweep : exists combos, map (pass sweep) (seq 0 (n_passes sweep)) = map Ok combos /\ Permutation combos (product sweep).
Proof.
  assert (E : map (pass sweep) (seq 0 (n_passes sweep)) = map (assign sweep) (map swap2 (prods (swap2 (lengths sweep))))).
  { rewrite <- unravel_all, !map_map. apply map_ext. auto. }
  assert (Hp : Permutation (map (pass sweep) (seq 0 (n_passes sweep))) (map Ok (product sweep))).
  { rewrite E, <- assign_all. apply Permutation_map. apply prods_swap. }
  destruct (Permutation_map_inv _ _ Hp) as (combos & Ec & Hc). exists combos. split; auto. symmetry. auto.
Qed.

Lemma product_keys sweep combo : In combo (product sweep) -> map fst combo = map fst sweep.
Proof.
  revert combo. induction sweep as [|[k vals] sweep IH]; intros combo; simpl; [intros [<-|[]]; auto|].
  intros Hin. apply in_flat_map in Hin as (v & _ & Hin). apply in_map_iff in Hin as (r & <- & Hr). simpl. f_equal. auto.
Qed.

(** ** Updating *)

Lemma update_get (e d : list (nat * V)) k : NoDup (map fst e) -> dget (update d e) k = match dget e k with Some v => Some v | None => dget d k end.
Proof.
  unfold update. revert d. induction e as [|[n v] e IH]; intros d Hnd; auto. inversion Hnd as [|? ? Hn Hnd']; subst. cbn [fold_left fst snd].
  rewrite IH by auto. simpl. destruct (decide (k = n)) as [->|Hk].
  - assert (Hnone : dget e n = None). { destruct (dget e n) eqn:E; auto. apply dget_In_keys in E. exfalso. apply Hn. apply elem_of_list_In. exact E. }
    rewrite Hnone, dget_dset_eq. auto.
  - rewrite dget_dset_ne by auto. auto.
Qed.
Lemma dget_none_keys (e : list (nat * V)) k : ~ In k (map fst e) -> dget e k = None.
Proof. intros Hn. destruct (dget e k) eqn:E; auto. apply dget_In_keys in E. exfalso. auto. Qed.

(** ** Linked constants *)

Section Links.
Variables (all : list (link V)) (env0 : nat -> option V).
Hypothesis Hr : reads_no_linked all.
Hypothesis Ha : ad_agrees all.

Definition like0 (env : nat -> option V) : Prop := forall k, ~ In k (map l_key all) -> env k = env0 k.

Lemma linked_ok ls : forall kdc plain constants,
  (forall l, In l ls -> In l all) -> NoDup (map l_key ls) -> like0 kdc -> (forall p, plain = Some p -> like0 p) -> like0 (dget constants) ->
  (forall l, In l ls -> exists v, l_plain l env0 = Ok v) ->
  exists c, linked_loop false kdc plain ls constants = Ok c /\
    (forall l, In l ls -> exists v, l_plain l env0 = Ok v /\ dget c (l_key l) = Some v) /\
    (forall k, ~ In k (map l_key ls) -> dget c k = dget constants k).
Proof.
  induction ls as [|l ls IH]; intros kdc plain constants Hin Hnd Hk Hp Hc Hok; simpl.
  - exists constants. split; auto. split; auto. intros l [].
  - inversion Hnd as [|? ? Hn Hnd']; subst. destruct (Hok l (or_introl eq_refl)) as (v & Hv).
    assert (Hset : forall x, like0 (dget (dset constants (l_key l) x))).
    { intros x k Hkk. rewrite dget_dset_ne; auto. intros ->. apply Hkk. apply in_map. apply Hin. left. auto. }
    assert (Hfin : forall c, (forall l', In l' ls -> exists v, l_plain l' env0 = Ok v /\ dget c (l_key l') = Some v) ->
      (forall k, ~ In k (map l_key ls) -> dget c k = dget (dset constants (l_key l) v) k) ->
      (forall l', l = l' \/ In l' ls -> exists v, l_plain l' env0 = Ok v /\ dget c (l_key l') = Some v) /\
      (forall k, ~ (l_key l = k \/ In k (map l_key ls)) -> dget c k = dget constants k)).
    { intros c C1 C2. split.
      - intros l' [<-|Hl']; auto. exists v. split; auto. rewrite C2; [apply dget_dset_eq|]. intros H'. apply Hn, elem_of_list_In. auto.
      - intros k Hkk. rewrite C2 by tauto. apply dget_dset_ne. intros E. apply Hkk. auto. }
    destruct (l_ad l kdc) as [w|e] eqn:E.
    + assert (w = v) as ->.
      { apply Ha in E; [|apply Hin; left; auto]. rewrite (proj2 (Hr l kdc env0 (Hin l (or_introl eq_refl)) Hk)) in E. congruence. }
      destruct (IH kdc plain (dset constants (l_key l) v)) as (c & Ec & C1 & C2); auto.
      * intros; apply Hin; right; auto.
      * intros; apply Hok; right; auto.
      * exists c. split; auto.
    + set (p := match plain with Some p => p | None => dget constants end).
      assert (Hpp : like0 p). { unfold p. destruct plain; auto. }
      rewrite (proj2 (Hr l p env0 (Hin l (or_introl eq_refl)) Hpp)), Hv. simpl.
      destruct (IH kdc (Some p) (dset constants (l_key l) v)) as (c & Ec & C1 & C2); auto.
      * intros; apply Hin; right; auto.
      * intros q [= <-]. auto.
      * intros; apply Hok; right; auto.
      * exists c. split; auto.
Qed.
Lemma linked_ok_inv ls : forall kdc plain constants c,
  (forall l, In l ls -> In l all) -> like0 kdc -> (forall p, plain = Some p -> like0 p) -> like0 (dget constants) ->
  linked_loop false kdc plain ls constants = Ok c -> forall l, In l ls -> exists v, l_plain l env0 = Ok v.
Proof.
  induction ls as [|l ls IH]; intros kdc plain constants c Hin Hk Hp Hc E l'; simpl in *; [intros []|].
  assert (Hset : forall x, like0 (dget (dset constants (l_key l) x))).
  { intros x k Hkk. rewrite dget_dset_ne; auto. intros ->. apply Hkk. apply in_map. apply Hin. auto. }
  destruct (l_ad l kdc) as [w|e] eqn:Ea.
  - intros [<-|Hl]; [|exact (IH kdc plain _ c (fun l H => Hin l (or_intror H)) Hk Hp (Hset w) E l' Hl)]. exists w. apply Ha in Ea; auto.
    rewrite <- (proj2 (Hr l kdc env0 (Hin l (or_introl eq_refl)) Hk)). auto.
  - set (p := match plain with Some p => p | None => dget constants end) in *.
    assert (Hpp : like0 p). { unfold p. destruct plain; auto. }
    destruct (l_plain l p) as [v|e'] eqn:Ep; [|discriminate]. simpl in E.
    intros [<-|Hl].
    + exists v. rewrite <- (proj2 (Hr l p env0 (Hin l (or_introl eq_refl)) Hpp)). auto.
    + refine (IH kdc (Some p) _ c (fun l H => Hin l (or_intror H)) Hk _ (Hset v) E l' Hl). intros q [= <-]. auto.
Qed.
End Links.

Lemma evaluate_ok (ls : list (link V)) (constants : list (nat * V)) : reads_no_linked ls -> ad_agrees ls -> NoDup (map l_key ls) ->
  (forall l, In l ls -> exists v, l_plain l (dget constants) = Ok v) ->
  exists c, evaluate_linked false constants ls = Ok c /\
    (forall l, In l ls -> exists v, l_plain l (dget constants) = Ok v /\ dget c (l_key l) = Some v) /\
    (forall k, ~ In k (map l_key ls) -> dget c k = dget constants k).
Proof.
  intros Hr Ha Hnd Hok. apply (linked_ok ls (dget constants)); auto; try (intros k _; reflexivity). discriminate.
Qed.
Lemma evaluate_ok_inv (ls : list (link V)) (constants c : list (nat * V)) : reads_no_linked ls -> ad_agrees ls ->
  evaluate_linked false constants ls = Ok c -> forall l, In l ls -> exists v, l_plain l (dget constants) = Ok v.
Proof.
  intros Hr Ha E. eapply (linked_ok_inv ls (dget constants)); eauto; try (intros k _; reflexivity). discriminate.
Qed.

(** ** Sweeping *)

Section Loop.
Context {P R : Type}.
Variables (gen : (nat -> option V) -> res P) (solve : P -> res R) (skip : bool) (ls : list (link V)) (sweep : list (nat * list V)) (base : list (nat * V)).
Hypothesis Hgen : forall env, exists p, gen env = Ok p.
Hypothesis Hr : reads_no_linked ls.
Hypothesis Ha : ad_agrees ls.
Hypothesis Hnl : NoDup (map l_key ls).
Hypothesis Hns : NoDup (map fst sweep).
Hypothesis Hdis : forall k, In k (map fst sweep) -> ~ In k (map l_key ls).

Definition off_base (c : list (nat * V)) : Prop := forall k, ~ In k (map fst sweep) -> ~ In k (map l_key ls) -> dget c k = dget base k.

Lemma one_pass c combo : off_base c -> map fst combo = map fst sweep -> links_work base combo ls ->
  exists c', match ls with [] => Ok (update c combo) | _ => evaluate_linked false (update c combo) ls end = Ok c' /\ called_with base ls combo c' /\ off_base c'.
Proof.
  intros Hc Hk Hl. assert (Hnd : NoDup (map fst combo)) by (rewrite Hk; auto).
  assert (Hlike : forall k, ~ In k (map l_key ls) -> dget (update c combo) k = overlay base combo k).
  { intros k Hkl. rewrite update_get by auto. unfold overlay. destruct (dget combo k) eqn:E; auto. apply Hc; auto. rewrite <- Hk.
    intros Hin. apply dget_None in E. auto. }
  assert (Hok : forall l, In l ls -> exists v, l_plain l (dget (update c combo)) = Ok v).
  { intros l Hin. destruct (Hl l Hin) as (v & Hv). exists v. rewrite (proj2 (Hr l _ _ Hin Hlike)). auto. }
  destruct (evaluate_ok ls (update c combo) Hr Ha Hnl Hok) as (c' & E & C1 & C2).
  exists c'. split; [destruct ls; [simpl in E; auto|exact E]|].
  assert (Hcw : called_with base ls combo c').
  { split; [|split].
    - intros k v Hin. assert (Hd : dget combo k = Some v) by (apply In_dget; auto). rewrite C2.
      + rewrite update_get, Hd by auto. auto.
      + apply Hdis. rewrite <- Hk. apply in_map_iff. exists (k, v). auto.
    - intros k H1 H2. rewrite C2, Hlike by auto. unfold overlay. rewrite dget_none_keys by auto. auto.
    - intros l Hin. destruct (C1 l Hin) as (v & Hv & Hg). exists v. split; auto. rewrite <- Hv. apply Hr; auto. }
  split; auto. intros k H1 H2. apply Hcw; auto. rewrite Hk. auto.
Qed.

Lemma loop_spec is_ : forall combos c, map (pass sweep) is_ = map Ok combos -> off_base c ->
  (forall combo, In combo combos -> map fst combo = map fst sweep /\ links_work base combo ls) ->
  exists calls outcomes, fst (sweep_loop gen solve false skip ls sweep is_ c) = calls /\
    Forall2 (called_with base ls) (take (length calls) combos) calls /\
    Forall2 (fun c o => (let! p := gen (dget c) in solve p) = o) calls outcomes /\
    ((Forall (settled skip) outcomes /\ length calls = length combos /\ snd (sweep_loop gen solve false skip ls sweep is_ c) = Ok (oks outcomes)) \/
     (exists outs e, outcomes = outs ++ [Err e] /\ Forall (settled skip) outs /\ ~ settled (R := R) skip (Err e) /\
        snd (sweep_loop gen solve false skip ls sweep is_ c) = Err (if kind_of_infeasible e then RuntimeWarningE else e))).
Proof.
  induction is_ as [|i is_ IH]; intros [|combo combos] c Ep Hc Hcs; try discriminate.
  - exists [], []. simpl. repeat (split; [constructor|]). left. auto.
  - simpl in Ep. injection Ep as Ei Ep. destruct (Hcs combo (or_introl eq_refl)) as [Hk Hl].
    destruct (one_pass c combo Hc Hk Hl) as (c' & E & Hcw & Hc').
    simpl sweep_loop. rewrite Ei. simpl rbind. rewrite E. destruct (Hgen (dget c')) as (p & Hp). rewrite Hp.
    destruct (IH combos c' Ep Hc') as (calls & outcomes & E1 & H2 & H3 & H4); [intros; apply Hcs; right; auto|].
    destruct (sweep_loop gen solve false skip ls sweep is_ c') as [t out] eqn:Eloop. simpl in E1. subst t. simpl in H4.
    destruct (solve p) as [r|e] eqn:Es.
    + exists (c' :: calls), (Ok r :: outcomes). simpl. split; [auto|]. split; [constructor; auto|]. split; [constructor; auto; rewrite Hp; auto|].
      destruct H4 as [(F & L & O)|(outs & e & -> & F & N & O)].
      * left. split; [constructor; simpl; auto|]. split; [lia|]. rewrite O. auto.
      * right. exists (Ok r :: outs), e. split; auto. split; [constructor; simpl; auto|]. split; auto. rewrite O. auto.
    + rewrite (infeasible_kinds e) in *. destruct (kind_of_infeasible e) eqn:Ei'.
      * destruct skip eqn:Esk.
        -- exists (c' :: calls), (Err e :: outcomes). simpl. split; [auto|]. split; [constructor; auto|]. split; [constructor; auto; rewrite Hp; auto|].
           destruct H4 as [(F & L & O)|(outs & e' & -> & F & N & O)].
           ++ left. split; [constructor; simpl; auto|]. split; [lia|]. auto.
           ++ right. exists (Err e :: outs), e'. split; auto. split; [constructor; simpl; auto|]. auto.
        -- exists [c'], [Err e]. simpl. split; [auto|]. split; [constructor; [auto|constructor]|]. split; [constructor; [rewrite Hp; auto|constructor]|].
           right. exists [], e. split; auto. split; [constructor|]. split; [simpl; intros [? _]; discriminate|]. rewrite Ei'. auto.
      * exists [c'], [Err e]. simpl. split; [auto|]. split; [constructor; [auto|constructor]|]. split; [constructor; [rewrite Hp; auto|constructor]|].
        right. exists [], e. split; auto. split; [constructor|]. split; [simpl; intros [_ ?]; congruence|]. rewrite Ei'. auto.
Qed.
End Loop.
End Passes.
