(** C88: Evaluated variables. *)
From Verif Require Import Base Flat Evaluated.
Open Scope nat_scope.

Section C88.
Context {V : Type}.
Variable unique : nat -> list key.
Variable evalfn : nat -> option (dict V -> res (val V)).

(** A variable or vector declared in one of these sets, with a function, of which something is not in the solution *)
Definition unsolved (sets : list nat) (d : dict V) (k : nat) : Prop :=
  exists s v, In s sets /\ In v (unique s) /\ fst v = k /\ evalfn k <> None /\ there d v = false.
(** What a function returns depends only on these *)
Definition reads_only (K : nat -> Prop) (f : dict V -> res (val V)) : Prop :=
  forall d d', (forall k, K k -> dget d k = dget d' k) -> f d = f d'.
(** Functions read nothing that is evaluated in their own set or in sets that come later (the sets that a set is in, say). *)
Definition reads_earlier (sets : list nat) (d : dict V) : Prop :=
  forall a s b k f, sets = a ++ s :: b -> unsolved [s] d k -> evalfn k = Some f -> reads_only (fun k' => ~ unsolved (s :: b) d k') f.
(** Of a vector with a function, all is solved that is declared, or nothing is. *)
Definition all_or_nothing (sets : list nat) (d : dict V) : Prop := forall k, unsolved sets d k -> dget d k = None.
Definition free_is_variable (r : result V) : Prop := forall k, dget (variables r) k = None -> dget (freevariables r) k = None.

(** ** Proofs *)

Lemma merge_same (x : list (option V)) : merge x x = Ok x.
Proof. induction x as [|o x IH]; simpl; auto. rewrite IH. destruct o; auto. Qed.
Lemma put_new (d : dict V) k x : dget d k = None \/ dget d k = Some x -> exists d', put d k x = Ok d' /\ dget d' k = Some x /\ forall k', k' <> k -> dget d' k' = dget d k'.
Proof.
  intros H. unfold put.
  assert (G : exists d', Ok (dset d k x) = Ok d' /\ dget d' k = Some x /\ forall k', k' <> k -> dget d' k' = dget d k').
  { exists (dset d k x). split; auto. split; [apply dget_dset_eq|intros; apply dget_dset_ne; auto]. }
  destruct H as [->| ->]; auto. destruct x as [x|x]; auto. rewrite merge_same. exact G.
Qed.

(** [k] is evaluated: its value is that of its function *)
Definition good (r : result V) (k : nat) : Prop :=
  exists f x, evalfn k = Some f /\ f (variables r) = Ok x /\ dget (variables r) k = Some x /\ dget (freevariables r) k = Some x.

Lemma unsolved_app a b d k : unsolved (a ++ b) d k <-> unsolved a d k \/ unsolved b d k.
Proof.
  unfold unsolved. split.
  - intros (s & v & Hs & H). apply in_app_iff in Hs as [Hs|Hs]; [left|right]; eauto.
  - intros [(s & v & Hs & H)|(s & v & Hs & H)]; exists s, v; rewrite in_app_iff; auto.
Qed.

Definition unsolvedb (sets : list nat) (d : dict V) (k : nat) : bool :=
  existsb (fun s => existsb (fun v => (fst v =? k) && match evalfn k with Some _ => true | None => false end && negb (there d v)) (unique s)) sets.
Lemma unsolvedb_spec sets d k : unsolvedb sets d k = true <-> unsolved sets d k.
Proof.
  unfold unsolvedb, unsolved. rewrite existsb_exists. split.
  - intros (s & Hs & H). apply existsb_exists in H as (v & Hv & H). rewrite !andb_true_iff, negb_true_iff, Nat.eqb_eq in H.
    destruct H as [[H1 H2] H3]. exists s, v. destruct (evalfn k); [|discriminate]. repeat split; solve [auto | discriminate].
  - intros (s & v & Hs & Hv & <- & Hf & Ht). exists s. split; auto. apply existsb_exists. exists v. split; auto.
    rewrite Nat.eqb_refl, Ht. destruct (evalfn (fst v)); auto.
Qed.
Lemma unsolved_in s sets d k : In s sets -> unsolved [s] d k -> unsolved sets d k.
Proof. intros Hs (s' & v & [<-|[]] & H). exists s, v. auto. Qed.

(** What holds when the sets [a] are done, and [own] of the next: *)
Record going (r0 : result V) (a : list nat) (own : list nat) (r : result V) : Prop := {
  g_good : forall k, unsolved a (variables r0) k \/ In k own -> good r k;
  g_same : forall k, ~ (unsolved a (variables r0) k \/ In k own) -> dget (variables r) k = dget (variables r0) k /\ dget (freevariables r) k = dget (freevariables r0) k }.
Lemma done_dec a d k own : unsolved a d k \/ In k own \/ ~ (unsolved a d k \/ In k own).
Proof.
  destruct (unsolvedb a d k) eqn:E; [left; apply unsolvedb_spec; auto|]. destruct (in_dec Nat.eq_dec k own); auto.
  right. right. intros [H|H]; auto. apply unsolvedb_spec in H. congruence.
Qed.

Section Sets.
Variable sets : list nat.
Variable r0 : result V.
Hypothesis Hall : all_or_nothing sets (variables r0).
Hypothesis Hreads : reads_earlier sets (variables r0).
Hypothesis Hfree : free_is_variable r0.

Lemma one a s b own r k f x : sets = a ++ s :: b -> going r0 a own r -> (forall k, In k own -> unsolved [s] (variables r0) k) ->
  unsolved [s] (variables r0) k -> evalfn k = Some f -> f (variables r) = Ok x ->
  exists vars free, put (freevariables r) k x = Ok free /\ put (variables r) k x = Ok vars /\ going r0 a (k :: own) (Result vars free).
Proof.
  intros Es G Ho Hk Ef Ex.
  assert (Hs : unsolved sets (variables r0) k) by (eapply unsolved_in; [|exact Hk]; subst sets; apply in_app_iff; right; left; auto).
  assert (Hd : (dget (variables r) k = None \/ dget (variables r) k = Some x) /\ (dget (freevariables r) k = None \/ dget (freevariables r) k = Some x)).
  { destruct (done_dec a (variables r0) k own) as [H|[H|H]].
    - destruct (g_good _ _ _ _ G k (or_introl H)) as (f' & x' & E1 & E2 & E3 & E4). rewrite Ef in E1. injection E1 as <-. rewrite Ex in E2. injection E2 as <-. auto.
    - destruct (g_good _ _ _ _ G k (or_intror H)) as (f' & x' & E1 & E2 & E3 & E4). rewrite Ef in E1. injection E1 as <-. rewrite Ex in E2. injection E2 as <-. auto.
    - destruct (g_same _ _ _ _ G k H) as [-> ->]. rewrite (Hall k Hs). rewrite (Hfree k (Hall k Hs)). auto. }
  destruct (put_new (variables r) k x (proj1 Hd)) as (vars & E1 & E2 & E3). destruct (put_new (freevariables r) k x (proj2 Hd)) as (free & F1 & F2 & F3).
  exists vars, free. split; [auto|]. split; [auto|]. constructor; simpl.
  - intros k' Hk'.
    assert (Hsplit : exists a' s' b', sets = a' ++ s' :: b' /\ unsolved [s'] (variables r0) k' /\ In s (s' :: b')).
    { assert (Hown : In k' (k :: own) -> exists a' s' b', sets = a' ++ s' :: b' /\ unsolved [s'] (variables r0) k' /\ In s (s' :: b')).
      { intros H. exists a, s, b. split; [auto|]. split; [|left; auto]. destruct H as [<-|H]; auto. }
      destruct Hk' as [Hk'|Hk']; [|apply Hown; exact Hk'].
      destruct Hk' as (s' & v & Hs' & H). apply in_split in Hs' as (a1 & a2 & ->).
      exists a1, s', (a2 ++ s :: b). rewrite Es. rewrite <- app_assoc. split; [auto|]. split; [exists s', v; split; [left; auto|auto]|].
      right. apply in_app_iff. right. left. auto. }
    destruct Hsplit as (a' & s' & b' & Es' & Hk1 & Hin).
    assert (Hun : unsolved (s' :: b') (variables r0) k) by (eapply unsolved_in; eauto).
    assert (Hf : forall f', evalfn k' = Some f' -> f' vars = f' (variables r)).
    { intros f' Ef'. apply (Hreads a' s' b' k' f' Es' Hk1 Ef'). intros k2 Hk2. apply E3. intros ->. contradiction. }
    destruct (Nat.eq_dec k' k) as [->|Hne].
    + exists f, x. simpl. split; [auto|]. split; [rewrite Hf; auto|]. auto.
    + destruct (g_good _ _ _ _ G k') as (f' & x' & G1 & G2 & G3 & G4). { destruct Hk' as [?|[?|?]]; auto. congruence. }
      exists f', x'. simpl. split; [auto|]. split; [rewrite Hf; auto|]. rewrite E3, F3; auto.
  - intros k' Hk'. assert (k' <> k) by (intros ->; apply Hk'; right; left; auto). rewrite E3, F3 by auto.
    apply (g_same _ _ _ _ G). intros [?|?]; apply Hk'; auto.
Qed.

Lemma loop a s b : sets = a ++ s :: b -> forall vs own r, going r0 a own r -> (forall k, In k own -> unsolved [s] (variables r0) k) ->
  (forall k, In k vs -> unsolved [s] (variables r0) k) ->
  (forall r', evaluate evalfn vs r = Ok r' -> exists own', going r0 a own' r' /\ (forall k, In k own' <-> In k own \/ In k vs)) /\
  ((forall k f d, In k vs -> evalfn k = Some f -> exists x, f d = Ok x) -> exists r', evaluate evalfn vs r = Ok r').
Proof.
  intros Es. induction vs as [|k vs IH]; intros own r G Ho Hvs; cbn [evaluate].
  - split; [|eauto]. intros r' [= <-]. exists own. split; [auto|]. intros k. simpl. tauto.
  - assert (Hk : unsolved [s] (variables r0) k) by (apply Hvs; left; auto).
    assert (Hf : evalfn k <> None) by (destruct Hk as (s' & v & _ & _ & <- & H & _); auto).
    destruct (evalfn k) as [f|] eqn:Ef; [|congruence]. clear Hf.
    assert (Hx : forall x, f (variables r) = Ok x -> exists vars free, put (freevariables r) k x = Ok free /\ put (variables r) k x = Ok vars /\
      going r0 a (k :: own) (Result vars free)) by (intros x Ex; eapply one; eauto).
    assert (Ho' : forall k', In k' (k :: own) -> unsolved [s] (variables r0) k') by (intros k' [<-|?]; auto).
    assert (Hvs' : forall k', In k' vs -> unsolved [s] (variables r0) k') by (intros; apply Hvs; right; auto).
    split.
    + intros r' E. destruct (f (variables r)) as [x|] eqn:Ex; [|discriminate]. cbn [rbind] in E.
      destruct (Hx x eq_refl) as (vars & free & E1 & E2 & G'). rewrite E1 in E. cbn [rbind] in E. rewrite E2 in E. cbn [rbind] in E.
      destruct (proj1 (IH _ _ G' Ho' Hvs') r' E) as (own' & G2 & Hi). exists own'. split; [auto|]. intros k'. rewrite Hi. simpl. tauto.
    + intros Ht. destruct (Ht k f (variables r) (or_introl eq_refl) Ef) as (x & Ex). rewrite Ex. cbn [rbind].
      destruct (Hx x Ex) as (vars & free & E1 & E2 & G'). rewrite E1. cbn [rbind]. rewrite E2. cbn [rbind].
      apply (proj2 (IH _ _ G' Ho' Hvs')). intros k' f' d Hin. apply Ht. right. auto.
Qed.

Lemma vars_in a s b r : sets = a ++ s :: b -> going r0 a [] r ->
  forall k, In k (evalfn_vars unique evalfn s (variables r)) -> unsolved [s] (variables r0) k.
Proof.
  intros Es G k Hk. unfold evalfn_vars in Hk. apply elem_of_list_In, elem_of_remove_dups, elem_of_list_In, in_map_iff in Hk as (v & <- & Hv).
  apply filter_In in Hv as [Hu Hv]. destruct (evalfn (fst v)) as [f|] eqn:Ef; [|discriminate]. apply negb_true_iff in Hv.
  exists s, v. split; [left; auto|]. split; [auto|]. split; [auto|]. split; [congruence|].
  destruct (there (variables r0) v) eqn:Et; auto. exfalso.
  assert (Hs : dget (variables r0) (fst v) <> None) by (unfold there in Et; destruct (dget (variables r0) (fst v)); congruence).
  destruct (done_dec a (variables r0) (fst v) []) as [H|[H|H]]; [|destruct H|].
  - apply Hs, Hall. subst sets. apply unsolved_app. auto.
  - destruct (g_same _ _ _ _ G _ H) as [E _]. unfold there in *. rewrite E in Hv. congruence.
Qed.
Lemma vars_all a s r : going r0 a [] r ->
  forall k, unsolved [s] (variables r0) k -> In k (evalfn_vars unique evalfn s (variables r)) \/ unsolved a (variables r0) k.
Proof.
  intros G k (s' & v & [<-|[]] & Hu & <- & Hf & Ht).
  destruct (in_dec Nat.eq_dec (fst v) (evalfn_vars unique evalfn s (variables r))) as [|Hn]; auto. right.
  destruct (done_dec a (variables r0) (fst v) []) as [H|[H|H]]; [auto|destruct H|].
  exfalso. apply Hn. unfold evalfn_vars. apply elem_of_list_In, elem_of_remove_dups, elem_of_list_In, in_map_iff. exists v. split; auto.
  apply filter_In. split; auto. destruct (evalfn (fst v)); [|congruence].
  destruct (g_same _ _ _ _ G _ H) as [E _]. unfold there in *. rewrite E. rewrite Ht. auto.
Qed.

Variable order : list nat -> list nat.
Hypothesis Hord : forall l, Permutation (order l) l.

Lemma process_going b : forall a r, sets = a ++ b -> going r0 a [] r ->
  (forall r', process unique evalfn order b r = Ok r' -> going r0 sets [] r') /\
  ((forall k f d, unsolved sets (variables r0) k -> evalfn k = Some f -> exists x, f d = Ok x) -> exists r', process unique evalfn order b r = Ok r').
Proof.
  induction b as [|s b IH]; intros a r Es G; cbn [process].
  - rewrite app_nil_r in Es. subst a. split; [intros r' [= <-]; auto|eauto].
  - assert (Hin : forall k, In k (order (evalfn_vars unique evalfn s (variables r))) <-> In k (evalfn_vars unique evalfn s (variables r))).
    { intros k. split; apply Permutation_in; auto. symmetry. auto. }
    destruct (loop a s b Es (order (evalfn_vars unique evalfn s (variables r))) [] r G) as [L1 L2].
    + intros k [].
    + intros k Hk. apply (vars_in a s b r Es G). apply Hin. auto.
    + assert (Hnext : forall r1, evaluate evalfn (order (evalfn_vars unique evalfn s (variables r))) r = Ok r1 -> going r0 (a ++ [s]) [] r1).
      { intros r1 E1. destruct (L1 r1 E1) as (own & [Gg Gs] & Hown). 
        assert (Hiff : forall k, unsolved (a ++ [s]) (variables r0) k \/ In k [] <-> unsolved a (variables r0) k \/ In k own).
        { intros k. rewrite unsolved_app, Hown, Hin. simpl. split.
          - intros [[H|H]|[]]; auto. destruct (vars_all a s r G k H); auto.
          - intros [H|[[]|H]]; auto. left. right. apply (vars_in a s b r Es G). auto. }
        constructor; intros k Hk; [apply Gg|apply Gs]; rewrite <- Hiff; auto. }
      assert (Es' : sets = (a ++ [s]) ++ b) by (rewrite <- app_assoc; auto).
      destruct (evaluate evalfn (order (evalfn_vars unique evalfn s (variables r))) r) as [r1|e] eqn:E1; cbn [rbind].
      * apply (IH (a ++ [s]) r1 Es'). apply Hnext. auto.
      * split; [discriminate|]. intros Ht. destruct L2 as (r' & ?); [|discriminate].
        intros k f d Hk. apply Ht. eapply unsolved_in; [|apply (vars_in a s b r Es G); apply Hin; exact Hk]. subst sets. apply in_app_iff. right. left. auto.
Qed.
Lemma start : going r0 [] [] r0.
Proof. constructor; [intros k [(s & v & [] & _)|[]]|auto]. Qed.
End Sets.

(** ** The property *)

(** The value of a scalar, or of an element of a vector *)
Definition value (d : dict V) (v : key) : option V :=
  match dget d (fst v), snd v with
  | Some (Sc x), None => Some x
  | Some (Ve xs), Some i => match xs !! i with Some (Some x) => Some x | _ => None end
  | _, _ => None
  end.

(** In whatever order the variables of each set are gone through: every variable with a function that is not solved for has the value of its function
    at the final solution, in [variables] and in [freevariables], every other has the value it had, and so have elements of vectors that were
    solved for; nothing is raised unless a function raises. *)
Definition C88_for (cond : list nat -> dict V -> Prop) : Prop :=
  forall (C : Type) (fuel id : nat) (l : list (item C)) (order : list nat -> list nat) (r : result V),
  (forall l, Permutation (order l) l) -> free_is_variable r ->
  let sets := processed fuel id l in
  cond sets (variables r) ->
  (forall r', process_result unique evalfn order fuel id l r = Ok r' ->
     (forall k, unsolved sets (variables r) k -> exists f x, evalfn k = Some f /\ f (variables r') = Ok x /\
        dget (variables r') k = Some x /\ dget (freevariables r') k = Some x) /\
     (forall k, ~ unsolved sets (variables r) k -> dget (variables r') k = dget (variables r) k /\ dget (freevariables r') k = dget (freevariables r) k) /\
     (forall v x, value (variables r) v = Some x -> value (variables r') v = Some x)) /\
  ((forall k f d, unsolved sets (variables r) k -> evalfn k = Some f -> exists x, f d = Ok x) ->
     exists r', process_result unique evalfn order fuel id l r = Ok r').
End C88.

(** Missing: functions that read variables evaluated in their own set, vectors that are solved for in part. *)
Theorem C88_evaluated_partial : forall V unique (evalfn : nat -> option (dict V -> res (val V))),
  C88_for unique evalfn (fun sets d => reads_earlier unique evalfn sets d /\ all_or_nothing unique evalfn sets d).
Proof.
  intros V unique evalfn C fuel id l order r Ho Hf sets [Hr Ha].
  destruct (process_going unique evalfn sets r Ha Hr Hf order Ho sets [] r eq_refl) as [G1 G2]; [apply start|].
  split; [|exact G2]. intros r' E. specialize (G1 r' E).
  assert (Hsame : forall k, ~ unsolved unique evalfn sets (variables r) k -> dget (variables r') k = dget (variables r) k /\ dget (freevariables r') k = dget (freevariables r) k).
  { intros k Hk. apply (g_same _ _ _ _ _ _ G1 k). intros [H|[]]; auto. }
  split; [|split; [exact Hsame|]].
  - intros k Hk. apply (g_good _ _ _ _ _ _ G1 k). auto.
  - intros v x Hv. assert (Hn : ~ unsolved unique evalfn sets (variables r) (fst v)) by (intros H; apply Ha in H; unfold value in Hv; rewrite H in Hv; discriminate).
    unfold value in *. rewrite (proj1 (Hsame _ Hn)). exact Hv.
Qed.
Print Assumptions C88_evaluated_partial.

(** A model (set 0) with a component (set 1): [S] (0) is solved for, the component evaluates the vector [w] (1) from [S], the model evaluates
    [t] (2) from [w]. *)
Definition ex_unique (s : nat) : list key := match s with 0 => [(2, None); (0, None)] | _ => [(1, Some 0); (1, Some 1)] end.
Definition ex_evalfn (k : nat) : option (dict nat -> res (val nat)) :=
  match k with
  | 1 => Some (fun d => match dget d 0 with Some (Sc x) => Ok (Ve [Some x; Some (x * 2)]) | _ => Err KeyErrorE end)
  | 2 => Some (fun d => match dget d 1 with Some (Ve [Some x; Some y]) => Ok (Sc (x + y)) | _ => Err KeyErrorE end)
  | _ => None
  end.
Definition ex_sets : list (item nat) := [Leaf 7; CSet 1 [Leaf 8]].
Definition ex_result : result nat := Result [(0, Sc 5)] [(0, Sc 5)].
Example C88_example :
  reads_earlier ex_unique ex_evalfn (processed 5 0 ex_sets) (variables ex_result) /\ all_or_nothing ex_unique ex_evalfn (processed 5 0 ex_sets) (variables ex_result) /\
  free_is_variable ex_result /\
  process_result ex_unique ex_evalfn (@rev nat) 5 0 ex_sets ex_result =
    Ok (Result [(0, Sc 5); (1, Ve [Some 5; Some 10]); (2, Sc 15)] [(0, Sc 5); (1, Ve [Some 5; Some 10]); (2, Sc 15)]).
Proof.
  assert (Hu : forall s k, unsolved ex_unique ex_evalfn [s] (variables ex_result) k -> s = 0 /\ k = 2 \/ s <> 0 /\ k = 1).
  { intros s k (s' & v & [<-|[]] & Hv & <- & Hf & Ht). destruct s as [|s]; simpl in Hv.
    - destruct Hv as [<-|[<-|[]]]; [auto|discriminate].
    - right. split; [lia|]. destruct Hv as [<-|[<-|[]]]; auto. }
  split; [|split; [|split; [|reflexivity]]].
  - intros a s b k f Es Hk Ef. change (processed 5 0 ex_sets) with [1; 0] in Es.
    assert (H1 : s <> 0 -> ~ unsolved ex_unique ex_evalfn (s :: b) (variables ex_result) 0).
    { intros _ H. apply unsolvedb_spec in H. unfold unsolvedb in H. apply existsb_exists in H as (s' & _ & H). apply existsb_exists in H as (v & _ & H).
      rewrite !andb_true_iff in H. destruct H as [[_ H] _]. discriminate. }
    destruct a as [|a0 [|a1 a]]; simpl in Es.
    + injection Es as <- <-. destruct (Hu _ _ Hk) as [[? _]|[_ ->]]; [discriminate|]. injection Ef as <-. intros d d' Hd. cbn beta. rewrite (Hd 0); auto.
    + injection Es as <- <- <-. destruct (Hu _ _ Hk) as [[_ ->]|[? _]]; [|congruence]. injection Ef as <-. intros d d' Hd. cbn beta. rewrite (Hd 1); auto.
      intros H. destruct (Hu _ _ H) as [[_ ?]|[? _]]; congruence.
    + exfalso. injection Es as _ _ Es. destruct a; discriminate.
  - intros k (s & v & Hs & Hv & H). assert (Hk : unsolved ex_unique ex_evalfn [s] (variables ex_result) k) by (exists s, v; split; [left; auto|auto]).
    destruct (Hu _ _ Hk) as [[_ ->]|[_ ->]]; reflexivity.
  - intros k H. exact H.
Qed.

(** Not proved, because not so: whether a model in which a function reads what another one of the same model evaluates is solved, or raises KeyError,
    depends on the order in which a Python set is gone through; if the function has a default, it can be evaluated too early. *)
Definition chain_unique (s : nat) : list key := [(1, None); (2, None)].
Definition chain_evalfn (k : nat) : option (dict nat -> res (val nat)) :=
  match k with
  | 1 => Some (fun d => match dget d 0 with Some (Sc x) => Ok (Sc (x + 1)) | _ => Err KeyErrorE end)
  | 2 => Some (fun d => match dget d 1 with Some (Sc x) => Ok (Sc (x + 1)) | _ => Err KeyErrorE end)
  | _ => None
  end.
Definition default_evalfn (k : nat) : option (dict nat -> res (val nat)) :=
  match k with
  | 1 => Some (fun d => Ok (Sc 7))
  | 2 => Some (fun d => match dget d 1 with Some (Sc x) => Ok (Sc x) | _ => Ok (Sc 0) end)
  | _ => None
  end.
Theorem C88_same_set_refuted :
  (exists (l : list (item nat)) r o1 o2, (forall l, Permutation (o1 l) l) /\ (forall l, Permutation (o2 l) l) /\ free_is_variable r /\
     all_or_nothing chain_unique chain_evalfn (processed 5 0 l) (variables r) /\
     (exists r1, process_result chain_unique chain_evalfn o1 5 0 l r = Ok r1) /\ process_result chain_unique chain_evalfn o2 5 0 l r = Err KeyErrorE) /\
  ~ C88_for chain_unique default_evalfn (all_or_nothing chain_unique default_evalfn).
Proof.
  assert (Ho : forall l : list nat, Permutation (rev l) l) by (intros; symmetry; apply Permutation_rev).
  assert (Hall : forall fn sets, all_or_nothing chain_unique fn sets (variables ex_result)).
  { intros fn sets k (s & v & _ & Hv & <- & _). destruct Hv as [<-|[<-|[]]]; reflexivity. }
  split.
  - exists [Leaf 3], ex_result, (fun l => l), (@rev nat). repeat (split; [solve [auto | intros; reflexivity | intros k H; exact H | eexists; reflexivity]|]). reflexivity.
  - intros H. destruct (H nat 5 0 [Leaf 3] (@rev nat) ex_result Ho (fun k H => H) (Hall _ _)) as [G _].
    destruct (G _ eq_refl) as [G1 _]. destruct (G1 2) as (f & x & E1 & E2 & E3 & _).
    { exists 0, (2, None). simpl. repeat split; solve [auto | discriminate]. }
    injection E1 as <-. cbv in E2, E3. congruence.
Qed.
Print Assumptions C88_same_set_refuted.

(** Nor is this so: of a vector of which an element is solved for (or fixed) and another is not, the solved element's value is replaced by
    what the function gives for it. *)
Definition part_unique (s : nat) : list key := [(1, Some 0); (1, Some 1)].
Definition part_evalfn (k : nat) : option (dict nat -> res (val nat)) := match k with 1 => Some (fun d => Ok (Ve [Some 8; Some 9])) | _ => None end.
Definition part_result : result nat := Result [(1, Ve [Some 3; None])] [].
Theorem C88_part_of_vector_refuted : ~ C88_for part_unique part_evalfn (reads_earlier part_unique part_evalfn).
Proof.
  intros H. destruct (H nat 5 0 [Leaf 3] (fun l => l) part_result (fun l => Permutation_refl l)) as [G _].
  - intros k _. reflexivity.
  - intros a s b k f _ _ Ef d d' _. destruct k as [|[|k]]; try discriminate. injection Ef as <-. reflexivity.
  - destruct (G _ eq_refl) as (_ & _ & G3). specialize (G3 (1, Some 0) 3 eq_refl). discriminate.
Qed.
Print Assumptions C88_part_of_vector_refuted.
