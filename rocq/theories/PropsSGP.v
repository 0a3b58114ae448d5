(** C36-C38, C58: sequential geometric programs. *)
From Verif Require Import Base HashVec Nomial NomialSem NomialProofs Sub SubSem SubExtra Mono Constraint ConstraintSem
  MonoProofs ConstraintProofs GPGen GPGenProofs PropsGP SGP SGPSem LocalProofs SGPProofs ApproxProofs RebuildProofs.
Open Scope R_scope.

(** ** C37 *)

(** However the solver behaves, [localsolve] ends after at most
    [iteration_limit + 1] solves; when it returns, the last two costs are [a]
    and [b] with a relative improvement of at most [reltol] (and, unless it was
    told to be silent, not a rise); and it went on after each earlier pair of
    consecutive costs only because they improved by more, or one of them was a
    rise that made it start afresh. *)
Theorem C37_localsolve_stops :
  forall inf pick vks_of ord se (solver : solver_fn R) (verbosity limit : Z) (reltol : R) (s : sgp R) (x0 : gmap nat R),
  match localsolve inf pick vks_of ord se solver verbosity limit reltol s x0 with
  | OutOfFuel => False
  | Raised _ hist => (Z.of_nat (length hist) <= Z.max 0 (limit + 1))%Z
  | Returned hist =>
      (Z.of_nat (length hist) <= limit + 1)%Z /\
      exists earlier a b, costs hist = earlier ++ [a; b] /\ (a - b) / (a + b) <= reltol /\
        ((-1 < verbosity)%Z -> ~ rose a b) /\
        forall before c d after, earlier ++ [a] = before ++ [c; d] ++ after ->
          reltol < (c - d) / (c + d) \/
          ((-1 < verbosity)%Z /\ (rose c d \/ exists before' z, before = before' ++ [z] /\ rose z c))
  end.
Proof.
  intros. pose proof (localsolve_end inf pick vks_of ord se solver verbosity limit reltol s x0) as H.
  unfold good_end in H. destruct (localsolve _ _ _ _ _ _ _ _ _ _ _); auto.
  destruct H as (H1 & pre & a & b & H2 & H3 & H4 & H5). split; auto. exists pre, a, b.
  split; [auto|]. split; [exact H3|]. split; [auto|]. intros pre' c d post E.
  destruct (H5 _ _ _ _ E) as [H|[[Hh H]|[Hh H]]]; auto.
Qed.
Print Assumptions C37_localsolve_stops.

(** A concrete program: minimize x with z <= x^3 + 3/x + 13 and z >= 1; the
    variable of the relaxation is number 9. *)
Definition std_vks {T} (h : hmap T) : list nat := nodup Nat.eq_dec (flat_map (fun t => std_order (fst t)) h).
Definition qmap (l : list (nat * Q)) : gmap nat Q := list_to_map l.
Definition posy_only (l : list (list (nat * Q) * Q)) : sp_constr Q :=
  SPc (CPosy (CS None None) [map (fun t => (qmap (fst t), snd t)) l]).
Definition sig_le0 (l : list (list (nat * Q) * Q)) : sp_constr Q :=
  SPc (CSig (map (fun t => (qmap (fst t), snd t)) l)).
Definition cubic : list (sp_constr Q) :=
  [sig_le0 [([(1%nat, 1%Q)], 1%Q); ([(0%nat, 3%Q)], (-1)%Q); ([(0%nat, (-1)%Q)], (-3)%Q); ([], (-13)%Q)];
   posy_only [([(1%nat, (-1)%Q)], 1%Q)]].
Definition q_build slack cs (x0 : gmap nat Q) :=
  sgp_build 1000%Q std_schedule std_vks std_order true slack 200%Q [(qmap [(0%nat, 1%Q)], 1%Q)] cs ∅ x0.
Definition q_update := sgp_gp (T := Q) 1000%Q std_schedule std_vks std_order true.
Definition q_solve := localsolve (T := Q) 1000%Q std_schedule std_vks std_order true.

(** Solvers whose costs are the numbers of a list and whose points are ones. *)
Definition q_solver (l : list Q) : solver_fn Q := fun n g =>
  match l !! n with Some c => Ok (map (fun _ => 1%Q) (g_varlocs g), c) | None => Err UnknownInfeasibleE end.
Definition summary (r : res (outcome Q)) : option (bool * nat) :=
  match r with
  | Ok (Returned h) => Some (true, length h)
  | Ok (Raised InfeasibleE h) => Some (false, length h)
  | _ => None
  end.
Example C37_computed :
  summary (rmap (fun s => q_solve (q_solver [4; 2; 1; 1; 1]%Q) 0%Z 50%Z (1 # 10000)%Q s ∅) (q_build (Some 9%nat) cubic ∅))
    = Some (true, 4%nat) /\
  summary (rmap (fun s => q_solve (q_solver [4; 2; 1; 1; 1]%Q) 0%Z 2%Z (1 # 10000)%Q s ∅) (q_build (Some 9%nat) cubic ∅))
    = Some (false, 3%nat).
Proof. split; vm_compute; reflexivity. Qed.

(** ** C38 *)

(** After any sequence of calls of [gp], the program updated in place is the one
    that would be built around the point reached. [given] and [ok] restrict the
    sequences. *)
Definition C38_for (T : Type) `{Num T}
    (given : list (sp_constr T) -> sgp T -> gmap nat T -> Prop) (ok : sgp T -> sgp T -> Prop) : Prop :=
  forall (inf : T) pick vks_of ord se slack penalty cost cs fixed,
  any_iteration ord vks_of pick -> sigs_proper slack cs -> positive_values fixed ->
  forall pt s,
  updates (sgp_build inf pick vks_of ord se slack penalty cost cs fixed) (sgp_gp inf pick vks_of ord se)
    (given cs) ok fixed pt s ->
  exists f, sgp_build inf pick vks_of ord se slack penalty cost cs fixed pt = Ok f /\ same_gp (sg_gp s) (sg_gp f).

(** It is, if the points only give values to variables the program lists among
    [sgpvks] (where they occur in signomial constraints), and the approximations
    keep their numbers of terms. *)
Theorem C38_update_matches_rebuild_partial : C38_for R listed steady.
Proof.
  intros inf pick vks_of ord se slack penalty cost cs fixed (H1 & H2 & H3) Hs Hf pt s Hu.
  destruct (updates_good inf pick vks_of ord se H1 H2 H3 slack penalty cost cs fixed Hs (proj1 (pos_values fixed) Hf) pt s Hu)
    as (_ & _ & _ & f & E & S & _). eauto.
Qed.
Print Assumptions C38_update_matches_rebuild_partial.

Lemma std_iteration {T} `{Num T} : any_iteration (T := T) std_order std_vks std_schedule.
Proof.
  assert (Ho : forall (e : expv T) k, In k (std_order e) <-> e !! k <> None).
  { intros e k. unfold std_order. rewrite in_map_iff. split.
    - intros ((k' & x) & <- & Hin). apply elem_of_list_In, elem_of_map_to_list in Hin. cbn. congruence.
    - destruct (e !! k) as [x|] eqn:E; [|congruence]. intros _. exists (k, x). split; auto.
      apply elem_of_list_In, elem_of_map_to_list. auto. }
  split; [|split].
  - intros e. split; [|auto]. unfold std_order. apply NoDup_ListNoDup, NoDup_fst_map_to_list.
  - intros h. split; [apply NoDup_ListNoDup, NoDup_nodup|]. intros k. unfold std_vks. rewrite nodup_In, in_flat_map.
    unfold in_vks. rewrite existsb_exists. split; intros (t & Ht & Hk); exists t; split; auto.
    + apply Ho in Hk. destruct (fst t !! k); [auto|congruence].
    + apply Ho. destruct (fst t !! k); [discriminate|congruence].
  - intros x0 h. apply std_schedule_valid.
Qed.

(** The hypotheses, for programs over the rationals (every power computed below
    is a power of 1 or has an integral exponent). *)
Definition sigs_of (cs : list (sp_constr Q)) : list (hmap Q) :=
  flat_map (fun c => match c with SPc (CSig s) => [s] | SPeq s => [s] | _ => [] end) cs.
Lemma sigs_of_In cs s : In (SPc (CSig s)) cs \/ In (SPeq s) cs -> In s (sigs_of cs).
Proof.
  intros H. unfold sigs_of. apply in_flat_map. destruct H as [H|H]; eexists; split; eauto; cbn; auto.
Qed.
Definition properb (slack : option nat) (cs : list (sp_constr Q)) : bool :=
  forallb (fun s => bool_decide (NoDup (dkeys s)) &&
    forallb (fun t => forallb (fun kx : nat * Q => bool_decide (snd kx <> 0%Q)) (map_to_list (fst t)) && bool_decide (snd t <> 0%Q)) s &&
    match slack with None => true | Some k => negb (in_vks s k) end) (sigs_of cs).
Lemma properb_ok slack cs : properb slack cs = true -> sigs_proper slack cs.
Proof.
  intros E s Hs. apply sigs_of_In in Hs. unfold properb in E. rewrite forallb_forall in E. specialize (E s Hs).
  rewrite !andb_true_iff in E. destruct E as [[E1 E2] E3]. split.
  - split; [eapply bool_decide_eq_true; eauto|]. rewrite forallb_forall in E2. intros e c Hin. specialize (E2 _ Hin). cbn [fst snd] in E2.
    apply andb_true_iff in E2 as [E2 E4]. split; [|eapply bool_decide_eq_true; eauto]. intros k x Hk.
    rewrite forallb_forall in E2. specialize (E2 (k, x)). cbn [snd] in E2. eapply bool_decide_eq_true, E2.
    apply elem_of_list_In, elem_of_map_to_list. auto.
  - destruct slack as [k|]; auto. apply negb_true_iff in E3. auto.
Qed.
Lemma positive_ok (x0 : gmap nat Q) : forallb (fun kx : nat * Q => negb (Qle_bool (snd kx) 0)) (map_to_list x0) = true ->
  positive_values x0.
Proof.
  intros E k v Hk. rewrite forallb_forall in E. apply (E (k, v)). apply elem_of_list_In, elem_of_map_to_list. auto.
Qed.
Definition listedb (cs : list (sp_constr Q)) (s : sgp Q) (x0 : gmap nat Q) : bool :=
  forallb (fun kx : nat * Q => negb (existsb (fun h => in_vks h (fst kx)) (sigs_of cs)) || memb (fst kx) (sg_vks s)) (map_to_list x0).
Lemma listed_ok cs s x0 : listedb cs s x0 = true -> listed cs s x0.
Proof.
  intros E k Hk (h & Hh & Hv). destruct (x0 !! k) as [v|] eqn:Ek; [|congruence]. unfold listedb in E. rewrite forallb_forall in E.
  specialize (E (k, v)). cbn [fst] in E. rewrite orb_true_iff in E. destruct E as [E|E].
  - apply elem_of_list_In, elem_of_map_to_list. auto.
  - exfalso. apply negb_true_iff in E. assert (existsb (fun h => in_vks h k) (sigs_of cs) = true); [|congruence].
    apply existsb_exists. exists h. split; auto. apply sigs_of_In. auto.
  - unfold memb in E. apply existsb_exists in E as (y & Hy & E). apply Nat.eqb_eq in E. subst. auto.
Qed.

(** What happens when a program is built and then updated once, beside what
    would be built around the new point. *)
Record pair_built (slack : option nat) (cs : list (sp_constr Q)) (x0 : gmap nat Q) (s s' f : sgp Q) : Prop := {
  pb_start : q_build slack cs ∅ = Ok s;
  pb_update : q_update s x0 = Ok s';
  pb_fresh : q_build slack cs (x0 ∪ ∅) = Ok f }.
Definition built_pair {A} (slack : option nat) (cs : list (sp_constr Q)) (x0 : gmap nat Q) (look : sgp Q -> sgp Q -> sgp Q -> A)
  : option A :=
  match q_build slack cs ∅ with
  | Ok s => match q_update s x0, q_build slack cs (x0 ∪ ∅) with
            | Ok s', Ok f => Some (look s s' f)
            | _, _ => None
            end
  | Err _ => None
  end.
Lemma built_pair_ok {A} slack cs x0 (look : sgp Q -> sgp Q -> sgp Q -> A) a : built_pair slack cs x0 look = Some a ->
  exists s s' f, pair_built slack cs x0 s s' f /\ a = look s s' f.
Proof.
  unfold built_pair. destruct (q_build slack cs ∅) as [s|] eqn:E1; [|discriminate].
  destruct (q_update s x0) as [s'|] eqn:E2; [|discriminate]. destruct (q_build slack cs (x0 ∪ ∅)) as [f|] eqn:E3; [|discriminate].
  intros [= <-]. exists s, s', f. split; auto. split; auto.
Qed.
Lemma refute_C38 slack cs x0 s s' f (given : list (sp_constr Q) -> sgp Q -> gmap nat Q -> Prop) (ok : sgp Q -> sgp Q -> Prop) :
  pair_built slack cs x0 s s' f -> properb slack cs = true ->
  forallb (fun kx : nat * Q => negb (Qle_bool (snd kx) 0)) (map_to_list x0) = true ->
  given cs s x0 -> ok s' f -> ~ same_gp (sg_gp s') (sg_gp f) -> ~ C38_for Q given ok.
Proof.
  intros [B1 B2 B3] Hp Hx Hg Hok Hno C.
  destruct (C 1000%Q std_schedule std_vks std_order true slack 200%Q [(qmap [(0%nat, 1%Q)], 1%Q)] cs ∅ std_iteration
    (properb_ok _ _ Hp) ltac:(intros k v; rewrite lookup_empty; discriminate) (x0 ∪ ∅) s') as (f' & Ef & S).
  - eapply up_again; [apply up_start; exact B1|apply positive_ok; auto|exact B2|exact Hg|].
    intros f' Ef. assert (Ok f' = Ok f) as [= ->] by (rewrite <- B3; symmetry; exact Ef). auto.
  - assert (Ok f' = Ok f) as [= ->] by (rewrite <- B3; symmetry; exact Ef). auto.
Qed.

(** The conditions of C38 are met by an update that changes a program: z <= x^2 + 4
    and the point goes from x = 1 to x = 2. *)
Definition steep : list (sp_constr Q) :=
  [sig_le0 [([(1%nat, 1%Q)], 1%Q); ([(0%nat, 2%Q)], (-1)%Q); ([], (-4)%Q)]; posy_only [([(1%nat, (-1)%Q)], 1%Q)]].
Definition to_two : gmap nat Q := qmap [(0%nat, 2%Q)].
Example C38_nonvacuous : exists s s' f, pair_built (Some 9%nat) steep to_two s s' f /\
  sigs_proper (Some 9%nat) steep /\ positive_values to_two /\ listed steep s to_two /\ steady s' f /\
  g_cs (sg_gp s) = [1; 1 # 5; 1; 1]%Q /\ g_cs (sg_gp s') = [1; 1 # 4; 1; 1]%Q.
Proof.
  destruct (built_pair_ok (Some 9%nat) steep to_two (fun s s' f => (listedb steep s to_two, g_k (sg_gp s'), g_k (sg_gp f),
    g_cs (sg_gp s), g_cs (sg_gp s')))
    (true, [1; 1; 1; 1]%nat, [1; 1; 1; 1]%nat, [1; 1 # 5; 1; 1]%Q, [1; 1 # 4; 1; 1]%Q)) as (s & s' & f & B & E);
    [vm_compute; reflexivity|]. injection E as E1 E2 E3 E4 E5. exists s, s', f.
  split; [auto|]. split; [apply properb_ok; vm_compute; reflexivity|]. split; [apply positive_ok; vm_compute; reflexivity|].
  split; [apply listed_ok; auto|]. split; [unfold steady; congruence|auto].
Qed.

(** An approximation that gains a term spills over the next constraint: here
    x^(2/5) + z <= x^2 + 4 has one term around x = 1 and two around x = 2. *)
Definition gaining : list (sp_constr Q) :=
  [sig_le0 [([(0%nat, 2 # 5)%Q], 1%Q); ([(1%nat, 1%Q)], 1%Q); ([(0%nat, 2%Q)], (-1)%Q); ([], (-4)%Q)];
   posy_only [([(1%nat, (-1)%Q)], 1%Q)]].
Theorem C38_gained_term_refuted : ~ C38_for Q listed (fun _ _ => True).
Proof.
  destruct (built_pair_ok (Some 9%nat) gaining to_two
    (fun s s' f => (listedb gaining s to_two, g_k (sg_gp s'), g_k (sg_gp f)))
    (true, [1; 1; 1; 1]%nat, [1; 2; 1; 1]%nat)) as (s & s' & f & B & E); [vm_compute; reflexivity|].
  injection E as E1 E2 E3. eapply refute_C38; [exact B|vm_compute; reflexivity|vm_compute; reflexivity|apply listed_ok; auto|exact I|].
  intros S. destruct S as [S _]. congruence.
Qed.
Print Assumptions C38_gained_term_refuted.

(** One that loses a term leaves a stale row behind: x + z <= x^2 + 4. *)
Definition losing : list (sp_constr Q) :=
  [sig_le0 [([(0%nat, 1%Q)], 1%Q); ([(1%nat, 1%Q)], 1%Q); ([(0%nat, 2%Q)], (-1)%Q); ([], (-4)%Q)];
   posy_only [([(1%nat, (-1)%Q)], 1%Q)]].
Theorem C38_lost_term_refuted : ~ C38_for Q listed (fun s f => list_sum (g_k (sg_gp f)) <= list_sum (g_k (sg_gp s)))%nat.
Proof.
  destruct (built_pair_ok (Some 9%nat) losing to_two
    (fun s s' f => (listedb losing s to_two, g_k (sg_gp s'), g_k (sg_gp f)))
    (true, [1; 2; 1; 1]%nat, [1; 1; 1; 1]%nat)) as (s & s' & f & B & E); [vm_compute; reflexivity|].
  injection E as E1 E2 E3. eapply refute_C38; [exact B|vm_compute; reflexivity|vm_compute; reflexivity|apply listed_ok; auto| |].
  - rewrite <- E2, <- E3. cbn. lia.
  - intros S. destruct S as [S _]. congruence.
Qed.
Print Assumptions C38_lost_term_refuted.

(** A variable that vanishes from the first approximation is never given a new
    value: x in z <= x^3 + 3/x + 13 around x = 1. *)
Theorem C38_unlisted_variable_refuted : ~ C38_for Q (fun _ _ _ => True) steady.
Proof.
  destruct (built_pair_ok (Some 9%nat) cubic to_two
    (fun s s' f => (g_k (sg_gp s'), g_k (sg_gp f), g_cs (sg_gp s'), g_cs (sg_gp f)))
    ([1; 1; 1; 1]%nat, [1; 1; 1; 1]%nat, [1; 1 # 17; 1; 1]%Q, [1; 4 # 45; 1; 1]%Q)) as (s & s' & f & B & E); [vm_compute; reflexivity|].
  injection E as E1 E2 E3 E4. eapply refute_C38; [exact B|vm_compute; reflexivity|vm_compute; reflexivity|exact I| |].
  - unfold steady. congruence.
  - intros S. destruct S as (_ & _ & _ & S & _). congruence.
Qed.
Print Assumptions C38_unlisted_variable_refuted.

(** ** C58 *)

(** [localsolve] does the same whatever [verbosity] is, for those in question. *)
Definition C58_for (T : Type) `{Num T} (asked : Z -> Prop) : Prop :=
  forall inf pick vks_of ord se (solver : solver_fn T) limit reltol s x0 (v w : Z), asked v -> asked w ->
  localsolve inf pick vks_of ord se solver v limit reltol s x0 = localsolve inf pick vks_of ord se solver w limit reltol s x0.

Theorem C58_verbosity_from_zero_partial : C58_for R (fun v => 0 <= v)%Z.
Proof.
  intros inf pick vks_of ord se solver limit reltol s x0 v w Hv Hw. unfold localsolve.
  assert (H : forall fuel s x0 cost rel hist,
    local_loop inf pick vks_of ord se solver v limit reltol fuel s x0 cost rel hist =
    local_loop inf pick vks_of ord se solver w limit reltol fuel s x0 cost rel hist); [|apply H].
  clear s x0.
  assert (Ev : (-1 <? v)%Z = true) by (apply Z.ltb_lt; lia). assert (Ew : (-1 <? w)%Z = true) by (apply Z.ltb_lt; lia).
  induction fuel as [|fuel IH]; intros s x0 cost rel hist; cbn [local_loop]; [reflexivity|]. rewrite Ev, Ew.
  destruct rel as [r|]; [destruct (nltb reltol r); [|reflexivity]|];
    (destruct (limit <? Z.of_nat (length hist))%Z; [reflexivity|]; destruct (sgp_gp inf pick vks_of ord se s x0) as [s'|]; [|reflexivity];
     destruct (solver (length hist) (sg_gp s')) as [[vals c]|]; [|reflexivity]; destruct cost as [pc|]; [|apply IH];
     destruct (decide (nadd pc c = n0)); [reflexivity|]; destruct (nltb (nadd pc eps) (nmul c (nsub n1 eps)) && true);
     [destruct (decide (pc = n0)); [reflexivity|apply IH]|apply IH]).
Qed.
Print Assumptions C58_verbosity_from_zero_partial.

(** At [verbosity=-1] a rise of the cost ends the search, with the point that is
    worse; at 0 the search goes on. *)
Theorem C58_silent_differs_refuted : ~ C58_for Q (fun v => -1 <= v)%Z.
Proof.
  intros C.
  assert (H : forall r : res (sgp Q),
    summary (rmap (fun s => q_solve (q_solver [2; 4; 1; 1]%Q) (-1)%Z 50%Z (1 # 10000)%Q s ∅) r) =
    summary (rmap (fun s => q_solve (q_solver [2; 4; 1; 1]%Q) 0%Z 50%Z (1 # 10000)%Q s ∅) r)).
  { intros [s|e]; unfold rmap; [|reflexivity]. unfold q_solve.
    rewrite (C 1000%Q std_schedule std_vks std_order true (q_solver [2; 4; 1; 1]%Q) 50%Z (1 # 10000)%Q s ∅ (-1)%Z 0%Z
      ltac:(cbv beta; lia) ltac:(cbv beta; lia)). reflexivity. }
  specialize (H (q_build (Some 9%nat) cubic ∅)).
  vm_compute in H. discriminate.
Qed.
Print Assumptions C58_silent_differs_refuted.
