(** C87: the penalty method. *)
From Verif Require Import Base HashVec Nomial NomialSem NomialProofs CanonProofs Sub SubSem SubProofs SubExtra Mono Constraint ConstraintSem
  MonoProofs ConstraintProofs GPGen GPGenProofs PropsGP SGP SGPSem LocalProofs SGPProofs ApproxProofs RebuildProofs PropsSGP
  SGPIterSpec SGPIterProofs SGPIterSub SGPIterLin SGPIterRun SGPIterCols PropsSGPIter PenaltyProofs.
Open Scope R_scope.

(** The coordinates, by column, of a point; and the point with the substituted
    values in place. *)
Definition coordinates {T} (s : sgp T) (env : nat -> T) : list T := map env (dkeys (g_varlocs (sg_gp s))).
Definition with_fixed {T} (fixed : gmap nat T) (env : nat -> T) (k : nat) : T :=
  match fixed !! k with Some v => v | None => env k end.
Definition with_slack {T} (env : nat -> T) (k : nat) (v : T) : nat -> T := fun j => if Nat.eqb j k then v else env j.
Definition value {T} `{Num T} (env : nat -> T) (h : hmap T) : T := total (map (term_at env) h).
Definition all_positive_at {T} `{Num T} (env : nat -> T) : Prop := forall k, nltb n0 (env k) = true.

(** The slack variable [k] is new: it is in neither cost nor constraints, and
    not substituted. *)
Definition new_slack {T} `{Num T} (k : nat) (cost : hmap T) (cs : list (sp_constr T)) (fixed : gmap nat T) : Prop :=
  fixed !! k = None /\ in_vks cost k = false /\
  forall st us u, In (SPc (CPosy st us)) cs \/ In (SPc (CMeq st us)) cs -> In u us -> in_vks u k = false.

(** The programs of a penalty run: as first built, then updated any number of
    times around new points. *)
Definition penalty_program {T} `{Num T} (inf : T) pick vks_of ord se (k : nat) (penalty : T) cost cs fixed (s : sgp T) : Prop :=
  any_iteration ord vks_of pick /\ sigs_proper (Some k) cs /\ posys_proper cost cs /\ new_slack k cost cs fixed /\ positive_values fixed /\
  exists pt, updates (sgp_build inf pick vks_of ord se (Some k) penalty cost cs fixed) (sgp_gp inf pick vks_of ord se) (listed cs) steady fixed pt s.

(** The objective is the cost times slack^penalty. *)
Definition C87_cost_for (T : Type) `{Num T} : Prop :=
  forall (inf : T) pick vks_of ord se k penalty cost cs fixed s,
  penalty_program inf pick vks_of ord se k penalty cost cs fixed s ->
  forall env, all_positive_at env ->
  posy_at (sg_gp s) (coordinates s env) 0 = nmul (value (with_fixed fixed env) cost) (npow (env k) penalty).

(** At a feasible point the slack is at least 1, and no signomial inequality is
    violated by more than a factor of the slack (and a thousandth). *)
Definition C87_violation_for (T : Type) `{Num T} (tol : T) : Prop :=
  forall (inf : T) pick vks_of ord se k penalty cost cs fixed s,
  penalty_program inf pick vks_of ord se k penalty cost cs fixed s ->
  clean inf pick vks_of se fixed cs [SOL s [] n0] ->
  forall env, all_positive_at env -> gp_feasible (sg_gp s) (coordinates s env) ->
  nleb n1 (env k) = true /\
  forall h, In (SPc (CSig h)) cs ->
    nleb (lesser_side (with_fixed fixed env) h) (nmul (nmul (nadd n1 tol) (env k)) (greater_side (with_fixed fixed env) h)) = true.

(** A point that meets the posynomials the slack is not in is feasible with
    every slack from some value on. *)
Definition C87_feasible_for (T : Type) `{Num T} : Prop :=
  forall (inf : T) pick vks_of ord se k penalty cost cs fixed s,
  penalty_program inf pick vks_of ord se k penalty cost cs fixed s ->
  clean inf pick vks_of se fixed cs [SOL s [] n0] ->
  forall env, all_positive_at env ->
  (forall p b h, (1 <= p)%nat -> sg_hmaps s !! p = Some (b, h) -> in_vks h k = false -> nleb (value env h) n1 = true) ->
  exists least, nleb n1 least = true /\
    forall v, nleb least v = true -> gp_feasible (sg_gp s) (coordinates s (with_slack env k v)).

Lemma value_eval env (h : hmap R) : positive_point env -> value env h = eval env h.
Proof.
  intros He. unfold value. rewrite total_lsum, eval_lsum. apply lsum_ext. intros [e c] _. cbn [fst snd]. apply term_at_val; auto.
Qed.
Lemma all_pos (env : nat -> R) : all_positive_at env -> positive_point env.
Proof. intros H k. apply Rltb_true. exact (H k). Qed.
Lemma with_fixed_eq fixed (env : nat -> R) : with_fixed fixed env = override env fixed.
Proof. reflexivity. Qed.
Lemma with_slack_upd (env : nat -> R) k v j : with_slack env k v j = upd env k v j.
Proof. unfold with_slack, upd. destruct (Nat.eqb_spec j k), (decide (j = k)); congruence. Qed.

Section Real.
Context (inf : R) (pick : gmap nat R -> hmap R -> schedule) (vks_of : hmap R -> list nat) (ord : var_order R) (se : bool) (k : nat)
  (penalty : R) (cost : hmap R) (cs : list (sp_constr R)) (fixed : gmap nat R) (s : sgp R).
Hypothesis HP : penalty_program inf pick vks_of ord se k penalty cost cs fixed s.

Lemma prog_good : good inf pick vks_of ord se (Some k) penalty cost cs fixed s.
Proof.
  destruct HP as ((H1 & H2 & H3) & Hs & _ & _ & Hf & pt & Hu).
  apply (updates_good inf pick vks_of ord se H1 H2 H3 (Some k) penalty cost cs fixed Hs (proj1 (pos_values fixed) Hf) pt s Hu).
Qed.
Lemma posy_value env p b h : positive_point env -> sg_hmaps s !! p = Some (b, h) ->
  posy_at (sg_gp s) (coordinates s env) p = eval env h.
Proof.
  intros He Hp. destruct HP as ((H1 & _) & _). eapply posy_at_eval; [exact H1|apply (gd_inv _ _ _ _ _ _ _ _ _ _ _ prog_good)| | | |exact Hp].
  - unfold coordinates, dkeys. rewrite !map_length. reflexivity.
  - intros x Hx. apply in_map_iff in Hx as (j & <- & _). apply He.
  - intros j i Hj. unfold coordinates. change (map env (dkeys (g_varlocs (sg_gp s)))) with (env <$> dkeys (g_varlocs (sg_gp s))).
    rewrite list_lookup_fmap, Hj. reflexivity.
Qed.
Lemma feasible_iff env : positive_point env ->
  (gp_feasible (sg_gp s) (coordinates s env) <-> forall p b h, (1 <= p)%nat -> sg_hmaps s !! p = Some (b, h) -> eval env h <= 1).
Proof.
  intros He. assert (Hk : length (g_k (sg_gp s)) = length (sg_hmaps s)).
  { rewrite (mi_k _ _ _ _ _ (gd_inv _ _ _ _ _ _ _ _ _ _ _ prog_good)), map_length. reflexivity. }
  split.
  - intros (_ & _ & F) p b h Hp Hh. rewrite <- (posy_value env p b h He Hh). apply Rleb_true. apply F. split; [auto|].
    rewrite Hk. eapply lookup_lt_Some; eauto.
  - intros F. split; [unfold coordinates, dkeys; rewrite !map_length; reflexivity|]. split.
    + intros x Hx. apply in_map_iff in Hx as (j & <- & _). apply Rltb_true, He.
    + intros p Hp. rewrite Hk in Hp. destruct (lookup_lt_is_Some_2 (sg_hmaps s) p) as [[b h] Hh]; [apply Hp|].
      apply Rleb_true. rewrite (posy_value env p b h He Hh). eapply F; [apply Hp|exact Hh].
Qed.
End Real.

Theorem C87_cost : C87_cost_for R.
Proof.
  intros inf pick vks_of ord se k penalty cost cs fixed s HP env He. pose proof (all_pos env He) as He'.
  pose proof (prog_good _ _ _ _ _ _ _ _ _ _ _ HP) as Hg.
  destruct (gd_parts _ _ _ _ _ _ _ _ _ _ _ Hg) as (first & cost' & c0 & g & G' & hs & A & P1 & Ea & EA & Eh).
  rewrite (posy_value _ _ _ _ _ _ _ _ _ _ _ HP env 0 false c0 He') by (rewrite Eh; reflexivity).
  destruct HP as ((H1 & H2 & H3) & Hs & [Hc _] & (Hk & _) & Hf & _). pose proof (proj1 (pos_values fixed) Hf) as Hf'.
  destruct (pa_c0 _ _ _ _ _ _ _ _ _ _ _ _ _ _ P1) as (st & Es & -> & _).
  rewrite with_fixed_eq, value_eval by (apply override_positive; auto). cbn [nmul npow R_num]. rewrite Rpow_pos by apply He'.
  eapply cost_eval; eauto. eapply pa_cost'; exact P1.
Qed.
Print Assumptions C87_cost.

Section Parts.
Context (inf : R) (pick : gmap nat R -> hmap R -> schedule) (vks_of : hmap R -> list nat) (ord : var_order R) (se : bool) (k : nat)
  (penalty : R) (cost : hmap R) (cs : list (sp_constr R)) (fixed : gmap nat R) (s : sgp R).
Hypothesis HP : penalty_program inf pick vks_of ord se k penalty cost cs fixed s.
Hypothesis Hcl : clean inf pick vks_of se fixed cs [SOL s [] n0].
Lemma penalized_parts : exists c0 A v G hs, sg_hmaps s = (false, c0) :: map (pair false) A ++ (false, v) :: G /\
    (forall env, positive_point env -> (eval env v <= 1 <-> 1 <= env k)) /\
    (forall env, positive_point env -> ((forall v, In v A -> eval env v <= 1) <-> forall h, In h hs -> eval (override env fixed) h <= env k)) /\
    (forall b h, In (b, h) G -> in_vks h k = false) /\
    (forall h, In h hs -> in_vks h k = false) /\
    (forall h, In (SPc (CSig h)) cs -> forall env B, positive_point env -> 1 + tolerance <= B ->
      (forall b u, In (b, u) G -> eval env u <= 1) -> (forall u, In u hs -> eval (override env fixed) u <= B) ->
      lesser_side (override env fixed) h <= B * greater_side (override env fixed) h).
Proof.
  pose proof (prog_good _ _ _ _ _ _ _ _ _ _ _ HP) as Hg.
  destruct HP as ((H1 & H2 & H3) & Hs & [Hc Hp] & (Hk & _ & Hpk) & Hf & _). pose proof (proj1 (pos_values fixed) Hf) as Hf'.
  destruct (penalized inf pick vks_of ord se H2 H3 fixed Hf' k Hk penalty cost cs) with (s := s)
    as (c0 & A & v & G & hs & Q1 & Q2 & Q3 & Q4 & Q5 & Q6 & Q7); auto.
  - intros st us u Hin Hu. split; [eapply Hp; eauto|eapply Hpk; eauto].
  - intros h st me mc Hin. exact (proj2 (Hcl h Hin) st me mc).
  - exists c0, A, v, G, hs. split; [exact Q1|]. split; [exact Q3|]. split; [exact Q4|]. split; [exact Q5|]. split; [exact Q6|].
    intros h Hin env B He HB HG HH. destruct (posy_negy h) as [P N] eqn:EPN.
    destruct (Hs h (or_introl Hin)) as [Hch _].
    destruct (sides h P N (override env fixed) (proj1 Hch) EPN (override_positive _ _ He Hf')) as [-> ->].
    apply (Q7 h P N Hin EPN); auto. intros me mc x0 E. pose proof (proj1 (Hcl h Hin) (SOL s [] n0) me mc (or_introl eq_refl)) as C.
    rewrite EPN in C. cbn [fst snd so_sgp] in C. apply C. exact E.
Qed.
End Parts.

Theorem C87_violation_partial : C87_violation_for R (1 / 1000).
Proof.
  intros inf pick vks_of ord se k penalty cost cs fixed s HP Hcl env He HF. pose proof (all_pos env He) as He'.
  destruct (penalized_parts _ _ _ _ _ _ _ _ _ _ _ HP Hcl) as (c0 & A & v & G & hs & Q1 & Q3 & Q4 & Q5 & Q6 & Q7).
  rewrite (feasible_iff _ _ _ _ _ _ _ _ _ _ _ HP env He') in HF.
  assert (Hall : forall b h, In (b, h) (map (pair false) A ++ (false, v) :: G) -> eval env h <= 1).
  { intros b h Hin. apply elem_of_list_In, elem_of_list_lookup in Hin as [p Hp]. apply (HF (S p) b h); [lia|]. rewrite Q1. exact Hp. }
  assert (H1 : 1 <= env k) by (apply Q3; auto; apply (Hall false); apply in_app_iff; right; left; auto).
  split; [apply Rleb_true; exact H1|]. intros h Hin. apply Rleb_true. rewrite with_fixed_eq. cbn [nmul nadd n1 R_num].
  change (1 / 1000) with tolerance. pose proof tol_pos.
  apply Q7; auto; [nra| |].
  - intros b u Hu. apply (Hall b). apply in_app_iff. right. right. auto.
  - intros u Hu. assert (Hle : eval (override env fixed) u <= env k); [|nra].
    apply Q4; auto. intros w Hw. apply (Hall false). apply in_app_iff. left. apply in_map. auto.
Qed.
Print Assumptions C87_violation_partial.

Lemma list_bound {A} (f : A -> R) l : exists m, 1 <= m /\ forall x, In x l -> f x <= m.
Proof.
  induction l as [|a l (m & H1 & H2)]; [exists 1; split; [lra|intros x []]|].
  exists (Rmax m (f a)). split; [pose proof (Rmax_l m (f a)); lra|]. intros x [<-|Hx]; [apply Rmax_r|].
  pose proof (Rmax_l m (f a)). specialize (H2 x Hx). lra.
Qed.
Theorem C87_feasible : C87_feasible_for R.
Proof.
  intros inf pick vks_of ord se k penalty cost cs fixed s HP Hcl env He HG. pose proof (all_pos env He) as He'.
  destruct (penalized_parts _ _ _ _ _ _ _ _ _ _ _ HP Hcl) as (c0 & A & v & G & hs & Q1 & Q3 & Q4 & Q5 & Q6 & Q7).
  pose proof HP as (_ & _ & _ & (Hk & _) & Hf & _). pose proof (proj1 (pos_values fixed) Hf) as Hf'.
  destruct (list_bound (eval (override env fixed)) hs) as (m & M1 & M2).
  exists m. split; [apply Rleb_true; exact M1|]. intros S HS. apply Rleb_true in HS.
  assert (Heq : with_slack env k S = upd env k S).
  { apply FunctionalExtensionality.functional_extensionality. intros j. apply with_slack_upd. }
  rewrite Heq. assert (He2 : positive_point (upd env k S)).
  { intros j. unfold upd. destruct (decide (j = k)); [lra|apply He']. }
  rewrite (feasible_iff _ _ _ _ _ _ _ _ _ _ _ HP _ He2).
  assert (HkS : upd env k S k = S) by (unfold upd; destruct (decide (k = k)); congruence).
  intros [|p] b h Hp Hh; [lia|]. rewrite Q1 in Hh. cbn in Hh.
  assert (Hin := elem_of_list_lookup_2 _ _ _ Hh). apply elem_of_list_In in Hin.
  apply in_app_iff in Hin as [Hin|[[= <- <-]|Hin]].
  - apply in_map_iff in Hin as (w & [= <- <-] & Hw). refine (proj2 (Q4 (upd env k S) He2) _ w Hw). rewrite HkS. intros u Hu.
    assert (Ho : eval (override (upd env k S) fixed) u = eval (override env fixed) u); [|rewrite Ho; specialize (M2 u Hu); lra].
    apply eval_agree. intros j Hj. unfold override. destruct (fixed !! j); auto. unfold upd.
    destruct (decide (j = k)) as [->|]; [rewrite (Q6 u Hu) in Hj; discriminate|reflexivity].
  - apply Q3; [auto|]. rewrite HkS. lra.
  - rewrite eval_upd_absent by (eapply Q5; eauto). rewrite <- value_eval by auto. apply Rleb_true. apply (HG (Datatypes.S p) b h); [lia| |eapply Q5; eauto].
    rewrite Q1. exact Hh.
Qed.
Print Assumptions C87_feasible.

(** ** Programs over the rationals *)
Definition q_cost : hmap Q := [(qmap [(0%nat, 1%Q)], 1%Q)].
Definition q_penalty := penalty_program (T := Q) 1000%Q std_schedule std_vks std_order true 9 200%Q q_cost.
Definition q_env (x z c : Q) : nat -> Q := fun k => if Nat.eqb k 0 then x else if Nat.eqb k 1 then z else if Nat.eqb k 9 then c else 1%Q.
Lemma q_env_pos x z c : Qle_bool x 0 = false -> Qle_bool z 0 = false -> Qle_bool c 0 = false -> all_positive_at (q_env x z c).
Proof.
  intros Hx Hz Hc k. unfold q_env. cbn [nltb n0 Q_num].
  destruct (Nat.eqb k 0); [|destruct (Nat.eqb k 1); [|destruct (Nat.eqb k 9); [|reflexivity]]]; apply negb_true_iff; assumption.
Qed.

(** z <= x^2 + 4 and z >= 1, built around x = 1 and updated around x = 2, where it
    is z <= 4 x: the point x = 1/8, z = 1 is feasible with a slack of 2 and not with
    less. *)
Example C87_nonvacuous : exists s, q_penalty steep ∅ s /\ clean 1000%Q std_schedule std_vks true ∅ steep [SOL s [] 0%Q] /\
  gp_feasible (sg_gp s) (coordinates s (q_env (1 # 8) 1 2)) /\ ~ gp_feasible (sg_gp s) (coordinates s (q_env (1 # 8) 1 (199 # 100))) /\
  (forall p b h, (1 <= p)%nat -> sg_hmaps s !! p = Some (b, h) -> in_vks h 9 = false -> Qle_bool (value (q_env (1 # 8) 1 1) h) 1 = true) /\
  exists p b h, (1 <= p)%nat /\ sg_hmaps s !! p = Some (b, h) /\ in_vks h 9 = false.
Proof.
  destruct (built_pair_ok (Some 9%nat) steep to_two (fun s s' f => (listedb steep s to_two, g_k (sg_gp s'), g_k (sg_gp f),
    cleanb steep [SOL s' [] 0%Q],
    (feasibleb (sg_gp s') (coordinates s' (q_env (1 # 8) 1 2)), feasibleb (sg_gp s') (coordinates s' (q_env (1 # 8) 1 (199 # 100)))),
    map (fun bh => (in_vks (snd bh) 9, Qle_bool (value (q_env (1 # 8) 1 1) (snd bh)) 1)) (sg_hmaps s')))
    (true, [1; 1; 1; 1]%nat, [1; 1; 1; 1]%nat, true, (true, false), [(true, true); (true, false); (true, true); (false, true)]))
    as (s & s' & f & B & E);
    [vm_compute; reflexivity|]. injection E as E1 E2 E3 E4 E5 E6 E7. exists s'.
  split.
  { split; [exact std_iteration|]. split; [apply properb_ok; vm_compute; reflexivity|]. split; [split; [apply collectedb_ok; vm_compute; reflexivity|]|].
    - intros st us u Hin Hu. cbn in Hin. destruct Hin as [[Hin|[Hin|[]]]|[Hin|[Hin|[]]]]; try discriminate Hin; injection Hin as <- <-;
        destruct Hu as [<-|[]]; apply collectedb_ok; vm_compute; reflexivity.
    - split.
      + split; [apply lookup_empty|]. split; [vm_compute; reflexivity|].
        intros st us u Hin Hu. cbn in Hin. destruct Hin as [[Hin|[Hin|[]]]|[Hin|[Hin|[]]]]; try discriminate Hin; injection Hin as <- <-;
          destruct Hu as [<-|[]]; vm_compute; reflexivity.
      + split; [intros k v; rewrite lookup_empty; discriminate|]. destruct B as [B1 B2 B3]. exists (to_two ∪ ∅).
        eapply up_again; [apply up_start; exact B1|apply positive_ok; vm_compute; reflexivity|exact B2|apply listed_ok; auto|].
        intros f' Ef. assert (Ok f' = Ok f) as [= ->] by (rewrite <- B3; symmetry; exact Ef). unfold steady. congruence. }
  split; [apply cleanb_ok; auto|]. split; [apply feasibleb_ok; auto|]. split; [rewrite <- feasibleb_ok, <- E6; discriminate|].
  assert (L : length (sg_hmaps s') = 4%nat) by (apply (f_equal length) in E7; rewrite map_length in E7; auto).
  split.
  - intros p b h Hp Hh Hk. assert (Hm : map (fun bh => (in_vks (snd bh) 9, Qle_bool (value (q_env (1 # 8) 1 1) (snd bh)) 1)) (sg_hmaps s') !! p =
      Some (in_vks h 9, Qle_bool (value (q_env (1 # 8) 1 1) h) 1)).
    { change (map ?f ?l) with (f <$> l). rewrite list_lookup_fmap. unfold hmap in *. rewrite Hh. reflexivity. }
    rewrite <- E7 in Hm. destruct p as [|[|[|[|]]]]; cbn in Hm; [lia| | | |discriminate]; injection Hm as Hm1 Hm2; congruence.
  - destruct (sg_hmaps s') as [|a [|b [|c [|[d h] [|]]]]] eqn:Eh; try discriminate L. exists 3%nat, d, h. split; [lia|]. split; [reflexivity|].
    cbn in E7. injection E7; auto.
Qed.

(** The thousandth is needed: 2001/2000 <= 1 is dropped with a slack as without. *)
Theorem C87_exact_violation_refuted : ~ C87_violation_for Q 0%Q.
Proof.
  intros C.
  destruct (q_build (Some 9%nat) dropped ∅) as [s|] eqn:E; [|vm_compute in E; discriminate].
  assert (E' : rmap (fun s => (cleanb dropped [SOL s [] 0%Q], feasibleb (sg_gp s) (coordinates s (q_env 1 1 1)))) (q_build (Some 9%nat) dropped ∅)
    = Ok (true, true)) by (vm_compute; reflexivity).
  rewrite E in E'. injection E' as E1 E2.
  destruct (C 1000%Q std_schedule std_vks std_order true 9%nat 200%Q q_cost dropped ∅ s) with (env := q_env 1 1 1) as [_ H].
  - split; [exact std_iteration|]. split; [apply properb_ok; vm_compute; reflexivity|]. split; [split; [apply collectedb_ok; vm_compute; reflexivity|]|].
    + intros st us u Hin Hu. unfold dropped in Hin. cbn in Hin.
      repeat match goal with H : _ \/ _ |- _ => destruct H as [H|H] end; try contradiction; try discriminate Hin; injection Hin as <- <-;
        destruct Hu as [<-|[]]; apply collectedb_ok; vm_compute; reflexivity.
    + split.
      * split; [apply lookup_empty|]. split; [vm_compute; reflexivity|].
        intros st us u Hin Hu. unfold dropped in Hin. cbn in Hin.
        repeat match goal with H : _ \/ _ |- _ => destruct H as [H|H] end; try contradiction; try discriminate Hin; injection Hin as <- <-;
          destruct Hu as [<-|[]]; vm_compute; reflexivity.
      * split; [intros k v; rewrite lookup_empty; discriminate|]. exists ∅. apply up_start. exact E.
  - apply cleanb_ok. auto.
  - apply q_env_pos; reflexivity.
  - apply feasibleb_ok. auto.
  - assert (Hin : exists h, In (SPc (CSig h)) dropped /\ Qle_bool (lesser_side (with_fixed ∅ (q_env 1 1 1)) h)
      (nmul (nmul (nadd n1 0%Q) (q_env 1 1 1 9%nat)) (greater_side (with_fixed ∅ (q_env 1 1 1)) h)) = false).
    { eexists. split; [left; reflexivity|]. vm_compute. reflexivity. }
    destruct Hin as (h & Hin & Hno). specialize (H h Hin). cbn [nleb Q_num] in H. congruence.
Qed.
Print Assumptions C87_exact_violation_refuted.
