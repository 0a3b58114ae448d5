(** C36: the points a sequential geometric program visits. *)
From Verif Require Import Base HashVec Nomial NomialSem NomialProofs Sub SubSem SubExtra Mono Constraint ConstraintSem
  MonoProofs ConstraintProofs GPGen GPGenProofs PropsGP SGP SGPSem LocalProofs SGPProofs ApproxProofs RebuildProofs PropsSGP
  SGPIterSpec SGPIterProofs SGPIterSub SGPIterLin SGPIterRun SGPIterCols.
Open Scope R_scope.

(** With a solver that returns true optima, every solution visited by
    [localsolve] (without slack) satisfies the signomial constraints of the given
    kinds within the tolerance [tol], if the programs solved are as [ok] asks of
    each and the program built anew around the same point. *)
Definition C36_feasible_for (T : Type) `{Num T} (tol : T) (kinds : sp_constr T -> Prop) (ok : sgp T -> sgp T -> Prop) : Prop :=
  forall (inf : T) pick vks_of ord se penalty cost cs fixed,
  any_iteration ord vks_of pick -> sigs_proper None cs -> positive_values fixed ->
  forall (solver : solver_fn T) verbosity limit reltol s x0 hist,
  optimal_solver solver -> positive_values x0 ->
  sgp_init inf pick vks_of ord se None penalty cost cs fixed = Ok s ->
  made (localsolve inf pick vks_of ord se solver verbosity limit reltol s x0) hist ->
  always (sgp_build inf pick vks_of ord se None penalty cost cs fixed) ok hist ->
  clean inf pick vks_of se fixed cs hist ->
  forall a env c, In a hist -> solution_point fixed a env -> In c cs -> kinds c -> meets tol env c.

(** Signomial inequalities are satisfied within a thousandth, if the
    approximations keep their numbers of terms. *)
Theorem C36_visited_points_feasible_partial : C36_feasible_for R (1 / 1000) inequality steady.
Proof.
  intros inf pick vks_of ord se penalty cost cs fixed (H1 & H2 & H3) Hs Hf solver verbosity limit reltol s x0 hist Hsol Hx0 Ei Hm Hal Hcl
    a env c Ha Hpt Hc Hk.
  rewrite pos_values in Hf, Hx0.
  assert (Hg0 := good_start inf pick vks_of ord se H1 H2 H3 None penalty cost cs fixed Hs Hf s Ei).
  destruct (loop_run inf pick vks_of ord se solver s x0 verbosity limit reltol _ s x0 None None [] hist (run_start _ _ _ _ _ _ _ _) Hm)
    as (s' & x0' & Hr).
  destruct (run_good inf pick vks_of ord se H1 H2 H3 penalty cost cs fixed Hs solver Hsol s x0 s' x0' hist Hg0 Hx0 Hr Hal) as (_ & _ & Hh).
  destruct (Hh a Ha) as [Hga [HFa _]]. destruct a as [sa va ca]. cbn [so_sgp so_vals so_cost] in *.
  refine (feasible_meets inf pick vks_of ord se H1 H2 H3 penalty cost cs fixed Hs Hf sa va ca env c Hga HFa Hpt _ Hc Hk).
  intros h Hin. destruct (Hcl h Hin) as [Hc1 Hc2]. split; [|exact Hc2].
  intros me mc. exact (Hc1 (SOL sa va ca) me mc Ha).
Qed.
Print Assumptions C36_visited_points_feasible_partial.

(** From a solution that satisfies every signomial constraint, equalities
    included, the cost does not rise, if moreover the program lists the
    variables of the signomial constraints among those to approximate around,
    and the starting point leaves substituted variables alone. *)
Definition C36_descends_for (T : Type) `{Num T} (ok : sgp T -> sgp T -> Prop) : Prop :=
  forall (inf : T) pick vks_of ord se penalty cost cs fixed,
  any_iteration ord vks_of pick -> sigs_proper None cs -> posys_proper cost cs -> positive_values fixed ->
  forall (solver : solver_fn T) verbosity limit reltol s x0 hist,
  optimal_solver solver -> positive_values x0 -> apart x0 fixed ->
  sgp_init inf pick vks_of ord se None penalty cost cs fixed = Ok s -> columns_listed cs s ->
  made (localsolve inf pick vks_of ord se solver verbosity limit reltol s x0) hist ->
  always (sgp_build inf pick vks_of ord se None penalty cost cs fixed) ok hist ->
  clean inf pick vks_of se fixed cs hist ->
  forall before a b after, hist = before ++ a :: b :: after ->
  (forall env c, solution_point fixed a env -> In c cs -> meets n0 env c) ->
  nleb (so_cost b) (so_cost a) = true.

Theorem C36_costs_descend_partial : C36_descends_for R steady.
Proof.
  intros inf pick vks_of ord se penalty cost cs fixed (H1 & H2 & H3) Hs [Hp1 Hp2] Hf solver verbosity limit reltol s x0 hist Hsol Hx0 Hap Ei
    Hlist Hm Hal Hcl before a b after Eh Hmeets.
  rewrite pos_values in Hf, Hx0. apply Rleb_true.
  assert (Hg0 := good_start inf pick vks_of ord se H1 H2 H3 None penalty cost cs fixed Hs Hf s Ei).
  destruct (loop_run inf pick vks_of ord se solver s x0 verbosity limit reltol _ s x0 None None [] hist (run_start _ _ _ _ _ _ _ _) Hm)
    as (s' & x0' & Hr).
  destruct (run_descends inf pick vks_of ord se H1 H2 H3 penalty cost cs fixed Hs Hf solver Hsol s x0 s' x0' hist Hg0 Hx0 Hr Hal) as [_ HD]; auto.
  - apply (columns_free inf pick vks_of ord se H1 H2 H3 fixed Hf penalty cost cs Hs Hp1 Hp2); auto.
    intros h st me mc Hin. exact (proj2 (Hcl h Hin) st me mc).
  - intros k v Hk. rewrite (build_keeps_x0 inf pick vks_of ord se H2 H3 None penalty cost cs fixed Hs fixed s Hf Ei). auto.
  - intros d h Hd Hin me mc. exact (proj1 (Hcl h Hin) d me mc Hd).
  - exact (HD before a b after Eh Hmeets).
Qed.
Print Assumptions C36_costs_descend_partial.

(** ** Programs over the rationals *)

(** What a solver looks at in a program, and solvers that return the answers of a
    table. *)
Definition view (g : gpdata Q) : list nat * list nat * list Q * list (nat * nat * Q) * nat :=
  (g_k g, g_pidxs g, g_cs g, g_coo g, length (g_varlocs g)).
Definition answers : Type := list ((list nat * list nat * list Q * list (nat * nat * Q) * nat) * (list Q * Q)).
Definition table_solver (tbl : answers) : solver_fn Q := fun _ g =>
  match List.find (fun e => bool_decide (fst e = view g)) tbl with Some e => Ok (snd e) | None => Err UnknownInfeasibleE end.
Definition of_view (v : list nat * list nat * list Q * list (nat * nat * Q) * nat) : gpdata Q :=
  let '(k, pidxs, cs, coo, n) := v in GP k [] pidxs cs [] (repeat (0%nat, []) n) [] [] 0 coo.

Lemma optimum_view (g g' : gpdata Q) vals c : view g = view g' -> gp_optimum g vals c -> gp_optimum g' vals c.
Proof.
  unfold view. intros E. injection E as E1 E2 E3 E4 E5. unfold gp_optimum, gp_feasible, posy_at, row_at.
  rewrite E1, E2, E3, E4, E5. auto.
Qed.
Lemma table_optimal tbl : List.Forall (fun e => gp_optimum (of_view (fst e)) (fst (snd e)) (snd (snd e))) tbl -> optimal_solver (table_solver tbl).
Proof.
  intros Ht n g vals c. unfold table_solver. destruct (List.find _ tbl) as [[v [vs k]]|] eqn:E; [|discriminate]. cbn [snd]. intros [= -> ->].
  apply find_some in E as [Hin E]. apply bool_decide_eq_true in E. cbn [fst] in E. rewrite List.Forall_forall in Ht. specialize (Ht _ Hin). cbn [fst snd] in Ht.
  eapply optimum_view; [|exact Ht]. rewrite E. unfold view, of_view. cbn [g_k g_pidxs g_cs g_coo g_varlocs]. rewrite repeat_length. reflexivity.
Qed.

(** Runs from a start, and what they visit. *)
Definition q_run (tbl : answers) (limit : Z) (cs : list (sp_constr Q)) (x0 : gmap nat Q) : option (sgp Q * list (solved Q)) :=
  match q_build None cs ∅ with
  | Ok s => match q_solve (table_solver tbl) 0%Z limit (1 # 10000)%Q s x0 with
            | Returned h | Raised _ h => Some (s, h)
            | _ => None
            end
  | Err _ => None
  end.
Lemma q_run_ok tbl limit cs x0 s hist : q_run tbl limit cs x0 = Some (s, hist) ->
  q_build None cs ∅ = Ok s /\ made (q_solve (table_solver tbl) 0%Z limit (1 # 10000)%Q s x0) hist.
Proof.
  unfold q_run. destruct (q_build None cs ∅) as [s'|]; [|discriminate].
  destruct (q_solve _ _ _ _ s' x0) as [h|e h|] eqn:E; try discriminate; intros [= <- <-]; (split; [reflexivity|]); rewrite E; [left|right]; eauto.
Qed.

(** The conditions on a run, by computation. *)
Definition divb (p : hmap Q) (m : gmap nat Q) : bool :=
  forallb (fun j => forallb (fun i => match p !! i, p !! j with
    | Some (ei, _), Some (ej, _) => negb (bool_decide (exp_sub ei m = ej)) | _, _ => true end) (seq 0 j)) (seq 0 (length p)).
Lemma divb_ok p m : divb p m = true -> clean_division p m.
Proof.
  unfold divb. intros E i j ei ci ej cj Hij Hi Hj Heq. rewrite forallb_forall in E.
  assert (Hl : (j < length p)%nat) by (apply lookup_lt_is_Some; eauto).
  specialize (E j ltac:(apply in_seq; lia)). rewrite forallb_forall in E. specialize (E i ltac:(apply in_seq; lia)).
  cbv beta in E. unfold hmap in *. rewrite Hi, Hj in E. rewrite bool_decide_eq_true_2 in E by auto. discriminate.
Qed.
Definition cleanb (cs : list (sp_constr Q)) (hist : list (solved Q)) : bool :=
  forallb (fun h =>
    forallb (fun s => let negy := snd (posy_negy h) in let x0 := x0_of (sg_x0 (so_sgp s)) (std_vks negy) in
      match mono_approx 1000%Q x0 (std_schedule x0) true negy (std_vks negy) with
      | Ok [(me, _)] => divb (fst (posy_negy h)) me | _ => true end) hist &&
    match nm_sub 1000%Q ∅ h (std_schedule ∅ h) with
    | Ok st => match snd (posy_negy (s_cp st)) with [(me, _)] => divb (fst (posy_negy (s_cp st))) me | _ => true end
    | Err _ => true
    end) (sigs_of cs).
Lemma cleanb_ok cs hist : cleanb cs hist = true -> clean 1000%Q std_schedule std_vks true ∅ cs hist.
Proof.
  unfold cleanb. intros E h Hh. rewrite forallb_forall in E. specialize (E h (sigs_of_In cs h (or_introl Hh))).
  apply andb_true_iff in E as [E1 E2]. split.
  - intros s me mc Hs. cbv zeta. intros Em. rewrite forallb_forall in E1. specialize (E1 s Hs). cbv zeta beta in E1. rewrite Em in E1. apply divb_ok, E1.
  - intros st me mc Es En. rewrite Es, En in E2. apply divb_ok, E2.
Qed.
Definition steadyb (cs : list (sp_constr Q)) (hist : list (solved Q)) : bool :=
  forallb (fun a => match q_build None cs (sg_x0 (so_sgp a)) with
    | Ok f => bool_decide (g_k (sg_gp (so_sgp a)) = g_k (sg_gp f)) | Err _ => true end) hist.
Lemma steadyb_ok cs hist : steadyb cs hist = true -> always (q_build None cs) steady hist.
Proof.
  unfold steadyb. intros E a f Ha Ef. rewrite forallb_forall in E. specialize (E a Ha). cbv beta in E. rewrite Ef in E.
  apply bool_decide_eq_true in E. exact E.
Qed.
Definition point_of (s : solved Q) : list nat * list Q := (dkeys (g_varlocs (sg_gp (so_sgp s))), so_vals s).
Lemma point_ok s cols vals (env : nat -> Q) : point_of s = (cols, vals) -> (forall k, Qle_bool (env k) 0 = false) ->
  map env cols = vals -> solution_point ∅ s env.
Proof.
  intros [= E1 E2] He Hm. split; [|split].
  - intros k. cbn. rewrite He. reflexivity.
  - intros k v. rewrite lookup_empty. discriminate.
  - intros j k Hj _. rewrite E2, <- Hm. rewrite E1 in Hj. change (map env cols) with (env <$> cols). rewrite list_lookup_fmap, Hj. reflexivity.
Qed.

Lemma refute_C36 tbl limit cs x0 s hist tol (kinds : sp_constr Q -> Prop) ok a cols vals env c :
  q_run tbl limit cs x0 = Some (s, hist) ->
  List.Forall (fun e => gp_optimum (of_view (fst e)) (fst (snd e)) (snd (snd e))) tbl ->
  properb None cs = true -> forallb (fun kx : nat * Q => negb (Qle_bool (snd kx) 0)) (map_to_list x0) = true ->
  always (q_build None cs) ok hist -> cleanb cs hist = true ->
  In a hist -> point_of a = (cols, vals) -> (forall k, Qle_bool (env k) 0 = false) -> map env cols = vals ->
  In c cs -> kinds c -> ~ meets tol env c -> ~ C36_feasible_for Q tol kinds ok.
Proof.
  intros Hr Ht Hp Hx Hal Hcl Ha Hpt He Hm Hc Hk Hno C. apply q_run_ok in Hr as [Hb Hh]. apply Hno.
  refine (C 1000%Q std_schedule std_vks std_order true 200%Q [(qmap [(0%nat, 1%Q)], 1%Q)] cs ∅ std_iteration (properb_ok _ _ Hp)
    ltac:(intros k v; rewrite lookup_empty; discriminate) (table_solver tbl) 0%Z limit (1 # 10000)%Q s x0 hist (table_optimal _ Ht)
    (positive_ok _ Hx) Hb Hh Hal (cleanb_ok _ _ Hcl) a env c Ha _ Hc Hk).
  eapply point_ok; eauto.
Qed.

(** Checks of optimality: feasibility and the cost are computed, and the cost of
    every other feasible point is bounded by hand. *)
Definition feasibleb (g : gpdata Q) (vals : list Q) : bool :=
  (length vals =? length (g_varlocs g))%nat && forallb (fun x => negb (Qle_bool x 0)) vals &&
  forallb (fun p => Qle_bool (posy_at g vals p) 1) (seq 1 (length (g_k g) - 1)).
Lemma feasibleb_ok g vals : feasibleb g vals = true <-> gp_feasible g vals.
Proof.
  unfold feasibleb, gp_feasible. rewrite !andb_true_iff, Nat.eqb_eq, !forallb_forall. split.
  - intros [[H1 H2] H3]. split; [auto|]. split; [auto|]. intros p Hp. apply H3, in_seq. lia.
  - intros (H1 & H2 & H3). split; [split; auto|]. intros p Hp. apply in_seq in Hp. apply H3. lia.
Qed.
Lemma optimum_ok g vals c : feasibleb g vals = true -> c = posy_at g vals 0 ->
  (forall vals', feasibleb g vals' = true -> Qle_bool c (posy_at g vals' 0) = true) -> gp_optimum g vals c.
Proof. intros H1 H2 H3. split; [apply feasibleb_ok; auto|]. split; auto. intros v Hv. apply H3, feasibleb_ok, Hv. Qed.
Ltac rationals := repeat match goal with
  | H : negb (Qle_bool _ 0) = true |- _ => apply negb_true_iff in H
  | H : Qle_bool _ 0 = false |- _ => apply not_true_iff_false in H; rewrite Qle_bool_iff in H; apply Qnot_le_lt in H
  | H : Qle_bool _ _ = true |- _ => apply Qle_bool_iff in H; rewrite ?Qred_correct in H
  | H : _ && _ = true |- _ => apply andb_true_iff in H as [? ?]
  | H : true = true |- _ => clear H
  end; apply Qle_bool_iff; rewrite ?Qred_correct.

(** 1/z <= x^2 + 4 with 1 <= x <= 1: approximated around x = 2 and then around
    x = 1, costs go from 1/4 to 1/5 and stay there. *)
Definition pinned : list (sp_constr Q) :=
  [sig_le0 [([(0%nat, (-1)%Q)], 1%Q); ([(1%nat, 2%Q)], (-1)%Q); ([], (-4)%Q)];
   posy_only [([(1%nat, 1%Q)], 1%Q)]; posy_only [([(1%nat, (-1)%Q)], 1%Q)]].
Definition pinned_answers : answers :=
  [([1; 1; 1; 1]%nat, [0; 1; 2; 3]%nat, [1; 1 # 4; 1; 1]%Q,
    [(0%nat, 0%nat, 1%Q); (1%nat, 1%nat, (-1)%Q); (1%nat, 0%nat, (-1)%Q); (2%nat, 1%nat, 1%Q); (3%nat, 1%nat, (-1)%Q)], 2%nat,
    ([1 # 4; 1]%Q, (1 # 4)%Q));
   ([1; 1; 1; 1]%nat, [0; 1; 2; 3]%nat, [1; 1 # 5; 1; 1]%Q,
    [(0%nat, 0%nat, 1%Q); (1%nat, 1%nat, (-2 # 5)%Q); (1%nat, 0%nat, (-1)%Q); (2%nat, 1%nat, 1%Q); (3%nat, 1%nat, (-1)%Q)], 2%nat,
    ([1 # 5; 1]%Q, (1 # 5)%Q))].
Ltac feasible_facts := unfold feasibleb; cbn -[Qred Qmult Qplus Qpower Qle_bool Qeq_bool Qinv]; intros ?; rationals;
  repeat match goal with
  | H : context [Qpower ?a 1] |- _ => change (Qpower a 1) with a in H
  | |- context [Qpower ?a 1] => change (Qpower a 1) with a
  | H : context [Qpower ?a (-1)] |- _ => change (Qpower a (-1)) with (/ a)%Q in H
  end.
Ltac one_column := intros [|a [|]]; try discriminate; feasible_facts.
Ltac two_columns := intros [|a [|b [|]]]; try discriminate; feasible_facts.
Lemma clear_inv (k x : Q) : (0 < x)%Q -> (k * / x <= 1)%Q -> (k <= x)%Q.
Proof.
  intros Hx H. apply (Qmult_le_compat_r _ _ x) in H; [|apply Qlt_le_weak; auto].
  rewrite <- Qmult_assoc, (Qmult_comm (/ x)), Qmult_inv_r, Qmult_1_r, Qmult_1_l in H; auto.
  intros E. rewrite E in Hx. apply (Qlt_irrefl _ Hx).
Qed.
Lemma pinned_optimal : List.Forall (fun e => gp_optimum (of_view (fst e)) (fst (snd e)) (snd (snd e))) pinned_answers.
Proof.
  constructor; [|constructor; [|constructor]]; (apply optimum_ok; [vm_compute; reflexivity|vm_compute; reflexivity|]); two_columns.
  - assert (E : (b == 1)%Q).
    { apply Qle_antisym; [Lqa.lra|]. apply (clear_inv 1); [auto|Lqa.lra]. }
    rewrite E in H0. change (/ 1)%Q with 1%Q in H0.
    assert ((1 # 4) <= a)%Q by (apply clear_inv; [auto|Lqa.lra]). Lqa.lra.
  - assert (E : (b == 1)%Q).
    { apply Qle_antisym; [Lqa.lra|]. apply (clear_inv 1); [auto|Lqa.lra]. }
    rewrite (proj2 (Qeq_bool_iff b 1) E) in H0.
    assert ((1 # 5) <= a)%Q by (apply clear_inv; [auto|Lqa.lra]). Lqa.lra.
Qed.

(** Whether a point satisfies a constraint depends on the constraint's variables. *)
Lemma term_ext (env env' : nat -> Q) t : (forall k, fst t !! k <> None -> env k = env' k) -> term_at env t = term_at env' t.
Proof.
  intros E. unfold term_at. f_equal. f_equal. apply map_ext_in. intros [k x] Hk. cbn [fst snd]. f_equal. apply E.
  apply elem_of_list_In, elem_of_map_to_list in Hk. cbn [fst]. congruence.
Qed.
Lemma meets_ext tol (env env' : nat -> Q) c : (forall k, sp_var [c] k -> env k = env' k) -> meets tol env c -> meets tol env' c.
Proof.
  intros E. assert (S : forall h, c = SPc (CSig h) \/ c = SPeq h ->
    lesser_side env h = lesser_side env' h /\ greater_side env h = greater_side env' h).
  { intros h Hc. assert (forall t, In t h -> term_at env t = term_at env' t) as Ht.
    { intros t Ht. apply term_ext. intros k Hk. apply E. exists h. split; [destruct Hc as [->| ->]; [left|right]; left; reflexivity|].
      unfold in_vks. apply existsb_exists. exists t. split; auto. destruct (fst t !! k); [reflexivity|congruence]. }
    split; unfold lesser_side, greater_side; f_equal; apply map_ext_in; intros t Hin; rewrite (Ht t Hin); reflexivity. }
  destruct c as [[| |h]|h]; cbn [meets]; auto.
  - destruct (S h (or_introl eq_refl)) as [-> ->]. auto.
  - destruct (S h (or_intror eq_refl)) as [-> ->]. auto.
Qed.
Definition collectedb (h : hmap Q) : bool := properb None [SPc (CSig h)].
Lemma collectedb_ok h : collectedb h = true -> collected h.
Proof. intros E. apply properb_ok in E. apply (E h). left. left. reflexivity. Qed.

Definition pinned_start : gmap nat Q := qmap [(1%nat, 2%Q)].
Example C36_nonvacuous : exists s hist a b c,
  sigs_proper None pinned /\ posys_proper [(qmap [(0%nat, 1%Q)], 1%Q)] pinned /\ positive_values pinned_start /\ apart pinned_start ∅ /\
  optimal_solver (table_solver pinned_answers) /\
  q_build None pinned ∅ = Ok s /\ columns_listed pinned s /\
  made (q_solve (table_solver pinned_answers) 0%Z 50%Z (1 # 10000)%Q s pinned_start) hist /\
  always (q_build None pinned) steady hist /\ clean 1000%Q std_schedule std_vks true ∅ pinned hist /\
  hist = [a; b; c] /\ map so_cost hist = [1 # 4; 1 # 5; 1 # 5]%Q /\
  (forall env c, solution_point ∅ a env -> In c pinned -> meets 0%Q env c).
Proof.
  assert (E' : option_map (fun p => (sg_vks (fst p), dkeys (g_varlocs (sg_gp (fst p))), map point_of (snd p), map so_cost (snd p),
    (cleanb pinned (snd p), steadyb pinned (snd p)))) (q_run pinned_answers 50%Z pinned pinned_start) =
    Some ([0; 1]%nat, [0; 1]%nat, [([0; 1]%nat, [1 # 4; 1]%Q); ([0; 1]%nat, [1 # 5; 1]%Q); ([0; 1]%nat, [1 # 5; 1]%Q)],
      [1 # 4; 1 # 5; 1 # 5]%Q, (true, true))) by (vm_compute; reflexivity).
  destruct (q_run pinned_answers 50%Z pinned pinned_start) as [[s hist]|] eqn:E; [|discriminate].
  cbn [option_map fst snd] in E'. injection E' as E1 E2 E3 E4 E5 E6.
  destruct hist as [|a [|b [|c [|]]]]; try discriminate E4. exists s, [a; b; c], a, b, c.
  apply q_run_ok in E as [Hb Hm].
  split; [apply properb_ok; vm_compute; reflexivity|]. split.
  { split; [apply collectedb_ok; vm_compute; reflexivity|].
    intros st us u Hin Hu. cbn in Hin.
    destruct Hin as [[Hin|[Hin|[Hin|[]]]]|[Hin|[Hin|[Hin|[]]]]]; try discriminate Hin; injection Hin as <- <-;
      destruct Hu as [<-|[]]; apply collectedb_ok; vm_compute; reflexivity. }
  split; [apply positive_ok; vm_compute; reflexivity|]. split; [intros k _; apply lookup_empty|].
  split; [apply table_optimal, pinned_optimal|]. split; [auto|].
  split; [intros k Hk _; rewrite E1; rewrite E2 in Hk; exact Hk|]. split; [auto|].
  split; [apply steadyb_ok; auto|]. split; [apply cleanb_ok; auto|]. split; [auto|]. split; [auto|].
  intros env d (_ & _ & Hp) Hd. injection E3 as E3 E7 _ _ _ _.
  rewrite E3, E7 in Hp. assert (H0 := Hp 0%nat 0%nat eq_refl eq_refl). assert (H1 := Hp 1%nat 1%nat eq_refl eq_refl). cbn in H0, H1.
  destruct Hd as [<-|[<-|[<-|[]]]]; try exact I.
  apply (meets_ext 0%Q (fun k => match k with O => 1 # 4 | _ => 1 end)%Q); [|vm_compute; reflexivity].
  intros k (h & Hh & Hk). destruct Hh as [[[= <-]|[]]|[Hh|[]]]; [|discriminate Hh].
  apply (proj2 (proj1 (proj2 std_iteration) _)) in Hk. vm_compute in Hk.
  destruct Hk as [<-|[<-|[]]]; congruence.
Qed.

(** ** What the tolerance and the conditions are for *)

(** A signomial constraint that divides by a single term may be dropped with the
    constant on its left up to a thousandth too large: x * 2001/2000 <= x^2/2 + 1/2
    approximated around x = 1 is 2001/2000 <= 1. *)
Definition dropped : list (sp_constr Q) :=
  [sig_le0 [([(0%nat, 1%Q)], 2001 # 2000); ([(0%nat, 2%Q)], -1 # 2); ([], -1 # 2)]; posy_only [([(0%nat, (-1)%Q)], 1%Q)]].
Definition dropped_answers : answers :=
  [([1; 1]%nat, [0; 1]%nat, [1; 1]%Q, [(0%nat, 0%nat, 1%Q); (1%nat, 0%nat, (-1)%Q)], 1%nat, ([1]%Q, 1%Q))].
Lemma dropped_optimal : List.Forall (fun e => gp_optimum (of_view (fst e)) (fst (snd e)) (snd (snd e))) dropped_answers.
Proof.
  constructor; [|constructor]. apply optimum_ok; [vm_compute; reflexivity|vm_compute; reflexivity|]. one_column.
  assert (1 <= a)%Q by (apply clear_inv; [auto|Lqa.lra]). Lqa.lra.
Qed.
Lemma first_visited tbl limit cs x0 pt pts clean' steady' :
  option_map (fun p => (map point_of (snd p), (cleanb cs (snd p), steadyb cs (snd p)))) (q_run tbl limit cs x0) =
    Some (pt :: pts, (clean', steady')) ->
  exists s a hist, q_run tbl limit cs x0 = Some (s, a :: hist) /\ point_of a = pt /\ cleanb cs (a :: hist) = clean' /\
    steadyb cs (a :: hist) = steady'.
Proof.
  destruct (q_run tbl limit cs x0) as [[s [|a hist]]|]; [discriminate| |discriminate]. cbn [option_map snd map].
  intros E. injection E as E1 E2 E3 E4. exists s, a, hist. auto.
Qed.
Theorem C36_exact_feasibility_refuted : ~ C36_feasible_for Q 0%Q inequality steady.
Proof.
  destruct (first_visited dropped_answers 50%Z dropped ∅ ([0%nat], [1%Q]) [([0%nat], [1%Q])] true true)
    as (s & a & hist & Hr & Hpt & Hcl & Hst); [vm_compute; reflexivity|].
  eapply (refute_C36 dropped_answers 50%Z dropped ∅ s (a :: hist) 0%Q inequality steady a [0%nat] [1%Q] (fun _ => 1%Q)); eauto.
  - exact dropped_optimal.
  - apply steadyb_ok, Hst.
  - left. reflexivity.
  - left. reflexivity.
  - exact I.
  - vm_compute. discriminate.
Qed.
Print Assumptions C36_exact_feasibility_refuted.

(** Equalities are not satisfied at all: y = x^2/2 + 1/2 is approximated around
    x = 1 by y = x, and met at x = y = 2. *)
Definition equated : list (sp_constr Q) :=
  [SPeq [(qmap [(0%nat, 1%Q)], 1%Q); (qmap [(1%nat, 2%Q)], -1 # 2); (qmap [], -1 # 2)]; posy_only [([(1%nat, (-1)%Q)], 2%Q)]].
Definition equated_answers : answers :=
  [([1; 1; 1; 1]%nat, [0; 1; 2; 3]%nat, [1; 1; 1; 2]%Q,
    [(0%nat, 0%nat, 1%Q); (1%nat, 0%nat, 1%Q); (2%nat, 0%nat, (-1)%Q); (1%nat, 1%nat, (-1)%Q); (2%nat, 1%nat, 1%Q); (3%nat, 1%nat, (-1)%Q)],
    2%nat, ([2; 2]%Q, 2%Q))].
Lemma equated_optimal : List.Forall (fun e => gp_optimum (of_view (fst e)) (fst (snd e)) (snd (snd e))) equated_answers.
Proof.
  constructor; [|constructor]. apply optimum_ok; [vm_compute; reflexivity|vm_compute; reflexivity|]. two_columns.
  assert (2 <= b)%Q by (apply clear_inv; [auto|Lqa.lra]). assert (b <= a)%Q by (apply clear_inv; [auto|Lqa.lra]). Lqa.lra.
Qed.
Theorem C36_equalities_refuted : ~ C36_feasible_for Q (1 # 1000)%Q (fun _ => True) steady.
Proof.
  destruct (first_visited equated_answers 0%Z equated ∅ ([0; 1]%nat, [2; 2]%Q) [] true true) as (s & a & hist & Hr & Hpt & Hcl & Hst);
    [vm_compute; reflexivity|].
  eapply (refute_C36 equated_answers 0%Z equated ∅ s (a :: hist) (1 # 1000)%Q (fun _ => True) steady a [0; 1]%nat [2; 2]%Q (fun _ => 2%Q)); eauto.
  - exact equated_optimal.
  - apply steadyb_ok, Hst.
  - left. reflexivity.
  - left. reflexivity.
  - intros [_ M]. vm_compute in M. discriminate M.
Qed.
Print Assumptions C36_equalities_refuted.

(** An approximation that gains a term spills over the next constraint, and no
    longer stands for its own: x + y <= x^3 + 2 x^2 + 4 has one term around x = 1
    and two around x = 2, of which the second ends up in place of 1/y <= 1. *)
Definition spilling : list (sp_constr Q) :=
  [sig_le0 [([(0%nat, 1%Q)], 1%Q); ([(1%nat, 1%Q)], 1%Q); ([(0%nat, 3%Q)], (-1)%Q); ([(0%nat, 2%Q)], (-2)%Q); ([], (-4)%Q)];
   posy_only [([(1%nat, (-1)%Q)], 1%Q)]; posy_only [([(0%nat, (-1)%Q)], 2%Q)]].
Definition spilling_answers : answers :=
  [([1; 1; 1; 1]%nat, [0; 1; 2; 3]%nat, [1; 1 # 5; 1 # 5; 2]%Q,
    [(0%nat, 0%nat, 1%Q); (2%nat, 0%nat, (-2)%Q); (3%nat, 0%nat, (-1)%Q); (1%nat, 0%nat, (-1)%Q); (2%nat, 1%nat, (-1)%Q); (2%nat, 1%nat, 1%Q)],
    2%nat, ([2; 19]%Q, 2%Q))].
Lemma spilling_optimal : List.Forall (fun e => gp_optimum (of_view (fst e)) (fst (snd e)) (snd (snd e))) spilling_answers.
Proof.
  constructor; [|constructor]. apply optimum_ok; [vm_compute; reflexivity|vm_compute; reflexivity|]. two_columns.
  assert (2 <= a)%Q by (apply clear_inv; [auto|Lqa.lra]). Lqa.lra.
Qed.
Theorem C36_gained_term_refuted : ~ C36_feasible_for Q (1 # 1000)%Q inequality (fun _ _ => True).
Proof.
  destruct (first_visited spilling_answers 0%Z spilling (qmap [(0%nat, 2%Q)]) ([0; 1]%nat, [2; 19]%Q) [] true false)
    as (s & a & hist & Hr & Hpt & Hcl & Hst); [vm_compute; reflexivity|].
  eapply (refute_C36 spilling_answers 0%Z spilling (qmap [(0%nat, 2%Q)]) s (a :: hist) (1 # 1000)%Q inequality (fun _ _ => True) a
    [0; 1]%nat [2; 19]%Q (fun k => match k with O => 2 | _ => 19 end)%Q); eauto.
  - exact spilling_optimal.
  - intros b f _ _. exact I.
  - left. reflexivity.
  - intros [|k]; reflexivity.
  - left. reflexivity.
  - exact I.
  - vm_compute. discriminate.
Qed.
Print Assumptions C36_gained_term_refuted.
