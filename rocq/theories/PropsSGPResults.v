(** C99: what is kept of the solves of a sequential geometric program *)
From Verif Require Import Base HashVec Nomial NomialSem NomialProofs Sub SubSem SubExtra Mono Constraint ConstraintSem
  MonoProofs ConstraintProofs GPGen GPGenProofs PropsGP SGP SGPSem LocalProofs SGPProofs ApproxProofs RebuildProofs PropsSGP
  SGPIterSpec SGPIterProofs SGPIterSub SGPIterLin SGPIterRun SGPIterCols SGPResults.
Open Scope R_scope.

(** ** What is claimed *)
(** A solver returns a value for every variable. *)
Definition complete (solver : solver_fn R) : Prop := forall n g vals cost, solver n g = Ok (vals, cost) -> length vals = length (g_varlocs g).
(** The values in a result are those of the solution, of the program as it was then: what was substituted, what the solver found for others, and nothing else. *)
Definition values_of (fixed : gmap nat R) (so : solved R) (vars : gmap nat R) : Prop :=
  forall k x, vars !! k = Some x <->
    fixed !! k = Some x \/ fixed !! k = None /\ exists j, dkeys (g_varlocs (sg_gp (so_sgp so))) !! j = Some k /\ so_vals so !! j = Some x.
Definition as_found (fixed : gmap nat R) (so : solved R) (r : result R) : Prop := r_cost r = so_cost so /\ values_of fixed so (r_vars r).

(** ** Proofs *)
Section Run.
Variables (inf : R) (pick : gmap nat R -> hmap R -> schedule) (vks_of : hmap R -> list nat) (ord : var_order R) (se : bool) (solver : solver_fn R).
Lemma update_fixed s x0 s' : sgp_gp inf pick vks_of ord se s x0 = Ok s' -> sg_fixed s' = sg_fixed s /\ sg_slack s' = sg_slack s.
Proof.
  unfold sgp_gp. destruct (decide (x0 = ∅)); [intros [= <-]; auto|]. intros E.
  apply put_all_flat in E as (hs & _ & E). apply put_posys_keeps in E as (E1 & _ & _ & E4 & _). auto.
Qed.
Lemma run_same s0 x00 s x0 hist : run inf pick vks_of ord se solver s0 x00 s x0 hist ->
  (g_varlocs (sg_gp s) = g_varlocs (sg_gp s0) /\ sg_fixed s = sg_fixed s0 /\ sg_slack s = sg_slack s0) /\
  forall so, In so hist -> g_varlocs (sg_gp (so_sgp so)) = g_varlocs (sg_gp s0) /\ sg_fixed (so_sgp so) = sg_fixed s0 /\ sg_slack (so_sgp so) = sg_slack s0 /\
    exists n, solver n (sg_gp (so_sgp so)) = Ok (so_vals so, so_cost so).
Proof.
  induction 1 as [|s x0 hist s' vals c Hr [(I1 & I2 & I3) IH] Eu Es]; [split; [auto|intros so []]|].
  destruct (update_fixed _ _ _ Eu) as [F1 F2]. assert (F3 : g_varlocs (sg_gp s') = g_varlocs (sg_gp s)) by exact (update_varlocs inf pick vks_of ord se 1 [] [] ∅ _ _ _ Eu).
  split; [repeat split; congruence|]. intros so Hi. apply in_app_iff in Hi as [Hi|[<-|[]]]; [auto|]. cbn [so_sgp so_vals so_cost]. repeat split; try congruence. eauto.
Qed.
End Run.
Lemma build_varlocs (inf : R) pick vks_of ord se slack penalty cost cs fixed x0 s : (forall e, List.NoDup (ord e) /\ forall k, In k (ord e) <-> e !! k <> None) ->
  sgp_build inf pick vks_of ord se slack penalty cost cs fixed x0 = Ok s -> NoDup (dkeys (g_varlocs (sg_gp s))) /\ sg_fixed s = fixed /\ sg_slack s = slack.
Proof.
  intros Hord E. unfold sgp_build in E. destruct (any_nonpositive cost); [discriminate|]. apply rbind_ok in E as (first & _ & E). apply rbind_ok in E as (cost' & _ & E).
  apply rbind_ok in E as ([[gpc sc] [ap vks]] & _ & E). destruct sc as [|? ?]; [discriminate|]. apply rbind_ok in E as (hmaps & _ & E). injection E as <-. cbn [sg_gp sg_fixed sg_slack].
  split; [|auto]. rewrite gen_eq. cbn [g_varlocs]. apply (vi_nd _ _ _ _ (gi_v _ _ (gen_loop_inv ord Hord hmaps _))).
Qed.
Lemma generate_ok tol now so : NoDup (dkeys (g_varlocs (sg_gp now))) -> g_varlocs (sg_gp (so_sgp so)) = g_varlocs (sg_gp now) -> length (so_vals so) = length (g_varlocs (sg_gp now)) ->
  exists r, generate tol now (so_vals so) (so_cost so) = Ok r /\ as_found (sg_fixed now) so r /\ r_free r = x0_dict (sg_gp now) (so_vals so) /\ r_vars r = sg_fixed now ∪ r_free r.
Proof.
  intros Hn Hv Hl. unfold generate. rewrite decide_True by congruence. eexists. split; [reflexivity|]. cbn [r_cost r_vars r_free]. split; [|auto]. split; [reflexivity|].
  intros k x. cbn [r_vars]. rewrite lookup_union_Some_raw, x0_dict_lookup by assumption. rewrite Hv. split; intros [Hk|[Hk Hx]]; auto; right; (split; [exact Hk|]).
  - destruct (position (dkeys (g_varlocs (sg_gp now))) k) as [j|] eqn:Ej; [|discriminate]. exists j. split; [apply position_in, Ej|].
    injection Hx as <-. apply position_in, lookup_lt_Some in Ej. unfold dkeys in Ej. rewrite map_length in Ej. destruct (lookup_lt_is_Some_2 (so_vals so) j) as [y Ey]; [lia|]. rewrite Ey. f_equal. symmetry. apply nth_lookup_Some, Ey.
  - destruct Hx as (j & Hj & Hx). rewrite (position_at _ _ _ Hn Hj). f_equal. apply nth_lookup_Some, Hx.
Qed.
Lemma generate_all_ok tol now hist (P : solved R -> result R -> Prop) : (forall so, In so hist -> exists r, generate tol (now so) (so_vals so) (so_cost so) = Ok r /\ P so r) ->
  exists rs, generate_all tol now hist = Ok rs /\ Forall2 P hist rs.
Proof.
  induction hist as [|so hist IH]; intros Hp; [exists []; split; [reflexivity|constructor]|]. cbn [generate_all].
  destruct (Hp so (or_introl eq_refl)) as (r & -> & Hr). cbn [rbind]. destruct IH as (rs & -> & F); [intros so' Hi; apply Hp; right; exact Hi|]. cbn [rbind].
  exists (r :: rs). split; [reflexivity|constructor; assumption].
Qed.
Lemma in_hist {A} (l : list A) x : last l = Some x -> In x l.
Proof. intros E. apply elem_of_list_In. apply last_Some_elem_of in E. exact E. Qed.

(** After a search, however it ended, [program.results] has a result for each of the solves, in order, with the cost and the values found;
    so has what is made at a verbosity above 2. *)
Theorem C99_results_partial : forall (inf : R) pick vks_of ord se slack penalty cost cs fixed solver verbosity limit reltol s x0 hist tol,
  any_iteration ord vks_of pick -> complete solver -> sgp_init inf pick vks_of ord se slack penalty cost cs fixed = Ok s ->
  made (localsolve inf pick vks_of ord se solver verbosity limit reltol s x0) hist ->
  exists rs rs', results tol hist = Ok rs /\ Forall2 (as_found fixed) hist rs /\ results_at_once tol hist = Ok rs' /\ Forall2 (as_found fixed) hist rs'.
Proof.
  intros inf pick vks_of ord se slack penalty cost cs fixed solver verbosity limit reltol s x0 hist tol (Hord & _) Hc Ei Hm.
  unfold sgp_init in Ei. destruct (build_varlocs _ _ _ _ _ _ _ _ _ _ _ _ Hord Ei) as (Hn & Hf & _).
  destruct (loop_run inf pick vks_of ord se solver s x0 verbosity limit reltol _ s x0 None None [] hist (run_start _ _ _ _ _ _ _ _) Hm) as (s' & x0' & Hr).
  destruct (run_same _ _ _ _ _ _ _ _ _ _ _ Hr) as [_ Hsame]. unfold results, results_at_once.
  assert (Hall : forall now, (forall so, In so hist -> exists so', In so' hist /\ now so = so_sgp so') -> exists rs, generate_all tol now hist = Ok rs /\ Forall2 (as_found fixed) hist rs).
  { intros now Hnow. apply generate_all_ok. intros so Hi. destruct (Hnow so Hi) as (so' & Hi' & ->).
    destruct (Hsame so Hi) as (A1 & A2 & A3 & n & A4). destruct (Hsame so' Hi') as (B1 & B2 & B3 & _). rewrite <- Hf, <- B2.
    destruct (generate_ok tol (so_sgp so') so) as (r & E & Hr' & _); [rewrite B1; exact Hn|congruence|rewrite (Hc _ _ _ _ A4); congruence|]. eauto. }
  destruct (Hall so_sgp) as (rs' & E' & F'); [intros so Hi; eauto|]. destruct (last hist) as [newest|] eqn:El.
  - destruct (Hall (fun _ => so_sgp newest)) as (rs & E & F); [intros so _; exists newest; split; [apply in_hist, El|reflexivity]|]. exists rs, rs'. auto.
  - apply last_None in El. subst hist. exists [], rs'. split; [reflexivity|]. split; [constructor|]. auto.
Qed.
Print Assumptions C99_results_partial.

(** What is returned has the cost and the values of the last solve -- except that a slack which is one (up to a millionth) has been taken out. *)
Theorem C99_returned : forall (inf : R) pick vks_of ord se slack penalty cost cs fixed solver verbosity limit reltol s x0 hist tol,
  any_iteration ord vks_of pick -> complete solver -> sgp_init inf pick vks_of ord se slack penalty cost cs fixed = Ok s ->
  localsolve inf pick vks_of ord se solver verbosity limit reltol s x0 = Returned hist ->
  (forall k, slack = Some k -> fixed !! k = None /\ In k (dkeys (g_varlocs (sg_gp s)))) ->
  exists r so vars, returned tol hist = Ok r /\ last hist = Some so /\ r_cost r = so_cost so /\ values_of fixed so vars /\
  (forall k, slack <> Some k -> r_vars r !! k = vars !! k) /\
  (forall k, slack = Some k -> exists v, vars !! k = Some v /\ (v - 1 <= 1 / 1000000 -> r_vars r !! k = None) /\ (1 / 1000000 < v - 1 -> r_vars r !! k = Some v)).
Proof.
  intros inf pick vks_of ord se slack penalty cost cs fixed solver verbosity limit reltol s x0 hist tol (Hord & _) Hc Ei Hm Hslack.
  unfold sgp_init in Ei. destruct (build_varlocs _ _ _ _ _ _ _ _ _ _ _ _ Hord Ei) as (Hn & Hf & Hsl).
  destruct (loop_run inf pick vks_of ord se solver s x0 verbosity limit reltol _ s x0 None None [] hist (run_start _ _ _ _ _ _ _ _) (or_introl Hm)) as (s' & x0' & Hr).
  destruct (run_same _ _ _ _ _ _ _ _ _ _ _ Hr) as [_ Hsame]. pose proof (C37_localsolve_stops inf pick vks_of ord se solver verbosity limit reltol s x0) as Hstop. rewrite Hm in Hstop.
  destruct Hstop as (_ & earlier & a & b & Ec & _). unfold returned.
  destruct (last hist) as [so|] eqn:El; [|apply last_None in El; subst hist; destruct earlier; discriminate].
  destruct (Hsame so (in_hist _ _ El)) as (A1 & A2 & A3 & n & A4).
  destruct (generate_ok tol (so_sgp so) so) as (r & -> & [Hcost Hvals] & Hfree & Hvars); [rewrite A1; exact Hn|reflexivity|apply (Hc _ _ _ _ A4)|]. cbn [rbind]. rewrite A3, Hsl. rewrite A2, Hf in Hvals, Hvars.
  destruct slack as [k|]; cbn [without_slack].
  - destruct (Hslack k eq_refl) as [Hk1 Hk2]. apply elem_of_list_In, elem_of_list_lookup in Hk2 as [j Hj].
    assert (Hv : exists v, so_vals so !! j = Some v).
    { apply lookup_lt_is_Some_2. rewrite (Hc _ _ _ _ A4), A1. apply lookup_lt_Some in Hj. unfold dkeys in Hj. rewrite map_length in Hj. exact Hj. }
    destruct Hv as [v Hv]. assert (Ev : r_vars r !! k = Some v). { apply Hvals. right. split; [exact Hk1|]. exists j. rewrite A1. auto. }
    assert (Ef : r_free r !! k = Some v). { rewrite Hvars in Ev. rewrite lookup_union_r in Ev by exact Hk1. exact Ev. }
    rewrite Ev, Ef. assert (Ele : nleb (nsub v n1) (@eps R _) = true <-> v - 1 <= 1 / 1000000).
    { rewrite eps_val. change (nsub v n1) with (v - 1). change (Rleb (v - 1) (1 / 1000000) = true <-> v - 1 <= 1 / 1000000). unfold Rleb. destruct (Rle_dec (v - 1) (1 / 1000000)); split; intros; try reflexivity; try discriminate; try assumption; contradiction. }
    destruct (nleb (nsub v n1) eps).
    + eexists _, so, (r_vars r). split; [reflexivity|]. cbn [r_cost r_vars]. split; [reflexivity|]. split; [exact Hcost|]. split; [exact Hvals|]. split.
      * intros k' Hk'. apply lookup_delete_ne. congruence.
      * intros k' [= <-]. exists v. split; [exact Ev|]. split; [intros _; apply lookup_delete|]. intros Hgt. assert (v - 1 <= 1 / 1000000) by tauto. lra.
    + exists r, so, (r_vars r). split; [reflexivity|]. split; [reflexivity|]. split; [exact Hcost|]. split; [exact Hvals|]. split; [reflexivity|].
      intros k' [= <-]. exists v. split; [exact Ev|]. split; [intros Hle; apply Ele in Hle; discriminate|]. intros _. exact Ev.
  - exists r, so, (r_vars r). split; [reflexivity|]. split; [reflexivity|]. split; [exact Hcost|]. split; [exact Hvals|]. split; [reflexivity|]. intros k' Hk'. discriminate.
Qed.
Print Assumptions C99_returned.

(** ** A case, and what the property does not extend to *)
(** Whoever asks for [program.results] is told of violated constraints only if a solution violates those of the program it was found for. *)
Definition C99_checks_for (T : Type) `{Num T} : Prop :=
  forall (inf : T) pick vks_of ord se slack penalty cost cs fixed solver verbosity limit reltol s x0 hist tol rs,
  sgp_init inf pick vks_of ord se slack penalty cost cs fixed = Ok s -> localsolve inf pick vks_of ord se solver verbosity limit reltol s x0 = Returned hist ->
  results tol hist = Ok rs -> (forall so, In so hist -> violated tol (sg_gp (so_sgp so)) (so_vals so) = false) -> forall r, In r rs -> r_violated r = false.

(** Minimize x with z <= x^3 + 80/7/x^2 + 52/7 and z >= 1, starting at x = 2: solutions with (x, z) = (2, 18), (1, 9) and (1, 9), and no slack *)
Definition dip : list (sp_constr Q) :=
  [sig_le0 [([(1%nat, 1%Q)], 1%Q); ([(0%nat, 3%Q)], (-1)%Q); ([(0%nat, (-2)%Q)], (- 80 # 7)%Q); ([], (- 52 # 7)%Q)]; posy_only [([(1%nat, (-1)%Q)], 1%Q)]].
Definition three_points : solver_fn Q := fun n g =>
  let x := match n with O => 2%Q | _ => 1%Q end in let z := match n with O => 18%Q | _ => 9%Q end in
  Ok (map (fun k => if decide (k = 0%nat) then x else if decide (k = 1%nat) then z else 1%Q) (dkeys (g_varlocs g)), x).
Definition start_at_two : gmap nat Q := qmap [(0%nat, 2%Q)].
Definition three_run : res (outcome Q) := rmap (fun s => q_solve three_points 0%Z 50%Z (1 # 10000)%Q s start_at_two) (q_build (Some 9%nat) dip ∅).
Example C99_computed :
  match three_run with
  | Ok (Returned hist) =>
      map so_cost hist = [2; 1; 1]%Q /\
      match results (1 # 1000)%Q hist with
      | Ok rs => map r_cost rs = [2; 1; 1]%Q /\ map (fun r => (r_vars r !! 0%nat, r_vars r !! 1%nat, r_vars r !! 9%nat)) rs =
                   [(Some 2, Some 18, Some 1); (Some 1, Some 9, Some 1); (Some 1, Some 9, Some 1)]%Q
      | Err _ => False
      end /\
      match returned (1 # 1000)%Q hist with Ok r => r_cost r = 1%Q /\ map_to_list (r_vars r) = [(0%nat, 1%Q); (1%nat, 9%Q)] | Err _ => False end
  | _ => False
  end.
Proof. vm_compute. repeat split. Qed.

(** Solutions are checked against the last approximations: asking for [program.results] after this run says that a constraint is violated, although each solution
    satisfied all constraints of the program it was found for. *)
Definition told_wrongly (r : res (outcome Q)) : bool :=
  match r with
  | Ok (Returned hist) =>
      match results (1 # 1000)%Q hist with
      | Ok rs => forallb (fun so => negb (violated (1 # 1000)%Q (sg_gp (so_sgp so)) (so_vals so))) hist && existsb r_violated rs
      | Err _ => false
      end
  | _ => false
  end.
Lemma told_wrongly_here : told_wrongly three_run = true.
Proof. vm_compute. reflexivity. Qed.
Lemma not_told (C : C99_checks_for Q) s o : q_build (Some 9%nat) dip ∅ = Ok s -> q_solve three_points 0%Z 50%Z (1 # 10000)%Q s start_at_two = o -> told_wrongly (Ok o) = false.
Proof.
  intros Es Eh. unfold told_wrongly. destruct o as [hist| |]; try reflexivity. destruct (results (1 # 1000)%Q hist) as [rs|e] eqn:Er; [|reflexivity]. apply andb_false_iff.
  destruct (forallb (fun so => negb (violated (1 # 1000)%Q (sg_gp (so_sgp so)) (so_vals so))) hist) eqn:Hall; [right|left; reflexivity].
  destruct (existsb r_violated rs) eqn:Ee; [|reflexivity]. apply existsb_exists in Ee as (r & Hi & Hr).
  rewrite (C _ _ _ _ _ _ _ _ _ _ _ _ _ _ _ _ _ _ _ Es Eh Er) with (r := r) in Hr; [discriminate| |exact Hi].
  intros so Hso. rewrite forallb_forall in Hall. apply Hall in Hso. apply negb_true_iff, Hso.
Qed.
Lemma run_is : exists s, q_build (Some 9%nat) dip ∅ = Ok s.
Proof.
  assert (E : match q_build (Some 9%nat) dip ∅ with Ok _ => true | Err _ => false end = true) by (vm_compute; reflexivity).
  destruct (q_build (Some 9%nat) dip ∅) as [s|e]; [exists s; reflexivity|discriminate].
Qed.
Lemma rmap_ok {A B} (f : A -> B) r x : r = Ok x -> rmap f r = Ok (f x).
Proof. intros ->. reflexivity. Qed.
Theorem C99_checks_refuted : ~ C99_checks_for Q.
Proof.
  intros C. destruct run_is as (s & Es). pose proof told_wrongly_here as H. assert (F := not_told C s _ Es eq_refl). unfold three_run in H. rewrite (rmap_ok _ _ _ Es) in H. rewrite F in H. discriminate.
Qed.
Print Assumptions C99_checks_refuted.

(** ** What the check of constraints tells *)
Definition laid_out (hs : list (bool * hmap R)) (g : gpdata R) : Prop :=
  g_midxs g = midx_spec hs /\ g_pidxs g = pidx_spec hs /\ length (g_cs g) = length (terms hs) /\ length (g_k g) = length hs.
Lemma put_terms_laid ord hs h : forall row g st g' st', put_terms ord row h (g, st) = Ok (g', st') -> laid_out hs g -> laid_out hs g'.
Proof.
  induction h as [|[e c] h IH]; intros row g st g' st' E L; cbn [put_terms] in E; [injection E as <- <-; exact L|].
  destruct (length (g_exps g) <=? row)%nat; [discriminate|]. apply rbind_ok in E as (st1 & _ & E). apply IH in E; [exact E|].
  destruct L as (L1 & L2 & L3 & L4). repeat split; cbn [g_midxs g_pidxs g_cs g_k]; auto. rewrite insert_length. exact L3.
Qed.
Lemma put_posys_laid (inf : R) pick ord se hs0 hs : forall s p s', put_posys inf pick ord se s p hs = Ok s' -> laid_out hs0 (sg_gp s) -> laid_out hs0 (sg_gp s').
Proof.
  induction hs as [|h hs IH]; intros s p s' E L; cbn [put_posys] in E; [injection E as <-; exact L|].
  apply rbind_ok in E as (s1 & E1 & E). apply IH in E; [exact E|].
  unfold put_posy in E1. destruct (sg_approx s !! p) as [a|] eqn:Ea; [|discriminate].
  apply rbind_ok in E1 as (u & E2 & E1). apply rbind_ok in E1 as (r & E3 & E1).
  destruct (snd r) as [|hh [|? ?]]; try discriminate. destruct (length (sg_hmaps s) <=? S p)%nat; [discriminate|].
  destruct (g_midxs (sg_gp s) !! S p) as [[m t]|]; [|discriminate]. apply rbind_ok in E1 as ([g st] & E4 & E1). injection E1 as <-.
  cbn [sg_gp]. exact (put_terms_laid _ _ _ _ _ _ _ _ E4 L).
Qed.
Lemma run_laid (inf : R) pick vks_of ord se solver s0 x00 hs0 s x0 hist : run inf pick vks_of ord se solver s0 x00 s x0 hist -> laid_out hs0 (sg_gp s0) ->
  laid_out hs0 (sg_gp s) /\ forall so, In so hist -> laid_out hs0 (sg_gp (so_sgp so)).
Proof.
  intros Hr L. induction Hr as [|s x0 hist s' vals c Hr [I1 IH] Eu Es]; [split; [exact L|intros so []]|].
  assert (L' : laid_out hs0 (sg_gp s')).
  { unfold sgp_gp in Eu. destruct (decide (x0 = ∅)); [injection Eu as <-; exact I1|]. apply put_all_flat in Eu as (hs & _ & Eu). exact (put_posys_laid _ _ _ _ _ _ _ _ _ Eu I1). }
  split; [exact L'|]. intros so Hi. apply in_app_iff in Hi as [Hi|[<-|[]]]; [auto|exact L'].
Qed.
Lemma build_laid (inf : R) pick vks_of ord se slack penalty cost cs fixed x0 s : (forall e, List.NoDup (ord e) /\ forall k, In k (ord e) <-> e !! k <> None) ->
  sgp_build inf pick vks_of ord se slack penalty cost cs fixed x0 = Ok s -> exists hs, laid_out hs (sg_gp s).
Proof.
  intros Hord E. unfold sgp_build in E. destruct (any_nonpositive cost); [discriminate|]. apply rbind_ok in E as (first & _ & E). apply rbind_ok in E as (cost' & _ & E).
  apply rbind_ok in E as ([[gpc sc] [ap vks]] & _ & E). destruct sc as [|? ?]; [discriminate|]. apply rbind_ok in E as (hmaps & _ & E). injection E as <-. cbn [sg_gp].
  exists hmaps. pose proof (gen_loop_inv ord Hord hmaps (map (fun mh => length (snd mh)) hmaps)) as [G1 G2 G3 _ _]. rewrite gen_eq. unfold laid_out. cbn [g_midxs g_pidxs g_cs g_k].
  rewrite G1, G2, G3, gen_loop_k, !map_length. auto.
Qed.
Lemma total_block (f : nat -> R) n a k : (a + k <= n)%nat -> fold_right nadd n0 (take k (drop a (map f (seq 0 n)))) = total (map f (seq a k)).
Proof.
  intros Hk. unfold total. f_equal. replace n with (a + (k + (n - a - k)))%nat by lia. rewrite seq_app, map_app.
  rewrite drop_app_alt by (rewrite map_length, seq_length; reflexivity). rewrite seq_app, map_app. apply take_app_alt. rewrite map_length, seq_length. reflexivity.
Qed.
Lemma block_posy hs g vals p s t : laid_out hs g -> g_midxs g !! p = Some (s, t) ->
  fold_right nadd n0 (take (t - s) (drop s (monomials g vals))) = posy_at g vals p.
Proof.
  intros (L1 & L2 & L3 & L4) Em. rewrite L1 in Em. pose proof (midx_lookup _ _ _ _ Em) as (Hp & Es & Et).
  assert (Hle : (t <= length (terms hs))%nat) by (rewrite Et; apply terms_take_le).
  assert (Hst : (s <= t)%nat).
  { rewrite Es, Et. destruct (lookup_lt_is_Some_2 hs p Hp) as [x Hx]. rewrite (take_S_r hs p x Hx), terms_app, app_length. lia. }
  unfold posy_at. rewrite L2. rewrite (filter_interval _ s t).
  - unfold monomials. rewrite total_block by lia. reflexivity.
  - intros i Hi. rewrite Nat.eqb_eq, Nat.add_0_l in *. destruct (pidx_spec hs !! i) as [q|] eqn:Eq; [|apply lookup_ge_None in Eq; lia].
    rewrite (nth_lookup_Some _ _ _ _ Eq). split.
    + intros ->. apply pidx_spec_ok in Eq as (s' & t' & E & H'). rewrite Em in E. injection E as <- <-. exact H'.
    + intros H'. assert (pidx_spec hs !! i = Some p) by (apply pidx_spec_ok; eauto). congruence.
  - lia.
  - rewrite pidx_length. lia.
Qed.
(** A result made of a solution and the program it was found for says that constraints are violated if, and only if, one of them is, by more than the tolerance. *)
Theorem C99_told : forall (inf : R) pick vks_of ord se slack penalty cost cs fixed solver verbosity limit reltol s x0 hist tol rs i so r,
  any_iteration ord vks_of pick -> sgp_init inf pick vks_of ord se slack penalty cost cs fixed = Ok s ->
  made (localsolve inf pick vks_of ord se solver verbosity limit reltol s x0) hist ->
  results_at_once tol hist = Ok rs -> hist !! i = Some so -> rs !! i = Some r ->
  (r_violated r = true <-> exists p, (1 <= p < length (g_k (sg_gp (so_sgp so))))%nat /\ 1 + tol < posy_at (sg_gp (so_sgp so)) (so_vals so) p).
Proof.
  intros inf pick vks_of ord se slack penalty cost cs fixed solver verbosity limit reltol s x0 hist tol rs i so r (Hord & _) Ei Hm Er Hi Hri.
  unfold sgp_init in Ei. destruct (build_laid _ _ _ _ _ _ _ _ _ _ _ _ Hord Ei) as (hs & L).
  destruct (loop_run inf pick vks_of ord se solver s x0 verbosity limit reltol _ s x0 None None [] hist (run_start _ _ _ _ _ _ _ _) Hm) as (s' & x0' & Hr).
  destruct (run_laid _ _ _ _ _ _ _ _ _ _ _ _ Hr L) as [_ Hall]. assert (Ls : laid_out hs (sg_gp (so_sgp so))) by (apply Hall, elem_of_list_In; eapply elem_of_list_lookup_2; exact Hi).
  assert (Hgen : generate tol (so_sgp so) (so_vals so) (so_cost so) = Ok r).
  { clear - Er Hi Hri. unfold results_at_once in Er. revert rs i Er Hi Hri. induction hist as [|so' hist IH]; intros rs i Er Hi Hri; [rewrite lookup_nil in Hi; discriminate|].
    cbn [generate_all] in Er. apply rbind_ok in Er as (r' & E1 & Er). apply rbind_ok in Er as (rs' & E2 & Er). injection Er as <-.
    destruct i as [|i]; [injection Hi as ->; injection Hri as ->; exact E1|]. exact (IH rs' i E2 Hi Hri). }
  unfold generate in Hgen. destruct (decide _); [|discriminate]. injection Hgen as <-. cbn [r_violated]. unfold violated. rewrite existsb_exists.
  pose proof Ls as (L1 & _ & _ & L4). pose proof (midx_length hs) as Hlen. split.
  - intros ([a b] & Hin & Hlt). apply elem_of_list_In, elem_of_list_lookup in Hin as [q Hq]. assert (Hq' : g_midxs (sg_gp (so_sgp so)) !! S q = Some (a, b)) by (destruct (g_midxs (sg_gp (so_sgp so))); [discriminate|exact Hq]).
    exists (S q). split; [pose proof (lookup_lt_Some _ _ _ Hq') as H; rewrite L1, Hlen in H; lia|]. cbn [fst snd] in Hlt. rewrite (block_posy _ _ _ _ _ _ Ls Hq') in Hlt. apply Rltb_true in Hlt. exact Hlt.
  - intros (p & Hp & Hlt). destruct (lookup_lt_is_Some_2 (g_midxs (sg_gp (so_sgp so))) p) as [[a b] Hq]; [rewrite L1, Hlen; lia|].
    exists (a, b). split.
    + apply elem_of_list_In. apply elem_of_list_lookup. exists (p - 1)%nat. destruct p as [|p]; [lia|]. replace (S p - 1)%nat with p by lia. destruct (g_midxs (sg_gp (so_sgp so))); [discriminate|exact Hq].
    + cbn [fst snd]. rewrite (block_posy _ _ _ _ _ _ Ls Hq). apply Rltb_true. exact Hlt.
Qed.
Print Assumptions C99_told.
