(** C72-C74: the interface to MOSEK's command line solver. *)
From Verif Require Import Base HashVec Nomial NomialSem NomialProofs Constraint Settings GPGen GPGenProofs PropsGP MosekCli MosekCliSpec MosekCliProofs.
From Coq Require Import Strings.String Strings.Ascii.
Local Open Scope list_scope.
Open Scope nat_scope.

(** ** C72 *)

Lemma lsum_slice (f : nat -> R) s k : forall n a, a <= s -> s + k <= a + n ->
  lsum (fun i => if (s <=? i) && (i <? s + k) then f i else 0%R) (seq a n) = lsum f (seq s k).
Proof.
  intros n a Ha Hn.
  replace n with ((s - a) + (k + (a + n - (s + k)))) by lia. rewrite seq_app, lsum_app, seq_app, lsum_app. replace (a + (s - a)) with s by lia.
  rewrite (lsum_ext _ (fun _ => 0%R) (seq a _)).
  2:{ intros i Hi. apply in_seq in Hi. replace (s <=? i) with false by (symmetry; apply Nat.leb_gt; lia). auto. }
  rewrite (lsum_ext _ f (seq s k)).
  2:{ intros i Hi. apply in_seq in Hi. replace (s <=? i) with true by (symmetry; apply Nat.leb_le; lia). replace (i <? s + k) with true by (symmetry; apply Nat.ltb_lt; lia). auto. }
  rewrite (lsum_ext _ (fun _ => 0%R) (seq (s + k) _)).
  2:{ intros i Hi. apply in_seq in Hi. replace (i <? s + k) with false by (symmetry; apply Nat.ltb_ge; lia). rewrite andb_false_r. auto. }
  rewrite !lsum_zero. lra.
Qed.

(** The file written for a GP with a cost and constraints [hmaps], as a reader of the format understands it, is that GP: it has as many constraints
    and variables, and at every point the value of its cost and of each constraint is that of the GP's. Coefficients and exponents are assumed to be
    read as they were written. *)
Theorem C72_file : forall (fmt : R -> text) (parse : text -> option R) (ord : var_order R) (hmaps : list (bool * hmap R)), any_order ord ->
  hmaps <> [] -> (forall b h, In (b, h) hmaps -> h <> []) ->
  round_trip fmt parse 0%R ->
  (forall b h e c, In (b, h) hmaps -> In (e, c) h -> round_trip fmt parse c /\ forall v a, e !! v = Some a -> round_trip fmt parse a) ->
  let g := gen ord hmaps in
  exists file q, write_output_file fmt (g_cs g) (g_coo g) (g_pidxs g) = Ok file /\ read_problem parse file = Some q /\
    S (q_con q) = List.length hmaps /\ (g_varlocs g <> [] -> q_var q = List.length (g_varlocs g)) /\
    forall (x : nat -> R) (env : point), (forall v j, varidx g v = Some j -> env v = exp (x j)) ->
    forall p b h, hmaps !! p = Some (b, h) -> posy_value q x p = eval env h.
Proof.
  intros fmt parse ord hmaps Hord Hne Hh H0 Hr g.
  destruct (C26_slices_partition_rows ord hmaps Hord) as (_ & _ & Hlast & Hpidx & _ & Hcs & _ & Hsh & Hvar).
  destruct (C26_rows_evaluate_posynomials ord hmaps Hord) as [Hml Hrows]. cbv zeta in *. fold g in Hlast, Hpidx, Hcs, Hsh, Hvar, Hml, Hrows.
  set (rows := List.length (flat_map snd hmaps)) in *.
  pose proof (gen_loop_inv ord Hord hmaps (map (fun mh => List.length (snd mh)) hmaps)) as HI.
  assert (Ep : g_pidxs g = pidx_spec hmaps) by (unfold g; rewrite gen_eq; apply (gi_pidxs _ _ HI)).
  assert (Lp : List.length (g_pidxs g) = rows) by (rewrite Ep, pidx_length; auto).
  (* the last posynomial *)
  set (n := List.length hmaps) in *.
  assert (Hn : 0 < n) by (unfold n; clear - Hne; destruct hmaps; [contradiction|simpl; lia]).
  destruct (lookup_lt_is_Some_2 hmaps (n - 1)) as [[b h] El]; [change (n - 1 < n); lia|].
  destruct (Hrows (n - 1) b h El) as [Em _]. set (s := List.length (flat_map snd (take (n - 1) hmaps))) in *.
  assert (Eh : 0 < List.length h).
  { apply elem_of_list_lookup_2 in El. apply elem_of_list_In in El. specialize (Hh b h El). destruct h; [contradiction|simpl; lia]. }
  assert (Et : s + List.length h = rows).
  { apply Hlast with (s := s). rewrite last_lookup, Hml. replace (Nat.pred n) with (n - 1) by lia. exact Em. }
  assert (Elast : last (g_pidxs g) = Some (n - 1)).
  { rewrite last_lookup, Lp. apply Hpidx. exists s, (s + List.length h). split; [exact Em|]. lia. }
  assert (Hrows0 : 0 < rows) by lia. specialize (Hsh Hrows0).
  destruct (coo_shape (g_coo g)) as [numter numvar] eqn:Es. cbn [fst snd] in Hsh, Hvar. subst numter.
  (* the numbers *)
  assert (In_terms : forall t, In t (flat_map snd hmaps) -> round_trip fmt parse (snd t) /\ forall v a, fst t !! v = Some a -> round_trip fmt parse a).
  { intros [e c] I. apply in_flat_map in I as ([b' h'] & I1 & I2). simpl in *. eapply Hr; eassumption. }
  assert (Fc : Forall (round_trip fmt parse) (g_cs g)).
  { unfold g. rewrite gen_eq. cbn [g_cs]. rewrite (gi_cs _ _ HI). apply List.Forall_forall. intros c Ic. apply in_map_iff in Ic as (t & <- & It). apply In_terms. exact It. }
  assert (FA : Forall (fun e => round_trip fmt parse (snd e)) (g_coo g)).
  { unfold g. rewrite gen_eq. cbn [g_coo]. apply List.Forall_forall. intros e Ie. apply in_app_or in Ie as [Ie|Ie].
    - apply (vi_coo _ _ _ _ (gi_v _ _ HI)) in Ie as (i & -> & _). exact H0.
    - apply in_flat_map in Ie as ([j [v locs]] & _ & Ie). simpl in Ie. apply in_map_iff in Ie as (i & <- & _). simpl. rewrite (gi_exps _ _ HI).
      destruct (map fst (terms hmaps) !! i) as [e|] eqn:E; [|exact H0]. destruct (e !! v) as [a|] eqn:Ea; [|exact H0].
      apply elem_of_list_lookup_2, elem_of_list_In, in_map_iff in E as (t & <- & It). apply (proj2 (In_terms t It) v a Ea). }
  destruct (read_write fmt parse (g_cs g) (g_coo g) (g_pidxs g) (n - 1) rows numvar) as (file & Ef & Eq); auto.
  exists file, (Problem (n - 1) numvar rows (g_cs g) (g_pidxs g) (g_coo g)). split; [exact Ef|]. split; [exact Eq|]. cbn [q_con q_var].
  split; [lia|]. split.
  { intros Hv. apply Hvar. destruct (g_varlocs g) as [|a l]; [contradiction|simpl; lia]. }
  intros x env Henv p b' h' Hp. destruct (Hrows p b' h' Hp) as [Em' Hval]. rewrite <- (Hval x env Henv).
  set (s' := List.length (flat_map snd (take p hmaps))) in *. unfold posy_value. cbn [q_in q_ter].
  assert (Hle : s' + List.length h' <= rows).
  { assert (Hh' : 0 < List.length h').
    { apply elem_of_list_lookup_2 in Hp. apply elem_of_list_In in Hp. specialize (Hh b' h' Hp). destruct h'; [contradiction|simpl; lia]. }
    assert (E : g_pidxs g !! (s' + List.length h' - 1) = Some p) by (apply Hpidx; exists s', (s' + List.length h'); split; [exact Em'|lia]).
    apply lookup_lt_Some in E. lia. }
  rewrite <- (lsum_slice (fun i => (nth i (g_cs g) 0 * exp (coo_dot (g_coo g) x i))%R) s' (List.length h') rows 0) by lia.
  apply lsum_ext. intros t Ht. apply in_seq in Ht.
  assert (EE : Nat.eqb (nth t (g_pidxs g) 0) p = (s' <=? t) && (t <? s' + List.length h')).
  { destruct (lookup_lt_is_Some_2 (g_pidxs g) t) as [p' Ep']; [lia|]. rewrite (nth_lookup_Some _ _ _ _ Ep').
    pose proof (proj1 (Hpidx t p') Ep') as (s1 & t1 & E1 & R1).
    destruct (Nat.eqb_spec p' p) as [->|N].
    - rewrite Em' in E1. injection E1 as <- <-. symmetry. apply andb_true_iff. rewrite Nat.leb_le, Nat.ltb_lt. lia.
    - symmetry. apply not_true_iff_false. intros E. apply andb_true_iff in E. rewrite Nat.leb_le, Nat.ltb_lt in E. apply N.
      assert (E' : g_pidxs g !! t = Some p) by (apply Hpidx; exists s', (s' + List.length h'); auto). congruence. }
  rewrite EE. destruct (_ && _); [|reflexivity]. unfold term_value. cbn [q_c q_exps]. rewrite coo_dot_lsum. reflexivity.
Qed.
Print Assumptions C72_file.

(** A cost 2 x and a constraint 1/x <= 1 *)
Definition two_posys : list (bool * hmap R) := [(false, [(<[0 := 1%R]> e_empty, 2%R)]); (false, [(<[0 := (-1)%R]> e_empty, 1%R)])].
Definition print_few (x : R) : text :=
  if Req_EM_T x 0 then chars "0" else if Req_EM_T x 1 then chars "1" else if Req_EM_T x 2 then chars "2" else chars "-1".
Definition parse_few (w : text) : option R :=
  if decide (w = chars "0") then Some 0%R else if decide (w = chars "1") then Some 1%R else
  if decide (w = chars "2") then Some 2%R else if decide (w = chars "-1") then Some (-1)%R else None.
Lemma round_few x : x = 0%R \/ x = 1%R \/ x = 2%R \/ x = (-1)%R -> round_trip print_few parse_few x.
Proof.
  assert (V : forall w, In w [chars "0"; chars "1"; chars "2"; chars "-1"] -> good w).
  { intros w H. simpl in H. repeat destruct H as [<-|H]; try destruct H; (split; [split; [discriminate|repeat (constructor; [vm_compute; lia|]); constructor]|simpl; congruence]). }
  assert (P : forall w, In w [chars "0"; chars "1"; chars "2"; chars "-1"] -> print_few x = w -> parse_few w = Some x -> round_trip print_few parse_few x).
  { intros w H1 H2 H3. split; rewrite H2; auto. }
  intros H. unfold print_few in P.
  destruct (Req_EM_T x 0) as [->|N0]; [eapply P; [|reflexivity|reflexivity]; simpl; auto|].
  destruct (Req_EM_T x 1) as [->|N1]; [eapply P; [|reflexivity|reflexivity]; simpl; auto|].
  destruct (Req_EM_T x 2) as [->|N2]; [eapply P; [|reflexivity|reflexivity]; simpl; auto|].
  destruct H as [H|[H|[H|H]]]; try contradiction. subst x. eapply P; [|reflexivity|reflexivity]; simpl; auto.
Qed.
Example C72_nonvacuous : two_posys <> [] /\ (forall b h, In (b, h) two_posys -> h <> []) /\ round_trip print_few parse_few 0%R /\
  (forall b h e c, In (b, h) two_posys -> In (e, c) h -> round_trip print_few parse_few c /\ forall v a, e !! v = Some a -> round_trip print_few parse_few a).
Proof.
  split; [discriminate|]. split.
  { intros b h [H|[H|[]]]; injection H as <- <-; discriminate. }
  split; [apply round_few; auto|].
  intros b h e c [H|[H|[]]]; injection H as <- <-; intros [H|[]]; injection H as <- <-; (split; [apply round_few; auto|]); intros v a E;
    apply lookup_insert_Some in E as [[_ <-]|[_ E]]; try (exfalso; unfold e_empty in E; rewrite lookup_empty in E; discriminate E); apply round_few; auto.
Qed.
(** The file for it, with whole numbers *)
Example C72_example : write_output_file (fun n => dec n) [2; 1] [(0, 0, 1); (1, 0, 3)] [0; 1] =
  Ok (List.concat (map (fun l => chars l ++ [newline]) ["1"; "1"; "2"; ""; "*c"; "2"; "1"; ""; "*p_idxs"; "0"; "1"; ""; "*t j A_tj"; "0 0 1"; "1 0 3"]%string)).
Proof. reflexivity. Qed.

(** ** C73 *)

(** A file with an optimal solution is read as it was written: status, objective, and primal and dual values in order. *)
Theorem C73_read : forall (T : Type) (parse : text -> option T) status objective primal dual more obj xs nus,
  visible status -> visible objective -> parse objective = Some obj ->
  Forall2 (fun v x => value_ok v /\ parse (v_number v) = Some x) primal xs -> Forall2 (fun v x => value_ok v /\ parse (v_number v) = Some x) dual nus ->
  more = [] \/ hd_error more = Some newline ->
  read_solution parse (solution_file status objective primal dual more) = Ok (Answer status obj xs nus).
Proof. intros T parse. apply read_ok. Qed.
Print Assumptions C73_read.

(** With any other status of the problem, whatever else is in the file, the exception says which. *)
Theorem C73_status : forall (T : Type) (parse : text -> option T) status more, visible status -> status <> chars "PRIMAL_AND_DUAL_FEASIBLE" ->
  read_solution parse (line (chars "PROBLEM STATUS      : " ++ status) ++ more) =
  Err (if bool_decide (status = chars "PRIMAL_INFEASIBLE") then PrimalInfeasibleE
       else if bool_decide (status = chars "DUAL_INFEASIBLE") then DualInfeasibleE else UnknownInfeasibleE).
Proof.
  intros T parse status more Hs Hn. rewrite read_solution_parts. unfold k1. rewrite readline_line.
  2:{ intros I. apply in_app_or in I as [I|I]; [revert I; vm_compute; intuition congruence|]. apply visible_nl in I; auto. }
  unfold line. rewrite removelast_last. unfold second_of_two. rewrite split_two; [|discriminate|vm_compute; tauto|apply visible_space; exact Hs]. cbn [rbind].
  destruct (bool_decide (status = _)); [reflexivity|]. destruct (bool_decide (status = _)); [reflexivity|].
  rewrite (bool_decide_false (status = _)) by exact Hn. reflexivity.
Qed.
Print Assumptions C73_status.

(** A file that was cut off before the values of the dual variables is never taken for a solution. *)
Theorem C73_cut_partial : forall (T : Type) (parse : text -> option T) status objective primal dual more p r,
  visible status -> visible objective -> Forall value_ok primal ->
  p ++ r = solution_file status objective primal dual more -> List.length p < List.length (head_text status objective primal) ->
  exists e, read_solution parse p = Err e.
Proof.
  intros T parse status objective primal dual more p r Hs Ho Fp E L. apply (read_cut parse status objective primal p); auto.
  unfold solution_file in E. apply app_eq_app in E as (x & [(E1 & E2)|(E1 & E2)]).
  - rewrite E1, app_length in L. lia.
  - exists x. split; [exact E1|]. intros ->. rewrite app_nil_r in E1. rewrite E1 in L. lia.
Qed.
Print Assumptions C73_cut_partial.

(** But one that is cut off later is. Missing: numbers are cut short and values left out. *)
Definition parse_dec (w : text) : option nat := nat_of w.
Theorem C73_cut_refuted : exists status objective primal dual p r x a b,
  visible status /\ visible objective /\ Forall2 (fun v x => value_ok v /\ parse_dec (v_number v) = Some x) primal [x] /\
  Forall2 (fun v x => value_ok v /\ parse_dec (v_number v) = Some x) dual [a; b] /\
  p ++ r = solution_file status objective primal dual [] /\ r <> [] /\
  exists obj x' b', read_solution parse_dec p = Ok (Answer status obj [x'] [b']) /\ b' <> a.
Proof.
  exists (chars "OPTIMAL"), (chars "276"), [Value (chars "1") 6 (chars "239") 3], [Value (chars "1") 6 (chars "17") 3; Value (chars "2") 6 (chars "83") 3].
  set (f := solution_file _ _ _ _ _). exists (firstn (List.length f - 19) f), (skipn (List.length f - 19) f), 239, 17, 83.
  assert (V : forall s, forallb (fun c => 33 <=? nat_of_ascii c) (chars s) = true -> chars s <> [] -> visible (chars s)).
  { intros s H N. split; [exact N|]. apply List.Forall_forall. intros c I. rewrite forallb_forall in H. apply Nat.leb_le. apply H. exact I. }
  split; [apply V; [reflexivity|discriminate]|]. split; [apply V; [reflexivity|discriminate]|].
  split; [repeat constructor; try discriminate; simpl; repeat (constructor; [vm_compute; lia|]); constructor|].
  split; [repeat constructor; try discriminate; simpl; repeat (constructor; [vm_compute; lia|]); constructor|].
  split; [apply firstn_skipn|]. split; [vm_compute; discriminate|].
  exists 276, 239, 1. split; [vm_compute; reflexivity|]. discriminate.
Qed.
Print Assumptions C73_cut_refuted.
Example C73_nonvacuous : read_solution parse_dec (solution_file (chars "OPTIMAL") (chars "276") [Value (chars "1") 6 (chars "239") 3]
    [Value (chars "1") 6 (chars "17") 3; Value (chars "2") 6 (chars "83") 3] []) = Ok (Answer (chars "OPTIMAL") 276 [239] [17; 83]).
Proof. vm_compute. reflexivity. Qed.

(** What comes of running the solver: codes 233 and 240 are for the license, any other but 0 is for an unknown failure, whatever it wrote;
    with 0, the answer is what the solution file says. It is run on the file that was written, wherever that is. *)
Theorem C73_exit : forall (T : Type) (fmt : T -> text) (parse : text -> option T) (mskexpopt : text -> option text -> run) path new c A p_idxs (ds : dirs) file,
  write_output_file fmt c A p_idxs = Ok file -> (forall p, path = Some p -> exists d, dget ds p = Some d) ->
  let '(tmp, p, ds0) := optimize_generator path new ds in
  let '(_, r) := optimize fmt parse mskexpopt tmp p c A p_idxs ds0 in
  exists old, (path = None -> old = None) /\ (forall p d, path = Some p -> dget ds p = Some d -> old = d_solution d) /\
  match mskexpopt file old with
  | NotFound => r = Err OSErrorE
  | Exit code sol => (code = 233 \/ code = 240 -> r = Err InvalidLicenseE) /\ (code <> 0 -> code <> 233 -> code <> 240 -> r = Err UnknownInfeasibleE) /\
      (code = 0 -> forall s, sol = Some s -> r = read_solution parse s) /\ (code = 0 -> sol = None -> r = Err OSErrorE)
  end.
Proof.
  intros T fmt parse msk path new c A p_idxs ds file Hw Hp.
  assert (G : forall tmp p ds0 d, dget ds0 p = Some d -> let '(_, r) := optimize fmt parse msk tmp p c A p_idxs ds0 in
    match msk file (d_solution d) with
    | NotFound => r = Err OSErrorE
    | Exit code sol => (code = 233 \/ code = 240 -> r = Err InvalidLicenseE) /\ (code <> 0 -> code <> 233 -> code <> 240 -> r = Err UnknownInfeasibleE) /\
        (code = 0 -> forall s, sol = Some s -> r = read_solution parse s) /\ (code = 0 -> sol = None -> r = Err OSErrorE)
    end).
  { intros tmp p ds0 d Hd. unfold optimize. rewrite Hd, Hw. destruct (msk file (d_solution d)) as [|code sol]; [reflexivity|].
    destruct (code =? 0) eqn:E0; cbn [negb].
    - apply Nat.eqb_eq in E0. subst code. destruct sol as [s|]; [destruct (read_solution parse s) eqn:Er|]; (split; [intros [?|?]; discriminate|]);
        (split; [intros []; reflexivity|]); (split; [|solve [intros; reflexivity | intros; discriminate]]); intros _ s' [= <-]; auto.
    - apply Nat.eqb_neq in E0. split; [|split; [|split; intros; contradiction]].
      + intros [-> | ->]; reflexivity.
      + intros _ H1 H2. rewrite (proj2 (Nat.eqb_neq _ _) H1), (proj2 (Nat.eqb_neq _ _) H2). reflexivity. }
  destruct path as [p|]; cbn [optimize_generator].
  - destruct (Hp p eq_refl) as (d & Hd). specialize (G false p ds d Hd). destruct (optimize _ _ _ _ _ _ _ _ _) as [ds' r].
    exists (d_solution d). split; [discriminate|]. split; [|exact G]. intros p' d' [= <-] Hd'. congruence.
  - specialize (G true new (dset ds new (Dir None None)) (Dir None None) (dget_dset_eq _ _ _)). destruct (optimize _ _ _ _ _ _ _ _ _) as [ds' r].
    exists None. split; [auto|]. split; [discriminate|exact G].
Qed.
Print Assumptions C73_exit.

(** ** C74 *)

(** Solving with no directory given: a temporary one is made *)
Definition solve_in_temp {T} (fmt : T -> text) (parse : text -> option T) mskexpopt new c A p_idxs (ds : dirs) : dirs * res (answer T) :=
  let '(tmp, path, ds') := optimize_generator None new ds in optimize fmt parse mskexpopt tmp path c A p_idxs ds'.

Lemma dset_twice {V} (d : list (nat * V)) k v w : dset (dset d k v) k w = dset d k w.
Proof. induction d as [|[a b] d IH]; simpl; [rewrite decide_True by auto; auto|]. destruct (decide (k = a)) as [->|N]; simpl; [rewrite decide_True by auto; auto|]. rewrite decide_False by auto. f_equal. exact IH. Qed.
Lemma ddel_dset {V} (d : list (nat * V)) k v : dget d k = None -> ddel (dset d k v) k = d.
Proof.
  induction d as [|[a b] d IH]; simpl; [rewrite decide_True by auto; auto|]. destruct (decide (k = a)) as [->|N]; [discriminate|]. intros H. simpl. rewrite decide_False by auto. f_equal. auto.
Qed.

(** When a solution is returned, the directories are as before. *)
Theorem C74_removed_partial : forall (T : Type) (fmt : T -> text) (parse : text -> option T) mskexpopt new c A p_idxs (ds ds' : dirs) a,
  dget ds new = None -> solve_in_temp fmt parse mskexpopt new c A p_idxs ds = (ds', Ok a) -> ds' = ds.
Proof.
  intros T fmt parse msk new c A p_idxs ds ds' a Hn. unfold solve_in_temp, optimize_generator, optimize. rewrite dget_dset_eq.
  destruct (write_output_file fmt c A p_idxs) as [file|e]; [|intros [=]]. cbn [d_solution].
  destruct (msk file None) as [|code sol]; [intros [=]|]. destruct (negb (code =? 0)); [intros [=]|]. destruct sol as [s|]; [|intros [=]].
  destruct (read_solution parse s) as [a'|e]; [|intros [=]]. intros E. injection E as <- _. rewrite !dset_twice. apply ddel_dset. exact Hn.
Qed.
Print Assumptions C74_removed_partial.

(** Whatever happens and wherever the files are put, all other directories are as before. *)
Theorem C74_others : forall (T : Type) (fmt : T -> text) (parse : text -> option T) mskexpopt path new c A p_idxs (ds : dirs),
  let '(tmp, p, ds0) := optimize_generator path new ds in
  let '(ds', _) := optimize fmt parse mskexpopt tmp p c A p_idxs ds0 in
  forall d, d <> (match path with Some p => p | None => new end) -> dget ds' d = dget ds d.
Proof.
  intros T fmt parse msk path new c A p_idxs ds.
  assert (G : forall tmp p ds0, (forall d, d <> p -> dget ds0 d = dget ds d) ->
    let '(ds', _) := optimize fmt parse msk tmp p c A p_idxs ds0 in forall d, d <> p -> dget ds' d = dget ds d).
  { intros tmp p ds0 H0. unfold optimize. destruct (dget ds0 p) as [dd|]; [|exact H0].
    destruct (write_output_file fmt c A p_idxs) as [file|e]; [|intros d N; rewrite dget_dset_ne by exact N; auto].
    destruct (msk file _) as [|code sol]; [intros d N; rewrite dget_dset_ne by exact N; auto|].
    destruct (negb (code =? 0)); [intros d N; rewrite !dget_dset_ne by exact N; auto|].
    destruct sol as [s|]; [|intros d N; rewrite !dget_dset_ne by exact N; auto].
    destruct (read_solution parse s); [|intros d N; rewrite !dget_dset_ne by exact N; auto].
    destruct tmp; intros d N; [rewrite dget_ddel_ne by exact N|]; rewrite !dget_dset_ne by exact N; auto. }
  destruct path as [p|]; cbn [optimize_generator]; apply G; [auto|]. intros d N. apply dget_dset_ne. exact N.
Qed.
Print Assumptions C74_others.

(** A directory that was given is never removed, and holds the problem afterwards. *)
Theorem C74_given_kept : forall (T : Type) (fmt : T -> text) (parse : text -> option T) mskexpopt p new c A p_idxs (ds : dirs) d file,
  dget ds p = Some d -> write_output_file fmt c A p_idxs = Ok file ->
  let '(tmp, p', ds0) := optimize_generator (Some p) new ds in
  let '(ds', _) := optimize fmt parse mskexpopt tmp p' c A p_idxs ds0 in
  exists d', dget ds' p = Some d' /\ d_problem d' = Some file.
Proof.
  intros T fmt parse msk p new c A p_idxs ds d file Hd Hw. cbn [optimize_generator]. unfold optimize. rewrite Hd, Hw.
  destruct (msk file (d_solution d)) as [|code sol]; [|destruct (negb (code =? 0)); [|destruct sol as [s|]; [destruct (read_solution parse s)|]]];
    (eexists; split; [apply dget_dset_eq|reflexivity]).
Qed.
Print Assumptions C74_given_kept.

(** When an exception is raised, the temporary directory is left behind: with an infeasible problem, say. *)
Theorem C74_infeasible_refuted : exists (mskexpopt : text -> option text -> run) new c A p_idxs (ds ds' : dirs) d,
  dget ds new = None /\ solve_in_temp (fun n => dec n) parse_dec mskexpopt new c A p_idxs ds = (ds', Err PrimalInfeasibleE) /\ dget ds' new = Some d.
Proof.
  exists (fun _ _ => Exit 0 (Some (line (chars "PROBLEM STATUS      : PRIMAL_INFEASIBLE")))), 0, [2; 1], [(0, 0, 1); (1, 0, 3)], [0; 1], []. do 2 eexists.
  split; [reflexivity|]. split; [vm_compute; reflexivity|]. reflexivity.
Qed.
Print Assumptions C74_infeasible_refuted.
Example C74_nonvacuous : exists a, solve_in_temp (fun n => dec n) parse_dec
    (fun _ _ => Exit 0 (Some (solution_file (chars "OPTIMAL") (chars "2") [Value (chars "1") 6 (chars "0") 3] [Value (chars "1") 6 (chars "1") 3; Value (chars "2") 6 (chars "1") 3] [])))
    5 [2; 1] [(0, 0, 1); (1, 0, 3)] [0; 1] [(4, Dir None None)] = ([(4, Dir None None)], Ok a).
Proof. eexists. vm_compute. reflexivity. Qed.
