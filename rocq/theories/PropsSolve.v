(** C75-C77: solving a program. *)
From Verif Require Import Base Settings Sweep Solve.
From Coq Require Import Strings.String.
Local Open Scope list_scope.
Open Scope nat_scope.

Section Options.
Context {V Out Res : Type}.
Variable default : option nat.
Variable known : nat -> bool.
Variable generate : Out -> res Res.
Notation call := (call V Out Res).

(** ** Specification *)

(** A call is solved by the solver [s]: it is asked for, or is the default and none is asked for, and exists. *)
Definition solved_by (c : call) (s : nat) : Prop := (c_solver c = Some s \/ c_solver c = None /\ default = Some s) /\ known s = true.
(** The last value that any of several sets of options has for [k] *)
Fixpoint last_given (l : list (kwargs V)) (k : nat) : option V :=
  match l with
  | [] => None
  | kw :: l' => match last_given l' k with Some v => Some v | None => dget kw k end
  end.

Lemma get_solver_iff c s : get_solver default known (c_solver c) = Ok s <-> solved_by c s.
Proof.
  unfold get_solver, solved_by. destruct (c_solver c) as [a|].
  - destruct (known a) eqn:E; (split; [intros H; try discriminate H; injection H as <-; auto|]); intros [[H|[H _]] K]; try discriminate H; injection H as ->; congruence.
  - destruct default as [a|]; [|split; [discriminate|intros [[H|[_ H]] _]; discriminate H]].
    destruct (known a) eqn:E; (split; [intros H; try discriminate H; injection H as <-; auto|]); intros [[H|[_ H]] K]; try discriminate H; injection H as ->; congruence.
Qed.

Lemma update_get (d e : kwargs V) k : NoDup (dkeys e) -> dget (update d e) k = match dget e k with Some v => Some v | None => dget d k end.
Proof.
  revert d. induction e as [|[a b] e IH]; intros d N; [auto|]. unfold update in *. cbn [fold_left fst snd]. inversion N as [|? ? Na Ne]; subst.
  rewrite IH by exact Ne. cbn [dget]. destruct (decide (k = a)) as [->|Hk].
  - rewrite dget_dset_eq. replace (dget e a) with (@None V); [auto|]. symmetry. apply dget_None. intros I. apply Na. apply elem_of_list_In. exact I.
  - rewrite dget_dset_ne by exact Hk. auto.
Qed.

(** What a solve does to the defaults, and the options it uses *)
Lemma solve_options (w : world V) p c : let '(w', _, args, _) := solve default known generate w p c in
  match get_solver default known (c_solver c) with
  | Err _ => w_defaults w' = w_defaults w /\ args = None
  | Ok s => w_defaults w' = snd (solver_args (w_defaults w) s (c_kwargs c)) /\ args = Some (fst (solver_args (w_defaults w) s (c_kwargs c)))
  end.
Proof.
  unfold solve. destruct (get_solver default known (c_solver c)) as [s|e]; [|auto]. destruct (solver_args (w_defaults w) s (c_kwargs c)) as [args ds].
  destruct (c_run c s args) as [printed [o|e]]; [|auto]. destruct (negb (c_gen_result c)); [auto|]. destruct (generate o); auto.
Qed.

(** The options of the calls solved by [s] *)
Definition options_of (s : nat) (cs : list (nat * call)) : list (kwargs V) :=
  map (fun ic => c_kwargs (snd ic)) (List.filter (fun ic => match get_solver default known (c_solver (snd ic)) with Ok s' => bool_decide (s' = s) | Err _ => false end) cs).

Lemma options_none s : forall cs n i c w ps, Forall (fun ic : nat * call => NoDup (dkeys (c_kwargs (snd ic)))) cs ->
  nth_error cs n = Some (i, c) -> solved_by c s -> dget (w_defaults w) s = None ->
  exists args, nth_error (snd (solves default known generate w ps cs)) n = Some (Some args) /\ forall k, dget args k = dget (c_kwargs c) k.
Proof.
  induction cs as [|[j c0] cs IH]; intros n i c w ps F E Hs Hd; [destruct n; discriminate E|]. inversion F as [|? ? F0 F']; subst. cbn [solves].
  pose proof (solve_options w (ps j) c0) as S. destruct (solve default known generate w (ps j) c0) as [[[w' p'] args] a]. 
  destruct n as [|n].
  - simpl in E. injection E as -> ->. apply get_solver_iff in Hs. rewrite Hs in S. destruct S as [_ ->].
    destruct (solves default known generate w' _ cs) as [[w'' ps''] l]. eexists. split; [reflexivity|]. intros k. unfold solver_args. rewrite Hd. simpl fst.
    rewrite update_get by exact F0. destruct (dget (c_kwargs c) k); auto.
  - simpl in E. assert (Hd' : dget (w_defaults w') s = None).
    { destruct (get_solver default known (c_solver c0)) as [s0|e0]; [|destruct S as [-> _]; exact Hd]. destruct S as [-> _]. unfold solver_args.
      destruct (dget (w_defaults w) s0) as [d0|] eqn:E0; [|exact Hd]. simpl snd. rewrite dget_dset_ne; [exact Hd|]. congruence. }
    destruct (IH n i c w' (fun j0 => if Nat.eqb j0 j then p' else ps j0) F' E Hs Hd') as (args' & E' & H').
    destruct (solves default known generate w' _ cs) as [[w'' ps''] l] eqn:EE. exists args'. split; [|exact H']. simpl in *. exact E'.
Qed.

Lemma options_some s : forall cs n i c w ps d, Forall (fun ic : nat * call => NoDup (dkeys (c_kwargs (snd ic)))) cs ->
  nth_error cs n = Some (i, c) -> solved_by c s -> dget (w_defaults w) s = Some d ->
  exists args, nth_error (snd (solves default known generate w ps cs)) n = Some (Some args) /\
    forall k, dget args k = last_given (d :: options_of s (firstn (S n) cs)) k.
Proof.
  induction cs as [|[j c0] cs IH]; intros n i c w ps d F E Hs Hd; [destruct n; discriminate E|]. inversion F as [|? ? F0 F']; subst. cbn [solves].
  pose proof (solve_options w (ps j) c0) as S. destruct (solve default known generate w (ps j) c0) as [[[w' p'] args] a].
  destruct n as [|n].
  - simpl in E. injection E as -> ->. apply get_solver_iff in Hs. rewrite Hs in S. destruct S as [_ ->].
    destruct (solves default known generate w' _ cs) as [[w'' ps''] l]. eexists. split; [reflexivity|]. intros k. unfold solver_args. rewrite Hd. simpl fst.
    rewrite update_get by exact F0. cbn [firstn]. unfold options_of. cbn [List.filter snd]. rewrite Hs, bool_decide_true by auto. cbn [map snd last_given].
    destruct (dget (c_kwargs c) k); auto.
  - simpl in E. cbn [firstn].
    destruct (get_solver default known (c_solver c0)) as [s0|e0] eqn:E0.
    + destruct (decide (s0 = s)) as [->|N].
      * assert (Hd' : dget (w_defaults w') s = Some (update d (c_kwargs c0))).
        { destruct S as [-> _]. unfold solver_args. rewrite Hd. simpl snd. apply dget_dset_eq. }
        destruct (IH n i c w' (fun j0 => if Nat.eqb j0 j then p' else ps j0) (update d (c_kwargs c0)) F' E Hs Hd') as (args' & E' & H').
        destruct (solves default known generate w' _ cs) as [[w'' ps''] l] eqn:EE. exists args'. split; [exact E'|]. intros k. rewrite H'.
        unfold options_of. cbn [List.filter snd]. rewrite E0, bool_decide_true by auto. cbn [map snd last_given].
        rewrite update_get by exact F0. destruct (last_given _ k); [auto|]. auto.
      * assert (Hd' : dget (w_defaults w') s = Some d).
        { destruct S as [-> _]. unfold solver_args. destruct (dget (w_defaults w) s0) as [d0|]; [|exact Hd]. simpl snd. rewrite dget_dset_ne; [exact Hd|congruence]. }
        destruct (IH n i c w' (fun j0 => if Nat.eqb j0 j then p' else ps j0) d F' E Hs Hd') as (args' & E' & H').
        destruct (solves default known generate w' _ cs) as [[w'' ps''] l] eqn:EE. exists args'. split; [exact E'|]. intros k. rewrite H'.
        unfold options_of. cbn [List.filter snd]. rewrite E0, bool_decide_false by auto. auto.
    + destruct S as [S _].
      destruct (IH n i c w' (fun j0 => if Nat.eqb j0 j then p' else ps j0) d F' E Hs) as (args' & E' & H'); [rewrite S; exact Hd|].
      destruct (solves default known generate w' _ cs) as [[w'' ps''] l] eqn:EE. exists args'. split; [exact E'|]. intros k. rewrite H'.
      unfold options_of. cbn [List.filter snd]. rewrite E0. auto.
Qed.
End Options.

(** ** C75 *)

(** With a solver that has no default options, the options of each of any number of solves are those given to it. *)
Theorem C75_no_defaults_partial : forall (V Out Res : Type) (default : option nat) (known : nat -> bool) (generate : Out -> res Res)
    (w : world V) ps (cs : list (nat * call V Out Res)) n i c s,
  Forall (fun ic => NoDup (dkeys (c_kwargs (snd ic)))) cs -> nth_error cs n = Some (i, c) -> solved_by default known c s -> dget (w_defaults w) s = None ->
  exists args, nth_error (snd (solves default known generate w ps cs)) n = Some (Some args) /\ forall k, dget args k = dget (c_kwargs c) k.
Proof. intros. eapply options_none; eauto. Qed.
Print Assumptions C75_no_defaults_partial.

(** With one that has, as CVXOPT does, each option is the last that was given, in this solve or in any solve by it before, of this program or of another. *)
Theorem C75_defaults_partial : forall (V Out Res : Type) (default : option nat) (known : nat -> bool) (generate : Out -> res Res)
    (w : world V) ps (cs : list (nat * call V Out Res)) n i c s d,
  Forall (fun ic => NoDup (dkeys (c_kwargs (snd ic)))) cs -> nth_error cs n = Some (i, c) -> solved_by default known c s -> dget (w_defaults w) s = Some d ->
  exists args earlier, nth_error (snd (solves default known generate w ps cs)) n = Some (Some args) /\
    (forall k, dget args k = last_given (d :: earlier) k) /\
    forall kw, In kw earlier <-> exists j i' c', j <= n /\ nth_error cs j = Some (i', c') /\ solved_by default known c' s /\ kw = c_kwargs c'.
Proof.
  intros V Out Res default known generate w ps cs n i c s d F E Hs Hd.
  destruct (options_some default known generate s cs n i c w ps d F E Hs Hd) as (args & E' & H). exists args, (options_of default known s (firstn (S n) cs)).
  split; [exact E'|]. split; [exact H|]. intros kw. unfold options_of. rewrite in_map_iff. split.
  - intros ([i' c'] & <- & I). apply filter_In in I as [I B]. assert (B' : get_solver default known (c_solver c') = Ok s) by (simpl in B; destruct (get_solver default known (c_solver c')); [apply bool_decide_eq_true in B; congruence|discriminate B]). apply In_nth_error in I as [j Ej].
    assert (Hj : j < S n). { assert (L : j < List.length (firstn (S n) cs)) by (apply nth_error_Some; congruence). rewrite firstn_length in L. lia. }
    exists j, i', c'. split; [lia|]. split; [|split; [apply get_solver_iff; exact B'|auto]].
    rewrite <- Ej. rewrite <- (firstn_skipn (S n) cs) at 1. apply nth_error_app1. apply nth_error_Some. congruence.
  - intros (j & i' & c' & Hj & Ej & Sj & ->). exists (i', c'). split; [auto|]. apply filter_In. split; [|apply get_solver_iff in Sj; simpl; rewrite Sj; apply bool_decide_eq_true; auto].
    assert (L : j < List.length (firstn (S n) cs)). { rewrite firstn_length. assert (j < List.length cs) by (apply nth_error_Some; congruence). lia. }
    rewrite <- (firstn_skipn (S n) cs) in Ej. rewrite nth_error_app1 in Ej by exact L. eapply nth_error_In. exact Ej.
Qed.
Print Assumptions C75_defaults_partial.

(** So the options of one solve are those of another. Solver 0 is CVXOPT, whose option 0 ("kktsolver") is 7 by default; option 1 is given once. *)
Definition cvx_world : world nat := World [(0, [(0, 7)])] (Stream 0).
Definition plain_call (kw : kwargs nat) : call nat nat nat := Call (Some 0) 0 true kw (fun _ _ => ([], Ok 0)) true None.
Theorem C75_carried_over_refuted : exists (cs : list (nat * call nat nat nat)) i c args,
  Forall (fun ic => NoDup (dkeys (c_kwargs (snd ic)))) cs /\ nth_error cs 1 = Some (i, c) /\ c_kwargs c = [] /\
  nth_error (snd (solves None (fun _ => true) Ok cvx_world (fun _ => Program None [] None) cs)) 1 = Some (Some args) /\ dget args 1 = Some 5.
Proof.
  exists [(0, plain_call [(1, 5)]); (1, plain_call [])]. do 3 eexists. split; [repeat constructor; simpl; intros I; inversion I|]. split; [reflexivity|].
  split; [reflexivity|]. split; [reflexivity|]. reflexivity.
Qed.
Print Assumptions C75_carried_over_refuted.
Example C75_nonvacuous : solved_by None (fun _ => true) (plain_call [(1, 5)]) 0 /\ dget (w_defaults cvx_world) 0 = Some [(0, 7)] /\ dget (w_defaults cvx_world) 1 = None.
Proof. repeat split; auto. Qed.

(** ** C76 *)

(** After any solve, whatever was returned or raised, output goes where it went before; the program's log is what the solver printed and its output
    what the solver returned, if anything. A solver that does not exist changes nothing. *)
Theorem C76_streams : forall (V Out Res : Type) (default : option nat) (known : nat -> bool) (generate : Out -> res Res) (w : world V) p (c : call V Out Res),
  let '(w', p', args, out) := solve default known generate w p c in
  w_stdout w' = w_stdout w /\
  ((exists s a, solved_by default known c s /\ args = Some a /\ p_log p' = fst (c_run c s a) /\ (forall o, p_out p' = Some o <-> snd (c_run c s a) = Ok o)) \/
   ((forall s, ~ solved_by default known c s) /\ args = None /\ p' = p /\ w_defaults w' = w_defaults w /\ out = Err ValueErrorE)).
Proof.
  intros V Out Res default known generate w p c. unfold solve. pose proof (get_solver_iff default known c) as GI.
  destruct (get_solver default known (c_solver c)) as [s|e] eqn:Eg.
  - destruct (solver_args (w_defaults w) s (c_kwargs c)) as [args ds].
    destruct (c_run c s args) as [printed r] eqn:Er.
    assert (G : forall res' : option Res, exists s0 a0, solved_by default known c s0 /\ Some args = Some a0 /\
        p_log (Program (match r with Ok o => Some o | Err _ => None end) printed res') = fst (c_run c s0 a0) /\
        (forall o, p_out (Program (match r with Ok o => Some o | Err _ => None end) printed res') = Some o <-> snd (c_run c s0 a0) = Ok o)).
    { intros res'. exists s, args. split; [apply GI; auto|]. split; [auto|]. rewrite Er. split; [auto|]. simpl. intros o. destruct r; split; congruence. }
    destruct r as [o|e]; [|split; [reflexivity|left; apply G]]. destruct (negb (c_gen_result c)); [split; [reflexivity|left; apply G]|].
    destruct (generate o); (split; [reflexivity|left; apply G]).
  - split; [auto|]. right. split; [intros s Hs; apply GI in Hs; discriminate Hs|]. split; [auto|]. split; [auto|]. split; [auto|].
    unfold get_solver in Eg. destruct (match c_solver c with Some s => Some s | None => default end) as [s|]; [destruct (known s); [discriminate Eg|]|]; congruence.
Qed.
Print Assumptions C76_streams.

(** When nothing is printed or it took a second, what the solver raises is raised on: as it is if it says that the problem is infeasible or the licence
    invalid, and otherwise as an unknown failure. Missing: verbose and fast solves (below), and solvers that raise Infeasible itself. *)
Theorem C76_raised_partial : forall (V Out Res : Type) (default : option nat) (known : nat -> bool) (generate : Out -> res Res) (w : world V) p (c : call V Out Res) s,
  solved_by default known c s -> (c_verbosity c <= 0)%Z \/ c_fast c = false ->
  let '(_, _, args, out) := solve default known generate w p c in
  forall a, args = Some a ->
  match snd (c_run c s a) with
  | Ok o => if c_gen_result c then out = rmap Result (generate o) else out = Ok (Raw o)
  | Err e => let told := [PrimalInfeasibleE; DualInfeasibleE; UnknownInfeasibleE; InvalidLicenseE] in
      (In e told -> out = Err e) /\ (~ In e told -> e <> InfeasibleE -> out = Err UnknownInfeasibleE)
  end.
Proof.
  intros V Out Res default known generate w p c s Hs Hv. unfold solve. apply get_solver_iff in Hs. rewrite Hs.
  destruct (solver_args (w_defaults w) s (c_kwargs c)) as [args ds]. destruct (c_run c s args) as [printed [o|e]] eqn:Er.
  - destruct (c_gen_result c); simpl negb; cbv iota; [|intros a Ha; injection Ha as <-; rewrite Er; reflexivity].
    destruct (generate o) as [rr|ee] eqn:Eo; intros a Ha; injection Ha as <-; rewrite Er; cbn [snd]; rewrite Eo; reflexivity.
  - intros a Ha. injection Ha as <-. rewrite Er. cbv zeta. cbn [snd].
    assert (Q : (0 <? c_verbosity c)%Z && c_fast c = false).
    { apply andb_false_iff. destruct Hv as [Hv|Hv]; [left; apply Z.ltb_ge; exact Hv|right; exact Hv]. }
    destruct e; cbn [infeasible report_infeasible]; rewrite ?Q; (split; [intros I|intros I N]); try reflexivity; try contradiction; try (exfalso; apply I; cbn; tauto); cbn in I; exfalso; repeat (destruct I as [I|I]; [discriminate I|]); exact I.
Qed.
Print Assumptions C76_raised_partial.

(** A problem that is found infeasible, fast and not silently, raises nothing: what is returned is a solution of the problem with its constants relaxed,
    as if it were the program's. Whether it is depends on the time the solver took. *)
Definition infeasible_call (v : Z) (fast : bool) (dbg : option (res nat)) : call nat nat nat :=
  Call (Some 1) v true [] (fun _ _ => ([], Err PrimalInfeasibleE)) fast dbg.
Theorem C76_infeasible_returns_refuted : forall p, let outcome c := snd (solve None (fun _ => true) Ok cvx_world p c) in
  outcome (infeasible_call 1 true (Some (Ok 3))) = Ok (Debugged 3) /\
  outcome (infeasible_call 1 false (Some (Ok 3))) = Err PrimalInfeasibleE /\
  outcome (infeasible_call 0 true (Some (Ok 3))) = Err PrimalInfeasibleE.
Proof. intros p. repeat split. Qed.
Print Assumptions C76_infeasible_returns_refuted.
(** For a program that is not made by a model, such as those of a sequential program, it raises AttributeError. *)
Theorem C76_no_model_refuted : forall p, snd (solve None (fun _ => true) Ok cvx_world p (infeasible_call 1 true None)) = Err AttributeErrorE.
Proof. intros p. reflexivity. Qed.
Print Assumptions C76_no_model_refuted.
(** And a solver that raises Infeasible itself makes for an UnboundLocalError, whatever the verbosity. *)
Theorem C76_base_class_refuted : forall p v, snd (solve None (fun _ => true) Ok cvx_world p (Call (Some 1) v true [] (fun _ _ => ([], Err InfeasibleE)) true None : call nat nat nat)) = Err UnboundLocalE.
Proof. intros p v. reflexivity. Qed.
Print Assumptions C76_base_class_refuted.

(** ** C77 *)

(** Asking for a program's result after a solve that returned one gives that one, any number of times. *)
Theorem C77_result_partial : forall (V Out Res : Type) (default : option nat) (known : nat -> bool) (generate : Out -> res Res) (w : world V) p (c : call V Out Res),
  let '(_, p', _, out) := solve default known generate w p c in
  forall r, out = Ok (Result r) -> result generate p' = (p', Ok r) /\ exists o, p_out p' = Some o /\ generate o = Ok r.
Proof.
  intros V Out Res default known generate w p c. unfold solve. destruct (get_solver default known (c_solver c)) as [s|e]; [|intros r [=]].
  destruct (solver_args (w_defaults w) s (c_kwargs c)) as [args ds]. destruct (c_run c s args) as [printed [o|e]].
  - destruct (c_gen_result c); simpl negb; cbv iota; [|intros r [=]]. destruct (generate o) as [r0|e0] eqn:Eo; [|intros r [=]].
    intros r E. injection E as <-. unfold result. cbn [p_result]. split; [auto|]. exists o. auto.
  - intros r. destruct e; cbn [infeasible report_infeasible]; try (intros E; discriminate E);
      (destruct ((0 <? c_verbosity c)%Z && c_fast c); [destruct (c_debug c) as [[?|?]|]; intros E; discriminate E|intros E; discriminate E]).
Qed.
Print Assumptions C77_result_partial.

(** The first result asked for after a program's first solve without [gen_result] is that solve's. *)
Theorem C77_first_partial : forall (V Out Res : Type) (default : option nat) (known : nat -> bool) (generate : Out -> res Res) (w : world V) p (c : call V Out Res),
  p_result p = None ->
  let '(_, p', _, out) := solve default known generate w p c in
  forall o, out = Ok (Raw o) -> snd (result generate p') = generate o.
Proof.
  intros V Out Res default known generate w p c Hp. unfold solve. destruct (get_solver default known (c_solver c)) as [s|e]; [|intros o [=]].
  destruct (solver_args (w_defaults w) s (c_kwargs c)) as [args ds]. destruct (c_run c s args) as [printed [o'|e]].
  - destruct (c_gen_result c); simpl negb; cbv iota; [destruct (generate o'); intros o [=]|]. intros o E. injection E as <-.
    unfold result. cbn [p_result p_out]. rewrite Hp. destruct (generate o'); auto.
  - intros o. destruct e; cbn [infeasible report_infeasible]; try (intros E; discriminate E);
      (destruct ((0 <? c_verbosity c)%Z && c_fast c); [destruct (c_debug c) as [[?|?]|]; intros E; discriminate E|intros E; discriminate E]).
Qed.
Print Assumptions C77_first_partial.

(** After that the program's result stays that of an earlier solve: if a later one is without [gen_result], or fails. *)
Definition with_output (o : nat) (g : bool) : call nat nat nat := Call (Some 1) 0 g [] (fun _ _ => ([], Ok o)) true None.
Theorem C77_stale_refuted : forall p, let after cs := snd (result (fun o => Ok o) (snd (fst (solves None (fun _ => true) Ok cvx_world (fun _ => p) cs)) 0)) in
  after [(0, with_output 1 true); (0, with_output 2 false)] = Ok 1 /\
  after [(0, with_output 1 true); (0, infeasible_call 0 true None)] = Ok 1.
Proof. intros p. split; reflexivity. Qed.
Print Assumptions C77_stale_refuted.
Example C77_nonvacuous : snd (solve None (fun _ => true) (fun o => Ok (o + 1)) cvx_world (Program None [] None) (with_output 2 true)) = Ok (Result 3) /\
  snd (solve None (fun _ => true) (fun o => Ok (o + 1)) cvx_world (Program None [] None) (with_output 2 false)) = Ok (Raw 2) /\
  snd (solve (Some 4) (fun s => Nat.eqb s 1) Ok cvx_world (Program None [] None) (with_output 2 false)) = Ok (Raw 2) /\
  snd (solve (Some 4) (fun s => Nat.eqb s 4) Ok cvx_world (Program None [] None) (with_output 2 false)) = Err ValueErrorE.
Proof. repeat split. Qed.
