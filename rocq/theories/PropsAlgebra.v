(** Properties C01-C08: sparse vectors and nomial algebra.
    Specification vocabulary: HashVecSem.v, NomialSem.v. *)
From Verif Require Import Base HashVec HashVecSem HashVecProofs Nomial NomialSem NomialProofs
  CanonProofs DiffProofs.
Open Scope R_scope.

(** ** C01 *)
Theorem C01_add_pointwise : forall (K : Type) (HK : EqDecision K) (a b : hv K R) (k : K),
  NoDup (dkeys a) -> NoDup (dkeys b) -> at0 (hv_add a b) k = at0 a k + at0 b k.
Proof. intros K HK a b k. exact (at_add a b k). Qed.
Print Assumptions C01_add_pointwise.

Theorem C01_sub_neg_scale_pointwise :
  forall (K : Type) (HK : EqDecision K) (a b : hv K R) (c : R) (k : K),
  NoDup (dkeys a) -> NoDup (dkeys b) ->
  at0 (hv_sub a b) k = at0 a k - at0 b k /\
  at0 (hv_neg a) k = - at0 a k /\
  at0 (hv_mul a c) k = at0 a k * c.
Proof.
  intros K HK a b c k Ha Hb.
  exact (conj (at_sub a b k Ha Hb) (conj (at_neg a k) (at_mul a c k))).
Qed.
Print Assumptions C01_sub_neg_scale_pointwise.

(** The sum stores an entry exactly where one operand does and the values do
    not cancel; it keeps keys unique and stores no zero if its operands don't. *)
Theorem C01_add_removes_zeros :
  forall (K : Type) (HK : EqDecision K) (a b : hv K R),
  NoDup (dkeys a) -> NoDup (dkeys b) ->
  NoDup (dkeys (hv_add a b)) /\
  (forall k, dget (hv_add a b) k = None <->
     (dget a k = None /\ dget b k = None) \/
     (exists x, dget a k = Some x /\ dget b k = Some (- x))) /\
  (nozero a -> nozero b -> nozero (hv_add a b)) /\
  (forall c, c <> 0 -> nozero a -> nozero (hv_mul a c)).
Proof.
  intros K HK a b Ha Hb.
  exact (conj (NoDup_hv_add a b Ha)
        (conj (fun k => absent_add a b k Ha Hb)
        (conj (nozero_add a b Ha Hb) (nozero_mul a)))).
Qed.
Print Assumptions C01_add_removes_zeros.

(** Division by zero raises, other divisions divide. *)
Theorem C01_div_pointwise : forall (K : Type) (HK : EqDecision K) (a : hv K R) (c : R),
  (hv_div a 0 = Err ZeroDivisionE) /\
  (0 < c -> exists d, hv_div a c = Ok d /\ forall k, at0 d k = at0 a k / c).
Proof. exact (fun K HK a c => div_spec a c). Qed.
Print Assumptions C01_div_pointwise.

(** Adding a number, and powers, act on what is stored; keys stay as they are. *)
Theorem C01_number_power_stored : forall (K : Type) (HK : EqDecision K) (a : hv K R) (c : R),
  dkeys (hv_add_num a c) = dkeys a /\ dkeys (hv_pow a c) = dkeys a /\
  forall k v, dget a k = Some v ->
    dget (hv_add_num a c) k = Some (v + c) /\ (0 < v -> dget (hv_pow a c) k = Some (Rpower v c)) /\
    (forall n : nat, c = INR n -> v <> 0 -> dget (hv_pow a c) k = Some (v ^ n)).
Proof.
  intros K HK a c. split; [unfold dkeys, hv_add_num; rewrite map_map; reflexivity|]. split; [unfold dkeys, hv_pow; rewrite map_map; reflexivity|].
  intros k v E. unfold hv_add_num, hv_pow. rewrite !(dget_map_val (fun v => nadd v c)), !(dget_map_val (fun v => npow v c)), E. cbn [option_map].
  split; [reflexivity|]. split; [intros Hv; cbn; unfold Rpow; destruct (Rlt_dec 0 v); [auto|lra]|]. intros n -> Hv. f_equal. cbn. unfold Rpow.
  destruct (Rlt_dec 0 v) as [L|L]; [apply Rpower_pow; exact L|]. destruct (Req_EM_T v 0); [contradiction|].
  assert (I : Int_part (INR n) = Z.of_nat n) by (rewrite Int_part_INR; reflexivity).
  rewrite I. destruct (Req_EM_T _ _) as [_|F]; [symmetry; apply pow_powerRZ|exfalso; apply F; apply INR_IZR_INZ].
Qed.
Print Assumptions C01_number_power_stored.

Example C01_nonvacuous :
  let a : hv nat R := [(0%nat, 2); (1%nat, 3)] in
  let b : hv nat R := [(1%nat, -3); (2%nat, 5)] in
  NoDup (dkeys a) /\ NoDup (dkeys b) /\ nozero a /\ nozero b.
Proof.
  cbn zeta. repeat split.
  - apply NoDup_ListNoDup. repeat constructor; simpl; intuition lia.
  - apply NoDup_ListNoDup. repeat constructor; simpl; intuition lia.
  - intros k v Hg. apply dget_In in Hg. destruct Hg as [[= <- <-]|[[= <- <-]|[]]]; lra.
  - intros k v Hg. apply dget_In in Hg. destruct Hg as [[= <- <-]|[[= <- <-]|[]]]; lra.
Qed.

Example C01_computed :
  hv_add [(0%nat, 2%Q); (1%nat, 3%Q)] [(1%nat, (-3)%Q); (2%nat, 5%Q)]
  = [(0%nat, 2%Q); (2%nat, 5%Q)].
Proof. vm_compute. reflexivity. Qed.

(** ** C02 *)
(** From a fresh HashVector, after any sequence of the library's operations,
    the reported hash is the one recomputed from the items. *)
Theorem C02_hash_never_stale :
  forall (K V : Type) (HK : EqDecision K) (HV' : Num V) (ihash : K * V -> Z)
         (d : hv K V) (ops : list (hvop K V)) (o' : hvobj K V),
  hv_run ihash (HV d None) ops = Ok o' ->
  snd (hv_hash ihash o') = hash_items ihash (hv_items o').
Proof. exact (fun K V HK HV' => @hash_recomputed K V HK HV'). Qed.
Print Assumptions C02_hash_never_stale.

(** Equal contents, equal hashes: for any two histories. *)
Theorem C02_equal_items_equal_hash :
  forall (K V : Type) (HK : EqDecision K) (HV' : Num V) (ihash : K * V -> Z)
         (d1 d2 : hv K V) (ops1 ops2 : list (hvop K V)) (o1 o2 : hvobj K V),
  NoDup (dkeys d1) -> NoDup (dkeys d2) ->
  hv_run ihash (HV d1 None) ops1 = Ok o1 -> hv_run ihash (HV d2 None) ops2 = Ok o2 ->
  dict_equiv (hv_items o1) (hv_items o2) ->
  snd (hv_hash ihash o1) = snd (hv_hash ihash o2).
Proof. exact (fun K V HK HV' => @hash_equal K V HK HV'). Qed.
Print Assumptions C02_equal_items_equal_hash.

(** A history exercising every edit, ending with the items in another order. *)
Example C02_nonvacuous :
  exists o1 o2 : hvobj nat Q,
  let ih := fun kv : nat * Q => (Z.of_nat (fst kv) * 7 + Qnum (snd kv))%Z in
  hv_run ih (HV [(0%nat, 2%Q); (1%nat, 1%Q); (2%nat, 3%Q)] None)
    [OpHash; OpCopy; OpDelXor 1%nat; OpDecXor 0%nat] = Ok o1 /\
  hv_run ih (HV [] None)
    [OpSetFresh 2%nat 3%Q; OpAdd [(0%nat, 1%Q)]; OpHash] = Ok o2 /\
  dict_equiv (hv_items o1) (hv_items o2) /\ hv_items o1 <> hv_items o2.
Proof.
  eexists _, _. cbv zeta. split; [vm_compute; reflexivity|]. split; [vm_compute; reflexivity|].
  split.
  - intros [|[|[|k]]]; vm_compute; reflexivity.
  - vm_compute. discriminate.
Qed.

(** ** C03 *)
(** Whatever an expression over numbers and variables returns, its value at a
    positive point is the real number the expression denotes there. *)
Theorem C03_arithmetic_is_real_arithmetic :
  forall (se : bool) (e : expr R) (v : value R) (env : point),
  positive_point env -> run se e = Ok v -> val env v = denote env e.
Proof. exact (fun se e v env Henv => run_denote se env Henv e v). Qed.
Print Assumptions C03_arithmetic_is_real_arithmetic.

(** ... and posynomial expressions do return. *)
Theorem C03_posynomial_arithmetic_total :
  forall e : expr R, posy_expr e -> exists v, run false e = Ok v.
Proof. exact (fun e He => run_total_ok e He). Qed.
Print Assumptions C03_posynomial_arithmetic_total.

(** (x + 2y)(x + 1)^3 is such an expression, and x - y returns with signomials
    enabled. *)
Example C03_nonvacuous :
  posy_expr (EMul (EAdd (EVar 0) (EMul (EConst 2) (EVar 1))) (EPowZ (EAdd (EVar 0) (EConst 1)) 3))
  /\ (exists v, run true (ESub (EVar 0) (EVar 1) : expr R) = Ok v)
  /\ positive_point (fun _ => 3).
Proof.
  split; [cbn; repeat split; try lra; lia|]. split; [|intros v; lra].
  cbn [run rbind py_sub py_neg py_mul]. dcase E; cbn in E; [lra|].
  eexists. unfold signomial_init. rewrite andb_false_r. cbn [rmap rbind py_add hv_mul var_hmap map].
  unfold signomial_init. rewrite andb_false_r. reflexivity.
Qed.

Example C03_computed : (* (x + y)(x - y) = x^2 - y^2 *)
  vitems (run true (EMul (EAdd (EVar 0) (EVar 1)) (ESub (EVar 0) (EVar 1))))
  = Some [([(0%nat, 2%Q)], 1%Q); ([(1%nat, 2%Q)], (-1)%Q)].
Proof. vm_compute. reflexivity. Qed.

(** ** C04 *)
Theorem C04_canonical_form :
  forall (se : bool) (e : expr R) (h : hmap R),
  run se e = Ok (VNom h) ->
  NoDup (dkeys h) /\
  (forall ex c, In (ex, c) h -> c <> 0 /\ forall k x, ex !! k = Some x -> x <> 0).
Proof. exact run_canonical_spelled. Qed.
Print Assumptions C04_canonical_form.

Example C04_nonvacuous : exists h,
  run false (EMul (EAdd (EVar 0) (EVar 1)) (EAdd (EVar 0) (EVar 1)) : expr R) = Ok (VNom h).
Proof. exact square_returns. Qed.

(** ** C05 *)
Theorem C05_class_tells_the_truth : forall h : hmap R,
  (classify h = CMonomial <-> exists e c, h = [(e, c)] /\ 0 < c) /\
  (classify h = CPosynomial <-> (forall e c, In (e, c) h -> 0 < c) /\ length h <> 1%nat) /\
  (classify h = CSignomial <-> exists e c, In (e, c) h /\ c <= 0).
Proof.
  exact (fun h => conj (classify_CMonomial h) (conj (classify_CPosynomial h) (classify_CSignomial h))).
Qed.
Print Assumptions C05_class_tells_the_truth.

Theorem C05_signomial_raises_unless_enabled : forall h : hmap R,
  (signomial_init false true h = Err InvalidPosynomialE <-> exists e c, In (e, c) h /\ c <= 0) /\
  signomial_init true true h = Ok h.
Proof. exact init_gate. Qed.
Print Assumptions C05_signomial_raises_unless_enabled.

(** Outside SignomialsEnabled only posynomials come out of arithmetic: they are
    never negative, and zero only if they have no term at all. *)
Theorem C05_results_positive_when_disabled :
  forall (e : expr R) (h : hmap R) (env : point),
  positive_point env -> run false e = Ok (VNom h) ->
  (forall ex c, In (ex, c) h -> 0 < c) /\ 0 <= eval env h /\ (h <> [] -> 0 < eval env h).
Proof. exact run_posy_spelled. Qed.
Print Assumptions C05_results_positive_when_disabled.

Theorem C05_posynomials_closed : forall (e : expr R) (env : point),
  positive_point env -> posy_expr e ->
  exists v, run false e = Ok v /\ 0 < val env v.
Proof. exact run_total_positive. Qed.
Print Assumptions C05_posynomials_closed.

Example C05_empty_corner : (* x/x + (-1) is an empty Posynomial *)
  run false (EAdd (EDiv (EVar 0) (EVar 0)) (EConst (-1)%Q)) = Ok (VNom []).
Proof. vm_compute. reflexivity. Qed.

Example C05_rejects : (* x*y + (-1)*x is rejected, and accepted when enabled *)
  run false (EAdd (EMul (EVar 0) (EVar 1)) (EMul (EConst (-1)%Q) (EVar 0))) = Err InvalidPosynomialE /\
  exists h, run true (EAdd (EMul (EVar 0) (EVar 1)) (EMul (EConst (-1)%Q) (EVar 0))) = Ok (VNom h)
            /\ classify h = CSignomial.
Proof. split; [vm_compute; reflexivity|]. eexists; split; vm_compute; reflexivity. Qed.

(** ** C06 *)
Theorem C06_equality_decides_functions : forall h1 h2 : hmap R,
  canonical h1 -> canonical h2 ->
  hmap_eqb h1 h2 = true <->
  (forall env, positive_point env -> eval env h1 = eval env h2).
Proof. exact eq_decides. Qed.
Print Assumptions C06_equality_decides_functions.

(** Two expressions: [==] on their results decides whether they denote the same
    function. *)
Theorem C06_equality_of_expressions :
  forall (se : bool) (e1 e2 : expr R) (h1 h2 : hmap R),
  run se e1 = Ok (VNom h1) -> run se e2 = Ok (VNom h2) ->
  hmap_eqb h1 h2 = true <->
  (forall env, positive_point env -> denote env e1 = denote env e2).
Proof. exact eq_decides_expr. Qed.
Print Assumptions C06_equality_of_expressions.

Theorem C06_equality_with_number : forall (h : hmap R) (c : R),
  canonical h -> c <> 0 ->
  nomial_eq_num h c = true <-> (forall env, positive_point env -> eval env h = c).
Proof. exact eq_num_decides. Qed.
Print Assumptions C06_equality_with_number.

Example C06_computed : (* x*(x+y) == x*y + x*x, built in different orders *)
  match run false (EMul (EVar 0) (EAdd (EVar 0) (EVar 1)) : expr Q),
        run false (EAdd (EMul (EVar 0) (EVar 1)) (EMul (EVar 0) (EVar 0))) with
  | Ok (VNom a), Ok (VNom b) => hmap_eqb a b = true /\ a <> b
  | _, _ => False
  end.
Proof. vm_compute. split; [reflexivity|discriminate]. Qed.

Example C06_nonvacuous : canonical [({[0%nat := 2]}, 3); (∅, 1)].
Proof. exact canonical_sample. Qed.

(** ** C07 *)
Theorem C07_diff_is_partial_derivative :
  forall (h : hmap R) (x : nat) (env : point),
  NoDup (dkeys h) -> positive_point env ->
  derivable_pt_lim (fun t => eval (upd env x t) h) (env x) (eval env (sig_diff h x)).
Proof. exact (fun h x env Hn Hp => diff_correct env x h Hn (Hp x)). Qed.
Print Assumptions C07_diff_is_partial_derivative.

Theorem C07_diff_of_expression :
  forall (se : bool) (e : expr R) (h : hmap R) (x : nat) (env : point),
  positive_point env -> run se e = Ok (VNom h) ->
  derivable_pt_lim (fun t => eval (upd env x t) h) (env x) (eval env (sig_diff h x)).
Proof. exact diff_correct_expr. Qed.
Print Assumptions C07_diff_of_expression.

Theorem C07_diff_absent_is_zero : forall (h : hmap R) (x : nat),
  (forall e c, In (e, c) h -> e !! x = None) -> sig_diff h x = [(∅, 0)].
Proof. exact diff_absent. Qed.
Print Assumptions C07_diff_absent_is_zero.

Example C07_computed : (* d/dx (x^3 y + x + y) = 3 x^2 y + 1 *)
  items (sig_diff [({[0%nat := 3%Q; 1%nat := 1%Q]}, 1%Q); ({[0%nat := 1%Q]}, 1%Q); ({[1%nat := 1%Q]}, 1%Q)] 0)
  = [([(0%nat, 2%Q); (1%nat, 1%Q)], 3%Q); ([], 1%Q)].
Proof. vm_compute. reflexivity. Qed.

(** ** C08 *)
Theorem C08_posy_negy : forall (h P N : hmap R),
  NoDup (dkeys h) -> posy_negy h = (P, N) ->
  (forall env, eval env h = eval env P - eval env N) /\
  (forall e c, In (e, c) P <-> In (e, c) h /\ 0 < c) /\
  (forall e c, In (e, c) N <-> In (e, - c) h /\ 0 < c) /\
  (forall e, In e (dkeys P) -> ~ In e (dkeys N)) /\
  NoDup (dkeys P) /\ NoDup (dkeys N).
Proof. exact posy_negy_correct. Qed.
Print Assumptions C08_posy_negy.

Theorem C08_chop : forall (se : bool) (h : hmap R) (ms : list (hmap R)),
  chop se h = Ok ms ->
  (forall env, eval env h = lsum (eval env) ms) /\ length ms = length h /\
  (forall m, In m ms -> exists e c, m = [(e, c)] /\ In (e, c) h).
Proof. exact chop_correct. Qed.
Print Assumptions C08_chop.

Theorem C08_chop_of_posynomial_returns : forall (se : bool) (h : hmap R),
  se = true \/ (forall e c, In (e, c) h -> 0 < c) -> exists ms, chop se h = Ok ms.
Proof. exact chop_total. Qed.
Print Assumptions C08_chop_of_posynomial_returns.

Example C08_computed :
  let r := posy_negy [({[0%nat := 1%Q]}, 2%Q); ({[1%nat := 1%Q]}, (-3)%Q); (∅, 1%Q)] in
  items (fst r) = [([(0%nat, 1%Q)], 2%Q); ([], 1%Q)] /\ items (snd r) = [([(1%nat, 1%Q)], 3%Q)].
Proof. vm_compute. split; reflexivity. Qed.
