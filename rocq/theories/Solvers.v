(** Model of the interfaces to solvers: what they hand to CVXOPT (gpkit/solvers/cvxopt.py:9-97) and to MOSEK's
    conic optimizer (gpkit/solvers/mosek_conif.py:8-251), and what they make of the answer. Numbers are reals.
    Printing, licences and parameters are not modelled. *)
From Verif Require Import Base.
Open Scope R_scope.

(** Sparse matrices as rows of columns and values. Simplifications: each row has an entry (gp.py:149-152 sees to that), without which a matrix whose size is
    inferred could lack rows; a row has at most one entry per column. *)
Definition row := list (nat * R).
Definition matrix := list row.
(** [A[idxs, :]] and [log_c[idxs]] *)
Definition select {X} (d : X) (l : list X) (idxs : list nat) : list X := map (fun i => List.nth i l d) idxs.

(** [a[idxs] = vals]. Simplification: numpy also allows a single value, for all indices. *)
Definition scatter (a : list R) (idxs : list nat) (vals : list R) : res (list R) :=
  if decide (length idxs = length vals) then Ok (fold_left (fun a iv => <[fst iv := snd iv]> a) (combine idxs vals) a) else Err ValueErrorE.

(** ** CVXOPT *)

(** The arguments of [cvxopt.solvers.gp]: the sizes, exponents and log coefficients of its log-sum-exp functions,
    linear inequalities and linear equalities. *)
Record cvx := Cvx { q_K : list nat; q_F : matrix; q_g : list R; q_G : option (matrix * list R); q_A : option (matrix * list R) }.
(** What it returns: ["status"] is "optimal" or not, and its other items. *)
Record cvx_out := CvxOut { o_optimal : bool; o_obj : R; o_x : list R; o_zl : list R; o_znl : list R; o_y : list R }.

Record parts := Parts { lse_mons : list nat; lin_mons : list nat; leq_mons : list nat; lse_posys : list nat; lin_posys : list nat; leq_posys : list nat }.
(** The loop that classifies constraints (cvxopt.py:42-56). *)
Definition classify1 (k : list nat) (all first : list nat) (use_leqs : bool) (pt : parts) (i : nat) : parts :=
  let n := List.nth i k 0%nat in
  let start := list_sum (firstn i k) in
  let mons := seq start n in
  if use_leqs && bool_decide (start ∈ all) then
    if bool_decide (start ∈ first)
    then Parts (lse_mons pt) (lin_mons pt) (leq_mons pt ++ mons) (lse_posys pt) (lin_posys pt) (leq_posys pt ++ [i])
    else pt
  else if negb (Nat.eqb i 0) && Nat.eqb n 1
  then Parts (lse_mons pt) (lin_mons pt ++ mons) (leq_mons pt) (lse_posys pt) (lin_posys pt ++ [i]) (leq_posys pt)
  else Parts (lse_mons pt ++ mons) (lin_mons pt) (leq_mons pt) (lse_posys pt ++ [i]) (lin_posys pt) (leq_posys pt).
Definition classify (k all first : list nat) (use_leqs : bool) : parts :=
  fold_left (classify1 k all first use_leqs) (seq 0 (length k)) (Parts [] [] [] [] [] []).

(** [spmatrix(data+[0], row+[0], col+[maxcol])]: an explicit zero in the first row *)
Definition pad (maxcol : nat) (M : matrix) : matrix :=
  match M with [] => [[(maxcol, 0)]] | r :: M' => (r ++ [(maxcol, 0)]) :: M' end.

(** cvxopt.py:41-78 *)
Definition cvx_problem (c : list R) (A : matrix) (k all first : list nat) (use_leqs : bool) (maxcol : nat) : cvx :=
  let pt := classify k all first use_leqs in
  let log_c := map ln c in
  let part mons := match mons with
                   | [] => None
                   | _ => Some (pad maxcol (select [] A mons), map Ropp (select 0 log_c mons))
                   end in
  Cvx (select 0%nat k (lse_posys pt)) (pad maxcol (select [] A (lse_mons pt))) (select 0 log_c (lse_mons pt))
      (part (lin_mons pt)) (part (leq_mons pt)).

(** cvxopt.py:85-93: the loop over equality constraints, and the multipliers *)
Definition flip1 (la : list R) (py : nat * R) : list R :=
  if Rle_dec 0 (snd py) then <[fst py := snd py]> la else <[(fst py + 1)%nat := - snd py]> la.
Definition cvx_la (k all first : list nat) (use_leqs : bool) (out : cvx_out) : res (list R) :=
  let pt := classify k all first use_leqs in
  let! la := scatter (repeat 0 (length k)) (lin_posys pt) (o_zl out) in
  let! la := scatter la (lse_posys pt) (1 :: o_znl out) in
  Ok (fold_left flip1 (combine (leq_posys pt) (o_y out)) la).

(** [optimize] (cvxopt.py:9-97): the objective, primal solution and multipliers. [gp] is CVXOPT's solver: what it returns or raises. *)
Definition cvx_optimize (gp : cvx -> res cvx_out) (c : list R) (A : matrix) (k all first : list nat) (use_leqs : bool) (maxcol : nat) :
    res (R * list R * list R) :=
  match gp (cvx_problem c A k all first use_leqs maxcol) with
  | Err ValueErrorE => Err DualInfeasibleE
  | Err e => Err e
  | Ok out =>
      if o_optimal out
      then let! la := cvx_la k all first use_leqs out in Ok (exp (o_obj out), o_x out, la)
      else Err UnknownInfeasibleE
  end.

(** ** MOSEK *)

(** A conic problem over variables numbered from 0: bounds on variables and on rows, where [Free], [Fixed] and [Up] are
    MOSEK's fr, fx and up; the first variable of each triple in an exponential cone; the variable that is minimized. *)
Inductive bkey := Free | Fixed (v : R) | Up (v : R).
Record conic := Conic { m_vars : list bkey; m_rows : list (row * bkey); m_cones : list nat; m_obj : nat }.

(** mosek_conif.py:57-84 *)
Definition msk_lse (k : list nat) : list nat := 0%nat :: map S (List.filter (fun i => Nat.ltb 1 (List.nth i (tl k) 0%nat)) (seq 0 (length (tl k)))).
Definition msk_lin (k : list nat) : list nat := map S (List.filter (fun i => negb (Nat.ltb 1 (List.nth i (tl k) 0%nat))) (seq 0 (length (tl k)))).
Definition lin_idxs (p_idxs lin : list nat) : list nat := List.filter (fun i => bool_decide (List.nth i p_idxs 0%nat ∈ lin)) (seq 0 (length p_idxs)).
Definition lse_idxs (p_idxs lin : list nat) : list nat := List.filter (fun i => negb (bool_decide (List.nth i p_idxs 0%nat ∈ lin))) (seq 0 (length p_idxs)).
(** [lse_p_idx] *)
Definition expand (k_lse : list nat) : list nat := flat_map (fun ik => repeat (fst ik) (snd ik)) (combine (seq 0 (length k_lse)) k_lse).

(** The task (mosek_conif.py:107-187), for [m] variables *)
Definition msk_problem (c : list R) (A : matrix) (k p_idxs : list nat) (m : nat) : conic :=
  let log_c := map ln c in
  let lse_posys := msk_lse k in
  let lin_posys := msk_lin k in
  let A_lse := match lin_posys with [] => A | _ => select [] A (lse_idxs p_idxs lin_posys) end in
  let log_c_lse := match lin_posys with [] => log_c | _ => select 0 log_c (lse_idxs p_idxs lin_posys) end in
  let k_lse := select 0%nat k lse_posys in
  let n_lse := list_sum k_lse in
  let p_lse := length k_lse in
  let lse_p_idx := expand k_lse in
  let vars := repeat Free m ++ concat (repeat [Free; Fixed 1; Free] n_lse) ++ [Free] ++ repeat (Up 0) (p_lse - 1) in
  let cone_rows := map (fun i => (List.nth i A_lse [] ++ [((m + 3 * i + 2)%nat, -1)] ++ [((m + 3 * n_lse + List.nth i lse_p_idx 0)%nat, -1)],
                                  Fixed (- List.nth i log_c_lse 0))) (seq 0 n_lse) in
  let sum_rows := map (fun p => (map (fun i => ((m + 3 * i)%nat, 1)) (List.filter (fun i => Nat.eqb (List.nth i lse_p_idx 0%nat) p) (seq 0 n_lse)), Up 1)) (seq 0 p_lse) in
  let lin_rows := match lin_posys with
                  | [] => []
                  | _ => let idxs := lin_idxs p_idxs lin_posys in
                         map (fun rl => (fst rl, Up (- snd rl))) (combine (select [] A idxs) (select 0 log_c idxs))
                  end in
  Conic vars (cone_rows ++ sum_rows ++ lin_rows) (map (fun i => m + 3 * i)%nat (seq 0 n_lse)) (m + 3 * n_lse)%nat.

(** What is made of the answer (mosek_conif.py:221-246): [suxslice] are the multipliers of the upper bounds of z[1:] and [sucslice] those
    of the linear rows. *)
Definition clip (d : list R) : list R := map (fun v => if Rlt_dec v 0 then 0 else v) d.
Definition msk_la (k : list nat) (suxslice sucslice : list R) : res (list R) :=
  match msk_lin k with
  | [] => Ok (clip suxslice)
  | lin => let! d := scatter (repeat 0 (length k)) (tl (msk_lse k)) (clip suxslice) in
           let! d := scatter d lin (clip sucslice) in
           Ok (tl d)
  end.

(** What [task] knows after [task.optimize()]: the solution's status, and values and multipliers of upper bounds for all variables and rows. *)
Inductive solsta := SOptimal | SPrimInfeas | SDualInfeas | SOther.
Record msk_out := MskOut { a_status : solsta; a_obj : R; a_xx : list R; a_sux : list R; a_suc : list R }.
Definition slice (l : list R) (first last : nat) : list R := firstn (last - first) (skipn first l).
(** [optimize] (mosek_conif.py:8-251): the objective, primal solution and multipliers. Errors of MOSEK itself are not modelled. *)
Definition msk_optimize (solve : conic -> msk_out) (c : list R) (A : matrix) (k p_idxs : list nat) (m : nat) : res (R * list R * list R) :=
  let out := solve (msk_problem c A k p_idxs m) in
  let k_lse := select 0%nat k (msk_lse k) in
  let n_lse := list_sum k_lse in
  let p_lse := length k_lse in
  match a_status out with
  | SPrimInfeas => Err PrimalInfeasibleE
  | SDualInfeas => Err DualInfeasibleE
  | SOther => Err UnknownInfeasibleE
  | SOptimal =>
      let z_duals := slice (a_sux out) (m + 3 * n_lse + 1) (m + 3 * n_lse + p_lse) in
      let aff_duals := match msk_lin k with
                       | [] => []
                       | lin => slice (a_suc out) (n_lse + p_lse) (n_lse + p_lse + length (lin_idxs p_idxs lin))
                       end in
      let! la := msk_la k z_duals aff_duals in
      Ok (exp (a_obj out), firstn m (a_xx out), la)
  end.
