(** Model of gpkit/tools/tools.py. Floating-point numbers are exact; the order [nterm] is a natural number, since [range] of
    anything less than 1 is empty as it is for 0. *)
From Verif Require Import Base HashVec Nomial.

Section Taylor.
Context {T : Type} `{Num T}.
Variable se : bool.   (* SignomialsEnabled *)

(** [factorial_denom *= ...] in Python ints, from 1 (tools.py:21-23, 60-62, 108-109) *)
Definition fact_step (d : Z) (i : nat) : Z := (d * Z.of_nat i)%Z.
Definition fact_step2 (d : Z) (i : nat) : Z := (d * ((2 * Z.of_nat i) * (2 * Z.of_nat i - 1)))%Z.

(** [te_exp_minus1] (tools.py:5-25): the state is [res] (here [total]) and [factorial_denom]. *)
Definition te_exp_minus1 (posy : value T) (nterm : nat) : res (value T) :=
  rmap fst (fold_left (fun acc i =>
    let! (total, d) := acc in
    let d' := fact_step d i in
    let! p := py_powz se posy (Z.of_nat i) in
    let! q := py_div se p (VNum (nofZ d')) in
    let! total' := py_add se total q in
    Ok (total', d')) (seq 1 nterm) (Ok (VNum (nofZ 0), 1%Z))).

(** The table of [te_secant] (tools.py:44-55) *)
Definition E2n : list Z :=
  [1; 5; 61; 1385; 50521; 2702765; 199360981; 19391512145; 2404879675441; 370371188237525; 69348874393137901;
   15514534163557086905]%Z.

(** [te_secant] (tools.py:28-67). [extend n] is what the entry for [n] is beyond the table (tools.py:56-60). *)
Definition te_secant (extend : nat -> T) (var : value T) (nterm : nat) : res (value T) :=
  let E := map nofZ E2n ++ (if Nat.ltb 12 nterm then map extend (seq 13 (nterm - 12)) else []) in
  rmap fst (fold_left (fun acc i =>
    let! (total, d) := acc in
    let d' := fact_step2 d i in
    let! p := py_powz se var (2 * Z.of_nat i)%Z in
    let! e := match E !! (i - 1)%nat with Some e => Ok e | None => Err IndexErrorE end in
    let! pe := py_mul se p (VNum e) in
    let! q := py_div se pe (VNum (nofZ d')) in
    let! total' := py_add se total q in
    Ok (total', d')) (seq 1 nterm) (Ok (VNum (nofZ 1), 1%Z))).

(** The table of [te_tangent] (tools.py:90-104) *)
Definition B2n : list (Z * Z) :=
  [(1, 6); (-1, 30); (1, 42); (-1, 30); (5, 66); (-691, 2730); (7, 6); (-3617, 510); (43867, 798); (-174611, 330);
   (854513, 138); (-236364091, 2730); (8553103, 6); (-23749461029, 870); (8615841276005, 14322)]%Z.

(** [te_tangent] (tools.py:70-112). NotImplementedError is rendered as [NotImplementedValueE]. *)
Definition te_tangent (var : value T) (nterm : nat) : res (value T) :=
  if Nat.ltb 15 nterm then Err NotImplementedValueE else
  rmap fst (fold_left (fun acc i =>
    let! (total, d) := acc in
    let d' := fact_step2 d i in
    let! b := match B2n !! (i - 1)%nat with Some b => Ok b | None => Err IndexErrorE end in
    let ints := ((-1) ^ (Z.of_nat i - 1) * 2 ^ (2 * Z.of_nat i) * (2 ^ (2 * Z.of_nat i) - 1))%Z in
    let coef := ndiv (nmul (nofZ ints) (ndiv (nofZ (fst b)) (nofZ (snd b)))) (nofZ d') in
    let! p := py_powz se var (2 * Z.of_nat i - 1)%Z in
    let! q := py_mul se (VNum coef) p in
    let! total' := py_add se total q in
    Ok (total', d')) (seq 1 nterm) (Ok (VNum (nofZ 0), 1%Z))).

End Taylor.

(** [8 * np.sqrt(n/np.pi) * (4*n/(np.pi * np.exp(1)))**(2*n)] (tools.py:56-60) *)
Definition euler_approx (n : nat) : R := (8 * R_sqrt.sqrt (INR n / PI) * (4 * INR n / (PI * exp 1)) ^ (2 * n))%R.
