(** Model of [check_solution] (gpkit/constraints/gp.py:347-400) and [_generate_nula] (274-294) where solvers may return nan. (Dual.v has them for real
    numbers.) A number is a real or nan. Simplifications: rounding and overflow are left out; quotients by 0 and logarithms of numbers that
    are not positive are nan, where numpy has infinities for some of them, which would be compared and summed to the same effect; rows
    of the matrix are given with their monomials, and nu by posynomial. *)
From Coq Require Import Reals Lra.
From Verif Require Import Base.
Local Open Scope R_scope.

Definition float := option R.   (* None: nan *)
Definition lift2 (f : R -> R -> R) (a b : float) : float := match a, b with Some x, Some y => Some (f x y) | _, _ => None end.
Definition fadd := lift2 Rplus.
Definition fsub := lift2 Rminus.
Definition fmul := lift2 Rmult.
Definition fdiv (a b : float) : float := match a, b with Some x, Some y => if Req_EM_T y 0 then None else Some (x / y) | _, _ => None end.
Definition fexp (a : float) : float := match a with Some x => Some (exp x) | None => None end.
Definition fabs (a : float) : float := match a with Some x => Some (Rabs x) | None => None end.
Definition flog (a : float) : float := match a with Some x => if Rlt_dec 0 x then Some (ln x) else None | None => None end.
(** Comparisons with nan are False. *)
Definition flt (a b : float) : bool := match a, b with Some x, Some y => if Rlt_dec x y then true else false | _, _ => false end.
Definition feq (a b : float) : bool := match a, b with Some x, Some y => if Req_EM_T x y then true else false | _, _ => false end.
Definition fsum (l : list float) : float := fold_right fadd (Some 0) l.

(** A monomial: its coefficient and the stored entries of its row of A; posynomials, the cost first *)
Definition mono : Type := R * list (nat * R).
Definition posynomial := list mono.

Section Check.
Variables tol abstol : R.

(** [almost_equal] (366-369) *)
Definition falmost (a b : float) : bool :=
  feq a b || flt (fabs (fdiv (fsub a b) (fadd a b))) (Some tol) || flt (fabs (fsub a b)) (Some abstol).
(** [A.dot(primal)] of a row, and [primal_exp_vals] (371) *)
Definition row_dot (primal : nat -> float) (m : mono) : float := fsum (map (fun t => fmul (Some (snd t)) (primal (fst t))) (snd m)).
Definition mono_val (primal : nat -> float) (m : mono) : float := fmul (Some (fst m)) (fexp (row_dot primal m)).
Definition posy_val (primal : nat -> float) (p : posynomial) : float := fsum (map (mono_val primal) p).
(** [min(nu)] (387), Python's: a later element replaces one that it is less than. *)
Definition pymin (l : list float) : float := match l with [] => None | a :: r => fold_left (fun m x => if flt x m then x else m) r a end.
(** An entry of [A.T.dot(nu)] (391) *)
Definition column_dot (posys : list posynomial) (nus : list (list float)) (j : nat) : float :=
  fsum (flat_map (fun '(m, n) => map (fun t => fmul (Some (snd t)) n) (List.filter (fun t => Nat.eqb (fst t) j) (snd m)))
                 (combine (concat posys) (concat nus))).
(** [if la[i]] (397): nan is true. *)
Definition truthy (a : float) : bool := match a with Some x => if Req_EM_T x 0 then false else true | None => true end.
(** [dual_cost] (393-397) *)
Definition dual_terms (p : posynomial) (nu : list float) (la : float) : list float :=
  map (fun '(m, n) => fmul n (fsub (flog (Some (fst m))) (flog (fdiv n la)))) (combine p nu).
Definition fdual_cost (posys : list posynomial) (nus : list (list float)) (las : list float) : float :=
  fsum (map (fun '(p, nu, la) => if truthy la then fsum (dual_terms p nu la) else Some 0) (combine (combine posys nus) las)).

Inductive verdict := Passed | CostMismatch | Violated | NuSum | Negative | Residual | DualMismatch.
(** [check_solution] (347-400); [vars]: the columns of A *)
Definition fcheck (posys : list posynomial) (vars : list nat) (cost : float) (primal : nat -> float) (nus : list (list float)) (las : list float) : verdict :=
  match posys with
  | [] => CostMismatch   (* not reached: there always is a cost *)
  | p0 :: ps =>
      if negb (falmost (posy_val primal p0) cost) then CostMismatch
      else if existsb (fun p => flt (Some (1 + tol)) (posy_val primal p)) ps then Violated
      else if negb (falmost (fsum (hd [] nus)) (Some 1)) then NuSum
      else if existsb (fun n => flt n (Some 0)) (concat nus) && flt (pymin (concat nus)) (Some (- tol / 1000)) then Negative
      else if existsb (fun j => flt (Some tol) (fabs (column_dot posys nus j))) vars then Residual
      else if negb (falmost (fexp (fdual_cost posys nus las)) cost) then DualMismatch
      else Passed
  end.
End Check.

(** [_generate_nula] (274-294), for solvers that return nu and for those that return la *)
Definition la_of_nu (nus : list (list float)) : list float := map fsum nus.
Definition nu_of_la (posys : list posynomial) (primal : nat -> float) (las : list float) : list (list float) :=
  map (fun '(p, la) => map (fun m => fdiv (fmul la (fexp (fadd (flog (Some (fst m))) (row_dot primal m))))
                                          (fsum (map (fun m => fexp (fadd (flog (Some (fst m))) (row_dot primal m))) p))) p) (combine posys las).
