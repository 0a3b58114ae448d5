(** Model of what [generate_result] prints of a failed check (gpkit/constraints/gp.py:249-272), with the messages of [check_solution] (347-400)
    and its verdicts as in NanCheck.v. Simplifications: as there; times, which are printed at verbosities over 0, are left out. *)
From Coq Require Import Reals Strings.String Strings.Ascii.
From Verif Require Import Base NanCheck.
Local Open Scope string_scope.

(** [p in s] *)
Fixpoint contains (p s : string) : bool :=
  String.prefix p s || match s with EmptyString => false | String _ s' => contains p s' end.

Section Warn.
(** ["%s" % x] *)
Variable show : float -> string.
Variables tol abstol : R.

(** The text of what [check_solution] raises (gp.py:373-400), None if nothing *)
Definition check_message (posys : list posynomial) (vars : list nat) (cost : float) (primal : nat -> float) (nus : list (list float)) (las : list float) : option string :=
  match fcheck tol abstol posys vars cost primal nus las with
  | Passed => None
  | CostMismatch => Some ("Primal solution computed cost did not match solver-returned cost: " ++ show (posy_val primal (hd [] posys)) ++ " vs " ++ show cost ++ ".")
  | Violated => Some ("Primal solution violates constraint: "
      ++ match find (fun v => flt (Some (1 + tol)%R) v) (map (posy_val primal) (tl posys)) with Some v => show v | None => "" end ++ " is greater than 1")
  | NuSum => Some ("Dual variables associated with objective sum to " ++ show (fsum (hd [] nus)) ++ ", not 1")
  | Negative => Some ("Dual solution has negative entries as large as " ++ show (pymin (concat nus)) ++ ".")
  | Residual => Some "Dual: sum of nu^T * A did not vanish."
  | DualMismatch => Some ("Dual cost " ++ show (fexp (fdual_cost posys nus las)) ++ " does not match primal cost " ++ show cost)
  end.
(** [except Infeasible as chkerror] (265-268) *)
Definition check_warning (dual_check : bool) (message : option string) : option string :=
  match message with
  | None => None
  | Some w => if negb (contains "Dual" w && negb dual_check) then Some ("Solution check warning: " ++ w) else None
  end.
End Warn.
