(** Model of what SequentialGeometricProgram keeps of its solves: [results] (gpkit/constraints/sgp.py:208-214), the results made during the search at a
    verbosity above 2 (163-166) and what [localsolve] returns (180-207). *)
From Verif Require Import Base HashVec Nomial Sub Mono Constraint GPGen SGP.
Open Scope nat_scope.
Local Open Scope list_scope.

Section Results.
Context {T : Type} `{Num T}.

(** A result: its cost, [["freevariables"]] and [["variables"]], and whether making it printed that a constraint is violated. Sensitivities are left out. *)
Record result := Result { r_cost : T; r_free : expv T; r_vars : expv T; r_violated : bool }.

(** [self.cs * np.exp(A.dot(primal))] (gpkit/constraints/gp.py:370): the value of each monomial. [vals] are the exponentials of [primal]. *)
Definition monomials (g : gpdata T) (vals : list T) : list T :=
  map (fun i => nmul (nth i (g_cs g) n0)
                  (fold_right nmul n1 (map (fun t => npow (nth (snd (fst t)) vals n1) (snd t)) (List.filter (fun t => fst (fst t) =? i) (g_coo g)))))
      (seq 0 (length (g_cs g))).
(** [if primal_exp_vals[mi].sum() > 1 + tol] for some of [self.m_idxs[1:]] (375-378) *)
Definition violated (tol : T) (g : gpdata T) (vals : list T) : bool :=
  existsb (fun mi => nltb (nadd n1 tol) (fold_right nadd n0 (take (snd mi - fst mi) (drop (fst mi) (monomials g vals))))) (tl (g_midxs g)).
(** [gp.generate_result(solver_out)] (gp.py:250-304), the program being [now]: the cost, the variables and, of the checks (which only print, 262-270), that of
    the constraints. *)
Definition generate (tol : T) (now : sgp T) (vals : list T) (cost : T) : res result :=
  if decide (length (g_varlocs (sg_gp now)) = length vals) then
    let free := x0_dict (sg_gp now) vals in
    Ok (Result cost free (sg_fixed now ∪ free) (violated tol (sg_gp now) vals))
  else Err RuntimeWarningE.
Fixpoint generate_all (tol : T) (now : solved T -> sgp T) (outs : list (solved T)) : res (list result) :=
  match outs with
  | [] => Ok []
  | so :: outs' =>
      let! r := generate tol (now so) (so_vals so) (so_cost so) in
      let! rs := generate_all tol now outs' in
      Ok (r :: rs)
  end.

(** [program.results] (208-214) after a search of this history. [self.gps] holds one program many times: it is by then what it was at the last solve.
    Simplification: if the search ended by an exception, changes of the program since then are not considered. *)
Definition results (tol : T) (hist : list (solved T)) : res (list result) :=
  match last hist with
  | None => Ok []
  | Some newest => generate_all tol (fun _ => so_sgp newest) hist
  end.
(** At a verbosity above 2, each is made when it is found (163-166). *)
Definition results_at_once (tol : T) (hist : list (solved T)) : res (list result) := generate_all tol so_sgp hist.

(** What [localsolve] returns (180-207): the result of the last solve, without the slack if that is one. *)
Definition without_slack (slack : option nat) (r : result) : res result :=
  match slack with
  | None => Ok r
  | Some k =>
      match r_vars r !! k with
      | None => Err KeyErrorE
      | Some v => if nleb (nsub v n1) eps
                  then match r_free r !! k with
                       | None => Err KeyErrorE
                       | Some _ => Ok (Result (r_cost r) (delete k (r_free r)) (delete k (r_vars r)) (r_violated r))
                       end
                  else Ok r
      end
  end.
Definition returned (tol : T) (hist : list (solved T)) : res result :=
  match last hist with
  | Some so => let! r := generate tol (so_sgp so) (so_vals so) (so_cost so) in without_slack (sg_slack (so_sgp so)) r
  | None => Err UnboundLocalE      (* there always is a solve before the search ends *)
  end.
End Results.
Arguments result T : clear implicits.
