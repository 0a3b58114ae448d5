(** What sensitivities promise, in terms of a model as written. *)
From Verif Require Import Base HashVec Nomial NomialSem Sub SubSem Mono Constraint ConstraintSem GPGen Solvers SolversSpec EndToEnd EndToEndSpec.
Open Scope R_scope.

(** A solver that returns an optimum or fails (see [honest]), with multipliers that prove it is one: they are not negative, the cost's
    is 1 (which a solver may leave out), and no point's Lagrangian is below the optimum. *)
Definition proves (ps : list posy) (x : nat -> R) (la : list R) : Prop :=
  length la = length ps /\ List.nth 0 la 0 = 1 /\ Forall (fun v => 0 <= v) la /\ forall x', ln (gp_cost ps x) <= gp_lagrangian ps la x'.
Definition truthful (optimize : optimizer) : Prop :=
  forall ps all first m, proper ps -> meq_pairs ps all first -> bounded_columns ps m -> (0 < m)%nat ->
  match optimize (c_of ps) (A_of ps) (k_of ps) (p_of ps) all first m with
  | Ok (c, x, la) => length x = m /\ best (gp_feasible ps) (gp_cost ps) (pt x) /\ c = gp_cost ps (pt x) /\
                     (proves ps (pt x) la \/ proves ps (pt x) (1 :: la))
  | Err _ => True
  end.

(** Constraints for which C32 has it that the sensitivities are right: no two terms become alike when constants are substituted, or only
    one variable is substituted. *)
Definition tracked (fixed : gmap nat R) (w : written) : Prop :=
  match w with
  | Ineq l op r => no_like_terms fixed (lesser l op r) \/ exists k v, fixed = {[k := v]}
  | Equal _ _ => True
  end.
(** And costs for which C56 has it *)
Definition simple_cost (fixed : gmap nat R) (cost : hmap R) : Prop :=
  length cost = 1%nat \/ forall k, in_vks cost k = true -> fixed !! k = None.

(** Other constants: positive values for the same variables *)
Definition other_constants (fixed new : gmap nat R) : Prop :=
  (forall k, new !! k = None <-> fixed !! k = None) /\ forall k v, new !! k = Some v -> 0 < v.
(** What sensitivities say the cost is with them: each constant [v] changed to [v'] multiplies it by [v'/v] to the power of its sensitivity. *)
Definition predicted (c : R) (senss fixed new : gmap nat R) : R :=
  c * fold_right Rmult 1 (map (fun kv => Rpower (match new !! fst kv with Some v' => v' | None => snd kv end / snd kv) (eget senss (fst kv)))
                              (map_to_list fixed)).
