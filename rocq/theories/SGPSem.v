(** Specification vocabulary for sequential geometric programs. *)
From Verif Require Import Base HashVec Nomial NomialSem Sub Constraint GPGen SGP.
Open Scope R_scope.

(** ** Histories of costs *)
Definition costs (hist : list (solved R)) : list R := map so_cost hist.

(** The relative improvement from one solve to the next. *)
Definition improvement (a b : R) : R := (a - b) / (a + b).

(** The cost rose by more than the one-millionth that is put down to rounding. *)
Definition rose (a b : R) : Prop := a + 1 / 1000000 < b * (1 - 1 / 1000000).

(** ** Re-linearization (C38) *)

Section Rebuilding.
Context {T : Type} `{Num T}.

(** The values of variables, listed by column of a program's matrix. *)
Definition column (g : gpdata T) (vals : nat -> T) (j : nat) : T :=
  match dkeys (g_varlocs g) !! j with Some v => vals v | None => n0 end.

(** The two programs have the same rows: coefficients, exponents, how they are
    grouped into posynomials, which are equalities, and what the matrix gives
    for any values of the variables. Columns may be in another order. *)
Definition same_gp (a b : gpdata T) : Prop :=
  g_k a = g_k b /\ g_midxs a = g_midxs b /\ g_pidxs a = g_pidxs b /\
  g_cs a = g_cs b /\ g_exps a = g_exps b /\ g_all a = g_all b /\ g_first a = g_first b /\
  forall vals i, (i < length (g_exps a))%nat ->
    coo_dot (g_coo a) (column a vals) i = coo_dot (g_coo b) (column b vals) i.

Definition positive_values (x0 : gmap nat T) : Prop := forall k v, x0 !! k = Some v -> nltb n0 v = true.

(** The program as first built, then as left by any sequence of calls of [gp],
    with the point reached: the substitutions, overridden by the points given to
    [gp]. [build] is what [__init__] would build around a point, [update] is
    [gp]; [given s x0] is asked of each point [x0] given to [s], and [ok s' f] of
    each updated program [s'] and the [f] built anew around the point reached. *)
Inductive updates (build : gmap nat T -> res (sgp T)) (update : sgp T -> gmap nat T -> res (sgp T))
    (given : sgp T -> gmap nat T -> Prop) (ok : sgp T -> sgp T -> Prop) (fixed : gmap nat T)
  : gmap nat T -> sgp T -> Prop :=
| up_start s : build fixed = Ok s -> updates build update given ok fixed fixed s
| up_again pt s x0 s' : updates build update given ok fixed pt s ->
    positive_values x0 -> update s x0 = Ok s' ->
    given s x0 -> (forall f, build (x0 ∪ pt) = Ok f -> ok s' f) ->
    updates build update given ok fixed (x0 ∪ pt) s'.

(** The variables of the signomial constraints. *)
Definition sp_var (cs : list (sp_constr T)) (k : nat) : Prop :=
  exists s, (In (SPc (CSig s)) cs \/ In (SPeq s) cs) /\ in_vks s k = true.

(** Every variable of a signomial constraint that [x0] gives a value to is among
    those the program lists as its own ([sgpvks]). *)
Definition listed (cs : list (sp_constr T)) (s : sgp T) (x0 : gmap nat T) : Prop :=
  forall k, x0 !! k <> None -> sp_var cs k -> In k (sg_vks s).

(** The posynomials have as many terms as those of the program built anew. *)
Definition steady (s f : sgp T) : Prop := g_k (sg_gp s) = g_k (sg_gp f).

(** The left sides of the signomial constraints: like terms collected, no zero
    coefficients or exponents, and free of the relaxation's variable. *)
Definition collected (h : hmap T) : Prop :=
  NoDup (dkeys h) /\ forall e c, In (e, c) h -> (forall k x, e !! k = Some x -> x <> n0) /\ c <> n0.
Definition sigs_proper (slack : option nat) (cs : list (sp_constr T)) : Prop :=
  forall s, In (SPc (CSig s)) cs \/ In (SPeq s) cs ->
    collected s /\ match slack with None => True | Some k => in_vks s k = false end.

(** Iteration orders: of the variables of a monomial, of those of a nomial, and
    of what a substitution visits. *)
Definition any_iteration (ord : var_order T) (vks_of : hmap T -> list nat) (pick : gmap nat T -> hmap T -> schedule) : Prop :=
  (forall e, List.NoDup (ord e) /\ forall k, In k (ord e) <-> e !! k <> None) /\
  (forall h, NoDup (vks_of h) /\ forall k, In k (vks_of h) <-> in_vks h k = true) /\
  (forall x0 h, valid_schedule x0 h (pick x0 h)).
End Rebuilding.
