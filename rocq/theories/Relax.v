(** Model of the sets that relax or bound others (gpkit/constraints/relax.py,
    gpkit/constraints/bounded.py:9-67) and of the model made of them by
    [Model.debug] (gpkit/constraints/model.py:166-190). Units aside. *)
From Verif Require Import Base HashVec Nomial Sub Mono Constraint Flat.

Section Relax.
Context {T : Type} `{Num T}.

(** A constraint, as its sides. *)
Definition eqn : Type := (hmap T * oper * hmap T)%type.

(** [relaxvar >= 1] *)
Definition at_least_one (rv : nat) : eqn := (var_hmap rv, OpGe, num_hmap n1).

(** [c.relaxed(relaxvar)] for what [flat()] yields (math.py:383-393): nothing but a
    constraint has the method. *)
Definition relax_item (rv : nat) (i : item eqn) : res (list eqn) :=
  match i with
  | Leaf (lhs, op, rhs) => Ok (relaxed rv lhs op rhs)
  | _ => Err AttributeErrorE
  end.
Fixpoint relax_items (l : list (nat * item eqn)) : res (list eqn) :=
  match l with
  | [] => Ok []
  | (rv, i) :: l' => let! c := relax_item rv i in let! cs := relax_items l' in Ok (c ++ cs)
  end.

(** [ConstraintsRelaxedEqually.__init__] (relax.py:31-46): the constraints made, in
    the order of [flat()]. The substitutions are passed on unchanged. *)
Definition relaxed_equally (rv : nat) (l : list (item eqn)) : res (list eqn) :=
  let! cs := relax_items (map (fun i => (rv, i)) (flat l)) in
  Ok (at_least_one rv :: cs).

(** [ConstraintsRelaxed.__init__] (relax.py:78-94); [rv i] is [relaxvars[i]]. *)
Definition constraints_relaxed (rv : nat -> nat) (l : list (item eqn)) : res (list eqn) :=
  let! nums := relax_numbers l in
  let! cs := relax_items (map (fun ni => (rv (fst ni), snd ni)) nums) in
  Ok (map (fun i => at_least_one (rv i)) (seq 0 (length l)) ++ cs).

(** ** ConstantsRelaxed (relax.py:147-206) *)

(** What the loop over the constants changes: the substitutions, the relaxation variables,
    the freed variables, and the constraints under the printed name of their constant. *)
Record relaxing := RX {
  rx_subs : list (nat * T);
  rx_vars : list nat;
  rx_freed : list nat;
  rx_cons : list (nat * list eqn) }.

(** [newconst/relaxvar], [newconst*relaxvar] *)
Definition over (a b : nat) : res (hmap T) :=
  match py_div false (VNom (var_hmap a)) (VNom (var_hmap b)) with
  | Ok (VNom h) => Ok h | Ok (VNum c) => Ok (num_hmap c) | Err e => Err e
  end.
Definition times (a b : nat) : res (hmap T) :=
  match py_mul false (VNom (var_hmap a)) (VNom (var_hmap b)) with
  | Ok (VNom h) => Ok h | Ok (VNum c) => Ok (num_hmap c) | Err e => Err e
  end.

(** [name k] is the constant's [name], [shown k] its [str], [rk k] and [ok k] the variables
    made from it: the relaxation variable and the one with the original
    value. Scalar constants only: [substitutions] is a KeyDict, and the deletion of elements of
    vectors in it is modelled in KeyDict.v. *)
Variables (name shown rk ok : nat -> nat).
Definition relax_constant (include_only exclude : list nat) (st : relaxing) (c : nat * T) : res relaxing :=
  let '(k, v) := c in
  if decide (v = n0) then Ok (RX (dset (rx_subs st) k n0) (rx_vars st) (rx_freed st) (rx_cons st))
  else if negb (bool_decide (include_only = [])) && negb (bool_decide (name k ∈ include_only)) then Ok st
  else if bool_decide (name k ∈ exclude) then Ok st
  else
    match dget (rx_subs st) k with
    | None => Err KeyErrorE
    | Some _ =>
        let subs := dset (ddel (rx_subs st) k) (ok k) v in
        let! low := over (ok k) (rk k) in
        let! high := times (ok k) (rk k) in
        Ok (RX subs (rx_vars st ++ [rk k]) (rx_freed st ++ [k])
               (dset (rx_cons st) (shown k)
                     [at_least_one (rk k); (low, OpLe, var_hmap k); (var_hmap k, OpLe, high)]))
    end.
Fixpoint relax_constants (include_only exclude : list nat) (st : relaxing) (cs : list (nat * T)) : res relaxing :=
  match cs with
  | [] => Ok st
  | c :: cs' => let! st' := relax_constant include_only exclude st c in relax_constants include_only exclude st' cs'
  end.
(** [constants] are the constants of the original set, linked ones evaluated, in the order
    of their [eqstr]. *)
Definition constants_relaxed (include_only exclude : list nat) (subs constants : list (nat * T)) : res relaxing :=
  relax_constants include_only exclude (RX subs [] [] []) constants.
(** The constraints added to the original ones. *)
Definition relaxation_constraints (st : relaxing) : list eqn := concat (dvals (rx_cons st)).

(** The substitutions of [Model(tants.relaxvars.prod()**30 * self.cost, tants)]
    (model.py:180, costed.py:19-25, set.py:75-91): those of the set, then those of
    the variables of the cost that carry a value. [valued] are the variables which carry one: after being put in a
    constraint set, those made with [constant=True] (set.py:107-110), and the variables copied from them (relax.py:170-191).
    The cost has the relaxation variables and the original cost's. *)
Definition feasibility_subs (valued : nat -> option T) (st : relaxing) (cost_vars : list nat) : list (nat * T) :=
  fold_left (fun d k => match valued k with Some v => dset d k v | None => d end)
            (rx_vars st ++ cost_vars) (rx_subs st).

(** ** Bounded (bounded.py:9-34, 55-67) *)

(** What [Bounded] reads of a constraint set: its members, all its variables, those
    made in its own [setup] (model.py:66-69), for a model the variables
    of its cost, and the variables with substitutions. *)
Record cset := CSet_ {
  cs_items : list (item eqn);
  cs_vks : list nat;
  cs_unique : list nat;
  cs_cost : list nat;
  cs_fixed : list nat }.

(** [constrained_varkeys] (set.py:162-164, costed.py:27-31) *)
Definition constrained (s : cset) : list nat :=
  List.filter (fun k => negb (bool_decide (k ∈ cs_unique s))) (cs_vks s) ++ cs_cost s.

(** [lower or eps], [upper or 1/eps] *)
Definition lower_bound (eps : T) (lower : option T) : T :=
  match lower with Some l => if decide (l = n0) then eps else l | None => eps end.
Definition upper_bound (eps : T) (upper : option T) : res T :=
  let default := if decide (eps = n0) then Err ZeroDivisionE else Ok (ndiv n1 eps) in
  match upper with Some u => if decide (u = n0) then default else Ok u | None => default end.

(** [varkey_bounds] for one variable *)
Definition bounds_for (lower upper : T) (k : nat) : list eqn :=
  (if decide (lower = n0) then [] else [(num_hmap lower, OpLe, var_hmap k)]) ++
  (if decide (upper = n0) then [] else [(var_hmap k, OpLe, num_hmap upper)]).

(** The variables bounded, and the constraints added. The order of a frozenset is not
    specified; it only matters for the order of the constraints. *)
Definition bound_varkeys (s : cset) : list nat :=
  List.filter (fun k => negb (bool_decide (k ∈ cs_fixed s))) (constrained s).
Definition bounded (eps : T) (lower upper : option T) (s : cset) : res (list (item eqn)) :=
  let lo := lower_bound eps lower in
  let! up := upper_bound eps upper in
  Ok [CSet 0 (cs_items s); Lst (map (fun k => Lst (map Leaf (bounds_for lo up k))) (bound_varkeys s))].
End Relax.

Arguments relaxing T : clear implicits.
Arguments cset T : clear implicits.
Arguments eqn T : clear implicits.
