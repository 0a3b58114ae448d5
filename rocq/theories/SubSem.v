(** Specification vocabulary for substitution: evaluation at points that may
    have zero or negative coordinates, and overriding of a point. *)
From Verif Require Import Base HashVec Nomial NomialSem.
Open Scope R_scope.

(** The value of a monomial at any point, with Python's powers ([Rpow]). *)
Definition mono_valp (env : point) (e : expv R) : R :=
  map_fold (fun k a acc => Rpow (env k) a * acc) 1 e.
Fixpoint evalp (env : point) (h : hmap R) : R :=
  match h with
  | [] => 0
  | (e, c) :: h' => c * mono_valp env e + evalp env h'
  end.

(** The point with the substituted variables overridden. *)
Definition override (env : point) (fixed : gmap nat R) : point :=
  fun k => match fixed !! k with Some v => v | None => env k end.

(** The substitution asks for no power of zero with a negative exponent. *)
Definition powers_defined (fixed : gmap nat R) (h : hmap R) : Prop :=
  forall e c k x, In (e, c) h -> e !! k = Some x -> fixed !! k = Some 0 -> 0 <= x.

(** The exponents of a term that survive the substitution. *)
Definition surviving (fixed : gmap nat R) (e : expv R) : expv R := e ∖ fixed.

(** The fractions of C11: entry [n] of the map lists exactly the original terms
    that become the [n]-th surviving term, each with its share of that term's
    coefficient, and the shares add up to one. *)
Definition share (fixed : gmap nat R) (o : expv R) (c total : R) : R :=
  c * mono_valp (override (fun _ => 1) fixed) o / total.
Definition fractions_right (fixed : gmap nat R) (h cp : hmap R) (m : list (list (nat * R))) : Prop :=
  length m = length cp /\
  forall n e c, cp !! n = Some (e, c) ->
  exists fr, m !! n = Some fr /\ lsum snd fr = 1 /\
    forall i q, In (i, q) fr <->
      exists o ci, h !! i = Some (o, ci) /\ surviving fixed o = e /\ q = share fixed o ci c.

(** No two terms become like terms. *)
Definition no_like_terms (fixed : gmap nat R) (h : hmap R) : Prop :=
  forall i j o1 c1 o2 c2, h !! i = Some (o1, c1) -> h !! j = Some (o2, c2) ->
  surviving fixed o1 = surviving fixed o2 -> i = j.
