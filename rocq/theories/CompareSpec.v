(** What comparisons mean. *)
From Verif Require Import Base HashVec Nomial NomialSem Sub Mono Constraint ConstraintSem Compare.
From Verif Require Layout Vector.
Open Scope R_scope.

(** The value of a side at a point, and the relation between two values that an operator stands for *)
Definition value_at (q : point) (a : operand R) : R := match a with Number c => c | Nom _ h => eval q h end.
Definition related (op : oper) (x y : R) : Prop := match op with OpLe => x <= y | OpGe => y <= x | OpEq => x = y end.

(** Nomials as arithmetic makes them (C04): in canonical form and not zero; variables are monomials *)
Definition proper (a : operand R) : Prop :=
  match a with Number _ => True | Nom v h => canonical h /\ h <> [] /\ (v = true -> is_mono h) end.

(** The kinds of sides: positive numbers and monomials; positive numbers, monomials and other posynomials *)
Definition terms (a : operand R) : hmap R := match a with Number c => num_hmap c | Nom _ h => h end.
Definition mono_side (a : operand R) : Prop := is_mono (terms a).
Definition posy_side (a : operand R) : Prop := is_posy (terms a).
Definition lesser_side (op : oper) (a b : operand R) : operand R := match op with OpGe => b | _ => a end.
Definition greater_side (op : oper) (a b : operand R) : operand R := match op with OpGe => a | _ => b end.
(** Comparisons that geometric programs allow *)
Definition gp_compatible (op : oper) (a b : operand R) : Prop :=
  match op with
  | OpEq => mono_side a /\ mono_side b
  | _ => posy_side (lesser_side op a b) /\ mono_side (greater_side op a b)
  end.
(** A side that is a number and not positive *)
Definition nonpositive (a : operand R) : Prop := exists c, a = Number c /\ c <= 0.
(** The exception of C18: a quotient of a term of the lesser side by the monomial is another of its terms *)
Definition free_of_clashes (op : oper) (a b : operand R) : Prop :=
  forall e c, terms (greater_side op a b) = [(e, c)] -> no_clash (terms (lesser_side op a b)) e.

(** What a comparison may make: a truth value, of numbers, or whether other sides than monomials are the same function; an inequality that
    geometric programs allow, or else, where signomials are enabled, one they don't; and an equality of monomials. Each is what was written,
    though its sides may have changed places. *)
Definition made (se : bool) (op : oper) (a b : operand R) (c : comparison R) : Prop :=
  match c with
  | Truth t =>
      (is_number a = true /\ is_number b = true /\ forall q, (t = true <-> related op (value_at q a) (value_at q b))) \/
      (op = OpEq /\ ~ gp_compatible op a b /\ (t = true <-> forall q, positive_point q -> value_at q a = value_at q b))
  | Posy l o r u =>
      op <> OpEq /\ (nonpositive a \/ nonpositive b \/ gp_compatible op a b) /\
      (forall q, holds q l o r <-> related op (value_at q a) (value_at q b)) /\
      lesser l o r = terms (lesser_side op a b) /\ greater l o r = terms (greater_side op a b) /\ o <> OpEq /\ posy_ineq se l o r = Ok u
  | Sig l o r u =>
      se = true /\ op <> OpEq /\ ~ gp_compatible op a b /\
      (forall q, holds q l o r <-> related op (value_at q a) (value_at q b)) /\
      (forall q, positive_point q -> (eval q u <= 0 <-> related op (value_at q a) (value_at q b)))
  | Meq l r u =>
      op = OpEq /\ (nonpositive a \/ nonpositive b \/ gp_compatible op a b) /\
      (l = terms a /\ r = terms b \/ l = terms b /\ r = terms a) /\ meq_unsubbed se l r = Ok u
  end.
(** When a comparison raises: a number isn't positive; signomials would be needed and aren't enabled; or it can't hold. *)
Definition rejected (se : bool) (op : oper) (a b : operand R) (e : exn) : Prop :=
  nonpositive a \/ nonpositive b \/
  (se = false /\ op <> OpEq /\ ~ gp_compatible op a b /\ (e = TypeErrorE \/ e = InvalidPosynomialE)) \/
  (gp_compatible op a b /\ (free_of_clashes op a b -> forall q, ~ related op (value_at q a) (value_at q b))).

(** A constraint holds at a point. *)
Definition satisfied (q : point) (c : comparison R) : Prop :=
  match c with
  | Truth b => b = true
  | Posy l op r _ | Sig l op r _ => holds q l op r
  | Meq l r _ => eval q l = eval q r
  end.

(** ** Arrays *)

(** Index [i] is in the range of a shape. *)
Definition in_range (shape i : list nat) : Prop := Forall2 lt i shape.
(** Element [j] of an array of shape [shape] is matched with element [i] of a larger one: both indices are counted from the last, where
    the array has only one element along a dimension it is repeated, and dimensions it lacks don't matter. *)
Definition matches (shape j i : list nat) : Prop :=
  length j = length shape /\ (length shape <= length i)%nat /\
  forall d n, rev shape !! d = Some n ->
  exists x y, rev j !! d = Some x /\ rev i !! d = Some y /\ (if (n =? 1)%nat then x = 0%nat else x = y).
(** Shapes that can be broadcast together, and the shape of the result *)
Definition together (a b c : list nat) : Prop :=
  length c = max (length a) (length b) /\
  forall d n, rev c !! d = Some n ->
  match rev a !! d, rev b !! d with
  | Some x, Some y => (x = n /\ y = n) \/ (x = 1%nat /\ y = n) \/ (x = n /\ y = 1%nat)
  | Some x, None => x = n
  | None, Some y => y = n
  | None, None => False
  end.
