(** Model of the comparisons [a <= b], [a >= b] and [a == b] of numbers, nomials and arrays of them: which constraint they make
    (gpkit/nomials/math.py:169-177, 271-276, 335-350, 374-382; core.py:105-109), and arrays of constraints (nomials/array.py:24-35,
    constraints/array.py). Units are left out, and so are numpy numbers on the left of a nomial. *)
From Verif Require Import Base HashVec Nomial Sub Mono Constraint.
From Verif Require Layout Vector.
Open Scope nat_scope.

Section Compare.
Context {T : Type} `{Num T}.
Variable se : bool.   (* SignomialsEnabled *)

(** What may be compared: a Python number, or a nomial, which may be a Variable *)
Inductive operand := Number (c : T) | Nom (variable : bool) (h : hmap T).

(** Classes: Variable is a subclass of Monomial, this of Posynomial, this of Signomial (math.py:268, 292; variables.py:22). *)
Inductive pyclass := PNumber | PSignomial | PPosynomial | PMonomial | PVariable.
Definition class_of (a : operand) : pyclass :=
  match a with
  | Number _ => PNumber
  | Nom v h => match classify h with
               | CSignomial => PSignomial
               | CPosynomial => PPosynomial
               | CMonomial => if v then PVariable else PMonomial
               end
  end.
Definition is_monomial (a : operand) : bool := match class_of a with PMonomial | PVariable => true | _ => false end.
Definition is_posynomial (a : operand) : bool := match class_of a with PPosynomial | PMonomial | PVariable => true | _ => false end.
Definition is_number (a : operand) : bool := match a with Number _ => true | Nom _ _ => false end.
Definition depth (c : pyclass) : nat := match c with PNumber => 0 | PSignomial => 1 | PPosynomial => 2 | PMonomial => 3 | PVariable => 4 end.
Definition strict_subclass (c d : pyclass) : bool := match d with PNumber => false | _ => depth d <? depth c end.

(** What a comparison returns: a truth value, a PosynomialInequality, a SignomialInequality or a MonomialEquality. *)
Inductive comparison :=
| Truth (b : bool)
| Posy (left : hmap T) (op : oper) (right : hmap T) (unsubbed : list (hmap T))
| Sig (left : hmap T) (op : oper) (right : hmap T) (unsubbed : hmap T)
| Meq (left right : hmap T) (unsubbed : list (hmap T)).

(** [Signomial(sig)] of a side that is a number (math.py:377-381) *)
Definition side (a : operand) : res (hmap T) :=
  match a with Number c => signomial_init se true (num_hmap c) | Nom _ h => Ok h end.
(** Terms are divided by the monomial's coefficient (math.py:462), so it must not be 0. *)
Definition divides (p m : hmap T) : res unit :=
  match p, m with
  | _ :: _, [(_, c)] => if decide (c = n0) then Err ZeroDivisionE else Ok tt
  | _, _ => Ok tt
  end.
(** [PosynomialInequality(a, op, b)] (math.py:405-419, 442-464) *)
Definition posynomial_inequality (a : operand) (op : oper) (b : operand) : res comparison :=
  let! l := side a in
  let! r := side b in
  let! _ := match op with OpGe => divides r l | _ => divides l r end in
  rmap (Posy l op r) (posy_ineq se l op r).
(** [SignomialInequality(a, op, b)] (math.py:565-579) *)
Definition signomial_inequality (a : operand) (op : oper) (b : operand) : res comparison :=
  let! l := side a in
  let! r := side b in
  rmap (Sig l op r) (sig_ineq se l op r).
(** [MonomialEquality(a, b)] (math.py:505-537), with the exceptions [__eq__] lets pass (math.py:338-342): of those that are caught, units
    aside, there is none. *)
Definition monomial_equality (a b : operand) : res comparison :=
  let! l := side a in
  let! r := side b in
  let! _ := divides l r in
  let! _ := divides r l in
  rmap (Meq l r) (meq_unsubbed se l r).

(** [a.__le__(b)] (math.py:169-172, 271-274), [None] for NotImplemented *)
Definition le_method (a b : operand) : res (option comparison) :=
  match class_of a with
  | PNumber => if is_number b then match a, b with Number x, Number y => Ok (Some (Truth (nleb x y))) | _, _ => Ok None end else Ok None
  | PSignomial => rmap Some (signomial_inequality a OpLe b)
  | _ => if is_number b || is_monomial b then rmap Some (posynomial_inequality a OpLe b) else Ok None
  end.
(** [a.__ge__(b)] (math.py:174-177, 344-349) *)
Definition ge_method (a b : operand) : res (option comparison) :=
  match class_of a with
  | PNumber => if is_number b then match a, b with Number x, Number y => Ok (Some (Truth (nleb y x))) | _, _ => Ok None end else Ok None
  | PSignomial | PPosynomial => rmap Some (signomial_inequality a OpGe b)
  | _ => if is_number b || is_posynomial b then rmap Some (posynomial_inequality a OpGe b) else Ok None
  end.
(** [a.__eq__(b)] (math.py:335-342, core.py:105-109, data.py:59-70) *)
Definition identical (a b : operand) : bool :=
  match a, b with
  | Nom _ h, Nom _ h' => hmap_eqb h h'
  | Nom _ h, Number c | Number c, Nom _ h => nomial_eq_num h c
  | Number x, Number y => if decide (x = y) then true else false
  end.
Definition eq_method (a b : operand) : res (option comparison) :=
  match class_of a with
  | PNumber => if is_number b then Ok (Some (Truth (identical a b))) else Ok None
  | PMonomial | PVariable => if is_number b || is_monomial b then rmap Some (monomial_equality a b) else Ok (Some (Truth (identical a b)))
  | _ => Ok (Some (Truth (identical a b)))
  end.
Definition method (op : oper) : operand -> operand -> res (option comparison) :=
  match op with OpLe => le_method | OpGe => ge_method | OpEq => eq_method end.
Definition mirror (op : oper) : oper := match op with OpLe => OpGe | OpGe => OpLe | OpEq => OpEq end.

(** [a op b]: Python asks the right side first if its class is a subclass of the left's, then the left, then the right. *)
Definition or_else (x : res (option comparison)) (y : res comparison) : res comparison :=
  match x with Ok (Some c) => Ok c | Ok None => y | Err e => Err e end.
Definition compare (op : oper) (a b : operand) : res comparison :=
  let default := match op with OpEq => Ok (Truth false) | _ => Err TypeErrorE end in
  if strict_subclass (class_of b) (class_of a)
  then or_else (method (mirror op) b a) (or_else (method op a b) default)
  else or_else (method op a b) (or_else (method (mirror op) b a) default).

(** [bool(result)]: only MonomialEquality has a [__bool__] (math.py:545-548). *)
Definition truth (c : comparison) : bool :=
  match c with
  | Truth b => b
  | Posy _ _ _ _ | Sig _ _ _ _ => true
  | Meq [(e, c)] [(e', c')] _ => if decide (c = c' /\ e = e') then true else false
  | Meq _ _ _ => false
  end.

(** ** Arrays *)

(** numpy's broadcasting: the dimensions, from the last on, of two arrays together, and the index in one of an element of both *)
Fixpoint broadcast (a b : list nat) : res (list nat) :=
  match a, b with
  | [], b => Ok b
  | a, [] => Ok a
  | n :: a', m :: b' =>
      let! d := if n =? m then Ok n else if n =? 1 then Ok m else if m =? 1 then Ok n else Err ValueErrorE in
      let! ds := broadcast a' b' in Ok (d :: ds)
  end.
Definition broadcast_shape (a b : list nat) : res (list nat) := rmap (@rev nat) (broadcast (rev a) (rev b)).
Definition index_in (shape idx : list nat) : list nat := rev (Vector.clamp (rev shape) (rev idx)).

(** [result.flat], computed in order: the elements of the result at each index, or the first exception *)
Fixpoint evaluate {A} (f : list nat -> res A) (idxs : list (list nat)) : res (list A) :=
  match idxs with
  | [] => Ok []
  | i :: idxs' => let! x := f i in let! xs := evaluate f idxs' in Ok (x :: xs)
  end.
Definition size (shape : list nat) : nat := fold_right Nat.mul 1 shape.
(** numpy.vectorize of the comparison: the type of the result's first element is that of the whole result. *)
Definition cast (first : comparison) (l : list comparison) : list comparison :=
  match first with Truth _ => map (fun c => Truth (truth c)) l | _ => l end.
Definition vectorized (op : oper) (a b : Vector.array operand) : res (list nat * list comparison) :=
  if (size (Vector.dims a) =? 0) || (size (Vector.dims b) =? 0) then Err ValueErrorE else
  let! first := compare op (Vector.elt a (map (fun _ => 0) (Vector.dims a))) (Vector.elt b (map (fun _ => 0) (Vector.dims b))) in
  let! shape := broadcast_shape (Vector.dims a) (Vector.dims b) in
  let! l := evaluate (fun i => compare op (Vector.elt a (index_in (Vector.dims a) i)) (Vector.elt b (index_in (Vector.dims b) i))) (Layout.indices shape) in
  Ok (shape, cast first l).

(** ArrayConstraint: its operator, shape, and its members as [__iter__] yields them *)
Record array_constraint := AC { ac_op : oper; ac_shape : list nat; ac_flat : list comparison }.
(** [a op b] of arrays (array.py:24-35). Numbers, nomials and lists on the right become arrays. *)
Definition compare_arrays (op : oper) (a b : Vector.array operand) : res array_constraint :=
  let! r := vectorized op a b in Ok (AC op (fst r) (snd r)).
(** [bool(constraint)] (constraints/array.py:23-25) *)
Definition array_truth (c : array_constraint) : bool :=
  match ac_op c with OpEq => forallb truth (ac_flat c) | _ => false end.
(** Its members as those of a constraint set; something without variables is an invalid element (constraints/set.py:83-92, 331-345). *)
Definition is_truth (c : comparison) : bool := match c with Truth _ => true | _ => false end.
Definition in_set (c : array_constraint) : res (list comparison) :=
  if existsb is_truth (ac_flat c) then Err ValueErrorE else Ok (ac_flat c).
End Compare.

Arguments operand T : clear implicits.
Arguments comparison T : clear implicits.
Arguments array_constraint T : clear implicits.
