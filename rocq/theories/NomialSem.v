(** Specification vocabulary for nomials over the reals: what a nomial and an
    expression mean at a point. Independent of the operations of Nomial.v. *)
From Verif Require Import Base HashVec Nomial.
Open Scope R_scope.

(** A point: a value for every variable. *)
Definition point := nat -> R.
Definition positive_point (env : point) : Prop := forall v, 0 < env v.

(** The value of [x1^a1 * x2^a2 * ...]. *)
Definition mono_val (env : point) (e : expv R) : R :=
  map_fold (fun k a acc => Rpower (env k) a * acc) 1 e.

(** [sum(f(a) for a in l)]. *)
Fixpoint lsum {A} (f : A -> R) (l : list A) : R :=
  match l with [] => 0 | a :: l' => f a + lsum f l' end.

(** The value of a nomial: the sum of coefficient times monomial. *)
Fixpoint eval (env : point) (h : hmap R) : R :=
  match h with
  | [] => 0
  | (e, c) :: h' => c * mono_val env e + eval env h'
  end.

Definition val (env : point) (v : value R) : R :=
  match v with VNum c => c | VNom h => eval env h end.

(** The real number an arithmetic expression denotes. *)
Fixpoint denote (env : point) (e : expr R) : R :=
  match e with
  | EConst c => c
  | EVar x => env x
  | EAdd a b => denote env a + denote env b
  | ESub a b => denote env a - denote env b
  | EMul a b => denote env a * denote env b
  | EDiv a b => denote env a / denote env b
  | ENeg a => - denote env a
  | EPowZ a z => powerRZ (denote env a) z
  | EPowR a r => Rpower (denote env a) r
  end.

(** Reading exponents: absent is 0. *)
Definition eget (e : expv R) (k : nat) : R :=
  match e !! k with Some x => x | None => 0 end.

(** Canonical form. *)
Definition exp_canon (e : expv R) : Prop := forall k x, e !! k = Some x -> x <> 0.
Definition canonical (h : hmap R) : Prop :=
  NoDup (dkeys h) /\ (forall e c, In (e, c) h -> exp_canon e /\ c <> 0).
Definition all_positive (h : hmap R) : Prop := forall e c, In (e, c) h -> 0 < c.

(** A point with the value of one variable replaced. *)
Definition upd (env : point) (x : nat) (t : R) : point :=
  fun k => if decide (k = x) then t else env k.

(** Posynomial expressions: positive constants, variables, sums, products and
    positive integer powers. *)
Fixpoint posy_expr (e : expr R) : Prop :=
  match e with
  | EConst c => 0 < c
  | EVar _ => True
  | EAdd a b | EMul a b => posy_expr a /\ posy_expr b
  | EPowZ a z => posy_expr a /\ (0 < z)%Z
  | _ => False
  end.
