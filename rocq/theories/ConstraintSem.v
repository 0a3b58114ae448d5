(** Specification vocabulary for constraints. *)
From Verif Require Import Base HashVec Nomial NomialSem Constraint.
Open Scope R_scope.

(** A point satisfies a list of posynomials [<= 1]. *)
Definition sat (env : point) (l : list (hmap R)) : Prop := forall u, In u l -> eval env u <= 1.

(** The meaning of [left op right] at a point. *)
Definition holds (env : point) (left : hmap R) (op : oper) (right : hmap R) : Prop :=
  match op with
  | OpLe => eval env left <= eval env right
  | OpGe => eval env right <= eval env left
  | OpEq => eval env left = eval env right
  end.

(** A point satisfies all the inequalities a relaxation consists of. *)
Definition holds_all (env : point) (l : list (hmap R * oper * hmap R)) : Prop :=
  forall a op b, In (a, op, b) l -> holds env a op b.

Definition tolerance : R := 1 / 1000.

(** Dividing [p] by the monomial [m] term by term, no quotient equals a term of
    [p] still to be divided. *)
Definition no_clash (p : hmap R) (m_exp : expv R) : Prop :=
  forall i j ei ci ej cj, (i < j)%nat -> p !! i = Some (ei, ci) -> p !! j = Some (ej, cj) ->
  exp_sub ei m_exp <> ej.

(** A posynomial: canonical with positive coefficients, and at least a term. *)
Definition is_posy (h : hmap R) : Prop := canonical h /\ all_positive h /\ h <> [].
(** A monomial. *)
Definition is_mono (h : hmap R) : Prop := exists e c, h = [(e, c)] /\ exp_canon e /\ 0 < c.

(** Left and right sides in the order lesser, greater. *)
Definition lesser (left : hmap R) (op : oper) (right : hmap R) : hmap R :=
  match op with OpGe => right | _ => left end.
Definition greater (left : hmap R) (op : oper) (right : hmap R) : hmap R :=
  match op with OpGe => left | _ => right end.
