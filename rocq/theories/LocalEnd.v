(** Model of the constraints of a signomial model from their two sides as written (gpkit/nomials/math.py:405-464, 505-542, 560-579), which
    SGP.v takes as made. *)
From Verif Require Import Base HashVec Nomial Sub Mono Constraint GPGen SGP.

Section Stated.
Context {T : Type} `{Num T}.
(** [left <= right] or [left >= right] between a posynomial and a monomial; [left == right] between monomials; and inequalities between
    signomials *)
Inductive stated := Posy (left : hmap T) (op : oper) (right : hmap T) | Mono (left right : hmap T)
  | Sig (left : hmap T) (op : oper) (right : hmap T).
(** The objects made of them: PosynomialInequality and MonomialEquality as outside SignomialsEnabled, SignomialInequality inside it
    (math.py:578; the [bounded] of line 579 is left out). *)
Definition construct (w : stated) : res (sp_constr T) :=
  match w with
  | Posy l op r => let! us := posy_ineq false l op r in Ok (SPc (CPosy (CS None None) us))
  | Mono l r => let! us := meq_unsubbed false l r in Ok (SPc (CMeq (CS None None) us))
  | Sig l op r => let! h := sig_ineq true l op r in Ok (SPc (CSig h))
  end.
Fixpoint construct_all (ws : list stated) : res (list (sp_constr T)) :=
  match ws with
  | [] => Ok []
  | w :: ws' => let! c := construct w in let! cs := construct_all ws' in Ok (c :: cs)
  end.
End Stated.
Arguments stated T : clear implicits.
