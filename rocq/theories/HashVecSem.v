(** Specification vocabulary for sparse vectors. *)
From Verif Require Import Base HashVec.
Open Scope R_scope.

(** Reading a sparse vector: absent entries are zero. *)
Definition at0 {K} `{EqDecision K} (d : hv K R) (k : K) : R :=
  match dget d k with Some v => v | None => 0 end.

(** No stored entry is zero. *)
Definition nozero {K} `{EqDecision K} (d : hv K R) : Prop :=
  forall k v, dget d k = Some v -> v <> 0.
