(** Specification vocabulary for units: the physical quantity an expression
    denotes, as a number in root units and a dimension. *)
From Verif Require Import Base HashVec Nomial NomialSem Constraint Units.
Open Scope R_scope.

Section Phys.
Variable reg : nat -> unitdef R.          (* the unit registry *)
Variable vunits : nat -> option (gmap nat R).  (* units of the variables *)

(** A registry: positive scales, no zero exponents in dimensions. *)
Definition registry_ok : Prop :=
  forall n, 0 < ud_scale (reg n) /\ exp_canon (ud_dims (reg n)).

(** How many root units one [u] is; one for no units. *)
Definition scale_of (u : option (gmap nat R)) : R :=
  match u with Some u => mono_val (fun n => ud_scale (reg n)) u | None => 1 end.

(** The exponent of base dimension [d] in [u]. *)
Definition dim_of (u : option (gmap nat R)) (d : nat) : R :=
  match u with
  | Some u => map_fold (fun n a acc => eget (ud_dims (reg n)) d * a + acc) 0 u
  | None => 0
  end.

(** Physical value, in root units, of a nomial at a point that gives each
    variable a magnitude in the variable's own units. *)
Definition phys (env : point) (a : umap R) : R := eval env (uh a) * scale_of (uu a).

(** The physical value and dimension an expression should have. *)
Fixpoint pval (env : point) (e : uexpr R) : R :=
  match e with
  | UVar x => env x * scale_of (vunits x)
  | UConst c u => c * scale_of u
  | UAdd a b => pval env a + pval env b
  | USub a b => pval env a - pval env b
  | UMul a b => pval env a * pval env b
  | UDiv a b => pval env a / pval env b
  | UPow a r => Rpower (pval env a) r
  | UAddN a c u => pval env a + c * scale_of u
  | UMulN a c u => pval env a * (c * scale_of u)
  | UTo a _ => pval env a
  end.

Fixpoint pdim (e : uexpr R) (d : nat) : R :=
  match e with
  | UVar x => dim_of (vunits x) d
  | UConst _ u => dim_of u d
  | UAdd a _ | USub a _ | UAddN a _ _ | UTo a _ => pdim a d
  | UMul a b => pdim a d + pdim b d
  | UDiv a b => pdim a d - pdim b d
  | UPow a r => pdim a d * r
  | UMulN a _ u => pdim a d + dim_of u d
  end.

(** Only like quantities are added or converted into one another (adding the
    number zero, of whatever unit, counts as adding nothing). *)
Fixpoint consistent (e : uexpr R) : Prop :=
  match e with
  | UVar _ | UConst _ _ => True
  | UAdd a b | USub a b => consistent a /\ consistent b /\ forall d, pdim a d = pdim b d
  | UMul a b | UDiv a b => consistent a /\ consistent b
  | UPow a _ | UMulN a _ _ => consistent a
  | UAddN a c u => consistent a /\ (c = 0 \/ forall d, pdim a d = dim_of u d)
  | UTo a u => consistent a /\ forall d, pdim a d = dim_of (Some u) d
  end.

(** No units at all, or a unit that has a dimension. *)
Definition proper (u : option (gmap nat R)) : Prop :=
  match u with None => True | Some u => exists d, dim_of (Some u) d <> 0 end.

End Phys.
