(** Specification vocabulary for bounds. *)
From Verif Require Import Base HashVec Nomial NomialSem GPGen Bounds.
Open Scope R_scope.

(** The least set that contains [base] and, with all of a condition, what the
    condition is for. *)
Inductive closure (base : bound -> Prop) (rule : bound -> list bound -> Prop) : bound -> Prop :=
| cl_base b : base b -> closure base rule b
| cl_rule b c : rule b c -> (forall x, In x c -> closure base rule x) -> closure base rule b.

(** The bounds of a generated program. In a row that does not belong to an
    equality, a positive exponent bounds the variable above and a negative one
    below. In an equality [x*y/z == 1], [x] is bounded above if the variables of
    the same sign ([y]) are bounded below and those of the opposite sign ([z])
    are bounded above; likewise with above and below exchanged. *)
Definition same_side (x y : R) : bool := Bool.eqb (Rltb 0 x) (Rltb 0 y).
Inductive has_bound (g : gpdata R) : bound -> Prop :=
| hb_inequality i e v x : g_exps g !! i = Some e -> ~ In i (g_all g) -> e !! v = Some x ->
    has_bound g (v, Rltb 0 x)
| hb_equality i e v x up : In i (g_first g) -> g_exps g !! i = Some e -> e !! v = Some x ->
    (forall k y, e !! k = Some y -> k <> v -> has_bound g (k, if same_side x y then negb up else up)) ->
    has_bound g (v, up).

(** The bounds the elements of a constraint set come with, at any depth: those
    of its constraints, and both bounds of every variable with a substitution
    in it or in a set inside it. *)
Fixpoint tree_base (t : ctree) (b : bound) : Prop :=
  match t with
  | CLeaf bounded _ => In b bounded
  | CNode ts subs =>
      (fix any (ts : list ctree) : Prop :=
         match ts with [] => False | t :: ts' => tree_base t b \/ any ts' end) ts \/ In (fst b) subs
  end.
(** The conditional bounds of its constraints. *)
Fixpoint tree_rule (t : ctree) (b : bound) (c : list bound) : Prop :=
  match t with
  | CLeaf _ q => exists cs, In (b, cs) q /\ In c cs
  | CNode ts _ =>
      (fix any (ts : list ctree) : Prop :=
         match ts with [] => False | t :: ts' => tree_rule t b c \/ any ts' end) ts
  end.

(** How many conditional bounds its constraints have. *)
Fixpoint count_conditional (t : ctree) : nat :=
  match t with
  | CLeaf _ q => length q
  | CNode ts _ => (fix sum (ts : list ctree) : nat := match ts with [] => 0%nat | t :: ts' => (count_conditional t + sum ts')%nat end) ts
  end.
