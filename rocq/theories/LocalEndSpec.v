(** When a point meets the constraints of a signomial model as written (C100). Numbers are of any kind, as in SGPIterSpec.v. *)
From Verif Require Import Base HashVec Nomial Sub Mono Constraint GPGen SGP SGPSem SGPIterSpec LocalEnd.

Section Spec.
Context {T : Type} `{Num T}.
Definition worth (q : nat -> T) (h : hmap T) : T := total (map (term_at q) h).
Definition smaller (l : hmap T) (op : oper) (r : hmap T) : hmap T := match op with OpGe => r | _ => l end.
Definition larger (l : hmap T) (op : oper) (r : hmap T) : hmap T := match op with OpGe => l | _ => r end.

(** Sums of terms with like terms collected; posynomials and monomials among them *)
Definition posynomial (h : hmap T) : Prop := collected h /\ (forall e c, In (e, c) h -> nltb n0 c = true) /\ h <> [].
Definition monomial (h : hmap T) : Prop := posynomial h /\ length h = 1.
(** The sides are what each kind of constraint is for. The last part of the first case excludes the fault in C18. *)
Definition admissible (w : stated T) : Prop :=
  match w with
  | Posy l op r => op <> OpEq /\ posynomial (smaller l op r) /\ monomial (larger l op r) /\
                   forall e c, larger l op r = [(e, c)] -> clean_division (smaller l op r) e
  | Mono l r => monomial l /\ monomial r
  | Sig l op r => op <> OpEq /\ collected l /\ collected r
  end.

(** A point of positive values, with the substituted ones in place *)
Definition point_with (fixed : gmap nat T) (q : nat -> T) : Prop :=
  (forall k, nltb n0 (q k) = true) /\ forall k v, fixed !! k = Some v -> q k = v.
Definition holds_exactly (q : nat -> T) (w : stated T) : Prop :=
  match w with
  | Posy l op r | Sig l op r => nleb (worth q (smaller l op r)) (worth q (larger l op r)) = true
  | Mono l r => worth q l = worth q r
  end.
(** A constraint whose sides are in a ratio that no free variable changes, at most 1 or a little more *)
Definition in_ratio (fixed : gmap nat T) (l r : hmap T) (c : T) : Prop :=
  forall q, point_with fixed q -> worth q l = nmul c (worth q r).
Definition settled (fixed : gmap nat T) (tol : T) (w : stated T) : Prop :=
  exists c, nleb c (nadd n1 tol) = true /\
    match w with
    | Posy l op r => in_ratio fixed (smaller l op r) (larger l op r) c
    | Mono l r => in_ratio fixed l r c /\ nleb (ndiv n1 c) (nadd n1 tol) = true
    | Sig _ _ _ => False
    end.
(** Constraints on posynomials hold, or are settled. Signomial inequalities, with subtracted terms moved to the other side, hold up to the
    slack and the tolerance. *)
Definition fits (fixed : gmap nat T) (tol slack : T) (q : nat -> T) (w : stated T) : Prop :=
  match w with
  | Sig l op r =>
      nleb (nadd (lesser_side q (smaller l op r)) (greater_side q (larger l op r)))
           (nmul (nmul (nadd n1 tol) slack) (nadd (lesser_side q (larger l op r)) (greater_side q (smaller l op r)))) = true
  | _ => holds_exactly q w \/ settled fixed tol w
  end.

Definition sides_of (w : stated T) : list (hmap T) :=
  match w with Posy l _ r | Mono l r | Sig l _ r => [l; r] end.
(** The relaxation's variable, if there is one, is in neither cost nor constraints, and not substituted. *)
Definition fresh_slack (slack : option nat) (cost : hmap T) (ws : list (stated T)) (fixed : gmap nat T) : Prop :=
  match slack with
  | None => True
  | Some k => fixed !! k = None /\ in_vks cost k = false /\ forall w h, In w ws -> In h (sides_of w) -> in_vks h k = false
  end.
Definition slack_value (slack : option nat) (q : nat -> T) : T := match slack with None => n1 | Some k => q k end.
(** The cost as charged: times slack^penalty if there is slack *)
Definition charged (slack : option nat) (penalty : T) (cost : hmap T) (q : nat -> T) : T :=
  match slack with None => worth q cost | Some k => nmul (worth q cost) (npow (q k) penalty) end.

(** Variables of the signomial inequalities *)
Definition signomial_variable (ws : list (stated T)) (k : nat) : Prop :=
  exists l op r, In (Sig l op r) ws /\ (in_vks l k = true \/ in_vks r k = true).
End Spec.
