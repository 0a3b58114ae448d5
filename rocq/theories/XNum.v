(** Extended numbers: rationals with numpy's [inf] and [nan], for the
    properties that concern them. *)
From Verif Require Import Base.

Inductive xnum := Fin (q : Q) | PInf | NInf | NaN.

Global Instance xnum_dec : EqDecision xnum.
Proof.
  intros a b. unfold Decision.
  destruct a as [p| | |], b as [q| | |]; try (left; reflexivity); try (right; discriminate).
  destruct (Q_dec p q) as [->|Hne]; [left; reflexivity|right; congruence].
Defined.

Definition xopp (a : xnum) : xnum :=
  match a with Fin q => Fin (Qred (Qopp q)) | PInf => NInf | NInf => PInf | NaN => NaN end.
Definition xadd (a b : xnum) : xnum :=
  match a, b with
  | Fin p, Fin q => Fin (Qred (Qplus p q))
  | NaN, _ | _, NaN | PInf, NInf | NInf, PInf => NaN
  | PInf, _ | _, PInf => PInf
  | NInf, _ | _, NInf => NInf
  end.
(** An infinity with the sign of a number; nan for zero (IEEE 754). *)
Definition xsigninf (q : Q) : xnum :=
  match (Qnum q ?= 0)%Z with Gt => PInf | Lt => NInf | Eq => NaN end.
Definition xmul (a b : xnum) : xnum :=
  match a, b with
  | Fin p, Fin q => Fin (Qred (Qmult p q))
  | NaN, _ | _, NaN => NaN
  | PInf, PInf | NInf, NInf => PInf
  | PInf, NInf | NInf, PInf => NInf
  | PInf, Fin q | Fin q, PInf => xsigninf q
  | NInf, Fin q | Fin q, NInf => xopp (xsigninf q)
  end.
Definition xinv (a : xnum) : xnum :=
  match a with
  | Fin q => if (Qnum q =? 0)%Z then NaN else Fin (Qred (Qinv q))
  | PInf | NInf => Fin 0
  | NaN => NaN
  end.
(** Powers of finite numbers as in [Q_num]; others are not used. *)
Definition xpow (a b : xnum) : xnum :=
  match a, b with Fin p, Fin q => Fin (Qpowi p q) | _, _ => NaN end.
(** Comparisons with nan are false. *)
Definition xleb (a b : xnum) : bool :=
  match a, b with
  | NaN, _ | _, NaN => false
  | NInf, _ | _, PInf => true
  | PInf, _ | _, NInf => false
  | Fin p, Fin q => Qle_bool p q
  end.
Definition xltb (a b : xnum) : bool :=
  match a, b with NaN, _ | _, NaN => false | _, _ => negb (xleb b a) end.

(** Simplification: [ndec] identifies nan with itself where Python's [==] does
    not. The theorems of C10 only compare nan with numbers. *)
Global Instance X_num : Num xnum := {|
  n0 := Fin 0; n1 := Fin 1; nadd := xadd; nmul := xmul; nopp := xopp; ninv := xinv;
  npow := xpow; nofZ z := Fin (inject_Z z); nleb := xleb; nltb := xltb; ndec := xnum_dec |}.
