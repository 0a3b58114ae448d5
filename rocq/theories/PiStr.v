(** Model of the text of numbers in expressions: the branch of [strify] for numbers (gpkit/repr_conventions.py:53-70). Simplifications: numbers and
    [np.pi] are reals; "%.3g" is the number rounded to three significant digits, halves to even digits (its exponents are left out); the
    units of quantities, which are printed after the number, are left out. *)
From Coq Require Import Reals.
From Flocq Require Import Core.
From Verif Require Import Base LatexSem.
Open Scope R_scope.

(** The texts: a number, one before a sign for pi, that sign, and (pi/number) *)
Inductive text := Plain (v : R) | TimesPi (v : R) | JustPi | PiOver (v : R).
(** [x % 1] *)
Definition mod1 (x : R) : R := x - IZR (Zfloor x).
(** Lines 59-68 *)
Definition strify (x : R) : text :=
  if Rlt_dec (PI / 12) x then
    if Rlt_dec x (100 * PI) then
      if Rle_dec (Rabs (mod1 (12 * x / PI))) (1 / 100) then
        if Rlt_dec (31 / 10) x then
          let v := rounded 3 (x / PI) in if Req_EM_T v 1 then JustPi else TimesPi v
        else PiOver (rounded 3 (PI / x))
      else Plain (rounded 3 x)
    else Plain (rounded 3 x)
  else Plain (rounded 3 x).
