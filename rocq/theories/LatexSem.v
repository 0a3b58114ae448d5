(** Reading LaTeX as mathematics, and what "%.ng" prints: specification for Latex.v, independent of how the texts are made. *)
From Coq Require Import Reals Lra.
From Flocq Require Core.
From Verif Require Import Base HashVec Nomial NomialSem Latex.
Open Scope R_scope.

(** [x] rounded to [p] significant decimal digits, halves to even digits. *)
Definition radix10 : Zaux.radix := Zaux.Build_radix 10 eq_refl.
Definition rounded (p : nat) (x : R) : R := Generic_fmt.round radix10 (FLX.FLX_exp (Z.of_nat p)) Round_NE.ZnearestE x.

(** The number that a text stands for. *)
Definition number (n : numeral R) : R := match n with Plain v => v | Sci m z => m * powerRZ 10 z end.
(** ["%.pg" % x]: exponents are used for numbers that are large or small. *)
Definition short (p : nat) (v : R) : Prop := v = 0 \/ / 10000 <= Rabs v < powerRZ 10 (Z.of_nat p).
Definition prints (printf : nat -> R -> numeral R) : Prop :=
  forall p x, (0 < p)%nat -> number (printf p x) = rounded p x /\
    (short p (rounded p x) -> exists v, printf p x = Plain v) /\
    (~ short p (rounded p x) -> exists m z, printf p x = Sci m z /\ 1 <= Rabs m < 10).

Section Read.
Variable env : point.
Definition omul (a : R) (o : option R) : option R := option_map (Rmult a) o.
(** Factors written next to each other. A superscript belongs to the variable before it; one such as "1e+02" is not a number. *)
Fixpoint factors (ts : list (atom R)) : option R :=
  match ts with
  | [] => Some 1
  | Space :: r => factors r
  | Digits v :: r =>
      match r with
      | Digits _ :: _ => None
      | Times10 z :: r' => omul (v * powerRZ 10 z) (factors r')
      | _ => omul v (factors r)
      end
  | Name x :: r =>
      match r with
      | Sup (Plain a) :: r' => omul (Rpower (env x) a) (factors r')
      | Sup (Sci _ _) :: _ => None
      | _ => omul (env x) (factors r)
      end
  | Sup _ :: _ | Times10 _ :: _ | Minus :: _ => None
  end.
Definition is_factor (a : atom R) : bool := match a with Digits _ | Name _ => true | _ => false end.
(** With a sign in front. *)
Definition signed (ts : list (atom R)) : option R :=
  match ts with Minus :: r => option_map Ropp (factors r) | _ => factors ts end.
(** A product has at least one factor. *)
Definition product (ts : list (atom R)) : option R := if existsb is_factor ts then signed ts else None.
Fixpoint leading_atoms (ts : list (token R)) : list (atom R) * list (token R) :=
  match ts with Atom a :: r => let '(l, r') := leading_atoms r in (a :: l, r') | _ => ([], ts) end.
Definition read_term (ts : list (token R)) : option R :=
  match leading_atoms ts with
  | (l, []) => product l
  | (l, [Frac n d]) =>
      match signed l, product n, product d with Some c, Some a, Some b => Some (c * (a / b)) | _, _, _ => None end
  | _ => None
  end.
Fixpoint terms (ts : list (token R)) : list (list (token R)) :=
  match ts with
  | [] => [[]]
  | Plus :: r => [] :: terms r
  | t :: r => match terms r with s :: ss => (t :: s) :: ss | [] => [[t]] end
  end.
Fixpoint total (os : list (option R)) : option R :=
  match os with [] => Some 0 | o :: os' => match o, total os' with Some a, Some b => Some (a + b) | _, _ => None end end.
Definition read (ts : list (token R)) : option R := total (map read_term (terms ts)).
End Read.

(** An expression with its coefficients and exponents rounded. *)
Definition to_digits (pc pe : nat) (h : hmap R) : hmap R := map (fun '(e, c) => (rounded pe <$> e, rounded pc c)) h.
