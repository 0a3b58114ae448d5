(** How a printed expression is read, by the usual rules: sums and differences from left to right, after products and quotients from
    left to right, after signs, after powers from left to right; parentheses first. *)
From Verif Require Import Base Nomial NomialSem Print.
Open Scope R_scope.

(** " + " and " - " are operators, other characters stand for themselves. *)
Inductive tok := Plus | Minus | C (c : N).
Fixpoint lex (s : text) : list tok :=
  match s with
  | a :: s' =>
      match s' with
      | b :: c :: s'' => if N.eqb a SP && N.eqb c SP && N.eqb b PLUS then Plus :: lex s''
                         else if N.eqb a SP && N.eqb c SP && N.eqb b MINUS then Minus :: lex s''
                         else C a :: lex s'
      | _ => C a :: lex s'
      end
  | [] => []
  end.

(** Splitting at the operators that are outside of parentheses *)
Definition deeper (t : tok) (d : nat) : nat :=
  match t with C c => if N.eqb c LP then S d else if N.eqb c RP then Nat.pred d else d | _ => d end.
Fixpoint split {A} (op : tok -> option A) (d : nat) (l : list tok) : list tok * list (A * list tok) :=
  match l with
  | [] => ([], [])
  | t :: l' =>
      match (match d with O => op t | _ => None end) with
      | Some a => let '(p, ps) := split op 0 l' in ([], (a, p) :: ps)
      | None => let '(p, ps) := split op (deeper t d) l' in (t :: p, ps)
      end
  end.

Definition addi_op (t : tok) : option (R -> R -> R) := match t with Plus => Some Rplus | Minus => Some Rminus | _ => None end.
Definition mult_op (t : tok) : option (R -> R -> R) :=
  match t with C c => if N.eqb c DOT then Some Rmult else if N.eqb c SLASH then Some Rdiv else None | _ => None end.

Section Read.
Variable num : text -> R.          (* what a numeral denotes *)
Variable rho : text -> R.          (* what a name denotes *)

Definition chars (l : list tok) : text := flat_map (fun t => match t with C c => [c] | _ => [] end) l.
(** [p op q op r ...] from left to right *)
Definition chain (f : list tok -> option R) (pps : list tok * list ((R -> R -> R) * list tok)) : option R :=
  fold_left (fun acc aq => match acc, f (snd aq) with Some v, Some w => Some (fst aq v w) | _, _ => None end) (snd pps) (f (fst pps)).

(** Powers: a superscript digit, or "^" and a numeral that may have a sign. *)
Definition signed (t : text) : R := match t with c :: t' => if N.eqb c MINUS then - num t' else num t | [] => 0 end.
Definition pow_op (t : tok) : option (option Z) :=
  match t with
  | C c => if N.eqb c CARET then Some None
           else match List.find (fun zc => N.eqb (snd zc) c) superscripts with Some zc => Some (Some (fst zc)) | None => None end
  | _ => None
  end.
Definition is_digit (c : N) : bool := N.leb 48 c && N.leb c 57.
Definition atom (group : list tok -> option R) (l : list tok) : option R :=
  match l with
  | C c :: l' =>
      if N.eqb c LP then match rev l' with C c' :: m => if N.eqb c' RP then group (rev m) else None | _ => None end
      else if is_digit c then Some (num (chars l)) else Some (rho (chars l))
  | _ => None
  end.
Definition power (group : list tok -> option R) (l : list tok) : option R :=
  let '(p, ps) := split pow_op 0 l in
  fold_left (fun acc aq =>
    match acc, fst aq, snd aq with
    | Some v, Some z, [] => Some (powerRZ v z)
    | Some v, None, q => Some (Rpower v (signed (chars q)))
    | _, _, _ => None
    end) ps (atom group p).
Fixpoint unary (group : list tok -> option R) (l : list tok) : option R :=
  match l with
  | C c :: l' => if N.eqb c MINUS then option_map Ropp (unary group l') else power group l
  | _ => power group l
  end.
Definition term group l : option R := chain (unary group) (split mult_op 0 l).
Definition sum group l : option R := chain (term group) (split addi_op 0 l).

(** [n] bounds the depth of parentheses. *)
Fixpoint read_toks (n : nat) (l : list tok) : option R := match n with O => None | S n' => sum (read_toks n') l end.
Definition reads (s : text) (v : R) : Prop := exists n, forall n', (n <= n')%nat -> read_toks n' (lex s) = Some v.
End Read.

(** ** Names and numerals *)
Definition special (c : N) : bool :=
  existsb (N.eqb c) ([SP; LP; RP; SLASH; CARET; DOT] ++ map snd superscripts).
Definition fine_name (t : text) : Prop :=
  forallb (fun c => negb (special c)) t = true /\ match t with c :: _ => is_digit c = false /\ c <> MINUS | [] => False end.
(** digits, ".", "e", "+" and "-" *)
Definition num_char (c : N) : bool := is_digit c || existsb (N.eqb c) [46; 101; PLUS; MINUS]%N.
Definition numeral (t : text) : Prop := forallb num_char t = true /\ match t with c :: _ => is_digit c = true | [] => False end.

(** The text of a number, and of an exponent, that says it exactly *)
Definition exact (num : text -> R) (t : text) (c : R) : Prop :=
  (numeral t /\ num t = c) \/ (exists t', t = MINUS :: t' /\ numeral t' /\ num t' = - c).

(** No operator outside of parentheses *)
Definition no_top {A} (op : tok -> option A) (s : text) : Prop := snd (split op 0 (lex s)) = [].

(** ** When the printed text can be trusted *)
Record printer := Printer {
  p_name : nat -> text; p_fmt : R -> text; p_xfmt : R -> text; p_plain : hmap R -> text;
  p_num : text -> R; p_unname : text -> nat }.
Definition str (P : printer) (o : obj R) : text := strify (p_name P) (p_fmt P) (p_xfmt P) (p_plain P) o.
(** names are different and look like names, and "1" is read as 1 *)
Definition sane (P : printer) : Prop :=
  (forall x, p_unname P (p_name P x) = x) /\ (forall x, fine_name (p_name P x)) /\ p_num P [ONE] = 1.

(** Parentheses were left out only where nothing is outside of parentheses. *)
Definition trusted (s : text) (addi mult : bool) : Prop :=
  parenthesize s addi mult = s -> (addi = true -> no_top addi_op s) /\ (mult = true -> no_top mult_op s).

(** What can be demanded of an object that is printed *)
Record demands := Demands { d_parens : bool; d_powers : bool; d_signs : bool; d_exact : bool }.
Section Good.
Variable P : printer.
Variable d : demands.
(** [d_parens]: operands are in parentheses where they need to be; [d_powers]: only Monomials are raised to powers; [d_signs]: bases of
    powers begin with no "-"; [d_exact]: numbers are printed exactly. Nomials without a tree ([p + 0]) are never good. *)
Fixpoint good (o : obj R) : Prop :=
  match o with
  | ONum c => d_exact d = true -> exact (p_num P) (p_fmt P c) c
  | OVar _ => True
  | OPlain _ => False
  | OAdd _ a b => good a /\ good b
  | OMul _ a b => good a /\ good b /\ (d_parens d = true -> trusted (str P a) true false /\ trusted (str P b) true false)
  | ODiv _ a b => good a /\ good b /\ (d_parens d = true -> trusted (str P a) true false /\ trusted (str P b) true true)
  | ONeg _ a => good a /\ (d_parens d = true -> trusted (str P a) true false)
  | OPow _ a x => good a /\ (d_parens d = true -> trusted (str P a) true true) /\
      (d_powers d = true -> is_mono a = true) /\ (d_signs d = true -> hd 0%N (parenthesize (str P a) true true) <> MINUS) /\
      (d_exact d = true -> superscript x = None -> exact (p_num P) (p_xfmt P x) x)
  end.
End Good.
