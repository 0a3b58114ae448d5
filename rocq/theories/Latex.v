(** Model of the LaTeX of expressions: [nomial_latex_helper] and [Nomial.latex] (gpkit/nomials/core.py:7-33, 70-88). Simplifications:
    the braces of TeX's groups are balanced, so texts are lists of tokens in which a superscript or a fraction holds its groups; the LaTeX
    of a variable (varkey.py:88-105) is one token; units are left out. *)
From Verif Require Import Base HashVec Nomial.

Section Latex.
Context {T : Type} `{Num T}.

(** What ["%.ng" % x] gives: decimal digits, or digits with an exponent such as "1e+02". Of digits only the number they stand for matters:
    it is "1" or "-1" exactly when this is 1 or -1. *)
Inductive numeral := Plain (v : T) | Sci (m : T) (z : Z).

Inductive atom :=
| Digits (v : T)           (* "2.5" *)
| Times10 (z : Z)          (* " \times 10^{z}" *)
| Minus                    (* "-" without digits *)
| Name (x : nat)           (* the LaTeX of a variable *)
| Sup (n : numeral)        (* "^{n}" *)
| Space.
Inductive token := Atom (a : atom) | Frac (num den : list atom) | Plus.

(** ["%.ng" % x] *)
Variable printf : nat -> T -> numeral.
(** [sorted] of texts: only that it keeps every text matters. *)
Variable sort_factors : list (list atom) -> list (list atom).
Variable sort_terms : list (list token) -> list (list token).

Definition is_digits (n : numeral) (x : T) : bool := match n with Plain v => bool_decide (v = x) | Sci _ _ => false end.

(** [pvarstrs] and [nvarstrs] (core.py:10-13): with the absolute value of the exponent *)
Definition factor (x : nat * T) : list atom :=
  let '(var, a) := x in
  let n := printf 2 a in
  if is_digits n n1 then [Name var] else [Name var; Sup n].
(** [" ".join] *)
Fixpoint join_factors (fs : list (list atom)) : list atom :=
  match fs with [] => [] | [f] => f | f :: fs' => f ++ Space :: join_factors fs' end.
(** [cstr] (core.py:16-23) *)
Definition coefficient_text (c : T) (pos_vars : bool) : list atom :=
  let n := printf 2 c in
  if pos_vars && is_digits n n1 then []
  else if pos_vars && is_digits n (nopp n1) then [Minus]
  else match printf 4 c with Plain v => [Digits v] | Sci m z => [Digits m; Times10 z] end.
(** [nomial_latex_helper] (core.py:7-33) *)
Definition term_latex (c : T) (pos_vars neg_vars : list (nat * T)) : list token :=
  let pvarstr := join_factors (sort_factors (map factor pos_vars)) in
  let nvarstr := join_factors (sort_factors (map (fun x => factor (fst x, nopp (snd x))) neg_vars)) in
  let cstr := coefficient_text c (match pos_vars with [] => false | _ => true end) in
  match pos_vars, neg_vars with
  | _ :: _, _ :: _ => map Atom cstr ++ [Frac pvarstr nvarstr]
  | [], _ :: _ => [Frac cstr nvarstr]
  | _ :: _, [] => map Atom (cstr ++ pvarstr)
  | [], [] => map Atom cstr
  end.
(** [latex] (core.py:70-83): variables with exponent zero are skipped *)
Definition is_pos (a : T) : bool := nltb n0 a.
Definition is_neg (a : T) : bool := nltb a n0.
Definition pos_vars (e : expv T) : list (nat * T) := List.filter (fun x => is_pos (snd x)) (map_to_list e).
Definition neg_vars (e : expv T) : list (nat * T) := List.filter (fun x => is_neg (snd x)) (map_to_list e).
Fixpoint join_terms (ts : list (list token)) : list token :=
  match ts with [] => [] | [t] => t | t :: ts' => t ++ Plus :: join_terms ts' end.
Definition latex (h : hmap T) : list token :=
  join_terms (sort_terms (map (fun '(e, c) => term_latex c (pos_vars e) (neg_vars e)) h)).
End Latex.
Arguments numeral : clear implicits.
Arguments atom : clear implicits.
Arguments token : clear implicits.
