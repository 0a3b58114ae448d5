(** Model of the text of expressions that have no syntax tree, such as those that substitutions give: [Nomial.str_without]
    (gpkit/nomials/core.py:40-68, of which 46-68 are modelled; Print.v has [parse_ast]). Simplifications: texts are lists of tokens; the
    name of a variable (varkey.py:63-76; C90) is one token; units are left out. *)
From Verif Require Import Base HashVec Nomial Latex.

Section PlainStr.
Context {T : Type} `{Num T}.

Inductive ptoken :=
| PNum (n : numeral T)     (* "2.5", "1e+03" *)
| PName (x : nat)          (* a variable *)
| PSuper (z : Z)           (* one of the characters for superscripts from 2 to 9 *)
| PCaret (n : numeral T)   (* "^0.5" *)
| PDot | PStar             (* the characters for multiplication *)
| PMinus                   (* "-" that is not part of a number *)
| PPlus.                   (* " + " *)

(** On Windows [MUL] is "*" and there are no superscripts (repr_conventions.py:10-19) *)
Variable windows : bool.
(** ["%.ng" % x] *)
Variable printf : nat -> T -> numeral T.
(** [sort] and [sorted] of texts: only that they keep every text matters. *)
Variable sort_factors : list (list ptoken) -> list (list ptoken).
Variable sort_terms : list (list ptoken) -> list (list ptoken).

Definition MUL : ptoken := if windows then PStar else PDot.
(** [int(x) == x and 2 <= x <= 9] (core.py:53) *)
Definition small_int (x : T) : option Z := List.find (fun z => bool_decide (x = nofZ z)) [2; 3; 4; 5; 6; 7; 8; 9]%Z.
(** Lines 52-60 *)
Definition varstr (v : nat * T) : list ptoken :=
  let '(var, x) := v in
  match (if windows then None else small_int x) with
  | Some z => [PName var; PSuper z]
  | None => if bool_decide (x = n1) then [PName var] else [PName var; PCaret (printf 2 x)]
  end.
(** [mul.join] *)
Fixpoint pjoin (mul : ptoken) (fs : list (list ptoken)) : list ptoken :=
  match fs with [] => [] | [f] => f | f :: fs' => f ++ mul :: pjoin mul fs' end.
(** Lines 48-67 *)
Definition mstr (t : expv T * T) : list ptoken :=
  let '(exp, c) := t in
  let vars := List.filter (fun v => negb (bool_decide (snd v = n0))) (map_to_list exp) in
  let varstrs := sort_factors (map varstr vars) in
  let cstr := printf 3 c in
  let none := match varstrs with [] => true | _ => false end in
  if is_digits cstr (nopp n1) && negb none then PMinus :: pjoin PDot varstrs
  else pjoin MUL ((if negb (is_digits cstr n1) || none then [[PNum cstr]] else []) ++ varstrs).
(** Line 68 *)
Definition plain_str (h : hmap T) : list ptoken := pjoin PPlus (sort_terms (map mstr h)).
End PlainStr.
Arguments ptoken : clear implicits.
