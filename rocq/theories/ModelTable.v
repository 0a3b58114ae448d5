(** Model of the sensitivities of models, as a result has them by name (gpkit/constraints/gp.py:310, 320-324; how constraints and variables get
    theirs is Multipliers.v), and of their table, [msenss_table] (gpkit/solution_array.py:61-89). Simplifications: numbers are reals; a line
    is its number, as data, and its name; the title is left out. *)
From Coq Require Import Strings.String Reals.
From Flocq Require Import Core.Core.
From Verif Require Import Base Globals Lookup.
Local Open Scope list_scope.
Open Scope R_scope.

(** [m_senss[lineagestr(c)] += abs(c_senss)] (gp.py:320), on a [defaultdict(float)] *)
Definition bump (d : list (string * R)) (lx : lineage * R) : list (string * R) :=
  dset d (path (fst lx)) (match dget d (path (fst lx)) with Some y => y | None => 0 end + Rabs (snd lx)).
(** Constraints, one at a time, then variables (311-323) *)
Definition m_senss (constraints variables : list (lineage * R)) : list (string * R) :=
  fold_left bump variables (fold_left bump constraints []).

(** What the table is made from: a number, or an array with one for each solution of a sweep *)
Inductive value := Single (x : R) | Swept (xs : list R).
Definition values (v : value) : list R := match v with Single x => [x] | Swept xs => xs end.
(** [np.mean] and [np.max]. No array is empty. *)
Definition mean (l : list R) : R := fold_right Rplus 0 l / INR (length l).
Definition maximum (l : list R) : R := match l with [] => 0 | x :: l' => fold_right Rmax x l' end.
(** [np.log10]; only asked for positive numbers *)
Definition log10 (x : R) : R := ln x / ln 10.
(** ["%.1f"], in tenths *)
Definition tenths (x : R) : Z := ZnearestE (x * 10).
(** Lines 65-66: [sorted(..., key=lambda i: -np.mean(i[1]))], which keeps the order of equals *)
Fixpoint insert (x : string * value) (l : list (string * value)) : list (string * value) :=
  match l with
  | [] => [x]
  | y :: l' => if Rle_dec (mean (values (snd y))) (mean (values (snd x))) then x :: y :: l' else y :: insert x l'
  end.
Fixpoint sorted (l : list (string * value)) : list (string * value) := match l with [] => [] | x :: l' => insert x (sorted l') end.

(** What the left of a line says: "<1E-2", "=0", "+1.2" or "+1.2 + [ -0.3  -  +0.3 ]" *)
Inductive shown := Below (e : Z) | Zero | Number (t : Z) | Mean (t : Z) (deltas : list (option Z)).
(** Lines 73-86 *)
Definition cell (v : value) : shown :=
  if forallb (fun x => if Rlt_dec x (1 / 10) then true else false) (values v) then
    let m := maximum (values v) in
    if Req_EM_T m 0 then Zero else Below (Ztrunc (log10 m))
  else
    match v with
    | Single x => Number (tenths x)
    | Swept xs =>
        let meansenss := mean xs in
        Mean (tenths meansenss) (map (fun x => let d := x - meansenss in if Rle_dec (1 / 10) (Rabs d) then Some (tenths d) else None) xs)
    end.
(** Lines 70-72, 88-89 *)
Definition msenss_table (data : list (string * value)) : list (shown * string) :=
  let lines := flat_map (fun '(model, v) => match model with EmptyString => [] | _ => [(cell v, model)] end) (sorted data) in
  if (1 <? length lines)%nat then lines else [].
