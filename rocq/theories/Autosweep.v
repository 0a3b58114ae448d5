(** Model of autosweeps (gpkit/tools/autosweep.py:10-135, 226-295). Numbers are reals; logarithms are taken of positive ones only
    in what is proved, since numpy's of others is not a number. Messages, timing and counting are not modelled. *)
From Verif Require Import Base.
Open Scope R_scope.

(** What is used of a solution: its cost, the sensitivity to the swept variable, and values of posynomials (which are numbered). *)
Record sol := Sol { s_cost : R; s_sens : R; s_posy : nat -> R }.

(** The attributes of a [BinarySweepTree] but [splits]; [costs] are computed when needed. *)
Record seg := MkSeg { b0 : R; b1 : R; sol0 : sol; sol1 : sol; splitval : option R; splitlb : option R; splitub : option R }.
(** A tree whose [splits] is None, and one with two. *)
Inductive bst := Seg (n : seg) | Split (n : seg) (l r : bst).
Definition root (t : bst) : seg := match t with Seg n => n | Split n _ _ => n end.

(** [__init__] (autosweep.py:39-52) *)
Definition new (lo hi : R) (slo shi : sol) : res bst :=
  if Rle_dec hi lo then Err ValueErrorE else Ok (Seg (MkSeg lo hi slo shi None None None)).

(** [if x:] of None or a number *)
Definition truthy (x : option R) : bool := match x with None => false | Some r => if Req_EM_T r 0 then false else true end.

(** [add_split] (autosweep.py:53-65) *)
Definition add_split (t : bst) (x : R) (s : sol) : res bst :=
  let n := root t in
  if truthy (splitval n) then Err ValueErrorE else
  if Rle_dec x (b0 n) then Err ValueErrorE else
  if Rle_dec (b1 n) x then Err ValueErrorE else
  let! l := new (b0 n) x (sol0 n) s in
  let! r := new x (b1 n) s (sol1 n) in
  Ok (Split (MkSeg (b0 n) (b1 n) (sol0 n) (sol1 n) (Some x) (splitlb n) (splitub n)) l r).

(** [add_splitcost] (autosweep.py:67-74) *)
Definition add_splitcost (t : bst) (x lb ub : R) : res bst :=
  let n := root t in
  if truthy (splitval n) then Err ValueErrorE else
  if Rle_dec x (b0 n) then Err ValueErrorE else
  if Rle_dec (b1 n) x then Err ValueErrorE else
  let n' := MkSeg (b0 n) (b1 n) (sol0 n) (sol1 n) (Some x) (Some lb) (Some ub) in
  Ok (match t with Seg _ => Seg n' | Split _ l r => Split n' l r end).

(** [min_bst] (autosweep.py:116-121). A tree with [splits] has a [splitval]. *)
Fixpoint min_bst (t : bst) (v : R) : seg :=
  match t with
  | Seg n => n
  | Split n l r =>
      match splitval n with
      | Some x => if Rle_dec v x then min_bst l v else min_bst r v
      | None => n
      end
  end.

(** The end of [posy_at] and [cost_at] (autosweep.py:86-88, 112-114) *)
Definition interpolate (lo hi loval hival v : R) : R :=
  let interp := (ln hi - ln v) / (ln hi - ln lo) in
  exp (interp * ln loval + (1 - interp) * ln hival).

(** [posy_at] (autosweep.py:76-88) *)
Definition posy_at (t : bst) (posy : nat) (v : R) : res R :=
  if Rlt_dec v (b0 (root t)) then Err ValueErrorE else
  if Rlt_dec (b1 (root t)) v then Err ValueErrorE else
  let n := min_bst t v in
  Ok (interpolate (b0 n) (b1 n) (s_posy (sol0 n) posy) (s_posy (sol1 n) posy) v).

(** [cost_at] (autosweep.py:90-114) *)
Inductive bound := Lower | Upper.
Definition seg_cost_at (n : seg) (v : R) (bd : option bound) : R :=
  match splitlb n, splitub n, splitval n with
  | Some lb, Some ub, Some x =>
      if truthy (Some lb)
      then let splitcost := match bd with
                            | Some Lower => exp lb
                            | Some Upper => exp ub
                            | None => exp ((lb + ub) / 2)
                            end in
           if Rle_dec v x
           then interpolate (b0 n) x (s_cost (sol0 n)) splitcost v
           else interpolate x (b1 n) splitcost (s_cost (sol1 n)) v
      else interpolate (b0 n) (b1 n) (s_cost (sol0 n)) (s_cost (sol1 n)) v
  | _, _, _ => interpolate (b0 n) (b1 n) (s_cost (sol0 n)) (s_cost (sol1 n)) v
  end.
Definition cost_at (t : bst) (v : R) (bd : option bound) : res R :=
  if Rlt_dec v (b0 (root t)) then Err ValueErrorE else
  if Rlt_dec (b1 (root t)) v then Err ValueErrorE else
  Ok (seg_cost_at (min_bst t v) v bd).

(** [sollist] (autosweep.py:127-135) *)
Fixpoint sollist (t : bst) : list sol :=
  match t with
  | Seg n => [sol0 n] ++ [sol1 n]
  | Split n l r => [sol0 n] ++ tl (sollist l) ++ removelast (tl (sollist r)) ++ [sol1 n]
  end.

(** [get_tol] (autosweep.py:273-295): the value, lower bound and upper bound *)
Definition get_tol (n : seg) : R * R * R :=
  let y0 := ln (s_cost (sol0 n)) in let y1 := ln (s_cost (sol1 n)) in
  let x0 := ln (b0 n) in let x1 := ln (b1 n) in
  let s0 := s_sens (sol0 n) in let s1 := s_sens (sol1 n) in
  let num := y1 - y0 + x0 * s0 - x1 * s1 in
  let denom := s0 - s1 in
  let middle := (exp ((x0 + x1) / 2), (y0 + y1) / 2, (y0 + y1) / 2) in
  if Req_EM_T denom 0 then middle else
  let x := num / denom in
  let lb := y0 + s0 * (x - x0) in
  let interp := (x1 - x) / (x1 - x0) in
  let ub := y0 * interp + y1 * (1 - interp) in
  if Rlt_dec interp (1 / 10000000) then middle else
  if Rlt_dec (1 - 1 / 10000000) interp then middle else
  (exp x, lb, ub).

Section Sweep.
(** Solving with the variable at a value. Simplification: solves do not fail (C44 is about when they do). *)
Variable solve : R -> sol.
Variable logtol : R.

(** [recurse_splits] (autosweep.py:255-270): the tree as it is after and the tolerance. [None] is out of [fuel], the number
    of nested calls allowed. *)
Fixpoint recurse_splits (fuel : nat) (t : bst) : option (res (bst * R)) :=
  match fuel with
  | O => None
  | S fuel' =>
      let '(x, lb, ub) := get_tol (root t) in
      let tol := (ub - lb) / 2 in
      if Rle_dec logtol tol then
        match add_split t x (solve x) with
        | Ok (Split n l r) =>
            match recurse_splits fuel' l with
            | None => None
            | Some (Err e) => Some (Err e)
            | Some (Ok (l', tl_)) =>
                match recurse_splits fuel' r with
                | None => None
                | Some (Err e) => Some (Err e)
                | Some (Ok (r', tr)) => Some (Ok (Split n l' r', Rmax tl_ tr))
                end
            end
        | Ok t' => Some (Ok (t', tol))
        | Err e => Some (Err e)
        end
      else Some (let! t' := add_splitcost t x lb ub in Ok (t', tol))
  end.

(** [autosweep_1d] (autosweep.py:226-252) *)
Definition autosweep_1d (fuel : nat) (lo hi : R) : option (res (bst * R)) :=
  match new lo hi (solve lo) (solve hi) with
  | Err e => Some (Err e)
  | Ok t => recurse_splits fuel t
  end.
End Sweep.
