(** Model of what is said of relaxed constraints and constants once a relaxed set has been solved: [check_relaxed] of ConstraintsRelaxedEqually
    (gpkit/constraints/relax.py:53-58), ConstraintsRelaxed (102-124) and ConstantsRelaxed (223-232), and the transfer of sensitivities back to
    the constants that were relaxed (212-220). What is relaxed, and by which variables, is in Relax.v. *)
From Coq Require Import NArith ZArith Ascii String.
From Verif Require Import Base HashVec Nomial Sub Mono Constraint Flat Relax Checks ConTable SetLayout.
Open Scope nat_scope.
Local Open Scope list_scope.

Section Report.
Context {T : Type} `{Num T}.
(** numpy's [inf], and the order in which variables and terms are substituted (Sub.v) *)
Variables (inf : T) (pick : gmap nat T -> hmap T -> schedule).
(** [str] of an expression (Print.v); the sides and the operator of an ArrayConstraint; what [%i] makes of a number *)
Variables (show : hmap T -> text) (shown_array : list (item (eqn T)) -> text * text * text) (trunc : T -> Z).

(** What is given to [appendsolwarning] (Warnings.v), as ["Relaxed Constraints"] or ["Relaxed Constants"]: the message, and what it is about *)
Definition report (A : Type) : Type := (text * A)%type.

Fixpoint each {A B} (f : A -> res B) (l : list A) : res (list B) :=
  match l with [] => Ok [] | x :: l' => let! y := f x in let! ys := each f l' in Ok (y :: ys) end.

(** [%i] of a number that is not negative *)
Definition whole (x : T) : text := digits (Z.to_nat (trunc x)).
Definition hundred : T := nofZ 100.

(** ConstraintsRelaxedEqually (53-58), about the set itself; [0.9+(val-1)*100] *)
Definition equally_message (val : T) : text :=
  chars "All constraints relaxed by " ++ whole (nadd (ndiv (nofZ 9) (nofZ 10)) (nmul (nsub val n1) hundred)) ++ chars "%".
Definition check_relaxed_equally (val : T) : res (list (report unit)) :=
  let! relaxed := get_relaxed [val] [tt] in
  Ok (map (fun r => (equally_message (fst r), tt)) relaxed).

(** ConstraintsRelaxed (102-124) *)

(** [self.original_constraints[i]] (set.py:124-129): [idx] is the set's [idxlookup], of which only keys that are integers matter here. *)
Definition original (idx : list (nat * nat)) (l : list (item (eqn T))) (i : nat) : res (item (eqn T)) :=
  match l !! (match dget idx i with Some j => j | None => i end) with Some c => Ok c | None => Err IndexErrorE end.

(** [self["relaxed constraints"]]: for each constraint of [flat()], the list [c.relaxed(relaxvar)] *)
Variable rv : nat -> nat.
Definition relaxed_constraints (l : list (item (eqn T))) : res (list (list (eqn T))) :=
  let! nums := relax_numbers l in
  each (fun ni => relax_item (rv (fst ni)) (snd ni)) nums.

Definition oper_text (o : oper) : text := match o with OpGe => chars ">=" | OpLe => chars "<=" | OpEq => chars "=" end.
(** [.left], [.oper] and [.right], printed *)
Definition printed (c : item (eqn T)) : res (text * text * text) :=
  match c with
  | Leaf (lhs, op, rhs) => Ok (show lhs, oper_text op, show rhs)
  | ArrC cs => Ok (shown_array cs)
  | _ => Err AttributeErrorE
  end.
(** [h.sub({k: v})] (Sub.v) *)
Definition sub1 (k : nat) (v : T) (h : hmap T) : res (hmap T) :=
  let! st := nm_sub inf {[k := v]} h (pick {[k := v]} h) in Ok (s_cp st).

(** [0.5+(relaxval-1)*100] *)
Definition percent (relaxval : T) : text := whole (nadd (ndiv n1 (nofZ 2)) (nmul (nsub relaxval n1) hundred)) ++ chars "%".
(** Lines 112-123. Python's [" " * padding] is empty when [padding] is negative. *)
Definition relaxed_message (i : nat) (relaxval : T) (old new : text * text * text) : text :=
  let '(oldleft, oldop, oldright) := old in
  let '(newleft, newop, newright) := new in
  let oldleft := if length oldleft <? length newleft then repeat space (length newleft - length oldleft) ++ oldleft else oldleft in
  chars " " ++ pad 3 (digits i) ++ chars ": " ++ pad 5 (percent relaxval) ++ chars " relaxed, from " ++ oldleft ++ chars " " ++ oldop ++ chars " " ++ oldright
    ++ [10%N] ++ chars "                       to " ++ newleft ++ chars " " ++ newop ++ chars " " ++ newright.
Definition report_constraint (idx : list (nat * nat)) (l : list (item (eqn T))) (new : list (list (eqn T))) (r : T * nat)
  : res (report (item (eqn T))) :=
  let '(relaxval, i) := r in
  let! old := original idx l i in
  match new !! i with
  | Some ((lhs, op, rhs) :: _) =>
      let! lhs' := sub1 (rv i) relaxval lhs in
      let! rhs' := sub1 (rv i) relaxval rhs in
      let! o := printed old in
      Ok (relaxed_message i relaxval o (show lhs', oper_text op, show rhs'), old)
  | _ => Err IndexErrorE
  end.
(** [vals] is [result["freevariables"][self.relaxvars]] *)
Definition check_relaxed (idx : list (nat * nat)) (l : list (item (eqn T))) (vals : list T) : res (list (report (item (eqn T)))) :=
  let! new := relaxed_constraints l in
  let! relaxed := get_relaxed vals (seq 0 (length new)) in
  each (report_constraint idx l new) relaxed.

(** ConstantsRelaxed (223-232): [str] of the freed variable, and [%-.4g] of a number. [free] is [result["freevariables"]]. *)
Variables (name_of : nat -> text) (fmt : T -> text).
Definition value_in (d : list (nat * T)) (k : nat) : res T := match dget d k with Some v => Ok v | None => Err KeyErrorE end.
Definition report_constant (constants free : list (nat * T)) (r : T * nat) : res (report nat) :=
  let k := snd r in
  let! old := value_in constants k in
  let! new := value_in free k in
  Ok (chars "  " ++ name_of k ++ chars ": relaxed from " ++ fmt old ++ chars " to " ++ fmt new, k).
Definition check_relaxed_constants (st : relaxing T) (constants free : list (nat * T)) : res (list (report nat)) :=
  let! vals := each (value_in free) (rx_vars st) in
  let! relaxed := get_relaxed vals (rx_freed st) in
  each (report_constant constants free) relaxed.

(** [process_result] (212-220): [derelax] is [_derelax_map], from the variables with original values to the constants. Simplification: scalars only. *)
Fixpoint derelax (m : list (nat * nat)) (senss : list (nat * T)) : res (list (nat * T)) :=
  match m with
  | [] => Ok senss
  | (new, former) :: m' => let! s := value_in senss new in derelax m' (ddel (dset senss former s) new)
  end.
End Report.
Arguments report A : clear implicits.
