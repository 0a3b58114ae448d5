(** Model of evaluated variables: those that are declared with an [evalfn] and are not solved for get the value of this function at the
    solution ([ConstraintSet.process_result], gpkit/constraints/set.py:186-194). Which sets do this, in which order, is in Flat.v. *)
From Verif Require Import Base Flat.
Open Scope nat_scope.

Section Evaluated.
Context {V : Type}.

(** A value in a result: a number, or an array, with None for nan. Simplification: arrays have one dimension, types are left out. *)
Inductive val := Sc (x : V) | Ve (xs : list (option V)).
(** [result["variables"]], [result["freevariables"]]: of a vector, all values are with the vector (what KeyDicts do in detail is in
    KeyDict.v). Simplification: the rest of the result is left out; functions do not change it. *)
Definition dict := list (nat * val).
Record result := Result { variables : dict; freevariables : dict }.
(** A declared variable: a scalar, or an element of a vector *)
Definition key : Type := nat * option nat.
(** [v in result["variables"]] (keydict.py:81-105) *)
Definition there (d : dict) (v : key) : bool :=
  match dget d (fst v), snd v with
  | None, _ => false
  | Some (Ve xs), Some i => match xs !! i with Some (Some _) => true | _ => false end
  | Some _, _ => true
  end.
(** [d[k] = val] (keydict.py:187-241): values that an array has where another is nan stay *)
Fixpoint merge (old new : list (option V)) : res (list (option V)) :=
  match old, new with
  | [], [] => Ok []
  | o :: old', n :: new' => let! r := merge old' new' in Ok ((match n with None => o | _ => n end) :: r)
  | _, _ => Err IndexErrorE
  end.
Definition put (d : dict) (k : nat) (x : val) : res dict :=
  match dget d k, x with
  | Some (Ve old), Ve new => let! r := merge old new in Ok (dset d k (Ve r))
  | _, _ => Ok (dset d k x)
  end.

(** The variables declared in each set ([unique_varkeys]), and the function of each variable or vector, if any *)
Variable unique : nat -> list key.
Variable evalfn : nat -> option (dict -> res val).

(** [{v.veckey or v for v in self.unique_varkeys if v.evalfn and v not in result["variables"]}] (190-191) *)
Definition evalfn_vars (set : nat) (d : dict) : list nat :=
  remove_dups (map fst (List.filter (fun v => match evalfn (fst v) with Some _ => negb (there d v) | None => false end) (unique set))).
(** The loop (192-194) *)
Fixpoint evaluate (vs : list nat) (r : result) : res result :=
  match vs with
  | [] => Ok r
  | v :: vs' =>
      match evalfn v with
      | None => Err TypeErrorE
      | Some f =>
          let! x := f (variables r) in
          let! free := put (freevariables r) v x in
          let! vars := put (variables r) v x in
          evaluate vs' (Result vars free)
      end
  end.
(** A Python set has no order: [order] is the one in which it is gone through. *)
Variable order : list nat -> list nat.
Fixpoint process (sets : list nat) (r : result) : res result :=
  match sets with
  | [] => Ok r
  | s :: sets' => let! r := evaluate (order (evalfn_vars s (variables r))) r in process sets' r
  end.
(** [process_result] of a set with members [l]: of those inside it first *)
Definition process_result {C} (fuel id : nat) (l : list (item C)) (r : result) : res result := process (processed fuel id l) r.
End Evaluated.
Arguments val : clear implicits. Arguments dict : clear implicits. Arguments result : clear implicits.
