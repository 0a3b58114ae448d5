(** Model of numbers, nomials and arrays of them as keys of Python's dictionaries: [NomialData.__hash__] (gpkit/nomials/data.py:44-45) and
    [NomialArray.__hash__] (gpkit/nomials/array.py:113-114), with equality as in Compare.v. Simplifications: units are left out; cached
    hashes are as if computed anew (C02). *)
From Verif Require Import Base HashVec Nomial Sub Mono Constraint Compare.
From Verif Require Layout Vector.
Local Open Scope list_scope.

Section Keys.
Context {T : Type} `{Num T}.
(** Python's [hash] of numbers and of pairs of exponents and coefficients: any functions *)
Variable number_hash : T -> Z.
Variable item_hash : expv T * T -> Z.

(** data.py:44-45 *)
Definition hash_operand (a : operand T) : Z :=
  match a with Number c => number_hash c | Nom _ h => hash_items item_hash h end.
(** [reduce(xor, map(hash, self.flat), 0)] (array.py:113-114) *)
Definition hash_array (a : Vector.array (operand T)) : Z :=
  fold_left (fun acc x => Z.lxor acc (hash_operand x)) (map (Vector.elt a) (Layout.indices (Vector.dims a))) 0%Z.
End Keys.

(** [d.get(k)] of Python's dictionaries, in the order in which keys are met: the first key that has the same hash and is equal. Simplification:
    no key is the same object as [k], which would do. *)
Section Dictionary.
Context {K V : Type}.
Variable hash : K -> Z.
Variable equal : K -> K -> res bool.
Fixpoint lookup_key (d : list (K * V)) (k : K) : res (option V) :=
  match d with
  | [] => Ok None
  | (k', v) :: d' => if (hash k' =? hash k)%Z
                     then let! t := equal k' k in if t then Ok (Some v) else lookup_key d' k
                     else lookup_key d' k
  end.
End Dictionary.

(** [bool(a == b)] of nomials and numbers, and of arrays *)
Definition equal_operands {T} `{Num T} (se : bool) (a b : operand T) : res bool := rmap truth (compare se OpEq a b).
Definition equal_arrays {T} `{Num T} (se : bool) (a b : Vector.array (operand T)) : res bool := rmap array_truth (compare_arrays se OpEq a b).
