(** Model of reading variables and expressions from solutions: [SolutionArray.__len__], [__call__] and [subinto] (gpkit/solution_array.py:350-360,
    612-625), with [KeyDict.__contains__], [__call__] and [__getitem__] (gpkit/keydict.py:81-105, 158-185). *)
From Verif Require Import Base HashVec Nomial Sub Solution.
Open Scope nat_scope.

Section SolRead.
Context {T : Type} `{Num T}.
Variable inf : T.
(** The order in which constants are substituted, see Sub.v. *)
Variable pick : expv T -> hmap T -> schedule.
(** [parse_and_index] (keydict.py:45-79): under which key a variable is kept and, for an element of a vector, its index there and the vector's length.
    Simplifications: vectors have one dimension, and variables are given as such, not by name: for names see Lookup.v. *)
Variable vk : nat -> nat * option (nat * nat).
(** Whether SignomialsEnabled. *)
Variable se : bool.

(** The keys "cost" and "variables" of a solution. *)
Definition cost_key : nat := 0.
Definition variables_key : nat := 1.

Definition entry {A} (sol : tree A) (k : nat) : option (tree A) := match sol with Leaf _ => None | Node kvs => dget kvs k end.
(** [self["variables"]] *)
Definition variables (sol : tree (val T)) : res (list (nat * tree (val T))) :=
  match entry sol variables_key with Some (Node vs) => Ok vs | Some (Leaf _) => Err TypeErrorE | None => Err KeyErrorE end.
(** [__len__] (solution_array.py:350-356) *)
Definition sol_len (sol : tree (val T)) : nat :=
  match entry sol cost_key with Some (Leaf (Array l)) => length l | Some (Leaf (Scalar _)) => 1 | Some (Node d) => length d | None => 0 end.

(** [v[i]] of a number or an array *)
Definition index (v : val T) (i : nat) : res (val T) :=
  match v with
  | Scalar _ => Err TypeErrorE
  | Array l => match nth_error l i with Some w => Ok w | None => Err IndexErrorE end
  end.
(** How many numbers are in an array. *)
Fixpoint size (v : val T) : nat := match v with Scalar _ => 1 | Array l => list_sum (map size l) end.

(** [in] (keydict.py:81-105). [not isnan(value)] of an array that does not have one element raises ValueError.
    Simplification: no value is nan. *)
Definition contains (vs : list (nat * tree (val T))) (k : nat) : res bool :=
  match dget vs (fst (vk k)), snd (vk k) with
  | None, _ => Ok false
  | Some _, None => Ok true
  | Some (Node _), Some _ => Err KeyErrorE
  | Some (Leaf v), Some (i, _) => let! x := index v i in if Nat.eqb (size x) 1 then Ok true else Err ValueErrorE
  end.
(** [__getitem__] (keydict.py:168-185); [__call__] adds the units (lines 158-166). Simplification: units are not modelled. *)
Definition getitem (vs : list (nat * tree (val T))) (k : nat) : res (val T) :=
  match dget vs (fst (vk k)), snd (vk k) with
  | None, _ | Some (Node _), _ => Err KeyErrorE
  | Some (Leaf v), None => Ok v
  | Some (Leaf v), Some (i, _) => index v i
  end.

(** [append_sub] (substitution.py:35-75) for one variable and what is kept under its key. An array for a variable that is no element raises
    TypeError when it is made a float (map.py:171), here at once. *)
Definition given (vs : list (nat * tree (val T))) (k : nat) : res (option T) :=
  match dget vs (fst (vk k)), snd (vk k) with
  | None, _ => Ok None
  | Some (Node _), _ => Err TypeErrorE
  | Some (Leaf (Scalar x)), _ => Ok (Some x)
  | Some (Leaf (Array _)), None => Err TypeErrorE
  | Some (Leaf (Array l)), Some (i, n) =>
      if Nat.eqb (length l) n && forallb (fun w => match w with Scalar _ => true | Array _ => false end) l
      then match nth_error l i with Some (Scalar x) => Ok (Some x) | _ => Err IndexErrorE end
      else Err ValueErrorE
  end.
(** [parse_subs] (substitution.py:8-32) *)
Fixpoint fixed_by (vs : list (nat * tree (val T))) (ks : list nat) : res (expv T) :=
  match ks with
  | [] => Ok ∅
  | k :: ks' =>
      let! o := given vs k in
      let! fixed := fixed_by vs ks' in
      Ok match o with Some x => <[k := x]> fixed | None => fixed end
  end.
Definition vks_in (h : hmap T) : list nat := flat_map (fun t => map fst (map_to_list (fst t))) h.
(** [posy.sub(self["variables"])] (nomials/math.py:140-163) *)
Definition sub_vars (vs : list (nat * tree (val T))) (h : hmap T) : res (hmap T) :=
  let! fixed := fixed_by vs (vks_in h) in
  let! st := nm_sub inf fixed h (pick fixed h) in
  signomial_init se true (s_cp st).

(** What is asked for: a variable, or another nomial. Simplification: arrays of nomials are not modelled. *)
Inductive asked := Var (k : nat) | Expr (h : hmap T).
Definition hmap_of (a : asked) : hmap T := match a with Var k => var_hmap k | Expr h => h end.
(** What is answered: numbers, a nomial, or an array of answers. *)
Inductive answer := Number (v : val T) | Nom (h : hmap T) | Answers (l : list answer).

(** [subinto] (solution_array.py:612-625) of what has one cost. Only variables are in KeyDicts: other nomials have no key, which makes
    [parse_and_index] look them up, as dict keys, in vain. *)
Definition found (vs : list (nat * tree (val T))) (a : asked) : res bool := match a with Var k => contains vs k | Expr _ => Ok false end.
Definition looked_up (vs : list (nat * tree (val T))) (a : asked) : res (val T) := match a with Var k => getitem vs k | Expr _ => Err KeyErrorE end.
Definition subinto_one (sol : tree (val T)) (a : asked) : res answer :=
  let! vs := variables sol in
  let! b := found vs a in
  if b then let! v := looked_up vs a in Ok (Number v)
  else let! h := sub_vars vs (hmap_of a) in Ok (Nom h).
Fixpoint each_index (f : nat -> res answer) (is : list nat) : res (list answer) :=
  match is with [] => Ok [] | i :: is' => let! a := f i in let! l := each_index f is' in Ok (a :: l) end.
(** [subinto]: [atindex(i)] of a solution has one cost. *)
Definition subinto (sol : tree (val T)) (a : asked) : res answer :=
  let! vs := variables sol in
  let! b := found vs a in
  if b then let! v := looked_up vs a in Ok (Number v)
  else if 1 <? sol_len sol then let! l := each_index (fun i => subinto_one (atindex i sol) a) (seq 0 (sol_len sol)) in Ok (Answers l)
  else let! h := sub_vars vs (hmap_of a) in Ok (Nom h).
(** [getattr(posy_subbed, "c", posy_subbed)] (solution_array.py:358-360): Monomials have a [c] (nomials/math.py:304-308). *)
Definition coefficient (a : answer) : answer :=
  match a with
  | Nom h => match classify h, h with CMonomial, (_, c) :: _ => Number (Scalar c) | _, _ => Nom h end
  | _ => a
  end.
Definition call (sol : tree (val T)) (a : asked) : res answer := let! r := subinto sol a in Ok (coefficient r).
End SolRead.
Arguments asked : clear implicits.
Arguments answer : clear implicits.
