(** Model of nested constraint sets and how they are flattened
    (gpkit/constraints/set.py:45-60, 168-194), and of what relies on it:
    numbering the constraints of a set (gpkit/constraints/relax.py:76-92). *)
From Verif Require Import Base.
From Coq Require Import Sorting.Sorted.
Open Scope nat_scope.

Section Flat.
Context {C : Type}.

(** What a constraint set can contain: a constraint, a ConstraintSet (with its
    identity), a list, a dict, a numpy array, an ArrayConstraint. Simplification:
    dicts are visited in the order in which they were filled, as in Python 3.7
    and later (set.py:37-43). *)
Inductive item :=
  | Leaf (c : C)
  | CSet (id : nat) (l : list item)
  | Lst (l : list item)
  | Dct (kvs : list (nat * item))
  | Arr (l : list item)
  | ArrC (l : list item).

(** [flatiter] for one member (set.py:49-60). [y i] says that
    [yield_if_hasattr] is given and [i] has that attribute. The elements of a
    numpy array are yielded as they are; an ArrayConstraint has no [flat] and is
    iterated over (array.py:16-17). *)
Fixpoint visit (y : item -> bool) (i : item) : list item :=
  match i with
  | Leaf c => [i]
  | CSet _ l | Lst l | ArrC l => if y i then [i] else flat_map (visit y) l
  | Dct kvs => if y i then [i] else flat_map (fun kv => visit y (snd kv)) kvs
  | Arr l => if y i then [i] else l
  end.
(** [flatiter(iterable, yield_if_hasattr)] (set.py:45-60) *)
Definition flatiter (y : item -> bool) (l : list item) : list item := flat_map (visit y) l.
(** [self.flat()] *)
Definition flat (l : list item) : list item := flatiter (fun _ => false) l.

Definition is_cset (i : item) : bool := match i with CSet _ _ => true | _ => false end.

(** [ConstraintSet.as_hmapslt1] (set.py:168-172): constraints and ConstraintSets
    have an [as_hmapslt1]. The [*] calls it for all members at once; that of a
    constraint computes its list, that of a set is a generator, which
    runs when the chain comes to it. [fuel] is the recursion limit. *)
Section Hmaps.
Context {H : Type}.
Variable gen : C -> res (list H).
Fixpoint early (ms : list item) : res (list (list H + list item)) :=
  match ms with
  | [] => Ok []
  | m :: ms' =>
      let! x := match m with
                | Leaf c => let! hs := gen c in Ok (inl hs)
                | CSet _ l => Ok (inr l)
                | _ => Err AttributeErrorE
                end in
      let! xs := early ms' in Ok (x :: xs)
  end.
Fixpoint chained (run : list item -> res (list H)) (xs : list (list H + list item)) : res (list H) :=
  match xs with
  | [] => Ok []
  | x :: xs' =>
      let! hs := match x with inl hs => Ok hs | inr l => run l end in
      let! hss := chained run xs' in Ok (hs ++ hss)
  end.
Fixpoint set_hmaps (fuel : nat) (l : list item) : res (list H) :=
  match fuel with
  | 0 => Err OverflowE
  | S fuel' => let! xs := early (flatiter is_cset l) in chained (set_hmaps fuel') xs
  end.
End Hmaps.

(** [ConstraintSet.process_result] (set.py:174-194) for a set and those that
    override it, which call it first: the sets whose own processing is done, in
    order. Only sets have a [process_result]. The functions that evaluate
    variables are left out. *)
Fixpoint processed (fuel id : nat) (l : list item) : list nat :=
  match fuel with
  | 0 => []
  | S fuel' =>
      flat_map (fun i => match i with CSet id' l' => processed fuel' id' l' | _ => [] end) (flatiter is_cset l) ++ [id]
  end.

(** [ConstraintsRelaxed.__init__] (relax.py:76-92): [relaxvars] has as many
    elements as the set has members; each constraint of [flat()] takes the next. *)
Fixpoint numbered (n : nat) (i : nat) (l : list item) : res (list (nat * item)) :=
  match l with
  | [] => Ok []
  | c :: l' => if i <? n then let! r := numbered n (S i) l' in Ok ((i, c) :: r) else Err IndexErrorE
  end.
Definition relax_numbers (l : list item) : res (list (nat * item)) := numbered (length l) 0 (flat l).

(** ** Specification *)

(** The members of a member. *)
Definition members (i : item) : list item :=
  match i with
  | Leaf _ => []
  | CSet _ l | Lst l | Arr l | ArrC l => l
  | Dct kvs => map snd kvs
  end.
(** What is found in a member, and in a list, by following a path of positions. *)
Fixpoint at_item (i : item) (p : list nat) : option item :=
  match p with
  | [] => Some i
  | n :: p' => match members i !! n with Some j => at_item j p' | None => None end
  end.
Definition at_path (l : list item) (p : list nat) : option item :=
  match p with
  | [] => None
  | n :: p' => match l !! n with Some i => at_item i p' | None => None end
  end.
(** Reading order, in which a set comes before its members; and the order in which
    it comes after them. *)
Fixpoint before (p q : list nat) : Prop :=
  match p, q with
  | [], _ :: _ => True
  | a :: p', b :: q' => a < b \/ (a = b /\ before p' q')
  | _, [] => False
  end.
Fixpoint inside_out (p q : list nat) : Prop :=
  match p, q with
  | _ :: _, [] => True
  | a :: p', b :: q' => a < b \/ (a = b /\ inside_out p' q')
  | [], _ => False
  end.
(** [out] lists, once each and in that order, what is found at the paths where
    something of the kind [wanted] is. *)
Definition lists_all (order : list nat -> list nat -> Prop) (l : list item) (wanted : item -> Prop) (out : list item) : Prop :=
  exists ps : list (list nat),
    StronglySorted order ps /\
    (forall p, In p ps <-> exists i, at_path l p = Some i /\ wanted i) /\
    Forall2 (fun p i => at_path l p = Some i) ps out.

Definition is_leaf (i : item) : Prop := match i with Leaf _ => True | _ => False end.

(** Arrays hold constraints, at any depth. *)
Fixpoint plain_arrays (i : item) : Prop :=
  match i with
  | Leaf _ => True
  | CSet _ l | Lst l | ArrC l => (fix all l := match l with [] => True | x :: l' => plain_arrays x /\ all l' end) l
  | Dct kvs => (fix all l := match l with [] => True | (_, x) :: l' => plain_arrays x /\ all l' end) kvs
  | Arr l => Forall is_leaf l
  end.

(** How deeply sets are nested. *)
Fixpoint depth (i : item) : nat :=
  match i with
  | Leaf _ => 0
  | CSet _ l => S (list_max (map depth l))
  | Lst l | ArrC l | Arr l => list_max (map depth l)
  | Dct kvs => list_max (map (fun kv => depth (snd kv)) kvs)
  end.
End Flat.

Arguments item C : clear implicits.
