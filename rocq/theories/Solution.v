(** Model of the dictionaries of lists that solution arrays are (gpkit/small_classes.py:84-149). *)
From Verif Require Import Base.
Open Scope nat_scope.

Section Solution.
Context {X : Type}.

(** A value in a solution: a number, or an array or list. Simplification: values of other types, such as strings, are as numbers. *)
Inductive val := Scalar (x : X) | Array (l : list val).

(** Dictionaries of dictionaries. Simplifications: keys are numbers, and are looked up as in a dict: those of a KeyDict, as solvers return them, are
    whole variables. *)
Inductive tree (A : Type) := Leaf (a : A) | Node (kvs : list (nat * tree A)).
Arguments Leaf {A}. Arguments Node {A}.
Fixpoint tmap {A B} (f : A -> B) (t : tree A) : tree B :=
  match t with
  | Leaf a => Leaf (f a)
  | Node kvs => Node (map (fun kv => (fst kv, tmap f (snd kv))) kvs)
  end.

(** [_enlist_dict] (small_classes.py:104-112): a new dict with the same keys in the same order, as are those below *)
Definition enlist (d_in : tree val) : tree (list val) := tmap (fun v => [v]) d_in.

(** [_append_dict] (small_classes.py:115-122). [d_out[k]] of a list, whose indices are not keys, raises TypeError;
    [append] of a dict raises AttributeError. *)
Fixpoint append_dict (d_in : tree val) (d_out : tree (list val)) : res (tree (list val)) :=
  match d_in, d_out with
  | Leaf v, Leaf l => Ok (Leaf (l ++ [v]))
  | Leaf v, Node _ => Err AttributeErrorE
  | Node [], Leaf l => Ok (Leaf l)
  | Node _, Leaf l => Err TypeErrorE
  | Node kvs, Node out =>
      (fix go (kvs : list (nat * tree val)) (out : list (nat * tree (list val))) : res (tree (list val)) :=
        match kvs with
        | [] => Ok (Node out)
        | (k, t) :: kvs' =>
            match dget out k with
            | None => Err KeyErrorE
            | Some o => let! o' := append_dict t o in go kvs' (dset out k o')
            end
        end) kvs out
  end.

(** [DictOfLists.append] (small_classes.py:87-93), for each of some solutions: [None] is before the first *)
Definition append (st : option (tree (list val))) (sol : tree val) : res (option (tree (list val))) :=
  match st with
  | None => Ok (Some (enlist sol))
  | Some d => let! d' := append_dict sol d in Ok (Some d')
  end.
Fixpoint append_all (st : option (tree (list val))) (sols : list (tree val)) : res (option (tree (list val))) :=
  match sols with [] => Ok st | s :: sols' => let! st' := append st s in append_all st' sols' end.

(** [_enray] (small_classes.py:138-149). [np.array] of values is an array of them. Simplification: also if they have different shapes. *)
Definition enray_leaf (l : list val) : val := match l with [v] => v | _ => Array l end.
Definition to_arrays (d : tree (list val)) : tree val := tmap enray_leaf d.

(** [_index_dict] (small_classes.py:125-135), before and after conversion to arrays. Only indices from 0 on are modelled. *)
Definition index_leaf (i : nat) (v : val) : val :=
  match v with
  | Scalar x => Scalar x
  | Array l => match nth_error l i with Some w => w | None => Array l end
  end.
Definition atindex_lists (i : nat) (d : tree (list val)) : tree val := tmap (fun l => index_leaf i (Array l)) d.
Definition atindex (i : nat) (d : tree val) : tree val := tmap (index_leaf i) d.

(** What [run_sweep] does to the constants, under key [c], when no variables are linked (prog_factories.py:170-171).
    Moving those that are swept (lines 162-164) to a dictionary of their own is not modelled. *)
Definition trim_leaf (l : list val) : list val := match l with [] => [] | v :: _ => [v] end.
Definition trim (c : nat) (d : tree (list val)) : tree (list val) :=
  match d with
  | Leaf l => Leaf l
  | Node kvs => Node (map (fun kv => (fst kv, if decide (fst kv = c) then tmap trim_leaf (snd kv) else snd kv)) kvs)
  end.
End Solution.
Arguments val : clear implicits.
Arguments tree : clear implicits.
Arguments Leaf {A}. Arguments Node {A}.
