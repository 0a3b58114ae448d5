(** Model of how a constraint set comes by its variables and substitutions, in a session in which sets are built from constraints, costs
    and other sets (gpkit/constraints/set.py:69-121, costed.py:19-26).
    Simplifications: variables are scalars (for these a KeyDict acts as a dict, C39); the bounds that are gathered along the way are those of Bounds.v;
    nested lists of constraints are flattened (Flat.v); iteration over sets of variables is in list order. *)
From Verif Require Import Base.
Open Scope nat_scope.

Section SetInit.
Context {V : Type}.
(** Which variables were declared with [constant=True] *)
Variable constant : nat -> bool.

(** What is kept of a set: [vks] and [substitutions]. *)
Record cset := CSet { cs_vks : list nat; cs_subs : list (nat * V) }.
(** An element: a constraint (without substitutions of its own), or a set. *)
Inductive element := Bare (vks : list nat) | Subset (s : cset).

(** [d.update(d2)] *)
Definition dupdate (d d2 : list (nat * V)) : list (nat * V) := fold_left (fun d kv => dset d (fst kv) (snd kv)) d2 d.
(** [{k: k.value for k in vks if "value" in k.descr}] *)
Definition values (descr : list (nat * V)) (vks : list nat) : list (nat * V) :=
  dict_of (flat_map (fun k => match dget descr k with Some v => [(k, v)] | None => [] end) vks).

(** [_update] (set.py:113-121) *)
Definition update_with (descr : list (nat * V)) (st : cset) (e : element) : cset :=
  match e with
  | Bare vks => CSet (cs_vks st ++ vks) (dupdate (cs_subs st) (values descr vks))
  | Subset s => CSet (cs_vks st ++ cs_vks s) (dupdate (cs_subs st) (cs_subs s))
  end.

(** The loop over [self.vks] that takes the values out of variables that have a substitution (set.py:99-110) *)
Definition take_values (subs : list (nat * V)) (vks : list nat) (descr : list (nat * V)) : list (nat * V) :=
  fold_left (fun descr k => if dmem subs k && dmem descr k && negb (constant k) then ddel descr k else descr) vks descr.

(** [ConstraintSet.__init__]: the set, and the values left in the variables' [descr] *)
Definition init (own : list nat) (elements : list element) (bonus : list nat) (given : list (nat * V)) (descr : list (nat * V)) : cset * list (nat * V) :=
  let st := fold_left (update_with descr) elements (CSet own (values descr own)) in
  let vks := cs_vks st ++ bonus in
  let subs := dupdate (cs_subs st) given in
  (CSet vks subs, take_values subs vks descr).
(** [CostedConstraintSet.__init__] *)
Definition init_costed (own : list nat) (elements : list element) (cost : list nat) (given : list (nat * V)) (descr : list (nat * V)) : cset * list (nat * V) :=
  init own elements cost (dupdate (values descr cost) given) descr.

(** A session: sets are built from constraints and from sets built before, and substitutions of sets are changed. *)
Inductive part := Constr (vks : list nat) | Built (i : nat).
Inductive op :=
| Build (own : list nat) (parts : list part) (cost : list nat) (given : list (nat * V))
| Edit (i : nat) (k : nat) (v : V).   (* [sets[i].substitutions[k] = v] *)
Record session := Session { descr_values : list (nat * V); sets : list cset }.
Definition resolve (st : session) (p : part) : list element :=
  match p with
  | Constr vks => [Bare vks]
  | Built i => match nth_error (sets st) i with Some s => [Subset s] | None => [] end
  end.
Definition step (st : session) (o : op) : session :=
  match o with
  | Build own parts cost given =>
      let '(s, descr) := init_costed own (flat_map (resolve st) parts) cost given (descr_values st) in
      Session descr (sets st ++ [s])
  | Edit i k v =>
      Session (descr_values st) (match nth_error (sets st) i with
        | Some s => firstn i (sets st) ++ CSet (cs_vks s) (dset (cs_subs s) k v) :: skipn (S i) (sets st)
        | None => sets st
        end)
  end.
Definition run (descr : list (nat * V)) (ops : list op) : session := fold_left step ops (Session descr []).
End SetInit.
Arguments cset V : clear implicits.
Arguments element V : clear implicits.
Arguments op V : clear implicits.
Arguments session V : clear implicits.
