(** Model of the search for unbounded variables: GeometricProgram.check_bounds
    and ConstraintSet's bounds. *)
From Verif Require Import Base HashVec Nomial Constraint GPGen.
Open Scope nat_scope.

(** [(var, "upper")] is [(var, true)], [(var, "lower")] is [(var, false)]. *)
Definition bound := (nat * bool)%type.
Definition bmem (b : bound) (s : list bound) : bool := existsb (fun x => bool_decide (b = x)) s.
(** [del missingbounds[b]] *)
Definition bdel (b : bound) (s : list bound) : list bound := List.filter (fun x => negb (bool_decide (b = x))) s.

(** Conditional bounds: [defaultdict(set)] from bounds to sets of conditions,
    each a frozenset of bounds. Equal conditions may be listed twice. *)
Definition conds := list (bound * list (list bound)).
Definition conds_of (q : conds) (b : bound) : list (list bound) :=
  match dget q b with Some l => l | None => [] end.
Definition cond_add (q : conds) (b : bound) (c : list bound) : conds := dset q b (conds_of q b ++ [c]).

Section Bounds.
Context {T : Type} `{Num T}.

(** The order in which a set of bounds is iterated: any, and a different one
    every time. *)
Definition shuffle := nat -> list bound -> list bound.

Definition positive (x : T) : bool := nltb n0 x.
(** Variables of [e] with exponent of the given sign and a bound missing. *)
Definition missing_of (missing : list bound) (e : expv T) (vars : list nat) (pos up : bool) : list bound :=
  map (fun k => (k, up))
    (List.filter (fun k => match e !! k with
                           | Some x => Bool.eqb (positive x) pos && bmem (k, up) missing
                           | None => false end) vars).

(** [for key, _ in keys: ...] (gpkit/constraints/gp.py:425-438): [up] is the
    bound sought, [given] the set [ub] or [lb]. *)
Definition seek (up : bool) (given : list bound) (st : list bound * conds) (b : bound) : list bound * conds :=
  let '(missing, q) := st in
  let key := fst b in
  let needed := bdel (key, negb up) given in
  match needed with
  | _ :: _ => (missing, cond_add q (key, up) needed)
  | [] => (bdel (key, up) missing, q)
  end.

(** The body of the loop of [gen_meq_bounds] for row [i] (gp.py:406-438). *)
Definition meq_row (ord : var_order T) (sh : shuffle) (exps : list (expv T)) (st : list bound * conds) (i : nat)
  : list bound * conds :=
  match exps !! i with
  | None => st
  | Some e =>
      let missing := fst st in
      let vars := ord e in
      let p_upper := missing_of missing e vars true true in
      let p_lower := missing_of missing e vars true false in
      let n_upper := missing_of missing e vars false true in
      let n_lower := missing_of missing e vars false false in
      let p_ub := n_upper ++ p_lower in
      let n_ub := p_upper ++ n_lower in
      let st1 := fold_left (seek true p_ub) (sh (4 * i) p_upper) st in
      let st2 := fold_left (seek true n_ub) (sh (4 * i + 1) n_upper) st1 in
      let st3 := fold_left (seek false n_ub) (sh (4 * i + 2) p_lower) st2 in
      fold_left (seek false p_ub) (sh (4 * i + 3) n_lower) st3
  end.

(** [gen_meq_bounds] (gp.py:403-439); [rows] is [meq_idxs.first_half] in the
    order it is iterated. *)
Definition gen_meq_bounds (ord : var_order T) (sh : shuffle) (exps : list (expv T)) (rows : list nat)
    (missing : list bound) : list bound * conds :=
  fold_left (meq_row ord sh exps) rows (missing, []).

(** The body of [for bound in set(meq_bounds)] (gp.py:447-456). Which of the
    conditions that are met is found first makes no difference. *)
Definition fulfill_step (st : list bound * conds * bool) (b : bound) : list bound * conds * bool :=
  let '(missing, q, alive) := st in
  if negb (bmem b missing) then (missing, ddel q b, alive)
  else if existsb (fun c => negb (existsb (fun x => bmem x missing) c)) (conds_of q b)
  then (bdel b missing, ddel q b, true)
  else (missing, q, alive).

(** [while still_alive] (gp.py:444-456), at most [fuel] times. *)
Fixpoint fulfill_loop (fuel : nat) (sh : shuffle) (missing : list bound) (q : conds)
  : option (list bound * conds) :=
  match fuel with
  | 0 => None
  | S fuel' =>
      let '(missing', q', alive) := fold_left fulfill_step (sh fuel (dkeys q)) (missing, q, false) in
      if alive then fulfill_loop fuel' sh missing' q' else Some (missing', q')
  end.

(** [fulfill_meq_bounds] (gp.py:442-467): the last loop writes an explanation
    for every bound with conditions left. Only the keys of [missingbounds] are
    modelled. *)
Definition fulfill_meq_bounds (fuel : nat) (sh : shuffle) (missing : list bound) (q : conds) : option (list bound) :=
  match fulfill_loop fuel sh missing q with
  | Some (missing', q') => Some (missing' ++ List.filter (fun b => negb (bmem b missing')) (dkeys q'))
  | None => None
  end.

(** The inequalities' bounds on one variable (gp.py:95-109). *)
Definition var_missing (g : gpdata T) (vl : nat * list nat) : list bound :=
  let '(v, locs) := vl in
  let rows := List.filter (fun i => negb (existsb (Nat.eqb i) (g_all g))) locs in
  let sign i := match g_exps g !! i with
                | Some e => match e !! v with Some x => positive x | None => false end
                | None => false end in
  (if existsb sign rows then [] else [(v, true)]) ++
  (if existsb (fun i => negb (sign i)) rows then [] else [(v, false)]).

(** [check_bounds()] (gp.py:93-118). *)
Definition check_bounds (fuel : nat) (ord : var_order T) (sh1 sh2 : shuffle) (rows : list nat) (g : gpdata T)
  : option (list bound) :=
  match flat_map (var_missing g) (g_varlocs g) with
  | [] => Some []
  | missing =>
      let '(missing', q) := gen_meq_bounds ord sh1 (g_exps g) rows missing in
      fulfill_meq_bounds fuel sh2 missing' q
  end.

(** ** ConstraintSet's bounds *)

(** The body of [for bound in list(meq_bounded)] (gpkit/constraints/set.py:17-26). *)
Definition add_step (st : list bound * conds * bool) (b : bound) : list bound * conds * bool :=
  let '(bounded, q, alive) := st in
  if bmem b bounded then (bounded, ddel q b, alive)
  else if existsb (fun c => forallb (fun x => bmem x bounded) c) (conds_of q b)
  then (bounded ++ [b], ddel q b, true)
  else (bounded, q, alive).

(** [add_meq_bounds] (set.py:12-26), at most [fuel] times around. *)
Fixpoint add_meq_bounds (fuel : nat) (bounded : list bound) (q : conds) : option (list bound * conds) :=
  match fuel with
  | 0 => None
  | S fuel' =>
      let '(bounded', q', alive) := fold_left add_step (dkeys q) (bounded, q, false) in
      if alive then add_meq_bounds fuel' bounded' q' else Some (bounded', q')
  end.

(** [PosynomialInequality.bounded] (gpkit/nomials/math.py:414-419). *)
Definition posy_bounded (ord : var_order T) (unsubbed : list (hmap T)) : list bound :=
  flat_map (fun h : hmap T => flat_map (fun e => flat_map (fun k =>
    match e !! k with Some x => [(k, positive x)] | None => [] end) (ord e)) (dkeys h)) unsubbed.

(** [np.sign(a) == np.sign(b)]. *)
Definition same_sign (a b : T) : bool :=
  Bool.eqb (nltb n0 a) (nltb n0 b) && Bool.eqb (nltb a n0) (nltb b n0).
(** [MonomialEquality.meq_bounded] (math.py:513-529); [nvks] is [len(self.vks)]. *)
Definition meq_conds (ord : var_order T) (nvks : nat) (unsubbed : list (hmap T)) : conds :=
  match unsubbed with
  | ((e, _) :: _) :: _ =>
      if 1 <? nvks then
        flat_map (fun key =>
          match e !! key with
          | Some x =>
              let others := List.filter (fun k => negb (Nat.eqb k key)) (ord e) in
              let side same := map (fun k => (k, match e !! k with
                                                 | Some y => if same_sign y x then same else negb same
                                                 | None => same end)) others in
              [((key, true), [side false]); ((key, false), [side true])]
          | None => []
          end) (ord e)
      else []
  | _ => []
  end.

(** What [ConstraintSet.__init__] sees of its elements (set.py:69-123): a
    constraint with its [bounded] and [meq_bounded], or a ConstraintSet that
    has been initialized, made of elements and of the set of its variables that
    have substitutions. *)
Inductive ctree :=
| CLeaf (bounded : list bound) (meq : conds)
| CNode (children : list ctree) (subs : list nat).

(** [self.meq_bounded[bound].update(solutionset)] (set.py:122-123). *)
Definition conds_update (q q' : conds) : conds :=
  fold_left (fun q bc => dset q (fst bc) (conds_of q (fst bc) ++ snd bc)) q' q.

(** [bounded] and [meq_bounded] after [__init__] (set.py:80-111, 120-123). *)
Fixpoint cset_bounds (fuel : nat) (t : ctree) : option (list bound * conds) :=
  match t with
  | CLeaf b q => Some (b, q)
  | CNode ts subs =>
      let fix all (ts : list ctree) (bounded : list bound) (q : conds) : option (list bound * conds) :=
        match ts with
        | [] => Some (bounded, q)
        | t :: ts' =>
            match cset_bounds fuel t with
            | Some (b', q') => all ts' (bounded ++ b') (conds_update q q')
            | None => None
            end
        end in
      match all ts [] [] with
      | Some (bounded, q) =>
          add_meq_bounds fuel (bounded ++ flat_map (fun k => [(k, true); (k, false)]) subs) q
      | None => None
      end
  end.

End Bounds.
