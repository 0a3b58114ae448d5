(** Model of how a result of a program collects the sensitivities of its
    constraints and models (gpkit/constraints/gp.py:307-324), with what asking a
    constraint for its sensitivities changes on it (gpkit/nomials/math.py:483-506,
    549-558). Simplifications: constraints, and the texts of lineages, are
    numbers; [origin] follows [parent] and [generated_by] to their ends
    (gp.py:312-313, 317-318), where the chain is followed by truth, which no
    constraint that generates others refuses (math.py:545 is only overridden by
    monomial equalities, which generate none); the sensitivities recorded on the
    constraints themselves ([v_ss]) are left out. *)
From Verif Require Import Base HashVec Nomial Sub Constraint Sens.
Open Scope nat_scope.

Section Multipliers.
Context {T : Type} `{Num T}.

(** A constraint asked for its sensitivities, with the state it keeps: the
    merging of its terms (math.py:483-506), the first of a pair of multipliers
    (math.py:549-558), or, for a signomial inequality (math.py:621-659), none. *)
Inductive cobj :=
  | OPosy (presub : hmap T) (st : cstate T)
  | OMeq (unsubbed : list (hmap T)) (las : list T)
  | OSig (sens : list T -> res (expv T)).

Definition heap := nat -> cobj.
Definition hupd (h : heap) (i : nat) (o : cobj) : heap := fun j => if j =? i then o else h j.

(** [c.sens_from_dual(las, nus, result)] (gp.py:314): the constraint after it,
    its [v_ss] and its [c_senss]. *)
Definition sens_from_dual (o : cobj) (la : T) (nu : list T) : res (cobj * (expv T * T)) :=
  match o with
  | OPosy presub st => let! r := posy_sens st la nu presub in Ok (OPosy presub (fst r), (snd r, la))
  | OMeq unsubbed las => let! r := meq_sens las la unsubbed in Ok (OMeq unsubbed (fst r), snd r)
  | OSig sens => let! v := sens nu in Ok (OSig sens, (v, la))
  end.

(** [d[k] += x] on a [defaultdict(float)] (gp.py:310, 320, 323) *)
Definition bump (d : list (nat * T)) (k : nat) (x : T) : list (nat * T) :=
  dset d k (nadd (match dget d k with Some y => y | None => n0 end) x).

(** What the loop keeps: the constraints' states, [gpv_ss],
    [result["sensitivities"]["constraints"]] and [m_senss]. *)
Record sacc := SA { sa_heap : heap; sa_vars : expv T; sa_cons : list (nat * T); sa_models : list (nat * T) }.

(** One posynomial of the program: which constraint asked it, its multiplier
    and those of its terms. *)
Record row := Row { r_con : nat; r_la : T; r_nu : list T }.

Variable origin lin vlin : nat -> nat.

(** One turn of the loop (gp.py:311-320) *)
Definition turn (a : sacc) (r : row) : res sacc :=
  let! s := sens_from_dual (sa_heap a (r_con r)) (r_la r) (r_nu r) in
  let '(o, (v_ss, c_senss)) := s in
  let c := origin (r_con r) in
  Ok (SA (hupd (sa_heap a) (r_con r) o) (add_sens (sa_vars a) v_ss)
         (dset (sa_cons a) c (nabs c_senss)) (bump (sa_models a) (lin c) (nabs c_senss))).

Fixpoint turns (a : sacc) (rs : list row) : res sacc :=
  match rs with
  | [] => Ok a
  | r :: rs' => let! a' := turn a r in turns a' rs'
  end.

(** The loop and the models' share of the variables (gp.py:309-324). *)
Definition compile_senss (h : heap) (cost : expv T) (rs : list row) : res sacc :=
  let! a := turns (SA h cost [] []) rs in
  Ok (SA (sa_heap a) (sa_vars a) (sa_cons a)
         (fold_left (fun m kx => bump m (vlin (fst kx)) (nabs (snd kx))) (map_to_list (sa_vars a)) (sa_models a))).

End Multipliers.

Arguments cobj T : clear implicits.
Arguments heap T : clear implicits.
Arguments sacc T : clear implicits.
Arguments row T : clear implicits.
