(** Model of linked constants and sweeps: evaluate_linked and run_sweep (gpkit/constraints/prog_factories.py:12-42, 117-177),
    Model.sweep (gpkit/constraints/model.py:136-150) and what autosweep does to a model's substitutions
    (gpkit/tools/autosweep.py:226-270). *)
From Verif Require Import Base.
Open Scope nat_scope.

Section Linked.
Context {V : Type}.

(** A linked variable: what its function returns for numbers that carry derivatives and for plain ones. Reading a constant that is not there
    raises KeyError. Simplifications: functions return the same value each time; the elements of a linked vector are
    separate functions, which share their result in the code (prog_factories.py:20-24). *)
Record link := Link {
  l_key : nat;
  l_ad : (nat -> option V) -> res V;
  l_plain : (nat -> option V) -> res V }.

(** The loop of [evaluate_linked]: [kdc] are the constants at the start, [plain] ([kdc_plain]) those at the first failure.
    [strict] is the setting "ad_errors_raise". *)
Fixpoint linked_loop (strict : bool) (kdc : nat -> option V) (plain : option (nat -> option V)) (ls : list link)
    (constants : list (nat * V)) : res (list (nat * V)) :=
  match ls with
  | [] => Ok constants
  | l :: ls' =>
      match l_ad l kdc with
      | Ok v => linked_loop strict kdc plain ls' (dset constants (l_key l) v)
      | Err e =>
          if strict then Err e else
          let p := match plain with Some p => p | None => dget constants end in
          let! v := l_plain l p in
          linked_loop strict kdc (Some p) ls' (dset constants (l_key l) v)
      end
  end.
Definition evaluate_linked (strict : bool) (constants : list (nat * V)) (ls : list link) : res (list (nat * V)) :=
  linked_loop strict (dget constants) None ls constants.

(** ** Sweeps *)

(** [np.meshgrid] swaps its first two dimensions (indexing="xy"). *)
Definition swap2 {A} (l : list A) : list A := match l with a :: b :: r => b :: a :: r | _ => l end.
Definition size (shape : list nat) : nat := fold_right Nat.mul 1 shape.
(** The indices of the i-th element of a flattened array ([reshape]) *)
Fixpoint unravel (shape : list nat) (i : nat) : list nat :=
  match shape with
  | [] => []
  | _ :: r => i / size r :: unravel r (i mod size r)
  end.
Fixpoint assign (sweep : list (nat * list V)) (idx : list nat) : res (list (nat * V)) :=
  match sweep, idx with
  | (k, vals) :: sweep', j :: idx' =>
      match nth_error vals j with
      | Some v => let! r := assign sweep' idx' in Ok ((k, v) :: r)
      | None => Err IndexErrorE
      end
  | _, _ => Ok []
  end.
Definition lengths (sweep : list (nat * list V)) : list nat := map (fun kv => length (snd kv)) sweep.
Definition n_passes (sweep : list (nat * list V)) : nat := size (swap2 (lengths sweep)).
(** [{var: sweep_vect[i]}] (prog_factories.py:122-132, 141-142). [sweep] is sorted. *)
Definition pass (sweep : list (nat * list V)) (i : nat) : res (list (nat * V)) :=
  assign sweep (swap2 (unravel (swap2 (lengths sweep)) i)).

(** [dict.update] *)
Definition update (d : list (nat * V)) (e : list (nat * V)) : list (nat * V) :=
  fold_left (fun d kv => dset d (fst kv) (snd kv)) e d.

(** Whether an exception is a subclass of Infeasible (exceptions.py:10-42). *)
Definition infeasible (e : exn) : bool :=
  match e with
  | InfeasibleE | PrimalInfeasibleE | DualInfeasibleE | UnknownInfeasibleE => true
  | _ => false
  end.

Section Run.
Context {P R : Type}.
(** Making a program with some constants ([genfunction(self, constants)]), and solving it: its result, or what is raised. *)
Variable gen : (nat -> option V) -> res P.
Variable solve : P -> res R.

(** The loop of [run_sweep] (prog_factories.py:140-158): the constants of each solve, and the results or the exception. *)
Fixpoint sweep_loop (strict skip : bool) (ls : list link) (sweep : list (nat * list V)) (is_ : list nat)
    (constants : list (nat * V)) : list (list (nat * V)) * res (list R) :=
  match is_ with
  | [] => ([], Ok [])
  | i :: is' =>
      match (let! p := pass sweep i in
             let c := update constants p in
             match ls with [] => Ok c | _ => evaluate_linked strict c ls end) with
      | Err e => ([], Err e)
      | Ok c =>
          match gen (dget c) with
          | Err e => ([], Err e)
          | Ok prog =>
          match solve prog with
          | Ok r => let '(t, out) := sweep_loop strict skip ls sweep is' c in
                    (c :: t, let! rs := out in Ok (r :: rs))
          | Err e =>
              if infeasible e
              then if skip
                   then let '(t, out) := sweep_loop strict skip ls sweep is' c in (c :: t, out)
                   else ([c], Err RuntimeWarningE)
              else ([c], Err e)
          end
          end
      end
  end.
Definition run_sweep (strict skip : bool) (ls : list link) (sweep : list (nat * list V)) (constants : list (nat * V)) :
    list (list (nat * V)) * res (list R) :=
  let '(t, out) := sweep_loop strict skip ls sweep (seq 0 (n_passes sweep)) constants in
  (t, match out with Ok [] => Err RuntimeWarningE | _ => out end).
End Run.

(** ** What sweeping does to a model's substitutions *)

(** A substitution: a number, or values to sweep over. *)
Inductive sub := Value (v : V) | Sweep (vals : list V).

Section Model.
(** [if original_val:] is false for the numbers that are zero. *)
Variable is_zero : V -> bool.
Definition truthy (s : option sub) : bool :=
  match s with None => false | Some (Value v) => negb (is_zero v) | Some (Sweep _) => true end.

(** Restoring (model.py:146-149, autosweep.py:247-250) *)
Definition restore (k : nat) (original : option sub) (subs : list (nat * sub)) : list (nat * sub) :=
  match original with
  | Some v => if truthy original then dset subs k v else ddel subs k
  | None => ddel subs k
  end.

Context {S : Type}.
(** A solve with some substitutions. Solving as a GP and, if that is not possible, as an SP, is one. *)
Variable solve : list (nat * sub) -> res S.

(** [Model.sweep] (model.py:136-150): the substitutions afterwards, and the solutions or the exception. *)
Fixpoint model_sweep (sweeps : list (nat * list V)) (subs : list (nat * sub)) : list (nat * sub) * res (list S) :=
  match sweeps with
  | [] => (subs, Ok [])
  | (k, vals) :: sweeps' =>
      let original := dget subs k in
      let subs' := dset subs k (Sweep vals) in
      match solve subs' with
      | Err e => (subs', Err e)
      | Ok s =>
          let '(subs'', out) := model_sweep sweeps' (restore k original subs') in
          (subs'', let! ss := out in Ok (s :: ss))
      end
  end.

(** [autosweep_1d] and [recurse_splits] as a sequence of solves at the values they choose (autosweep.py:234-239, 259-261). *)
Fixpoint solve_at (k : nat) (vals : list V) (subs : list (nat * sub)) : list (nat * sub) * res (list S) :=
  match vals with
  | [] => (subs, Ok [])
  | v :: vals' =>
      let subs' := dset subs k (Value v) in
      match solve subs' with
      | Err e => (subs', Err e)
      | Ok s => let '(subs'', out) := solve_at k vals' subs' in (subs'', let! ss := out in Ok (s :: ss))
      end
  end.
Definition autosweep_subs (k : nat) (vals : list V) (subs : list (nat * sub)) : list (nat * sub) * res (list S) :=
  let original := dget subs k in
  match solve_at k vals subs with
  | (subs', Ok ss) => (restore k original subs', Ok ss)
  | r => r
  end.
End Model.
End Linked.
Arguments link : clear implicits.
Arguments sub : clear implicits.
