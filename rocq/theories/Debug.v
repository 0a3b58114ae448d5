(** Model of [Model.debug] (gpkit/constraints/model.py:166-216), with [solve] of the models it makes (gpkit/constraints/gp.py:165-245,
    gpkit/constraints/prog_factories.py:69-115) and [localsolve] (gpkit/constraints/sgp.py:104-212) as far as they are infeasible.
    Simplifications: what solvers make of a model, and what the checks of relaxations and bounds add to a solution, are arguments (for the
    latter see Relax.v, RelaxReport.v and Warnings.v); models are not swept; what solvers print is left out; an Infeasible of no subclass,
    which only [localsolve] raises, is not raised by solvers. *)
From Verif Require Import Base.
Local Open Scope list_scope.
Local Open Scope Z_scope.

Section Debug.
Context {M S W : Type}.

(** Whether a model has substitutions; [Bounded(self)] with its constants relaxed, without, and [ConstraintsRelaxed(self)], each as a model *)
Variable constants : M -> bool.
Variables tants bounded traints : M -> M.
(** What making and solving a geometric program of a model gives, [localsolve] of its sequential program, and whether a solver takes less
    than a second to find it infeasible *)
Variables gp sp : M -> res S.
Variable fast : M -> bool.
(** A solution with the warnings added to it by [check_boundaries] and [check_relaxed] of the model's constants, and by [check_relaxed] of
    its constraints *)
Variables check_constants check_constraints : M -> S -> S.
(** The lines of its table of warnings *)
Variable warnings : S -> list W.

(** What is printed: that [debug] is run since the solve was fast (gp.py:228-229), and the messages of [debug] *)
Inductive line := LetsDebug | NotWithConstants | NotWithConstraints | Modified (ws : list W) | SeemsFeasible.
Definition out (A : Type) : Type := list line * res A.

(** What solvers raise of a model without a solution *)
Definition solver_infeasible (e : exn) : bool :=
  match e with PrimalInfeasibleE | DualInfeasibleE | UnknownInfeasibleE => true | _ => false end.
(** [except Infeasible] *)
Definition infeasible (e : exn) : bool := solver_infeasible e || match e with InfeasibleE => true | _ => false end.

(** [feas.solve] (gp.py:218-236, prog_factories.py:107-115): if the solver is fast and verbosity is over 0, what the model's own [debug] returns is
    the result; [solution.append] raises AttributeError if that is None. *)
Definition solve (debug : M -> out (option S)) (verbosity : Z) (m : M) : out S :=
  match gp m with
  | Ok s => ([], Ok s)
  | Err e => if solver_infeasible e && (0 <? verbosity) && fast m
             then let '(l, r) := debug m in
                  (LetsDebug :: l, let! o := r in match o with Some s => Ok s | None => Err AttributeErrorE end)
             else ([], Err e)
  end.
(** [feas.sp(use_pccp=False).localsolve] (sgp.py:150-151): each geometric program is solved with verbosity one less; its [model] is None, which
    has no [debug]. *)
Definition localsolve (verbosity : Z) (m : M) : out S :=
  match sp m with
  | Ok s => ([], Ok s)
  | Err e => if solver_infeasible e && (0 <? verbosity - 1) && fast m then ([LetsDebug], Err AttributeErrorE) else ([], Err e)
  end.
(** model.py:184-187, 196-199 *)
Definition attempt (debug : M -> out (option S)) (verbosity : Z) (m : M) : out S :=
  match solve debug verbosity m with
  | (l, Err InvalidGPConstraintE) => let '(l', r) := localsolve verbosity m in (l ++ l', r)
  | x => x
  end.
(** model.py:206-215 *)
Definition report (verbosity : Z) (s : S) : list line :=
  if verbosity =? 0 then [] else match warnings s with [] => [SeemsFeasible] | ws => [Modified ws] end.

(** [debug] (166-216), given that of the models it makes; [tants] is bound only if there are constants (178-182, 190). *)
Definition debug_with (debug : M -> out (option S)) (verbosity : Z) (m : M) : out (option S) :=
  let '(l1, r1) := attempt debug (verbosity - 1) (if constants m then tants m else bounded m) in
  match (let! s := r1 in if constants m then Ok (check_constants m s) else Err UnboundLocalE) with
  | Ok s => (l1 ++ report verbosity s, Ok (Some s))
  | Err e =>
      if infeasible e then
        let l2 := if verbosity =? 0 then [] else [NotWithConstants] in
        let '(l3, r2) := attempt debug (verbosity - 1) (traints m) in
        match (let! s := r2 in Ok (check_constraints m s)) with
        | Ok s => (l1 ++ l2 ++ l3 ++ report verbosity s, Ok (Some s))
        | Err e => if infeasible e then (l1 ++ l2 ++ l3 ++ [NotWithConstraints], Ok None) else (l1 ++ l2 ++ l3, Err e)
        end
      else (l1, Err e)
  end.
(** [debug] of a model that [debug] made is called with verbosity 1 (gp.py:230), so that it does not call it again. *)
Definition debug (verbosity : Z) (m : M) : out (option S) := debug_with (debug_with (fun _ => ([], Err RuntimeWarningE)) 1) verbosity m.
End Debug.
