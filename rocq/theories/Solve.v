(** Model of GeometricProgram.solve and .result (gpkit/constraints/gp.py:32-50, 165-256): the options a solver is called with, the
    stream its output goes to, what is made of its exceptions and what is remembered of it. What the solver does, how long it takes, what [generate_result]
    makes of its output and what [Model.debug] does are arguments. Numbers stand for names. *)
From Verif Require Import Base Settings Sweep.
Open Scope nat_scope.

Section Solve.
(** Values of options, outputs of solvers and results *)
Context {V Out Res : Type}.
Definition kwargs := list (nat * V).

(** [sys.stdout]: the stream there was before, or a SolverLog *)
Inductive stream := Stream (n : nat) | Log.
(** [DEFAULT_SOLVER_KWARGS] (gp.py:17) and [sys.stdout] *)
Record world := World { w_defaults : list (nat * kwargs); w_stdout : stream }.
(** [solver_out], [solve_log] and [_result] of a program. Simplification: before the first solve [solver_out] is None; it is taken for empty. *)
Record program := Program { p_out : option Out; p_log : list text; p_result : option Res }.

(** A call of [solve]: its arguments; what the solver, called with some options, prints and returns or raises; whether that takes
    less than a second; and what [self.model.debug()] would return or raise, if [self.model] is not None. *)
Record call := Call {
  c_solver : option nat; c_verbosity : Z; c_gen_result : bool; c_kwargs : kwargs;
  c_run : nat -> kwargs -> list text * res Out; c_fast : bool; c_debug : option (res Res) }.
(** A result of the program, the solver's output, or what [debug] returned *)
Inductive answer := Result (r : Res) | Raw (o : Out) | Debugged (r : Res).

(** [settings["default_solver"]], if there is one, and whether there is a solver of a name *)
Variable default : option nat.
Variable known : nat -> bool.
(** [generate_result] *)
Variable generate : Out -> res Res.

(** [_get_solver] (32-50) *)
Definition get_solver (solver : option nat) : res nat :=
  match (match solver with Some s => Some s | None => default end) with
  | None => Err ValueErrorE
  | Some s => if known s then Ok s else Err ValueErrorE
  end.

(** [DEFAULT_SOLVER_KWARGS.get(solvername, {})], updated (193-194): the options, and the defaults, whose entry is the dict that is updated *)
Definition solver_args (defaults : list (nat * kwargs)) (name : nat) (kw : kwargs) : kwargs * list (nat * kwargs) :=
  match dget defaults name with
  | Some d => let args := update d kw in (args, dset defaults name args)
  | None => (update [] kw, defaults)
  end.

(** What is raised when the solver raised [e] and it was caught as infeasibility (219-238). There is no message for one that is of no subclass. *)
Definition report_infeasible (c : call) (e : exn) : res answer :=
  match e with
  | PrimalInfeasibleE | DualInfeasibleE | UnknownInfeasibleE =>
      if (0 <? c_verbosity c)%Z && c_fast c
      then match c_debug c with
           | None => Err AttributeErrorE
           | Some r => rmap Debugged r
           end
      else Err e
  | _ => Err UnboundLocalE
  end.

(** [solve] (165-245): the world and the program afterwards, the options the solver was called with (if it was), and the answer. *)
Definition solve (w : world) (p : program) (c : call) : world * program * option kwargs * res answer :=
  match get_solver (c_solver c) with
  | Err e => (w, p, None, Err e)
  | Ok name =>
      let '(args, defaults) := solver_args (w_defaults w) name (c_kwargs c) in
      let original_stdout := w_stdout w in
      let w := World defaults Log in
      let '(printed, r) := c_run c name args in
      (* finally: *)
      let p := Program (match r with Ok o => Some o | Err _ => None end) printed (p_result p) in
      let w := World (w_defaults w) original_stdout in
      match r with
      | Err e =>
          (w, p, Some args,
           if infeasible e then report_infeasible c e
           else match e with InvalidLicenseE => Err InvalidLicenseE | _ => Err UnknownInfeasibleE end)
      | Ok o =>
          if negb (c_gen_result c) then (w, p, Some args, Ok (Raw o)) else
          match generate o with
          | Err e => (w, p, Some args, Err e)
          | Ok r => (w, Program (p_out p) (p_log p) (Some r), Some args, Ok (Result r))
          end
      end
  end.

(** [result] (247-252): the program afterwards, and the result *)
Definition result (p : program) : program * res Res :=
  match p_result p with
  | Some r => (p, Ok r)
  | None => match p_out p with
            | None => (p, Err KeyErrorE)
            | Some o => match generate o with
                        | Err e => (p, Err e)
                        | Ok r => (Program (p_out p) (p_log p) (Some r), Ok r)
                        end
            end
  end.

(** Solves of several programs, one after another; a program has a number. The options of each. *)
Fixpoint solves (w : world) (ps : nat -> program) (cs : list (nat * call)) : world * (nat -> program) * list (option kwargs) :=
  match cs with
  | [] => (w, ps, [])
  | (i, c) :: cs' =>
      let '(w', p', args, _) := solve w (ps i) c in
      let '(w'', ps'', l) := solves w' (fun j => if Nat.eqb j i then p' else ps j) cs' in
      (w'', ps'', args :: l)
  end.
End Solve.
Arguments call : clear implicits. Arguments kwargs : clear implicits. Arguments world : clear implicits. Arguments program : clear implicits. Arguments answer : clear implicits.
