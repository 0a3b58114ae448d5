(** Model of [SolverLog] (gpkit/small_classes.py:68-81), which stands in for sys.stdout while a solver runs, and of the [solve_log] made of it
    (gpkit/constraints/gp.py:197, 208). *)
From Coq Require Import Strings.String Strings.Ascii.
From Verif Require Import Base Globals.
Local Open Scope string_scope.

Definition newline : ascii := "010"%char.
Definition nl : string := String newline "".
(** [writ.rstrip("\n")] *)
Fixpoint rstrip (s : string) : string :=
  match s with
  | "" => ""
  | String c s' => match rstrip s' with "" => if ascii_dec c newline then "" else String c "" | r => String c r end
  end.

(** The list, and what was written to the stream there was before *)
Record solver_log := SLog { sl_entries : list string; sl_output : string }.
(** [write] (75-81) *)
Definition log_write (verbosity : Z) (l : solver_log) (writ : string) : solver_log :=
  let '(entries, writ) := if string_dec writ nl then (sl_entries l, writ) else let w := rstrip writ in ((sl_entries l ++ [w])%list, w) in
  SLog entries (if (0 <? verbosity)%Z then sl_output l ++ writ else sl_output l).
(** A solver that writes [writs], given the verbosity of [solve] (gp.py:197) *)
Definition run_solver (verbosity : Z) (writs : list string) : solver_log := fold_left (log_write (verbosity - 2)) writs (SLog [] "").
(** ["\n".join(sys.stdout)] (gp.py:208) *)
Definition solve_log (l : solver_log) : string := join nl (sl_entries l).

(** What Python's [print] writes: its arguments with spaces between them, and the end of the line *)
Fixpoint print_writes (args : list string) : list string :=
  match args with [] => [nl] | [a] => [a; nl] | a :: args' => a :: " " :: print_writes args' end.
