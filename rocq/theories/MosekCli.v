(** Model of the interface to MOSEK's command line solver (gpkit/solvers/mosek_cli.py:26-162): the file the problem is written to, the file
    the solution is read from, and the directory they are in. [fmt] is ["%.20e"], [parse] is [float], which raises ValueError if there is no number.
    Simplifications: characters are ASCII; the search path and the printing of the solver's output are left out. *)
From Verif Require Import Base Settings Docstring GPGen.
From Coq Require Import Strings.String Strings.Ascii DecimalString.
Local Open Scope list_scope.
Open Scope nat_scope.

(** ["%d"] *)
Definition dec (n : nat) : text := chars (NilEmpty.string_of_uint (Nat.to_uint n)).
(** [s.rstrip()] *)
Definition rstrip (s : text) : text := rev (lstrip (rev s)).
(** [f.readline()]: the line with its end, and what is left of the file; [""] at the end of the file *)
Fixpoint readline (s : text) : text * text :=
  match s with
  | [] => ([], [])
  | c :: s' => if Ascii.eqb c newline then ([c], s') else let '(l, r) := readline s' in (c :: l, r)
  end.

Section MosekCli.
Context {T : Type} (fmt : T -> text) (parse : text -> option T).

(** [write_output_file] (mosek_cli.py:125-142): what is in the file *)
Definition write_output_file (c : list T) (A : list (nat * nat * T)) (p_idxs : list nat) : res text :=
  match last p_idxs with
  | None => Err IndexErrorE
  | Some numcon =>
      let '(numter, numvar) := coo_shape A in
      Ok (List.concat (map (fun n => dec n ++ NL) [numcon; numvar; numter])
          ++ NL ++ chars "*c" ++ NL
          ++ List.concat (map (fun x => fmt x ++ NL) c)
          ++ NL ++ chars "*p_idxs" ++ NL
          ++ List.concat (map (fun x => dec x ++ NL) p_idxs)
          ++ NL ++ chars "*t j A_tj" ++ NL
          ++ List.concat (map (fun x => dec (fst (fst x)) ++ chars " " ++ dec (snd (fst x)) ++ chars " " ++ fmt (snd x) ++ NL) A))
  end.

(** [assert_equal] (145-149) *)
Definition assert_equal (received expected : text) : res unit :=
  if bool_decide (rstrip expected = rstrip received) then Ok tt else Err RuntimeWarningE.
(** [float(line.split()[i])] *)
Definition float_word (i : nat) (line : text) : res T :=
  match nth_error (words line) i with
  | None => Err IndexErrorE
  | Some w => match parse w with Some v => Ok v | None => Err ValueErrorE end
  end.
(** [read_vals] (152-160): the values, and what is left of the file. [fuel] is more than there are lines. *)
Fixpoint read_vals (fuel : nat) (s : text) : res (list T * text) :=
  match fuel with
  | O => Ok ([], s)
  | S fuel' =>
      let '(line, rest) := readline s in
      if bool_decide (line = []) || bool_decide (line = NL) then Ok ([], rest) else
      let! v := float_word 1 line in
      let! r := read_vals fuel' rest in
      Ok (v :: fst r, snd r)
  end.
(** [_, x = line.split(sep)] *)
Definition second_of_two (sep line : text) : res text :=
  match split sep line with [_; x] => Ok x | _ => Err ValueErrorE end.

Record answer := Answer { a_status : text; a_objective : T; a_primal : list T; a_nu : list T }.
(** Reading the solution file (94-114, 119-122) *)
Definition read_solution (s : text) : res answer :=
  let '(l, s) := readline s in
  let! probsta := second_of_two (chars "PROBLEM STATUS      : ") (removelast l) in
  if bool_decide (probsta = chars "PRIMAL_INFEASIBLE") then Err PrimalInfeasibleE else
  if bool_decide (probsta = chars "DUAL_INFEASIBLE") then Err DualInfeasibleE else
  if negb (bool_decide (probsta = chars "PRIMAL_AND_DUAL_FEASIBLE")) then Err UnknownInfeasibleE else
  let '(l, s) := readline s in
  let! solsta := second_of_two (chars "SOLUTION STATUS     : ") l in
  let '(l, s) := readline s in
  let! objective := float_word 2 l in
  let '(l, s) := readline s in
  let! _ := assert_equal l [] in
  let '(l, s) := readline s in
  let! _ := assert_equal l (chars "PRIMAL VARIABLES") in
  let '(l, s) := readline s in
  let! _ := assert_equal l (chars "INDEX   ACTIVITY") in
  let! ps := read_vals (S (List.length s)) s in
  let '(l, s) := readline (snd ps) in
  let! _ := assert_equal l (chars "DUAL VARIABLES") in
  let '(l, s) := readline s in
  let! _ := assert_equal l (chars "INDEX   ACTIVITY") in
  let! ds := read_vals (S (List.length s)) s in
  Ok (Answer (removelast solsta) objective (fst ps) (fst ds)).

(** A directory: what is in its files gpkit_mosek and gpkit_mosek.sol, if they exist. Directories by name; other files don't matter. *)
Record dir := Dir { d_problem : option text; d_solution : option text }.
Definition dirs := list (nat * dir).
(** Running [mskexpopt]: it may not be found, or it leaves a solution file (or not) and a return code. It is given the problem and the
    solution file that was there before. *)
Inductive run := NotFound | Exit (code : nat) (solution : option text).

(** The constructor [optimize_generator] (26-47): whether its directory is temporary, the directory and the directories there are. [new] is what
    [mkdtemp] names the new directory. *)
Definition optimize_generator (path : option nat) (new : nat) (ds : dirs) : bool * nat * dirs :=
  match path with
  | None => (true, new, dset ds new (Dir None None))
  | Some p => (false, p, ds)
  end.
(** [optimize] (49-122): the directories afterwards, and what is returned or raised *)
Definition optimize (mskexpopt : text -> option text -> run) (tmpdir : bool) (path : nat) (c : list T) (A : list (nat * nat * T)) (p_idxs : list nat) (ds : dirs) :
    dirs * res answer :=
  match dget ds path with
  | None => (ds, Err OSErrorE)
  | Some d =>
      match write_output_file c A p_idxs with
      | Err e => (dset ds path (Dir (Some []) (d_solution d)), Err e)
      | Ok file =>
          let ds := dset ds path (Dir (Some file) (d_solution d)) in
          match mskexpopt file (d_solution d) with
          | NotFound => (ds, Err OSErrorE)
          | Exit code sol =>
              let ds := dset ds path (Dir (Some file) sol) in
              if negb (code =? 0) then (ds, Err (if (code =? 233) || (code =? 240) then InvalidLicenseE else UnknownInfeasibleE)) else
              match sol with
              | None => (ds, Err OSErrorE)
              | Some s =>
                  match read_solution s with
                  | Err e => (ds, Err e)
                  | Ok a => (if tmpdir then ddel ds path else ds, Ok a)
                  end
              end
          end
      end
  end.

End MosekCli.
Arguments answer T : clear implicits.
