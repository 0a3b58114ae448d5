(** Model of what is reported about a solution: the tables of sensitivities, comparing two solutions, and saving one
    (gpkit/solution_array.py:26-59, 92-132, 283-297, 362-374, 481-499, 634-650, 745-815). Text is left out: what a table is modelled by are the
    variables and values in it, row by row. *)
From Verif Require Import Base.
Open Scope nat_scope.

Section Report.
Context {T : Type} `{Num T}.

(** A value: a number, or an array with a shape, flattened. [None] is nan. Simplification: arrays have elements. *)
Inductive value := One (c : option T) | Many (cs : list (option T)).
Definition cells (v : value) : list (option T) := match v with One c => [c] | Many cs => cs end.
Definition has_nan (v : value) : bool := existsb (fun c => match c with None => true | Some _ => false end) (cells v).
(** The magnitudes of what is not nan. *)
Definition mags (v : value) : list T := flat_map (fun c => match c with Some x => [nabs x] | None => [] end) (cells v).
(** [np.abs(s).mean()] of values without nan *)
Definition mean_abs (v : value) : T := ndiv (fold_right nadd n0 (mags v)) (nofZ (Z.of_nat (length (cells v)))).

(** Tables and sensitivities by variable (a KeyDict with scalars and whole vectors as keys). *)
Definition table := list (nat * value).

(** ** The variables with the largest sensitivities *)

(** [sorted(items, key=...)]: ascending and stable *)
Fixpoint insert_asc (x : nat * T) (l : list (nat * T)) : list (nat * T) :=
  match l with
  | [] => [x]
  | y :: l' => if nltb (snd y) (snd x) then y :: insert_asc x l' else x :: y :: l'
  end.
Definition sort_asc (l : list (nat * T)) : list (nat * T) := fold_right insert_asc [] l.

(** [l[-n:]] *)
Definition last_n {A} (n : Z) (l : list A) : list A :=
  if (n =? 0)%Z then l else if (0 <? n)%Z then skipn (length l - Z.to_nat n) l else skipn (Z.to_nat (- n)) l.

(** [for k in filter_already_shown: ... nvars -= 1] *)
Definition fewer (shown : nat) (nvars : Z) : Z := Nat.iter shown (fun n => if (3 <? n)%Z then (n - 1)%Z else n) nvars.

(** [topsenss_filter] (solution_array.py:112-124) *)
Definition topsenss_filter (data : table) (showvars : list nat) (nvars : Z) : table * list nat :=
  let means := flat_map (fun kv => if has_nan (snd kv) then [] else [(fst kv, mean_abs (snd kv))]) data in
  let topk := map fst (sort_asc means) in
  let shown := List.filter (fun k => bool_decide (k ∈ showvars)) topk in
  let rest := List.filter (fun k => negb (bool_decide (k ∈ showvars))) topk in
  (flat_map (fun k => match dget data k with Some v => [(k, v)] | None => [] end) (last_n (fewer (length shown) nvars) rest), shown).

(** ** Tables of variables *)

(** Which model a variable belongs to (0 is none), the arguments [included_models] and [excluded_models], and the order given to rows by
    [decorated.sort()] (solution_array.py:806). *)
Variables (lineage : nat -> nat) (included excluded : list nat) (arrange : table -> table).

(** [v[np.abs(v) <= minval] = np.nan] *)
Definition hide (minval : T) (cs : list (option T)) : list (option T) :=
  map (fun c => match c with Some x => if nleb (nabs x) minval then None else Some x | None => None end) cs.

(** One turn of the loop (solution_array.py:780-784): the value afterwards, in [data] and in the row, and whether there is one. *)
Definition visit (minval : T) (hidebelow : bool) (v : value) : value * bool :=
  if forallb (fun m => nleb m minval) (mags v) then (v, false)   (* all nan, or the largest is <= minval *)
  else match v with
       | Many cs => if negb (bool_decide (minval = n0)) && hidebelow then (Many (hide minval cs), true) else (v, true)
       | One _ => (v, true)
       end.
(** Whether the model of a variable is to be shown (solution_array.py:800-805, 814) *)
Definition in_models (k : nat) : bool :=
  (bool_decide (included = []) || bool_decide (lineage k ∈ included) || (lineage k =? 0)) && negb (bool_decide (lineage k ∈ excluded)).

(** [var_table] (solution_array.py:776-815): [data] afterwards, since its arrays are written to, and the rows. *)
Definition var_table (minval : T) (hidebelow : bool) (data : table) : table * table :=
  (map (fun kv => (fst kv, fst (visit minval hidebelow (snd kv)))) data,
   List.filter (fun kv => in_models (fst kv))
     (arrange (flat_map (fun kv => let '(v, row) := visit minval hidebelow (snd kv) in if row then [(fst kv, v)] else []) data))).

Definition minsens : T := ndiv n1 (nofZ 1000).

(** [senss_table] (solution_array.py:92-100). Simplification: with [showvars], rows are made in the order of the dict and not of a set. *)
Definition senss_table (showvars : list nat) (sens : table) : table * table :=
  var_table minsens false (if decide (showvars = []) then sens else List.filter (fun kv => bool_decide (fst kv ∈ showvars)) sens).

(** [topsenss_table] (solution_array.py:103-109): the sensitivities afterwards, as the arrays in [data] are those of the solution. *)
Definition topsenss_table (showvars : list nat) (nvars : Z) (sens : table) : table * table :=
  let '(data, _) := topsenss_filter sens showvars nvars in
  let '(data', rows) := var_table minsens true data in
  (map (fun kv => match dget data' (fst kv) with Some v => (fst kv, v) | None => kv end) sens, rows).

(** [insenss_table] (solution_array.py:127-132) *)
Definition insenss_table (maxval : T) (sens : table) : table * table :=
  var_table minsens false (List.filter (fun kv => negb (has_nan (snd kv)) && nltb (mean_abs (snd kv)) maxval) sens).

(** The tables of sensitivities that [table] can be asked for (solution_array.py:261-268, 706-707), with the options that matter to them. *)
Inductive asked := Senss | TopSenss (nvars : Z) | Insenss (maxval : T).
Definition print_one (showvars : list nat) (a : asked) (sens : table) : table * table :=
  match a with
  | Senss => (sens, snd (senss_table showvars sens))
  | TopSenss n => topsenss_table showvars n sens
  | Insenss m => (sens, snd (insenss_table m sens))
  end.

(** [table(showvars, tables)] *)
Fixpoint print (showvars : list nat) (tables : list asked) (sens : table) : table * list table :=
  match tables with
  | [] => (sens, [])
  | a :: tables' =>
      let '(sens, rows) := print_one showvars a sens in
      let '(sens, out) := print showvars tables' sens in (sens, rows :: out)
  end.

(** The tables of sensitivities of [summary] (solution_array.py:634-650), for a solution with these constants *)
Definition summary_tables (constants showvars : list nat) (ntopsenss : nat) : list asked :=
  (if (length constants <? ntopsenss + 2) || existsb (fun k => bool_decide (k ∈ showvars)) constants then [Senss] else []) ++
  (if (ntopsenss + 2 <=? length constants) then [TopSenss (Z.of_nat ntopsenss)] else []).

(** A user's calls, one after the other *)
Fixpoint prints (calls : list (list nat * list asked)) (sens : table) : table * list (list table) :=
  match calls with
  | [] => (sens, [])
  | (showvars, tables) :: calls' =>
      let '(sens, out) := print showvars tables sens in
      let '(sens, outs) := prints calls' sens in (sens, out :: outs)
  end.

(** ** [almost_equal] (solution_array.py:283-297, 362-374) *)

(** [abs(np.divide(a, b) - 1) >= reltol] of numbers, where x/0 is infinite, 0/0 nan, and comparisons with nan are false *)
Definition ratio_off (reltol : T) (a b : option T) : bool :=
  match a, b with
  | Some x, Some y =>
      if decide (y = n0) then negb (bool_decide (x = n0)) else nleb reltol (nabs (nsub (ndiv x y) n1))
  | _, _ => false
  end.
(** [abs(a - b) >= abstol] *)
Definition delta_off (abstol : T) (a b : option T) : bool :=
  match a, b with Some x, Some y => nleb abstol (nabs (nsub x y)) | _, _ => false end.
(** [if array:] raises ValueError unless there is one element. *)
Definition truth (f : option T -> option T -> bool) (a b : value) : res bool :=
  match cells a, cells b with [x], [y] => Ok (f x y) | _, _ => Err ValueErrorE end.

Record solution := Solution { s_vars : table; s_senss : table }.
Definition lookup (d : table) (k : nat) : res value := match dget d k with Some v => Ok v | None => Err KeyErrorE end.
(** The loop; [keys] are those of the set, in the order in which it is visited. *)
Fixpoint almost_loop (reltol abstol : T) (s o : solution) (keys : list nat) : res bool :=
  match keys with
  | [] => Ok true
  | k :: keys' =>
      let! a := lookup (s_vars s) k in
      let! b := lookup (s_vars o) k in
      let! off := truth (ratio_off reltol) a b in
      if off then Ok false else
      let! a := lookup (s_senss s) k in
      let! b := lookup (s_senss o) k in
      let! off := truth (delta_off abstol) a b in
      if off then Ok false else almost_loop reltol abstol s o keys'
  end.
Definition almost_equal (ord : list nat -> list nat) (reltol abstol : T) (s o : solution) : res bool :=
  let sk := dkeys (s_vars s) in let ok := dkeys (s_vars o) in
  if forallb (fun k => bool_decide (k ∈ ok)) sk && forallb (fun k => bool_decide (k ∈ sk)) ok
  then almost_loop reltol abstol s o (ord sk) else Ok false.
End Report.
Arguments value T : clear implicits.
Arguments table T : clear implicits.
Arguments asked T : clear implicits.
Arguments solution T : clear implicits.

(** ** Saving (solution_array.py:26-59, 481-499) *)
Section Saving.
Context {V : Type}.
Variable truthy : V -> bool.

(** Constraints are objects, numbered; their attributes of their own, by name. The attributes that saving removes are, where a constraint lacks them, false values
    of its class (math.py:367-368) or nothing. *)
Definition objects := list (nat * list (nat * V)).
(** What is saved of the constraints: the keys of [sensitivities["constraints"]], if they are there. *)
Record saved := Saved { objs : objects; constrs : option (list (nat * V)) }.

Definition attr (h : objects) (c a : nat) : option V := match dget h c with Some d => dget d a | None => None end.
Definition set_attr (h : objects) (c a : nat) (v : V) : objects :=
  dset h c (dset (match dget h c with Some d => d | None => [] end) a v).
Definition del_attr (h : objects) (c a : nat) : objects :=
  match dget h c with Some d => dset h c (ddel d a) | None => h end.

(** [__enter__] with [saveconstraints]: for one attribute, and for all *)
Definition take_one (cs : list nat) (a : nat) (h : objects) : objects * list (nat * V) :=
  fold_left (fun st c => let '(h, store) := st in
    match attr h c a with
    | Some v => if truthy v then (del_attr h c a, dset store c v) else (h, store)
    | None => (h, store)
    end) cs (h, []).
Fixpoint take (cs attrs : list nat) (h : objects) (stored : list (nat * list (nat * V))) : objects * list (nat * list (nat * V)) :=
  match attrs with
  | [] => (h, stored)
  | a :: attrs' => let '(h, store) := take_one cs a h in take cs attrs' h (dset stored a store)
  end.
(** [__exit__] *)
Definition put_back (stored : list (nat * list (nat * V))) (h : objects) : objects :=
  fold_left (fun h ast => fold_left (fun h cv => set_attr h (fst cv) (fst ast) (snd cv)) (snd ast) h) stored h.

(** [save] and [save_compressed]: the solution while it is pickled, the solution afterwards, and what is raised. [pickle] says what pickling raises. *)
Definition save (attrs : list nat) (saveconstraints : bool) (pickle : saved -> option exn) (s : saved) : option saved * saved * option exn :=
  match constrs s with
  | None => (None, s, Some KeyErrorE)
  | Some cs =>
      if saveconstraints then
        let '(h, stored) := take (dkeys cs) attrs (objs s) [] in
        let during := Saved h (Some cs) in
        (Some during, Saved (put_back stored h) (Some cs), pickle during)
      else
        let during := Saved (objs s) None in
        (Some during, Saved (objs s) (Some cs), pickle during)
  end.
End Saving.
