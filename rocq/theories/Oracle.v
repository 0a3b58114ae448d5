(** Model of samples of autosweeps ([SolutionOracle], gpkit/tools/autosweep.py:165-204, with [Model.autosweep], constraints/model.py:152-164)
    and of plots that compare models ([compare], interactive/plotting.py:8-35, [assign_axes], interactive/plot_sweep.py:6-19). Trees of
    solutions and their values are those of Autosweep.v. Simplifications: numbers are reals; one variable is swept; solves do not fail;
    a text names one variable or none; of a figure only what is drawn in which axes is kept, not labels; a posynomial is the number of
    its map of terms and that of its units, and its magnitude is that of the map. *)
From Coq Require Import Reals Strings.String Strings.Ascii.
From Verif Require Import Base Autosweep.
Open Scope R_scope.

(** What can be asked for: a posynomial with a map of terms and units, a text, a tuple *)
Inductive key := Nom (hmap units : nat) | Text (s : string) | Items (l : list key).

(** The attributes of a [SolutionOracle] (167-169), with the map and units of its tree's [costposy], and the maps and units of variables that
    have names in the solutions *)
Record oracle := Oracle { o_bst : bst; sampled_at : list R; costposy : nat * nat; names : string -> option (nat * nat) }.

(** [_is_cost] (177-180). Maps are equal whatever their units. *)
Definition is_cost (o : oracle) (k : key) : bool :=
  match k with
  | Nom h _ => Nat.eqb h (fst (costposy o))
  | Text s => String.eqb s "cost"
  | Items _ => false
  end.
(** A list comprehension whose body may raise *)
Fixpoint each {A B} (f : A -> res B) (l : list A) : res (list B) :=
  match l with [] => Ok [] | x :: l' => let! y := f x in let! ys := each f l' in Ok (y :: ys) end.
(** The posynomial that [sol(key)] evaluates (solution_array.py:358-360, 612-624), or the exception: formatting the message with a tuple that has
    not one element raises another one *)
Definition asked (o : oracle) (k : key) : res (nat * nat) :=
  match k with
  | Nom h u => Ok (h, u)
  | Text s => match names o s with Some p => Ok p | None => Err ValueErrorE end
  | Items [_] => Err ValueErrorE
  | Items _ => Err TypeErrorE
  end.
(** [__getval] (182-192): magnitudes at each sample, and units *)
Definition getval (o : oracle) (k : key) : res (list R * nat) :=
  if is_cost o k then let! fit := each (fun x => cost_at (o_bst o) x None) (sampled_at o) in Ok (fit, snd (costposy o))
  else let! p := asked o k in let! fit := each (fun x => posy_at (o_bst o) (fst p) x) (sampled_at o) in Ok (fit, snd p).
(** [cost_lb] and [cost_ub] (194-204) *)
Definition cost_lb (o : oracle) : res (list R * nat) :=
  let! fit := each (fun x => cost_at (o_bst o) x (Some Lower)) (sampled_at o) in Ok (fit, snd (costposy o)).
Definition cost_ub (o : oracle) : res (list R * nat) :=
  let! fit := each (fun x => cost_at (o_bst o) x (Some Upper)) (sampled_at o) in Ok (fit, snd (costposy o)).

(** [np.linspace] *)
Definition linspace (lo hi : R) (n : nat) : list R := map (fun i => lo + INR i * ((hi - lo) / INR (n - 1))) (seq 0 n).

(** What is used of a model: its solutions, its cost, and the variables that have names in it *)
Record model := Model { solve : R -> sol; cost : nat * nat; named : string -> option (nat * nat) }.
(** [Model.autosweep] (model.py:152-164) of one variable; [None] is out of fuel *)
Definition autosweep (fuel : nat) (m : model) (lo hi tol : R) (samplepoints : nat) : option (res oracle) :=
  match autosweep_1d (solve m) tol fuel lo hi with
  | None => None
  | Some (Err e) => Some (Err e)
  | Some (Ok (t, _)) => Some (Ok (Oracle t (linspace lo hi samplepoints) (cost m) (named m)))
  end.
(** The sweeps of all models (plotting.py:20) *)
Fixpoint autosweeps (fuel : nat) (ms : list model) (lo hi tol : R) (samplepoints : nat) : option (res (list oracle)) :=
  match ms with
  | [] => Some (Ok [])
  | m :: ms' =>
      match autosweep fuel m lo hi tol samplepoints with
      | None => None
      | Some (Err e) => Some (Err e)
      | Some (Ok o) =>
          match autosweeps fuel ms' lo hi tol samplepoints with
          | None => None
          | Some (Err e) => Some (Err e)
          | Some (Ok os) => Some (Ok (o :: os))
          end
      end
  end.

(** What is drawn: a region between two curves, or a curve; colors are numbers of [GPCOLORS] *)
Inductive drawn := Region (color : nat) (xs : list R) (lb ub : list R * nat) | Curve (color : nat) (xs : list R) (ys : list R * nat).
(** Letters of a text, and the items of what has a length (24-25) *)
Fixpoint letters (s : string) : list key := match s with EmptyString => [] | String c s' => Text (String c EmptyString) :: letters s' end.
Definition items (k : key) : option (list key) := match k with Nom _ _ => None | Text s => Some (letters s) | Items l => Some l end.
(** Lines 24-27 *)
Definition pick (nsols i : nat) (posy : key) : key :=
  match items posy with
  | Some l => if Nat.eqb (List.length l) nsols then nth i l posy else posy
  | None => posy
  end.
(** The body of the inner loop (24-35) *)
Definition draw (nsols i : nat) (o : oracle) (posy : key) : res drawn :=
  let p := pick nsols i posy in
  let color := Nat.modulo i 2 in
  if is_cost o p then let! lb := cost_lb o in let! ub := cost_ub o in Ok (Region color (sampled_at o) lb ub)
  else let! ys := getval o p in Ok (Curve color (sampled_at o) ys).
Fixpoint draw_all (nsols i : nat) (os : list oracle) (posy : key) : res (list drawn) :=
  match os with
  | [] => Ok []
  | o :: os' => let! d := draw nsols i o posy in let! ds := draw_all nsols (i + 1) os' posy in Ok (d :: ds)
  end.
(** What the caller gives: one thing, or a list. [assign_axes] (plot_sweep.py:8-9) takes a text's letters. *)
Inductive shown := One (k : key) | Several (ks : list key).
Definition posys (a : shown) : list key :=
  match a with One (Nom h u) => [Nom h u] | One (Text s) => letters s | One (Items l) => l | Several ks => ks end.
(** [compare] (plotting.py:8-35): what is drawn in each of the axes. Without models [sols[0]] is an error (21), and so are no axes. *)
Definition compare (fuel : nat) (ms : list model) (lo hi tol : R) (a : shown) : option (res (list (list drawn))) :=
  match autosweeps fuel ms lo hi tol 100 with
  | None => None
  | Some (Err e) => Some (Err e)
  | Some (Ok []) => Some (Err IndexErrorE)
  | Some (Ok os) => match posys a with [] => Some (Err ValueErrorE) | ks => Some (each (draw_all (List.length os) 0 os) ks) end
  end.
