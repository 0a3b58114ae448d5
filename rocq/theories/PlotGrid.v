(** Model of plotting a grid of sweeps: [plot_1dsweepgrid] (gpkit/interactive/plot_sweep.py:53-97), with what [plot] draws
    (solution_array.py:725-741, autosweep.py:206-228). Sweeps and what they do to substitutions are those of Sweep.v. Simplifications:
    expressions can be evaluated at every solution; an autosweep is a sequence of solves at values that it chooses; of a figure only the
    axes that things are drawn in are kept; two names of [sweeps] are those of different variables. *)
From Coq Require Import Strings.String.
From Verif Require Import Base Sweep.
Local Open Scope list_scope.
Open Scope nat_scope.

Section PlotGrid.
Context {V S : Type}.
Variable is_zero : V -> bool.
Variable solve : list (nat * sub V) -> res S.
(** The values that an autosweep solves at, given the ends *)
Variable points : V -> V -> list V.

(** A tuple of two, or other values to sweep over *)
Inductive over := Pair (lo hi : V) | Values (vs : list V).
(** A variable, or a text that names it *)
Inductive swept := Var (k : nat) | Named (k : nat).
Definition key (s : swept) : nat := match s with Var k | Named k => k end.
(** What is plotted: an expression, or a text that names a variable *)
Inductive posy := Expr (e : nat) | Text (s : string).
Inductive shown := One (p : posy) | Several (ps : list posy).
(** Lines 68-69: a text has [__iter__] *)
Fixpoint letters (s : string) : list posy := match s with EmptyString => [] | String c s' => Text (String c EmptyString) :: letters s' end.
Definition posys (a : shown) : list posy := match a with One (Expr e) => [Expr e] | One (Text s) => letters s | Several ps => ps end.

(** What is drawn, in which column and row *)
Inductive drawn := Curve (col row : nat) (p : posy) (sols : list S) | Dot (col row : nat) (x : sub V) (p : posy) (sol : S).

(** [enumerate] *)
Fixpoint enumerate {A} (i : nat) (l : list A) : list (nat * A) := match l with [] => [] | x :: l' => (i, x) :: enumerate (i + 1) l' end.
(** Lines 60-61: the swept variables that have values *)
Definition origsubs (subs : list (nat * sub V)) (sweeps : list (swept * over)) : list (nat * sub V) :=
  flat_map (fun '(s, _) => match dget subs (key s) with Some v => [(key s, v)] | None => [] end) sweeps.
(** A round of the loop (76-95): the substitutions, and what was drawn or the exception *)
Definition one_sweep (orig : list (nat * sub V)) (origsol : option S) (ps : list posy) (subs : list (nat * sub V)) (i : nat) (s : swept) (o : over) :
    list (nat * sub V) * res (list drawn) :=
  let '(subs', out) := match o with
                       | Pair lo hi => autosweep_subs is_zero solve (key s) (points lo hi) subs
                       | Values vs => model_sweep is_zero solve [(key s, vs)] subs
                       end in
  match out with
  | Err e => (subs', Err e)
  | Ok sols =>
      let curves := map (fun '(j, p) => Curve i j p sols) (enumerate 0 ps) in
      match (match orig, origsol with
             | [], _ => Ok []
             | _, None => Err TypeErrorE
             | _, Some sol => match dget orig (key s) with
                              | None => Err KeyErrorE
                              | Some x => Ok (map (fun '(j, p) => Dot i j x p sol) (enumerate 0 ps))
                              end
             end) with
      | Err e => (subs', Err e)
      | Ok dots =>
          match s with
          | Named _ => (subs', Err AttributeErrorE)   (* [format_and_label_axes] reads [var.key] (44) *)
          | Var _ => (update subs' orig, Ok (curves ++ dots))
          end
      end
  end.
Fixpoint sweep_all (orig : list (nat * sub V)) (origsol : option S) (ps : list posy) (subs : list (nat * sub V)) (l : list (nat * (swept * over))) :
    list (nat * sub V) * res (list drawn) :=
  match l with
  | [] => (subs, Ok [])
  | (i, (s, o)) :: l' =>
      match one_sweep orig origsol ps subs i s o with
      | (subs', Err e) => (subs', Err e)
      | (subs', Ok ds) => let '(subs'', out) := sweep_all orig origsol ps subs' l' in (subs'', let! ds' := out in Ok (ds ++ ds'))
      end
  end.
Definition plot_1dsweepgrid (subs : list (nat * sub V)) (sweeps : list (swept * over)) (a : shown) (origsol : option S) :
    list (nat * sub V) * res (list drawn) :=
  let orig := origsubs subs sweeps in
  match (match orig, origsol with
         | _ :: _, None => let! s := solve subs in Ok (Some s)
         | _, _ => Ok origsol
         end) with
  | Err e => (subs, Err e)
  | Ok origsol =>
      match posys a, sweeps with
      | [], _ | _, [] => (subs, Err ValueErrorE)   (* [plt.subplots] of no rows or columns (72) *)
      | ps, _ => sweep_all orig origsol ps subs (enumerate 0 sweeps)
      end
  end.
End PlotGrid.
Arguments over : clear implicits.
Arguments drawn : clear implicits.
