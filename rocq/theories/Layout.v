(** Model of how a table prints an array: the choice of the dimension along which lines run, and the lines
    (gpkit/solution_array.py:829-868). Text is left out: a line is the list of the values in it. *)
From Verif Require Import Base.
Open Scope nat_scope.

Section Layout.
Context {A : Type}.

(** The indices of an array of a shape, in the order of [flatten()] *)
Fixpoint indices (shape : list nat) : list (list nat) :=
  match shape with
  | [] => [[]]
  | n :: shape' => flat_map (fun i => map (cons i) (indices shape')) (seq 0 n)
  end.

(** [for dim_idx, dim_size in enumerate(val.shape): ...] (solution_array.py:830-834) *)
Fixpoint choose (maxcolumns : nat) (dims : list (nat * nat)) (horiz ncols : nat) : nat * nat :=
  match dims with
  | [] => (horiz, ncols)
  | (d, size) :: dims' =>
      if (ncols <=? size) && (size <=? maxcolumns) then choose maxcolumns dims' d size else choose maxcolumns dims' horiz ncols
  end.
Definition layout (maxcolumns : nat) (shape : list nat) : nat * nat :=
  choose maxcolumns (combine (seq 0 (length shape)) shape) (length shape - 1) 1.

(** [l.insert(i, x)] *)
Definition insert_at (i x : nat) (l : list nat) : list nat := firstn i l ++ x :: skipn i l.
(** [dim_order] (solution_array.py:836-837) *)
Definition dim_order (shape : list nat) (horiz : nat) : list nat :=
  insert_at horiz (length shape - 1) (seq 0 (length shape - 1)).

(** [val.transpose(order)]: its shape, and the index in [val] of one of its elements *)
Definition transposed (order shape : list nat) : list nat := map (fun d => nth d shape 0) order.
Fixpoint position (d : nat) (l : list nat) : nat := match l with [] => 0 | x :: l' => if x =? d then 0 else S (position d l') end.
Definition source (order idx : list nat) : list nat := map (fun d => nth (position d order) idx 0) (seq 0 (length order)).
Definition flatval (maxcolumns : nat) (shape : list nat) (val : list nat -> A) : list A :=
  let order := dim_order shape (fst (layout maxcolumns shape)) in
  map (fun idx => val (source order idx)) (indices (transposed order shape)).

(** The lines (solution_array.py:839-842, 847-859): [ncols] values each; [fuel] is at least the number of values. *)
Fixpoint chunks (fuel ncols : nat) (l : list A) : list (list A) :=
  match fuel, l with
  | 0, _ | _, [] => []
  | S fuel', _ => firstn ncols l :: chunks fuel' ncols (skipn ncols l)
  end.
Definition lines (maxcolumns : nat) (shape : list nat) (val : list nat -> A) : list (list A) :=
  let flat := flatval maxcolumns shape val in chunks (length flat) (snd (layout maxcolumns shape)) flat.
(** The only line of a LaTeX table (solution_array.py:839-842, 860-868) *)
Definition latex_cell (maxcolumns : nat) (shape : list nat) (val : list nat -> A) : list A :=
  firstn (snd (layout maxcolumns shape)) (flatval maxcolumns shape val).
End Layout.
