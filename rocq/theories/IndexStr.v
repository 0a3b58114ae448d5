(** Model of the text of an indexed array (gpkit/repr_conventions.py:145-167). Simplifications: the text is that between the brackets, as
    tokens; an index is a number, a slice, an ellipsis or a new axis. *)
From Verif Require Import Base.
Local Open Scope list_scope.
Open Scope Z_scope.

Inductive index := Int (i : Z) | Slice (start stop step : option Z) | Dots | NewAxis.
(** What is given to [__getitem__]: one index, or a tuple *)
Inductive idxs := One (i : index) | Tuple (l : list index).
Inductive token := Num (z : Z) | Colon | Comma | EllipsisName | NoneName.

(** [sys.maxsize] *)
Definition maxsize : Z := 9223372036854775807.
(** ["%s" % (x or "")] (154, 163) *)
Definition or_empty (x : option Z) : list token := match x with Some z => if z =? 0 then [] else [Num z] | None => [] end.
(** [el.stop if el.stop and el.stop < limit else ""] (155-156, 164) *)
Definition below (limit : Z) (x : option Z) : list token := match x with Some z => if (z =? 0) || (limit <=? z) then [] else [Num z] | None => [] end.
(** [":%s" % step if step is not None else ""] (157, 165) *)
Definition step_str (x : option Z) : list token := match x with Some z => [Colon; Num z] | None => [] end.
Definition slice_str (limit : Z) (start stop step : option Z) : list token := or_empty start ++ Colon :: below limit stop ++ step_str step.
(** One element of a tuple (152-160): what is neither a slice nor a number is left out *)
Definition element (el : index) : list (list token) :=
  match el with
  | Slice a b c => [slice_str maxsize a b c]
  | Int i => [[Num i]]
  | Dots | NewAxis => []
  end.
(** [",".join(elstrs)] (161) *)
Fixpoint joined (l : list (list token)) : list token := match l with [] => [] | [s] => s | s :: l' => s ++ Comma :: joined l' end.
(** Lines 147-167; [stop < 1e6] in 164 *)
Definition index_str (i : idxs) : list token :=
  match i with
  | Tuple l => joined (flat_map element l)
  | One (Slice a b c) => slice_str 1000000 a b c
  | One (Int i) => [Num i]
  | One Dots => [EllipsisName]
  | One NewAxis => [NoneName]
  end.
