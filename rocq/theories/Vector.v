(** Model of declarations of variables and vectors of them (gpkit/nomials/variables.py:22-195), of what Vectorize
    (gpkit/globals.py:73-88) makes of them, and of views of models at an index (gpkit/constraints/set.py:288-329). *)
From Verif Require Import Base Settings Layout.
Open Scope nat_scope.

(** An array: its shape, and its element at each index. A number is an array with no dimensions. *)
Record array (T : Type) := Arr { dims : list nat; elt : list nat -> T }.
Arguments Arr {_}. Arguments dims {_}. Arguments elt {_}.

(** Whether an index is within a shape *)
Fixpoint within (idx shape : list nat) : bool :=
  match idx, shape with
  | [], [] => true
  | i :: idx', n :: shape' => (i <? n) && within idx' shape'
  | _, _ => false
  end.

(** [a[i1, ..., ik]], with [k] numbers that are not negative (numpy): an array of the remaining dimensions *)
Definition index {T} (a : array T) (i : list nat) : res (array T) :=
  if (length i <=? length (dims a)) && within i (firstn (length i) (dims a))
  then Ok (Arr (skipn (length i) (dims a)) (fun j => elt a (i ++ j)))
  else Err IndexErrorE.
(** [a[:, ..., :, i1, ..., ik]], with all dimensions given *)
Definition index_last {T} (a : array T) (i : list nat) : res (array T) :=
  let n := length (dims a) - length i in
  if within i (skipn n (dims a)) then Ok (Arr (firstn n (dims a)) (fun j => elt a (j ++ i))) else Err IndexErrorE.

Section Declare.
(** Numbers; what functions of other variables are given *)
Context {T Env : Type}.
(** Rounding to single precision *)
Variable single : T -> T.

(** ** Arguments *)

(** A value: a number, a list (of numbers, or of lists of numbers) with the array that numpy makes of it, a numpy array, or a function.
    Simplification: lists that numpy makes no array of, and sweeps of vectors, are left out. *)
Inductive value := Num (x : T) | Listed (a : array T) | Array (a : array T) | Fn (f : Env -> array T).
(** A value may also be the sweep that [Variable] makes of a list or array. *)
Inductive declared := Plain (v : value) | Swept (v : value).
Inductive arg := Str (s : text) | Val (v : value).
(** [descr], with what is given by keyword at first *)
Record descr (D : Type) := Descr { d_name : option text; d_value : option D; d_units : option text; d_label : option text }.
Arguments Descr {_}. Arguments d_name {_}. Arguments d_value {_}. Arguments d_units {_}. Arguments d_label {_}.

(** One turn of the loop in [Variable.__init__] (variables.py:44-59) *)
Definition variable_arg (d : descr declared) (a : arg) : descr declared :=
  match a with
  | Str s =>
      match d_name d, d_units d, d_label d with
      | None, u, l => Descr (Some s) (d_value d) u l
      | n, None, l => Descr n (d_value d) (Some s) l
      | n, u, None => Descr n (d_value d) u (Some s)
      | _, _, _ => d
      end
  | Val (Num x) => Descr (d_name d) (Some (Plain (Num x))) (d_units d) (d_label d)
  | Val (Fn f) => match d_value d with
                  | None => Descr (d_name d) (Some (Plain (Fn f))) (d_units d) (d_label d)
                  | Some _ => d
                  end
  | Val v => Descr (d_name d) (Some (Swept v)) (d_units d) (d_label d)
  end.
Definition variable_args (d : descr declared) (args : list arg) : descr declared := fold_left variable_arg args d.

(** One turn of the loop in [ArrayVariable.__new__] (variables.py:115-127) *)
Definition vector_arg (d : descr value) (a : arg) : descr value :=
  match a with
  | Str s =>
      match d_name d, d_units d, d_label d with
      | None, u, l => Descr (Some s) (d_value d) u l
      | n, None, l => Descr n (d_value d) (Some s) l
      | n, u, None => Descr n (d_value d) u (Some s)
      | _, _, _ => d
      end
  | Val (Fn f) => Descr (d_name d) (Some (Fn f)) (d_units d) (d_label d)
  | Val v => match d_value d with
             | None => Descr (d_name d) (Some v) (d_units d) (d_label d)
             | Some _ => d
             end
  end.
Definition vector_args (d : descr value) (args : list arg) : descr value := fold_left vector_arg args d.

(** ** Values of vectors *)

(** Whether an array of a shape can be broadcast to another (numpy), both from the last dimension on, and the index an element of the
    result comes from *)
Fixpoint broadcastable (from to : list nat) : bool :=
  match from, to with
  | [], _ => true
  | n :: from', m :: to' => ((n =? m) || (n =? 1)) && broadcastable from' to'
  | _ :: _, [] => false
  end.
Fixpoint clamp (from idx : list nat) : list nat :=
  match from, idx with
  | n :: from', i :: idx' => (if n =? 1 then 0 else i) :: clamp from' idx'
  | _, _ => []
  end.
Definition broadcast_to (a : array T) (shape : list nat) : res (array T) :=
  if broadcastable (rev (dims a)) (rev shape) then Ok (Arr shape (fun idx => elt a (rev (clamp (rev (dims a)) (rev idx))))) else Err ValueErrorE.
(** [.T] *)
Definition transpose (a : array T) : array T := Arr (rev (dims a)) (fun idx => elt a (rev idx)).
(** [np.full(shape, values, "f")]. Simplification: leading dimensions of length one, more than the shape has, are not dropped. *)
Definition full_single (shape : list nat) (a : array T) : res (array T) :=
  let! b := broadcast_to a shape in Ok (Arr (dims b) (fun idx => single (elt b idx))).

(** The values of a vector of [shape] (variables.py:137-148), which ends with the current [vectorization]: of each element, a number or
    a function. [values[i]] of a function is what [veclinkedfn] makes of it (179-184). *)
Inductive element := Const (x : T) | Linked (f : Env -> res (array T)).
Definition checked (shape : list nat) (a : array T) : res (list nat -> element) :=
  if decide (dims a = shape) then Ok (fun i => Const (elt a i)) else Err ValueErrorE.
Definition element_values (vectorization shape : list nat) (v : value) : res (list nat -> element) :=
  match v with
  | Fn f => Ok (fun i => Linked (fun c => index (f c) i))
  | Num x => match vectorization with
             | [] => checked shape (Arr [] (fun _ => x))
             | _ => let! a := full_single shape (Arr [] (fun _ => x)) in checked shape a
             end
  | Listed a => match vectorization with
                | [] => checked shape a
                | _ => let! a := full_single shape a in checked shape a
                end
  | Array a => match vectorization with
               | [] => checked shape a
               | _ => let! b := broadcast_to a (rev shape) in checked shape (transpose b)
               end
  end.

(** ** Vectors *)

(** An element: its index, and its other descriptions *)
Record variable := Element { v_idx : list nat; v_descr : descr element }.
(** [ArrayVariable.__new__] (variables.py:104-176): the shape, and the elements in order. With neither argument nor keyword for it,
    the name is a new one. Simplification: units are kept as they are given; models that variables are made in are in Globals.v. *)
Definition array_variable (vectorization shape : list nat) (d : descr value) (args : list arg) : res (list nat * list variable) :=
  let shape := shape ++ vectorization in
  let d := vector_args d args in
  let! values := match d_value d with
                 | None => Ok (fun _ => None)
                 | Some v => let! f := element_values vectorization shape v in Ok (fun i => Some (f i))
                 end in
  Ok (shape, map (fun i => Element i (Descr (d_name d) (values i) (d_units d) (d_label d))) (indices shape)).
(** [VectorizableVariable.__new__] in a vectorized environment, without the keyword shape (variables.py:187-195) *)
Definition vectorized_variable (vectorization : list nat) (d : descr value) (args : list arg) : res (list nat * list variable) :=
  array_variable vectorization [] d args.
(** [Vectorize.vectorization] inside of environments of these lengths, the outermost first (globals.py:82-84) *)
Definition vectorization_in (lengths : list nat) : list nat := fold_left (fun v n => n :: v) lengths [].
End Declare.

Arguments value : clear implicits. Arguments arg : clear implicits. Arguments declared : clear implicits. Arguments element : clear implicits. Arguments variable : clear implicits.
Arguments Descr {_}. Arguments d_name {_}. Arguments d_value {_}. Arguments d_units {_}. Arguments d_label {_}.

(** ** Views *)

Section View.
Context {T : Type}.
(** A constraint set, by its attributes: other sets, arrays (anything with a shape), and what has no shape *)
Inductive cset := Cset (attributes : list (nat * attribute))
with attribute := ASet (c : cset) | AArray (a : array T) | AOther.
Definition attributes (c : cset) : list (nat * attribute) := match c with Cset l => l end.

(** [ConstraintSetView], its index a tuple of numbers (set.py:291-297) *)
Record view := View { base : cset; at_index : list nat }.
Definition as_view (c : cset) : view := View c [].
(** [view[i]] (299-304) *)
Definition view_item (v : view) (i : list nat) : view := View (base v) (i ++ at_index v).
(** [view.name] (306-329): another view or an array *)
Inductive seen := SView (v : view) | SArray (a : array T).
Definition view_attr (v : view) (name : nat) : res seen :=
  match dget (attributes (base v)) name with
  | None => Err AttributeErrorE
  | Some (ASet c) => Ok (SView (View c (at_index v)))
  | Some AOther => Err ValueErrorE
  | Some (AArray a) =>
      if length (at_index v) <? length (dims a) then rmap SArray (index_last a (at_index v))
      else rmap SArray (index a (at_index v))
  end.

(** An expression such as [model.as_view()[1].wing[2, 3].c]: items and attributes, one after another *)
Inductive step := Item (i : list nat) | Attr (name : nat).
Fixpoint look (v : view) (l : list step) : res seen :=
  match l with
  | [] => Ok (SView v)
  | Item i :: l' => look (view_item v i) l'
  | [Attr name] => view_attr v name
  | Attr name :: l' => let! s := view_attr v name in match s with SView v' => look v' l' | SArray _ => Err TypeErrorE end
  end.
End View.
Arguments cset : clear implicits. Arguments attribute : clear implicits. Arguments view : clear implicits. Arguments seen : clear implicits.
