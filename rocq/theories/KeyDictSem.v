(** Specification vocabulary for KeyDicts (C39-C41): histories of operations,
    and what a dictionary should contain after them. *)
From Verif Require Import Base KeyDict.
Open Scope nat_scope.

Section Histories.
Context {A : Type}.
Variable trunc single : A -> A.
Variable size : nat -> option nat.
Variable names : nat -> list nat.
Variable enames : nat -> nat -> list nat.
Variable cset : option (nat -> list (nat * option nat)).

(** What a user writes: one object, an array of their own, a list. *)
Inductive uval := UCell (c : cell A) | UArr (d : dtype) (cs : list (cell A)) | UList (d : dtype) (cs : list (cell A)).
Inductive op := OSet (a : karg) (v : uval) | OGet (a : karg) | OIn (a : karg) | ODel (a : karg).

(** One operation. A read that raises changes nothing that matters here. *)
Definition exec (st : heap A * kd A) (o : op) : res (heap A * kd A) :=
  let '(h, d) := st in
  match o with
  | OSet a (UCell c) => setitem trunc single size names cset h d a (WCell c)
  | OSet a (UArr dt cs) => let '(h, l) := alloc h (AR dt cs) in setitem trunc single size names cset h d a (WLoc l)
  | OSet a (UList dt cs) => setitem trunc single size names cset h d a (WList dt cs)
  | OGet a => match getitem size names cset h d a with
              | Ok (_, h, d) => Ok (h, d)
              | Err _ => Ok (h, match parse names cset d a with Ok (_, d) => d | Err _ => d end)
              end
  | OIn a => Ok (h, snd (contains names cset h d a))
  | ODel a => delitem trunc single names enames h d a
  end.
Fixpoint run (st : heap A * kd A) (ops : list op) : res (heap A * kd A) :=
  match ops with
  | [] => Ok st
  | o :: ops' => let! st' := exec st o in run st' ops'
  end.

(** The variable or element meant by a key: a name means the only variable of
    that name, or the vector whose elements are all there is of that name. *)
Definition meant (a : karg) : option (nat * option nat) :=
  match a with
  | KVar k => Some (k, None)
  | KElem k i => Some (k, Some i)
  | KName n =>
      match cset with
      | None => None
      | Some varkeys =>
          match varkeys n with
          | [p] => Some p
          | (k, Some _) :: others =>
              if forallb (fun p => match p with (k', Some _) => k =? k' | _ => false end) others then Some (k, None) else None
          | _ => None
          end
      end
  end.

(** What an operation does to a scalar ([i] is None) or to an element. Writing an
    array leaves alone the elements where it is nan. *)
Inductive effect := Keeps | Puts (c : cell A) | Erases.
Definition effect_on (o : op) (k : nat) (i : option nat) : effect :=
  let at_ a f := match meant a with Some (k', i') => if k =? k' then f i' else Keeps | None => Keeps end in
  match o with
  | OSet a v => at_ a (fun i' =>
      match i', i, v with
      | None, None, UCell c => Puts c
      | Some j, Some i, UCell c => if i =? j then Puts c else Keeps
      | None, Some _, UCell c => Puts c
      | None, Some i, UArr _ cs => match cs !! i with Some CNan | None => Keeps | Some c => Puts c end
      | None, Some i, UList _ cs => match cs !! i with Some c => Puts c | None => Keeps end
      | _, _, _ => Keeps
      end)
  | ODel a => at_ a (fun i' =>
      match i', i with
      | None, _ => Erases
      | Some j, Some i => if i =? j then Erases else Keeps
      | _, _ => Keeps
      end)
  | _ => Keeps
  end.
Definition content (ops : list op) (k : nat) (i : option nat) : option (cell A) :=
  fold_left (fun acc o => match effect_on o k i with Keeps => acc | Puts c => Some c | Erases => None end) ops None.
(** As [content], where deleting a name deletes every key that has it. *)
Definition content_named (ops : list op) (k : nat) (i : option nat) : option (cell A) :=
  fold_left (fun acc o =>
    match o with
    | ODel (KName n) => if existsb (Nat.eqb n) (names k) then None else acc
    | _ => match effect_on o k i with Keeps => acc | Puts c => Some c | Erases => None end
    end) ops None.
Definition cell_or_nan (c : option (cell A)) : cell A := match c with Some c => c | None => CNan end.

(** Writes that make sense: an element within bounds, one object for a scalar or
    an element, as many values as the vector has elements, no sweep of a whole
    vector. *)
Definition proper (o : op) : Prop :=
  match o with
  | OSet a v =>
      match meant a with
      | None => False
      | Some (k, Some i) => (exists n, size k = Some n /\ i < n) /\ exists c, v = UCell c
      | Some (k, None) =>
          match size k, v with
          | None, UCell _ => True
          | Some n, UCell c => match c with CSweep _ => False | _ => True end
          | Some n, UArr _ cs | Some n, UList _ cs => length cs = n
          | _, _ => False
          end
      end
  | ODel a =>
      match meant a with Some (k, Some i) => exists n, size k = Some n /\ i < n | _ => True end
  | _ => True
  end.

(** What reading a key shows: one value, or the values of a vector. *)
Definition shows (h : heap A) (d : kd A) (a : karg) : res (list (cell A)) :=
  match getitem size names cset h d a with
  | Ok (RCell c, _, _) => Ok [c]
  | Ok (RArr l, h', _) => match h' !! l with Some x => Ok (a_cells x) | None => Err KeyErrorE end
  | Ok (RMany _, _, _) => Err ValueErrorE
  | Err e => Err e
  end.
Definition has (h : heap A) (d : kd A) (a : karg) : res bool := fst (contains names cset h d a).

(** The dictionary shows exactly [c]: the scalars, the elements and the vectors
    that have a value, and no others. *)
Definition shows_exactly (h : heap A) (d : kd A) (c : nat -> option nat -> option (cell A)) : Prop :=
  (forall k, size k = None ->
     match c k None with
     | Some x => shows h d (KVar k) = Ok [x] /\ has h d (KVar k) = Ok true
     | None => shows h d (KVar k) = Err KeyErrorE /\ has h d (KVar k) = Ok false
     end) /\
  (forall k n, size k = Some n -> forall i, i < n ->
     match c k (Some i) with
     | Some x => shows h d (KElem k i) = Ok [x] /\ has h d (KElem k i) = Ok (negb (is_nan x)) /\
                 shows h d (KVar k) = Ok (map (fun i => cell_or_nan (c k (Some i))) (seq 0 n)) /\ has h d (KVar k) = Ok true
     | None => (shows h d (KElem k i) = Ok [CNan] \/ shows h d (KElem k i) = Err KeyErrorE) /\
               has h d (KElem k i) = Ok false
     end) /\
  (forall n p, meant (KName n) = Some p ->
     let a := match p with (k, None) => KVar k | (k, Some i) => KElem k i end in
     shows h d (KName n) = shows h d a /\ has h d (KName n) = has h d a).

(** ** Rounding *)

(** The numbers in a written value. *)
Definition uval_numbers (v : uval) : list (cell A) :=
  match v with UCell c => [c] | UArr _ cs | UList _ cs => cs end.

(** Nothing is stored in an integer or single-precision array: no vector is set
    to one number, and arrays and lists hold double-precision numbers or
    objects. *)
Definition unrounded (o : op) : Prop :=
  match o with
  | OSet a v =>
      match meant a, v with
      | Some (k, None), UCell _ => size k = None
      | _, UArr d _ | _, UList d _ => d = DF64 \/ d = DObj
      | _, _ => True
      end
  | _ => True
  end.
(** Every number written is an integer that has a single-precision
    representation. *)
Definition exact_numbers (o : op) : Prop :=
  match o with
  | OSet _ v => forall a, In (CNum a) (uval_numbers v) -> trunc a = a /\ single a = a
  | _ => True
  end.
Definition no_rounding (ops : list op) : Prop := Forall unrounded ops \/ Forall exact_numbers ops.

(** Numbers and nan only, and no list of integers. *)
Definition numeric_cell (c : cell A) : Prop := match c with CNum _ | CNan => True | _ => False end.
Definition numeric (o : op) : Prop :=
  match o with
  | OSet _ v => Forall numeric_cell (uval_numbers v) /\ match v with UList d cs => d <> DInt /\ cs <> [] | _ => True end
  | ODel _ => False
  | _ => True
  end.

Definition is_del (o : op) : Prop := match o with ODel _ => True | _ => False end.
End Histories.

Arguments uval A : clear implicits.
Arguments op A : clear implicits.
