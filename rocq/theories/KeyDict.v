(** Model of KeyMap and KeyDict (gpkit/keydict.py:25-279). Keys that a KeyDict
    stores are variables without an index; elements of a vector are kept in the
    array of their vector. Simplifications: one-dimensional shapes; no units
    (clean_value, keydict.py:11-22, is covered by Units.v); keys that are slices
    of vectors (keydict.py:194-204), which set one element after another, and
    unpickling are left out. Sets are lists. *)
From Verif Require Import Base.
From Coq Require Import QArith.
Open Scope nat_scope.

Section KeyDict.
Context {A : Type}.
(** What numpy makes of a number stored in an integer array, and in a
    single-precision one. *)
Variable trunc single : A -> A.
(** [key.shape] of a stored key: None for a scalar, or the number of elements. *)
Variable size : nat -> option nat.
(** The strings in [key.keys] of a stored key, and of an element of it. *)
Variable names : nat -> list nat.
Variable enames : nat -> nat -> list nat.
(** [cset.varkeys[name]], if this is a substitutions dictionary: the variables
    and elements of that name, in the set's order. *)
Variable cset : option (nat -> list (nat * option nat)).

(** What is stored: numbers, nan, linked functions, sweeps. *)
Inductive cell := CNum (a : A) | CNan | CFun (f : nat) | CSweep (s : nat).

Inductive dtype := DInt | DF32 | DF64 | DObj.
Global Instance dtype_eq_dec : EqDecision dtype.
Proof. solve_decision. Defined.

(** numpy arrays, and the heap they live in. An array is known by its
    position. *)
Record arr := AR { a_dt : dtype; a_cells : list cell }.
Definition heap := list arr.
Definition alloc (h : heap) (a : arr) : heap * nat := (h ++ [a], length h).

(** numpy's conversion of a value to the type of an array. *)
Definition cast (d : dtype) (c : cell) : res cell :=
  match d, c with
  | DObj, _ => Ok c
  | DF64, CNum _ => Ok c
  | DF32, CNum a => Ok (CNum (single a))
  | DInt, CNum a => Ok (CNum (trunc a))
  | DInt, CNan => Err ValueErrorE
  | _, CNan => Ok CNan
  | _, _ => Err TypeErrorE
  end.
Fixpoint cast_all (d : dtype) (cs : list cell) : res (list cell) :=
  match cs with
  | [] => Ok []
  | c :: cs' => let! x := cast d c in let! xs := cast_all d cs' in Ok (x :: xs)
  end.

(** The value of a stored key: an object kept as it is, or an array. *)
Inductive slot := Sc (c : cell) | Ar (l : nat).

(** The keys of [keymap]: stored keys, elements, names. *)
Inductive mapkey := MV (k : nat) | ME (k i : nat) | MN (n : nat).
Global Instance mapkey_eq_dec : EqDecision mapkey.
Proof. solve_decision. Defined.

(** The dict itself and the attributes set by [KeyMap.__init__]
    (keydict.py:50-55). The sets in [keymap] are shared after [update], but are
    copied before each change, so they are values here. *)
Record kd := KD {
  d_items : list (nat * slot);
  d_keymap : list (mapkey * list nat);
  d_unmapped : list nat;
  d_owned : list nat
}.
Definition kd_empty : kd := KD [] [] [] [].

Definition memb (k : nat) (l : list nat) : bool := existsb (Nat.eqb k) l.
Definition sadd (l : list nat) (k : nat) : list nat := if memb k l then l else l ++ [k].
Definition sdel (l : list nat) (k : nat) : list nat := List.filter (fun x => negb (Nat.eqb k x)) l.

(** [keymap[m]], a defaultdict(set). *)
Definition kget (km : list (mapkey * list nat)) (m : mapkey) : list nat :=
  match dget km m with Some l => l | None => [] end.
Definition kadd (km : list (mapkey * list nat)) (m : mapkey) (k : nat) := dset km m (sadd (kget km m) k).

(** [update_keymap] (keydict.py:107-116); the order of the set does not matter. *)
Definition update_keymap (d : kd) : kd :=
  KD (d_items d)
     (fold_left (fun km k => fold_left (fun km n => kadd km (MN n) k) (names k) km) (d_unmapped d) (d_keymap d))
     [] (d_owned d).

(** What is used as a key: a variable, an element of a vector, a name. *)
Inductive karg := KVar (k : nat) | KElem (k i : nat) | KName (n : nat).

(** What it is taken for: a stored key with an index or none, a name, None. *)
Inductive target := TKey (k : nat) (i : option nat) | TName (n : nat) | TNone.

(** [k.veckey] *)
Definition veckey (p : nat * option nat) : option nat := match p with (k, Some _) => Some k | (_, None) => None end.

(** [parse_and_index] (keydict.py:57-79), with [collapse_arrays]. *)
Definition parse (d : kd) (a : karg) : res (target * kd) :=
  match a with
  | KVar k => Ok (TKey k None, d)
  | KElem k i => Ok (TKey k (Some i), d)
  | KName n =>
      match cset with
      | None => Ok (TName n, update_keymap d)
      | Some varkeys =>
          match varkeys n with
          | [] => Err KeyErrorE
          | [(k, i)] => Ok (TKey k i, d)
          | new :: others =>
              if forallb (fun p => bool_decide (veckey p = veckey new)) others
              then Ok (match veckey new with Some k => TKey k None | None => TNone end, d)
              else Err ValueErrorE
          end
      end
  end.

(** The entry of [keymap] for it; None is never there. *)
Definition entry (t : target) : option mapkey :=
  match t with TKey k _ => Some (MV k) | TName n => Some (MN n) | TNone => None end.
Definition has_entry (d : kd) (t : target) : bool :=
  match entry t with Some m => dmem (d_keymap d) m | None => false end.

Definition is_nan (c : cell) : bool := match c with CNan => true | _ => false end.

(** [__contains__] (keydict.py:81-105) *)
Definition contains (h : heap) (d : kd) (a : karg) : res bool * kd :=
  match parse d a with
  | Err KeyErrorE => (Ok false, d)
  | Err ValueErrorE => (Ok true, d)
  | Err x => (Err x, d)
  | Ok (TKey k i, d) =>
      match dget (d_items d) k with
      | None => (Ok (has_entry d (TKey k i)), d)
      | Some sl =>
          match i, sl with
          | None, _ => (Ok true, d)
          | Some _, Sc _ => (Err TypeErrorE, d)
          | Some i, Ar l =>
              match option_map a_cells (h !! l) with
              | None => (Err TypeErrorE, d)
              | Some cs => match cs !! i with Some c => (Ok (negb (is_nan c)), d) | None => (Err IndexErrorE, d) end
              end
          end
      end
  | Ok (t, d) => (Ok (has_entry d t), d)
  end.

(** [_copyonwrite] (keydict.py:140-146); only arrays have [copy]. *)
Definition copyonwrite (h : heap) (d : kd) (k : nat) : res (heap * kd) :=
  if memb k (d_owned d) then Ok (h, d) else
  match dget (d_items d) k with
  | None => Err KeyErrorE
  | Some (Sc _) => Err AttributeErrorE
  | Some (Ar l) =>
      match h !! l with
      | None => Err KeyErrorE
      | Some a => let '(h', l') := alloc h a in
                  Ok (h', KD (dset (d_items d) k (Ar l')) (d_keymap d) (d_unmapped d) (sadd (d_owned d) k))
      end
  end.

(** ** Reading *)

(** What is read: an object, an array, or, for a name that several keys have, a
    dict. *)
Inductive reading := RCell (c : cell) | RArr (l : nat) | RMany (vs : list (nat * reading)).

Definition slot_reading (s : slot) : reading := match s with Sc c => RCell c | Ar l => RArr l end.

(** The value of one key in [__getitem__] (keydict.py:177-183). *)
Definition get_one (h : heap) (d : kd) (k : nat) (i : option nat) : res (reading * heap * kd) :=
  let! hd := match i, size k with
             | None, Some _ => copyonwrite h d k
             | _, _ => Ok (h, d)
             end in
  let '(h, d) := hd in
  match dget (d_items d) k, i with
  | None, _ => Err KeyErrorE
  | Some s, None => Ok (slot_reading s, h, d)
  | Some (Sc _), Some _ => Err TypeErrorE
  | Some (Ar l), Some i =>
      match h !! l with
      | None => Err TypeErrorE
      | Some a => match a_cells a !! i with Some c => Ok (RCell c, h, d) | None => Err IndexErrorE end
      end
  end.

Fixpoint get_many (h : heap) (d : kd) (ks : list nat) (i : option nat) (got : list (nat * reading))
  : res (reading * heap * kd) :=
  match ks with
  | [] => Ok (RMany got, h, d)
  | k :: ks' => let! r := get_one h d k i in let '(v, h, d) := r in get_many h d ks' i (got ++ [(k, v)])
  end.

(** [__getitem__] (keydict.py:168-185) *)
Definition getitem (h : heap) (d : kd) (a : karg) : res (reading * heap * kd) :=
  let! r := parse d a in
  let '(t, d) := r in
  match entry t with
  | None => Err KeyErrorE
  | Some m =>
      let i := match t with TKey _ i => i | _ => None end in
      match kget (d_keymap d) m with
      | [] => Err KeyErrorE
      | [k] => get_one h d k i
      | ks => get_many h d ks i []
      end
  end.

(** ** Writing *)

(** What is written: an object without a length or a sweep, an array, or a list
    with the type that [np.array] gives it. *)
Inductive wval := WCell (c : cell) | WLoc (l : nat) | WList (d : dtype) (cs : list cell).

(** Replaces the array of [k] by a copy with another type
    ([np.array(old, dtype)]). *)
Definition retype (h : heap) (d : kd) (k : nat) (dt : dtype) (own : bool) : res (heap * kd) :=
  match dget (d_items d) k with
  | None => Err KeyErrorE
  | Some (Sc _) => Err TypeErrorE
  | Some (Ar l) =>
      match h !! l with
      | None => Err KeyErrorE
      | Some a =>
          let! cs := cast_all dt (a_cells a) in
          let '(h', l') := alloc h (AR dt cs) in
          Ok (h', KD (dset (d_items d) k (Ar l')) (d_keymap d) (d_unmapped d)
                     (if own then sadd (d_owned d) k else d_owned d))
      end
  end.

(** [dict.__getitem__(key)[idx] = value] *)
Definition write_cell (h : heap) (d : kd) (k i : nat) (c : cell) : res heap :=
  match dget (d_items d) k with
  | None => Err KeyErrorE
  | Some (Sc _) => Err TypeErrorE
  | Some (Ar l) =>
      match h !! l with
      | None => Err KeyErrorE
      | Some a =>
          let! x := cast (a_dt a) c in
          if i <? length (a_cells a) then Ok (<[l := AR (a_dt a) (<[i := x]> (a_cells a))]> h) else Err IndexErrorE
      end
  end.

(** [if key not in self.keymap] (keydict.py:206-216) *)
Definition first_time (h : heap) (d : kd) (k : nat) (i : option nat) (v : wval) : heap * kd :=
  if dmem (d_keymap d) (MV k) then (h, d) else
  let d := KD (d_items d) (kadd (d_keymap d) (MV k) k) (sadd (d_unmapped d) k) (d_owned d) in
  match i with
  | None => (h, d)
  | Some _ =>
      let dt := match v with WCell (CNum _) | WCell CNan => DF64 | _ => DObj end in
      let n := match size k with Some n => n | None => 0 end in
      let '(h', l) := alloc h (AR dt (repeat CNan n)) in
      (h', KD (dset (d_items d) k (Ar l)) (d_keymap d) (d_unmapped d) (sadd (d_owned d) k))
  end.

(** [if idx:] (keydict.py:217-227) *)
Definition set_elem (h : heap) (d : kd) (k i : nat) (v : wval) : res (heap * kd) :=
  match v with
  | WCell c =>
      let! hd := match c with CSweep _ => retype h d k DObj true | _ => Ok (h, d) end in
      let '(h, d) := hd in
      let! hd := copyonwrite h d k in
      let '(h, d) := hd in
      let! hd := match c with CFun _ => retype h d k DObj false | _ => Ok (h, d) end in
      let '(h, d) := hd in
      let! h := write_cell h d k i c in
      Ok (h, d)
  | _ => Err ValueErrorE
  end.

(** [getitem(key)[goodvals] = value[goodvals]] (keydict.py:239-240) *)
Fixpoint merge (dt : dtype) (old new : list cell) : res (list cell) :=
  match old, new with
  | [], [] => Ok []
  | o :: old', c :: new' =>
      let! x := if is_nan c then Ok o else cast dt c in
      let! xs := merge dt old' new' in
      Ok (x :: xs)
  | _, _ => Err IndexErrorE
  end.

(** The end of [__setitem__] (keydict.py:246-247) *)
Definition store (h : heap) (d : kd) (k : nat) (s : slot) : heap * kd :=
  (h, KD (dset (d_items d) k s) (d_keymap d) (d_unmapped d) (sadd (d_owned d) k)).

(** Setting an array from an array (keydict.py:229-241) *)
Definition set_array (h : heap) (d : kd) (k l : nat) : res (heap * kd) :=
  match h !! l with
  | None => Err KeyErrorE
  | Some v =>
      let! hl := if decide (a_dt v = DInt)
                 then let! cs := cast_all DF32 (a_cells v) in Ok (alloc h (AR DF32 cs))
                 else Ok (h, l) in
      let '(h, l) := hl in
      match dget (d_items d) k, h !! l with
      | _, None => Err KeyErrorE
      | None, _ => Ok (store h d k (Ar l))
      | Some (Sc _), _ => Err AttributeErrorE
      | Some (Ar lo), Some v =>
          match h !! lo with
          | None => Err KeyErrorE
          | Some old =>
              let! hd := if decide (a_dt old = a_dt v) then Ok (h, d) else retype h d k (a_dt v) true in
              let '(h, d) := hd in
              let! hd := copyonwrite h d k in
              let '(h, d) := hd in
              match dget (d_items d) k with
              | Some (Ar l') =>
                  match h !! l' with
                  | None => Err KeyErrorE
                  | Some cur =>
                      let! cs := merge (a_dt cur) (a_cells cur) (a_cells v) in
                      Ok (<[l' := AR (a_dt cur) cs]> h, d)
                  end
              | _ => Err TypeErrorE
              end
          end
      end
  end.

(** [__setitem__] (keydict.py:187-247). A name, in a KeyDict that is not a
    substitutions dictionary, has no [shape]; neither has None. Simplification:
    a scalar key given a list keeps an array of it. *)
Definition setitem (h : heap) (d : kd) (a : karg) (v : wval) : res (heap * kd) :=
  let! r := parse d a in
  let '(t, d) := r in
  match t with
  | TKey k i =>
      let '(h, d) := first_time h d k i v in
      match i, size k with
      | Some i, _ => set_elem h d k i v
      | None, Some n =>
          match v with
          | WLoc l => set_array h d k l
          | WCell (CSweep s) => Ok (store h d k (Sc (CSweep s)))
          | WCell c =>
              let! x := cast DF32 c in
              let '(h, l) := alloc h (AR DF32 (repeat x n)) in
              Ok (store h d k (Ar l))
          | WList _ [] => Err IndexErrorE
          | WList dt cs => let '(h, l) := alloc h (AR dt cs) in Ok (store h d k (Ar l))
          end
      | None, None =>
          match v with
          | WCell c => Ok (store h d k (Sc c))
          | WLoc l => Ok (store h d k (Ar l))
          | WList dt cs => let '(h, l) := alloc h (AR dt cs) in Ok (store h d k (Ar l))
          end
      end
  | _ => Err AttributeErrorE
  end.

(** ** Deleting *)

(** The loop over [mapkeys] (keydict.py:267-279); [self.keymap[m].remove(key)]
    raises when the key is not there. [key] is None for an element. *)
Fixpoint unmap (km : list (mapkey * list nat)) (ms : list mapkey) (key : option nat) : res (list (mapkey * list nat)) :=
  match ms with
  | [] => Ok km
  | m :: ms' =>
      match dget km m with
      | None => unmap km ms' key
      | Some [_] => unmap (ddel km m) ms' key
      | Some l =>
          match key with
          | Some k => if memb k l then unmap (dset km m (sdel l k)) ms' key else Err KeyErrorE
          | None => Err KeyErrorE
          end
      end
  end.

Definition del_key (h : heap) (d : kd) (k : nat) : res (heap * kd) :=
  if dmem (d_items d) k then
    let! km := unmap (d_keymap d) (MV k :: map MN (names k)) (Some k) in
    Ok (h, KD (ddel (d_items d) k) km (d_unmapped d) (d_owned d))
  else Err KeyErrorE.

Definition del_elem (h : heap) (d : kd) (k i : nat) : res (heap * kd) :=
  let! h := write_cell h d k i CNan in
  let items :=
    match dget (d_items d) k with
    | Some (Ar l) => match h !! l with
                     | Some a => if forallb is_nan (a_cells a) then ddel (d_items d) k else d_items d
                     | None => d_items d
                     end
    | _ => d_items d
    end in
  let! km := unmap (d_keymap d) (ME k i :: MV k :: map MN (enames k i)) None in
  Ok (h, KD items km (d_unmapped d) (d_owned d)).

Fixpoint del_keys (h : heap) (d : kd) (ks : list nat) : res (heap * kd) :=
  match ks with
  | [] => Ok (h, d)
  | k :: ks' => let! hd := del_key h d k in del_keys (fst hd) (snd hd) ks'
  end.

(** [__delitem__] (keydict.py:249-279) *)
Definition delitem (h : heap) (d : kd) (a : karg) : res (heap * kd) :=
  match a with
  | KVar k => del_key h d k
  | KElem k i => del_elem h d k i
  | KName n =>
      let d := update_keymap d in
      match kget (d_keymap d) (MN n) with [] => Err KeyErrorE | ks => del_keys h d ks end
  end.

(** ** Copying *)

Fixpoint set_items (h : heap) (d : kd) (its : list (nat * slot)) : res (heap * kd) :=
  match its with
  | [] => Ok (h, d)
  | (k, s) :: its' =>
      let! hd := setitem h d (KVar k) (match s with Sc c => WCell c | Ar l => WLoc l end) in
      set_items (fst hd) (snd hd) its'
  end.

(** [update(other)], [other] being a KeyDict (keydict.py:148-156); [KeyDict(other)]
    is [update] on an empty one. *)
Definition kd_update (h : heap) (d other : kd) : res (heap * kd) :=
  match d_items d with
  | [] => Ok (h, KD (d_items other)
                    (fold_left (fun km ml => dset km (fst ml) (snd ml)) (d_keymap other) (d_keymap d))
                    (fold_left sadd (d_unmapped other) (d_unmapped d)) (d_owned d))
  | _ => set_items h d (d_items other)
  end.

End KeyDict.

Arguments cell A : clear implicits.
Arguments arr A : clear implicits.
Arguments heap A : clear implicits.
Arguments slot A : clear implicits.
Arguments kd A : clear implicits.
Arguments wval A : clear implicits.
Arguments reading A : clear implicits.

(** ** Numbers for executions *)

(** Truncation towards zero. *)
Definition Qtrunc (q : Q) : Q := inject_Z (Z.quot (Qnum q) (QDen q)).

(** Rounding to 24 significant bits, half up; overflow and denormals are left
    out. *)
Definition Qsingle (q : Q) : Q :=
  let n := Z.abs (Qnum q) in let d := QDen q in
  if (n =? 0)%Z then q else
  let e := (Z.log2 n - Z.log2 d - 23)%Z in
  let e := if (n * 2 ^ Z.max 0 (- e) <? d * 2 ^ Z.max 0 e * 2 ^ 23)%Z then (e - 1)%Z else e in
  let num := (n * 2 ^ Z.max 0 (- e))%Z in
  let den := (d * 2 ^ Z.max 0 e)%Z in
  let m := ((2 * num + den) / (2 * den))%Z in
  Qred (Qmake (Z.sgn (Qnum q) * m * 2 ^ Z.max 0 e)%Z (Z.to_pos (2 ^ Z.max 0 (- e)))).
