(** Model of [HashVector] (gpkit/small_classes.py:152-229). *)
From Verif Require Import Base.

Section HashVector.
Context {K V : Type} `{EqDecision K} `{Num V}.

(** The dict part of a HashVector. *)
Definition hv := list (K * V).

(** One iteration of the loop of [HashVector.__add__]
    (small_classes.py:206-214). *)
Definition hv_add_item (sums : hv) (kv : K * V) : hv :=
  let '(key, value) := kv in
  match dget sums key with
  | Some svalue =>
      if decide (value = nopp svalue) then ddel sums key
      else dset sums key (nadd value svalue)
  | None => dset sums key value
  end.

(** [HashVector.__add__] with a dict argument (small_classes.py:204-216). *)
Definition hv_add (self other : hv) : hv := fold_left hv_add_item other self.

(** [HashVector.__add__] with a number (small_classes.py:202-203). *)
Definition hv_add_num (self : hv) (c : V) : hv :=
  map (fun kv => (fst kv, nadd (snd kv) c)) self.

(** [HashVector.__mul__] with a number (small_classes.py:187-195). *)
Definition hv_mul (self : hv) (c : V) : hv :=
  map (fun kv => (fst kv, nmul (snd kv) c)) self.

(** [HashVector.__pow__] (small_classes.py:181-185). *)
Definition hv_pow (self : hv) (c : V) : hv :=
  map (fun kv => (fst kv, npow (snd kv) c)) self.

(** [__neg__], [__sub__], [__truediv__] (small_classes.py:220-224). Division
    computes [other**-1] first: dividing by zero raises. *)
Definition hv_neg (self : hv) : hv := hv_mul self (nopp n1).
Definition hv_sub (self other : hv) : hv := hv_add self (hv_neg other).
Definition hv_div (self : hv) (c : V) : res hv :=
  if decide (c = n0) then Err ZeroDivisionE
  else Ok (hv_mul self (npow c (nopp n1))).

(** ** The cached hash *)

(** A HashVector object: its items and its [hashvalue] attribute
    (small_classes.py:167). *)
Record hvobj := HV { hv_items : hv; hv_hashvalue : option Z }.

(** Python's [hash] of a (key, value) tuple: any function. *)
Variable ihash : K * V -> Z.

(** [reduce(xor, map(hash, self.items()), 0)] (small_classes.py:172). *)
Definition hash_items (d : hv) : Z :=
  fold_left (fun acc kv => Z.lxor acc (ihash kv)) d 0%Z.

(** [HashVector.__hash__] (small_classes.py:169-173). *)
Definition hv_hash (o : hvobj) : hvobj * Z :=
  match hv_hashvalue o with
  | Some h => (o, h)
  | None => let h := hash_items (hv_items o) in (HV (hv_items o) (Some h), h)
  end.

(** [HashVector.copy] (small_classes.py:175-179). *)
Definition hv_copy (o : hvobj) : hvobj := HV (hv_items o) (hv_hashvalue o).

(** [HashVector.__add__] on objects: the sum forgets the cached hash
    (small_classes.py:215). *)
Definition hvo_add (o : hvobj) (other : hv) : hvobj :=
  HV (hv_add (hv_items o) other) None.

(** [exp.hashvalue ^= hash((vk, x)); del exp[vk]]
    (nomials/map.py:175-176, 190-191, 77-78). [None ^= int] is a TypeError. *)
Definition hvo_del_xor (o : hvobj) (k : K) : res hvobj :=
  match dget (hv_items o) k, hv_hashvalue o with
  | None, _ => Err KeyErrorE
  | Some _, None => Err TypeErrorE
  | Some x, Some h => Ok (HV (ddel (hv_items o) k) (Some (Z.lxor h (ihash (k, x)))))
  end.

(** [exp.hashvalue ^= hash((vk, x)) ^ hash((vk, x-1)); exp[vk] = x-1]
    (nomials/map.py:80-81). *)
Definition hvo_dec_xor (o : hvobj) (k : K) : res hvobj :=
  match dget (hv_items o) k, hv_hashvalue o with
  | None, _ => Err KeyErrorE
  | Some _, None => Err TypeErrorE
  | Some x, Some h =>
      let x' := nsub x n1 in
      Ok (HV (dset (hv_items o) k x')
             (Some (Z.lxor h (Z.lxor (ihash (k, x)) (ihash (k, x'))))))
  end.

(** Assigning an entry of a freshly built HashVector that has not been hashed
    (nomials/math.py:129, 505 and the like): a plain dict assignment. *)
Definition hvo_set_fresh (o : hvobj) (k : K) (v : V) : res hvobj :=
  match hv_hashvalue o with
  | None => Ok (HV (dset (hv_items o) k v) None)
  | Some _ => Err TypeErrorE   (* not done by the library *)
  end.

(** The operations gpkit performs on exponent vectors. *)
Inductive hvop : Type :=
| OpHash | OpCopy | OpAdd (other : hv) | OpMul (c : V)
| OpDelXor (k : K) | OpDecXor (k : K) | OpSetFresh (k : K) (v : V).

Definition hv_step (o : hvobj) (op : hvop) : res hvobj :=
  match op with
  | OpHash => Ok (fst (hv_hash o))
  | OpCopy => Ok (hv_copy o)
  | OpAdd other => Ok (hvo_add o other)
  | OpMul c => Ok (HV (hv_mul (hv_items o) c) None)
  | OpDelXor k => hvo_del_xor o k
  | OpDecXor k => hvo_dec_xor o k
  | OpSetFresh k v => hvo_set_fresh o k v
  end.

Fixpoint hv_run (o : hvobj) (ops : list hvop) : res hvobj :=
  match ops with
  | [] => Ok o
  | op :: ops' => let! o' := hv_step o op in hv_run o' ops'
  end.

End HashVector.

Arguments hv K V : clear implicits.
Arguments hvobj K V : clear implicits.
Arguments hvop K V : clear implicits.
