(** Model of the parsing of substitutions (gpkit/nomials/substitution.py:8-80)
    and of the part of KeySet it relies on (gpkit/keydict.py:107-116, 282-291).
    Simplifications: one-dimensional vectors; no units; the warnings about ragged
    sequences are left out. *)
From Verif Require Import Base KeyDict.
Open Scope nat_scope.

(** A variable of the problem: a scalar, or an element of a vector. As a key of
    substitutions [(k, None)] is also the vector [k]. *)
Definition vk := (nat * option nat)%type.
Global Instance vk_eq_dec : EqDecision vk.
Proof. unfold vk. solve_decision. Defined.

(** The keys of [KeySet.keymap]: variables and strings. *)
Inductive mkey := MKey (p : vk) | MStr (n : nat).
Global Instance mkey_eq_dec : EqDecision mkey.
Proof. solve_decision. Defined.

Section Subs.
Context {A : Type}.
(** [key.shape] (None for scalars), the strings of a variable or vector, and those
    of an element only (varkey.py:33-47). *)
Variable size : nat -> option nat.
Variable names : nat -> list nat.
Variable enames : nat -> nat -> list nat.

(** The second part of a ["sweep"] tuple: numbers, a table with a row for each
    point and a column for each element, or a function. *)
Inductive sweeping := Points (vs : list A) | Rows (rs : list (list A)) | ByFun (f : nat).
Variable range : nat -> sweeping.

(** The value of a substitution: an object without a length or a ["sweep"] tuple;
    an array or list. *)
Inductive sval := VOne (c : cell A) | VArr (cs : list (cell A)).

(** The three dicts that are returned. A swept value is a list, a table, or a
    single object. *)
Inductive swept := SwArr (cs : list (cell A)) | SwRows (rs : list (list A)) | SwOne (c : cell A).
Record parsed := PS {
  p_const : list (vk * sval);
  p_sweep : list (vk * swept);
  p_linked : list (vk * nat)
}.
Definition nothing : parsed := PS [] [] [].

(** [sub], once split (substitution.py:37-39): an object without length, an array,
    a table. *)
Inductive esub := EOne (c : cell A) | EArr (cs : list (cell A)) | ERows (rs : list (list A)).
Definition of_sweep (s : nat) : esub :=
  match range s with Points vs => EArr (map CNum vs) | Rows rs => ERows rs | ByFun f => EOne (CFun f) end.
(** [splitsweep] (small_scripts.py:50-60) *)
Definition split (v : sval) : bool * esub :=
  match v with
  | VOne (CSweep s) => (true, of_sweep s)
  | VOne c => (false, EOne c)
  | VArr cs => (false, EArr cs)
  end.

(** [sub[:, i]] *)
Fixpoint column (rs : list (list A)) (i : nat) : res (list (cell A)) :=
  match rs with
  | [] => Ok []
  | r :: rs' => match r !! i with
                | Some a => let! col := column rs' i in Ok (CNum a :: col)
                | None => Err IndexErrorE
                end
  end.

(** The value for one key, and whether it is swept (substitution.py:41-69). *)
Definition value_for (sweepsub : bool) (sub : esub) (p : vk) : res (bool * esub) :=
  match p, sub with
  | (_, None), _ | _, EOne _ => Ok (sweepsub, sub)
  | (k, Some i), EArr cs =>
      if bool_decide (size k = Some (length cs)) then
        match cs !! i with
        | None => Err IndexErrorE
        | Some (CSweep s) => Ok (true, of_sweep s)
        | Some c => Ok (sweepsub, EOne c)
        end
      else if sweepsub then
        (* the broadcast may work, but an array has no second index *)
        (if (length cs =? 1) || bool_decide (size k = Some 1) then Err IndexErrorE else Err ValueErrorE)
      else Err ValueErrorE
  | (k, Some i), ERows rs =>
      let width := match rs with [] => 0 | r :: _ => length r end in
      if bool_decide (size k = Some width) || (width =? 1) || bool_decide (size k = Some 1)
      then let! col := column rs i in Ok (sweepsub, EArr col)
      else Err ValueErrorE
  end.

(** Where it goes (substitution.py:70-80). *)
Definition put (sweepsub : bool) (value : esub) (p : vk) (r : parsed) : parsed :=
  match value with
  | EOne (CFun f) => PS (p_const r) (p_sweep r) (dset (p_linked r) p f)
  | _ =>
      if sweepsub
      then PS (p_const r) (dset (p_sweep r) p (match value with EOne c => SwOne c | EArr cs => SwArr cs | ERows rs => SwRows rs end))
              (p_linked r)
      else match value with
           | EOne CNan | ERows _ => r
           | EOne c => PS (dset (p_const r) p (VOne c)) (p_sweep r) (p_linked r)
           | EArr cs => PS (dset (p_const r) p (VArr cs)) (p_sweep r) (p_linked r)
           end
  end.

(** [append_sub] (substitution.py:35-80): [sweepsub] is kept from one key to the
    next. *)
Fixpoint append_loop (sweepsub : bool) (sub : esub) (keys : list vk) (r : parsed) : res parsed :=
  match keys with
  | [] => Ok r
  | p :: keys' =>
      let! sv := value_for sweepsub sub p in
      let '(sweepsub, value) := sv in
      append_loop sweepsub sub keys' (put sweepsub value p r)
  end.
Definition append_sub (sub : sval) (keys : list vk) (r : parsed) : res parsed :=
  let '(sweepsub, sub) := split sub in append_loop sweepsub sub keys r.

(** ** The keymap of the variables *)

(** [key.keys] (varkey.py:38-47) *)
Definition keys_of (p : vk) : list mkey :=
  match p with
  | (k, None) => map MStr (names k)
  | (k, Some i) => MKey (k, None) :: map MStr (names k ++ enames k i)
  end.
Definition mget (km : list (mkey * list vk)) (m : mkey) : list vk := match dget km m with Some l => l | None => [] end.
Definition madd (km : list (mkey * list vk)) (m : mkey) (p : vk) : list (mkey * list vk) :=
  dset km m (if bool_decide (p ∈ mget km m) then mget km m else mget km m ++ [p]).
(** [KeySet(varkeys)] (keydict.py:282-291) and [update_keymap] (107-116), for
    the variables in the orders [o1] and [o2] of the two sets. *)
Definition keymap_of (o1 o2 : list vk) : list (mkey * list vk) :=
  fold_left (fun km p => fold_left (fun km m => madd km m p) (keys_of p) km) o2
    (fold_left (fun km p => madd km (MKey p) p) o1 []).

(** ** parse_subs (substitution.py:8-32) *)

(** The loop over found substitutions. *)
Fixpoint append_all (found : list (sval * list vk)) (r : parsed) : res parsed :=
  match found with
  | [] => Ok r
  | (sub, keys) :: found' => let! r := append_sub sub keys r in append_all found' r
  end.

(** With [clean]. *)
Definition parse_clean (vks : list vk) (subs : list (vk * sval)) : res parsed :=
  append_all (flat_map (fun p => match dget subs p with Some v => [(v, [p])] | None => [] end) vks) nothing.

(** With a KeyDict, which has scalars and vectors as keys. [ord] is the order in
    which a set is visited. *)
Definition parse_keydict (ord : list vk -> list vk) (km : list (mkey * list vk)) (subs : list (nat * sval)) : res parsed :=
  append_all (flat_map (fun ml => match fst ml with
                                  | MKey (k, None) => match dget subs k with Some v => [(v, ord (snd ml))] | None => [] end
                                  | _ => []
                                  end) km) nothing.

(** With any other dict, whose keys are variables, vectors, elements or
    strings. *)
Definition parse_dict (ord : list vk -> list vk) (km : list (mkey * list vk)) (subs : list (mkey * sval)) : res parsed :=
  append_all (flat_map (fun mv => match dget km (fst mv) with Some l => [(snd mv, ord l)] | None => [] end) subs) nothing.

(** ** Specification *)

(** What a value is for: one of the three dicts, or nothing (nan). *)
Inductive class := ToConst (v : sval) | ToSweep (w : swept) | ToLink (f : nat) | ToNothing.

(** The class of an object. *)
Definition class_of (c : cell A) : class :=
  match c with
  | CNum _ => ToConst (VOne c)
  | CNan => ToNothing
  | CFun f => ToLink f
  | CSweep s => match range s with
                | Points vs => ToSweep (SwArr (map CNum vs))
                | Rows rs => ToSweep (SwRows rs)
                | ByFun f => ToLink f
                end
  end.

(** The class of a variable's own value, when [v] is substituted for the variable
    itself ([itself]) or for the vector it is an element of. A vector can be swept
    with one number for each element, or with a column for each. *)
Definition own_class (itself : bool) (v : sval) (p : vk) : option class :=
  match snd p with
  | None => Some (match v with VOne c => class_of c | VArr cs => ToConst (VArr cs) end)
  | Some i =>
      match v with
      | VOne (CSweep s as c) =>
          if itself then Some (class_of c) else
          match range s with
          | Points vs => option_map (fun a => ToSweep (SwOne (CNum a))) (vs !! i)
          | Rows rs => match column rs i with Ok col => Some (ToSweep (SwArr col)) | Err _ => None end
          | ByFun f => Some (ToLink f)
          end
      | VOne c => Some (class_of c)
      | VArr cs => if itself then None else option_map class_of (cs !! i)
      end
  end.

(** Key [m] of a dict stands for [p]: it is [p], the vector of [p], or a string
    for one of them. And: it stands for [p] itself. *)
Definition stands_for (m : mkey) (p : vk) : Prop :=
  m = MKey p \/ m = MKey (fst p, None) \/
  exists n, m = MStr n /\ (In n (names (fst p)) \/ match snd p with Some i => In n (enames (fst p) i) | None => False end).
Definition itself (m : mkey) (p : vk) : bool :=
  match m with
  | MKey q => bool_decide (q = p)
  | MStr n => match snd p with Some i => negb (bool_decide (n ∈ names (fst p))) | None => true end
  end.
(** One object, and not a sweep. *)
Definition one_value (v : sval) : Prop := match v with VOne (CSweep _) => False | VOne _ => True | VArr _ => False end.

(** Variable [p] is in the dict of its class, with its value, and in no other. *)
Definition classified (r : parsed) (p : vk) (c : option class) : Prop :=
  dget (p_const r) p = (match c with Some (ToConst v) => Some v | _ => None end) /\
  dget (p_sweep r) p = (match c with Some (ToSweep w) => Some w | _ => None end) /\
  dget (p_linked r) p = (match c with Some (ToLink f) => Some f | _ => None end).

(** Variables of a problem: scalars, and elements of vectors. *)
Definition is_var (p : vk) : Prop :=
  match p with (k, None) => size k = None | (k, Some i) => exists n, size k = Some n /\ i < n end.

(** A value with the shape of its key: one object; or, for a vector, an array of
    as many, or a sweep with as many numbers or columns. *)
Definition shaped (k : nat) (v : sval) : Prop :=
  match size k with
  | None => match v with VOne _ => True | VArr _ => False end
  | Some n =>
      match v with
      | VArr cs => length cs = n
      | VOne (CSweep s) => match range s with
                           | Points vs => length vs = n
                           | Rows rs => rs <> [] /\ Forall (fun r => length r = n) rs
                           | ByFun _ => True
                           end
      | VOne _ => True
      end
  end.

(** An array that does not mix sweeps with numbers and nan. *)
Definition plain_cell (c : cell A) : Prop := match c with CNum _ | CNan => True | _ => False end.
Definition is_sweep (c : cell A) : Prop := match c with CSweep _ => True | _ => False end.
Definition unmixed (v : sval) : Prop :=
  match v with VArr cs => Forall (fun c => ~ is_sweep c) cs \/ Forall (fun c => ~ plain_cell c) cs | VOne _ => True end.
End Subs.

Arguments sweeping A : clear implicits.
Arguments sval A : clear implicits.
Arguments swept A : clear implicits.
Arguments parsed A : clear implicits.
Arguments esub A : clear implicits.
Arguments class A : clear implicits.
