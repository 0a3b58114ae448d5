(** Model of saving and reading back variables: making a VarKey, [__getstate__] and [__setstate__] (gpkit/varkey.py:22-61), around
    pickle.dumps and pickle.loads, and what the value of a variable is used as (gpkit/small_scripts.py:45-59;
    gpkit/nomials/substitution.py:36-80). Simplifications: pickle itself is modelled by what it does to values; entries of a description
    other than those that identify a variable are numbers, texts, functions and sweeps; units are as written. *)
From Coq Require Import Strings.String.
From Verif Require Import Base Globals Lookup.
Local Open Scope list_scope.
Open Scope nat_scope.

Section Pickle.
Context {T : Type}.

(** An entry of a description. A sweep is a tuple of the word "sweep" and values, or a function; [literal] says that the word is the
    object that "sweep" is in the source of gpkit, as it is if it was written in a program. *)
Inductive dval := DNum (a : T) | DText (s : string) | DFun (f : nat) | DSweep (literal : bool) (vs : list T) | DSweepFun (literal : bool) (f : nat).
(** A VarKey: what identifies it, other entries of [descr], and the entry "veckey" *)
Inductive varkey := VarKey (vid : vkey) (others : list (string * dval)) (vec : option varkey).
Definition vid (v : varkey) : vkey := let 'VarKey i _ _ := v in i.
Definition others (v : varkey) : list (string * dval) := let 'VarKey _ o _ := v in o.
Definition vec (v : varkey) : option varkey := let 'VarKey _ _ w := v in w.

(** [__init__] (22-49), with the counter [unique_id]: a variable without a name is numbered *)
Definition fbox (n : nat) : string := ("\fbox{" ++ show_nat n ++ "}")%string.
Definition init (count : nat) (name : string) (lin : option lineage) (idx : option (list nat)) (units : string)
    (os : list (string * dval)) (w : option varkey) : varkey * nat :=
  let '(name, count) := if string_dec name "" then (fbox count, S count) else (name, count) in
  (VarKey (VKey name lin idx (unitrepr (VKey name lin idx units))) os w, count).
(** [self.veckey] (43-49): if none was given one is made, which is no entry of the description *)
Definition veckey_of (v : varkey) : option varkey :=
  match vec v with
  | Some w => Some w
  | None => match vk_idx (vid v) with
            | Some _ => Some (VarKey (VKey (vk_name (vid v)) (vk_lineage (vid v)) None (vk_units (vid v))) (others v) None)
            | None => None
            end
  end.
(** [self.keys] (40-49): names and the vector *)
Definition keys_of (v : varkey) : list string * option vkey :=
  ([vk_name (vid v); full_name (vid v)] ++
     match vk_idx (vid v), vec v with
     | Some _, Some _ => [full_name (VKey (vk_name (vid v)) (vk_lineage (vid v)) None (vk_units (vid v)))]
     | _, _ => []
     end,
   match vk_idx (vid v), vec v with Some _, Some w => Some (vid w) | _, _ => None end).

(** [__getstate__] (51-57): functions are replaced by texts *)
Variable show_fun : nat -> string.
Definition getstate (os : list (string * dval)) : list (string * dval) :=
  map (fun '(k, d) => (k, match d with DFun f => DText ("unpickleable function " ++ show_fun f)%string | _ => d end)) os.
(** What pickle.loads(pickle.dumps(d)) gives: a text is another object. Functions are saved as the names that they have in modules; those
    that have none (lambdas, functions made by functions) raise an error. *)
Variable in_module : nat -> bool.
Definition pickled (d : dval) : res dval :=
  match d with
  | DSweep _ vs => Ok (DSweep false vs)
  | DSweepFun _ f => if in_module f then Ok (DSweepFun false f) else Err TypeErrorE
  | DFun f => if in_module f then Ok d else Err TypeErrorE
  | _ => Ok d
  end.
Fixpoint pickled_all (os : list (string * dval)) : res (list (string * dval)) :=
  match os with
  | [] => Ok []
  | (k, d) :: os' => let! d' := pickled d in let! r := pickled_all os' in Ok ((k, d') :: r)
  end.
(** A variable saved, and read back in a process whose counter is [count] *)
Fixpoint read_back (count : nat) (v : varkey) : res (varkey * nat) :=
  let 'VarKey i os w := v in
  let! os' := pickled_all (getstate os) in
  let! wc := match w with
             | None => Ok (None, count)
             | Some w => let! r := read_back count w in let '(w', c) := r in Ok (Some w', c)
             end in
  let '(w', c) := wc in
  Ok (init c (vk_name i) (vk_lineage i) (vk_idx i) (vk_units i) os' w').

(** What an entry "value" is used as when models are solved: [splitsweep] (small_scripts.py:50-59), [append_sub] (substitution.py:36-80) *)
Inductive use := Constant (a : T) | Sweep (vs : list T) | Linked (f : nat) | SweepBy (f : nat) | NotANumber.
Definition use_of (d : dval) : use :=
  match d with
  | DNum a => Constant a
  | DFun f => Linked f
  | DSweep true vs => Sweep vs
  | DSweepFun true f => SweepBy f
  | _ => NotANumber
  end.
End Pickle.
Arguments dval : clear implicits.
Arguments varkey : clear implicits.
