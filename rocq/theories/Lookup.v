(** Model of looking up the variables of a constraint set (gpkit/constraints/set.py:29-31, 123-158), of the KeySet they are in
    (gpkit/keydict.py:50-116, 277-296) and of asking whether a name is in the set's substitutions. *)
From Verif Require Import Base Globals.
From Coq Require Import Strings.String.
Local Open Scope list_scope.
Open Scope nat_scope.

(** Keys are those of Globals.v, by their descriptions (what it takes for [==] to agree is C50). A vector has no index. *)
Definition has_idx (k : vkey) : bool := match vk_idx k with Some (_ :: _) => true | _ => false end.
(** [k.veckey] *)
Definition veckey (k : vkey) : option vkey :=
  if has_idx k then Some (VKey (vk_name k) (vk_lineage k) None (vk_units k)) else None.
(** [k.keys] (varkey.py:40-49): names, and the vector *)
Inductive mapkey := MStr (s : string) | MKey (k : vkey).
Global Instance mapkey_dec : EqDecision mapkey.
Proof. solve_decision. Defined.
Definition keys (k : vkey) : list mapkey :=
  MStr (vk_name k) :: MStr (full_name k) ::
  match veckey k with Some v => [MKey v; MStr (full_name v)] | None => [] end.

(** ** KeySet *)

(** Sets are lists; [members] is the set itself. *)
Record keyset := KeySet { members : list vkey; keymap : list (mapkey * list vkey); unmapped : list vkey }.
Definition add (k : vkey) (l : list vkey) : list vkey := if bool_decide (k ∈ l) then l else l ++ [k].
(** [self.keymap[m].add(k)], with a defaultdict(set) *)
Definition kget (km : list (mapkey * list vkey)) (m : mapkey) : list vkey := match dget km m with Some l => l | None => [] end.
Definition kadd (km : list (mapkey * list vkey)) (m : mapkey) (k : vkey) : list (mapkey * list vkey) := dset km m (add k (kget km m)).
(** [KeySet(vks)] (keydict.py:50-55, 281-286) *)
Definition key_set (vks : list vkey) : keyset := KeySet vks (fold_left (fun km k => kadd km (MKey k) k) vks []) vks.
(** [update_keymap] (107-116). The copies that are made do not matter here, as no other set shares them. *)
Definition update_keymap (s : keyset) : keyset :=
  KeySet (members s) (fold_left (fun km k => fold_left (fun km m => kadd km m k) (keys k) km) (unmapped s) (keymap s)) [].
(** [parse_and_index] (57-67): a name makes the map be updated *)
Definition parse (s : keyset) (m : mapkey) : keyset := match m with MKey _ => s | MStr _ => update_keymap s end.
(** [__getitem__] (288-291): what is not there is put there *)
Definition getitem (s : keyset) (m : mapkey) : keyset * list vkey :=
  let s := parse s m in
  match dget (keymap s) m with
  | Some l => (s, l)
  | None => (KeySet (members s) (dset (keymap s) m []) (unmapped s), [])
  end.
(** [__contains__] (81-105), without [collapse_arrays] *)
Definition contains (s : keyset) (m : mapkey) : keyset * bool :=
  let s := parse s m in
  (s, match m with MKey k => bool_decide (k ∈ members s) | MStr _ => false end || dmem (keymap s) m).

(** ** Lookups *)

(** [lineagestr(modelnums=True)] (repr_conventions.py:21-26) *)
Definition path (l : lineage) : string :=
  join "." (map (fun p => if snd p =? 0 then fst p else (fst p ++ show_nat (snd p))%string) l).
(** [_sort_by_name_and_idx] (set.py:29-31) *)
Definition sort_name (k : vkey) : string :=
  match vk_lineage k with Some ((_ :: _) as l) => (path l ++ "." ++ vk_name k)%string | _ => vk_name k end.
Definition sort_idx (k : vkey) : list nat := match vk_idx k with Some i => i | None => [] end.
(** Python's [<=] on tuples of numbers *)
Fixpoint idx_leb (a b : list nat) : bool :=
  match a, b with
  | [], _ => true
  | _ :: _, [] => false
  | i :: a', j :: b' => (i <? j) || ((i =? j) && idx_leb a' b')
  end.
Definition key_leb (a b : vkey) : bool :=
  match String.compare (sort_name a) (sort_name b) with Lt => true | Eq => idx_leb (sort_idx a) (sort_idx b) | Gt => false end.
(** [sorted(...)] *)
Fixpoint insert (k : vkey) (l : list vkey) : list vkey :=
  match l with
  | [] => [k]
  | x :: l' => if key_leb k x then k :: l else x :: insert k l'
  end.
Definition sorted (l : list vkey) : list vkey := fold_right insert [] l.

(** [variables_byname] (set.py:146-150) *)
Definition variables_byname (s : keyset) (m : mapkey) : keyset * list vkey :=
  let '(s, l) := getitem s m in (s, sorted l).

(** What is found: a variable, or an array with variables at some indices and nan at the others *)
Inductive found := FVar (k : vkey) | FArray (v : vkey) (at_ : list (list nat * vkey)).
(** [_choosevar] (130-144) *)
Definition choosevar (l : list vkey) : res found :=
  match l with
  | [] => Err KeyErrorE
  | first :: others =>
      match veckey first with
      | None => match others with [] => Ok (FVar first) | _ => Err ValueErrorE end
      | Some v =>
          if existsb (fun k => negb (bool_decide (veckey k = Some v))) others
          then match others with [] => Ok (FVar first) | _ => Err ValueErrorE end
          else Ok (FArray v (fold_left (fun d k => dset d (sort_idx k) k) l []))
      end
  end.
(** [__getitem__] (123-128), of a name or a variable that is not the name of a constraint *)
Definition lookup (s : keyset) (m : mapkey) : keyset * res found :=
  let '(s, l) := variables_byname s m in (s, choosevar l).

(** ** Substitutions *)

(** [name in self.substitutions] (keydict.py:68-86): [has] says whether one key is there. Simplification: that one key is found by its
    description; a vector is there if it has an entry (KeyDict.v is about this). *)
Definition in_substitutions (has : vkey -> bool) (s : keyset) (name : string) : keyset * bool :=
  let '(s, there) := contains s (MStr name) in
  if there then
    let '(s, l) := getitem s (MStr name) in
    match l with
    | [] => (s, true)   (* ValueError: not enough values to unpack *)
    | [k] => (s, has k)
    | k :: others => if forallb (fun k' => bool_decide (veckey k' = veckey k)) others
                     then (s, match veckey k with Some v => has v | None => false end)
                     else (s, true)
    end
  else (s, false).

(** What may be done with a set's variables: a history of it *)
Inductive op := Look (m : mapkey) | Ask (m : mapkey) | InSubs (name : string).
Definition step (has : vkey -> bool) (s : keyset) (o : op) : keyset :=
  match o with
  | Look m => fst (lookup s m)
  | Ask m => fst (contains s m)
  | InSubs name => fst (in_substitutions has s name)
  end.
Definition after (has : vkey -> bool) (vks : list vkey) (ops : list op) : keyset := fold_left (step has) ops (key_set vks).
