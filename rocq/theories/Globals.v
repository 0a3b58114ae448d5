(** Model of the session's global state: the SignomialsEnabled, Vectorize and NamedVariables environments
    (gpkit/globals.py:51-118), the variables made in them (gpkit/nomials/variables.py:14-68), and what identifies a
    variable (gpkit/varkey.py:24-49, 63-75, 102-105). *)
From Verif Require Import Base.
From Coq Require Import Strings.String Strings.Ascii.
Open Scope string_scope.
Open Scope nat_scope.

(** ** Variable keys *)

(** [lineage]: the (name, number) of each model around *)
Definition lineage := list (string * nat).

(** A VarKey's description, as far as its identity goes; [vk_lineage] is [None] outside of models. Simplification: the name is
    given (unnamed variables are numbered, varkey.py:27); units are as written, "" or "-" for none. *)
Record vkey := VKey { vk_name : string; vk_lineage : option lineage; vk_idx : option (list nat); vk_units : string }.
Global Instance vkey_dec : EqDecision vkey.
Proof. solve_decision. Defined.

(** [str(n)] *)
Fixpoint digits (u : Decimal.uint) : string :=
  match u with
  | Decimal.Nil => ""
  | Decimal.D0 u' => String "0" (digits u') | Decimal.D1 u' => String "1" (digits u')
  | Decimal.D2 u' => String "2" (digits u') | Decimal.D3 u' => String "3" (digits u')
  | Decimal.D4 u' => String "4" (digits u') | Decimal.D5 u' => String "5" (digits u')
  | Decimal.D6 u' => String "6" (digits u') | Decimal.D7 u' => String "7" (digits u')
  | Decimal.D8 u' => String "8" (digits u') | Decimal.D9 u' => String "9" (digits u')
  end.
Definition show_nat (n : nat) : string := digits (Nat.to_uint n).

(** [sep.join(l)] *)
Fixpoint join (sep : string) (l : list string) : string :=
  match l with
  | [] => ""
  | [s] => s
  | s :: l' => s ++ sep ++ join sep l'
  end.

(** [lineagestr(lineage, modelnums=False)] (repr_conventions.py:21-26) *)
Definition lineage_names (l : lineage) : string := join "." (map fst l).

(** [str(lineage)]: Python's representation of a tuple of tuples. Simplification: names need no escaping (class names do not). *)
Definition show_pair (p : string * nat) : string := "('" ++ fst p ++ "', " ++ show_nat (snd p) ++ ")".
Definition show_lineage (l : lineage) : string :=
  match l with
  | [p] => "(" ++ show_pair p ++ ",)"
  | _ => "(" ++ join ", " (map show_pair l) ++ ")"
  end.

(** [str_without(["modelnums", "vec"])] (varkey.py:63-75) *)
Definition full_name (k : vkey) : string :=
  let name := match vk_lineage k with
              | Some ((_ :: _) as l) => lineage_names l ++ "." ++ vk_name k
              | _ => vk_name k
              end in
  match vk_idx k with
  | Some ((_ :: _) as idx) => name ++ "[" ++ join "," (map show_nat idx) ++ "]"
  | _ => name
  end.

(** [unitrepr] (varkey.py:28-34) *)
Definition unitrepr (k : vkey) : string :=
  if bool_decide (vk_units k ∈ [""; "-"]) then "-" else vk_units k.

(** [eqstr] (varkey.py:37-38) *)
Definition eqstr (k : vkey) : string :=
  full_name k ++ (match vk_lineage k with Some l => show_lineage l | None => "None" end) ++ unitrepr k.

(** [VarKey.__eq__] (varkey.py:102-105), and [__hash__] for a hash function of strings (varkey.py:39, 80) *)
Definition vk_eq (a b : vkey) : bool := if string_dec (eqstr a) (eqstr b) then true else false.
Definition vk_hash {H : Type} (hash : string -> H) (k : vkey) : H := hash (eqstr k).

(** ** Environments *)

(** The class attributes of the environments (globals.py:66, 77, 95-97). The rest records history: the variables made, latest
    first, and for each NamedVariables environment left, its lineage and the list of variables it gave out. *)
Record state := State {
  signomials : bool;
  vectorization : list nat;
  current : lineage;
  modelnums : list ((lineage * string) * nat);
  namedvars : list (lineage * list vkey);
  made : list vkey;
  entered : list lineage;
  left_ : list (lineage * list vkey) }.

(** A session before anything is done. *)
Definition fresh : state := State false [] [] [] [] [] [] [].

(** What a program does, as far as the environments go. [Catch p q] is try p except q. A model with a [setup] method is
    [Named (class name) setup] (model.py:49-60). *)
Inductive prog :=
  | Pass
  | Raise (e : exn)
  | Seq (p q : prog)
  | Catch (p q : prog)
  | Signomials (p : prog)
  | Vectorized (n : nat) (p : prog)
  | Named (name : string) (p : prog)
  | MakeVar (name : string) (idx : option (list nat)) (units : string)
  | ResetNumbers.

(** [addmodelstodescr] and the making of a [VarKey] (variables.py:14-19, 61-62) *)
Definition make_var (name : string) (idx : option (list nat)) (units : string) (s : state) : state :=
  match current s with
  | [] => State (signomials s) (vectorization s) (current s) (modelnums s) (namedvars s)
                (VKey name None idx units :: made s) (entered s) (left_ s)
  | l => let v := VKey name (Some l) idx units in
         State (signomials s) (vectorization s) (current s) (modelnums s)
               (dset (namedvars s) l (default [] (dget (namedvars s) l) ++ [v])%list)
               (v :: made s) (entered s) (left_ s)
  end.

(** [SignomialsEnabled.__enter__], [__exit__] (globals.py:69-70) *)
Definition set_signomials (b : bool) (s : state) : state :=
  State b (vectorization s) (current s) (modelnums s) (namedvars s) (made s) (entered s) (left_ s).
(** [Vectorize.__enter__], [__exit__] (globals.py:82-88) *)
Definition set_vectorization (v : list nat) (s : state) : state :=
  State (signomials s) v (current s) (modelnums s) (namedvars s) (made s) (entered s) (left_ s).
(** [NamedVariables.__enter__] (globals.py:108-113) *)
Definition enter_named (name : string) (s : state) : state :=
  let num := default 0 (dget (modelnums s) (current s, name)) in
  let l := (current s ++ [(name, num)])%list in
  State (signomials s) (vectorization s) l (dset (modelnums s) (current s, name) (S num))
        (if dmem (namedvars s) l then namedvars s else dset (namedvars s) l [])
        (made s) (l :: entered s) (left_ s).
(** [NamedVariables.__exit__] (globals.py:115-118) *)
Definition exit_named (s : state) : res state :=
  match dget (namedvars s) (current s) with
  | None => Err KeyErrorE
  | Some vs => Ok (State (signomials s) (vectorization s) (removelast (current s)) (modelnums s)
                         (ddel (namedvars s) (current s)) (made s) (entered s) ((current s, vs) :: left_ s))
  end.

(** Running a program: the state afterwards and the exception raised, if any. *)
Fixpoint run (p : prog) (s : state) : state * option exn :=
  match p with
  | Pass => (s, None)
  | Raise e => (s, Some e)
  | Seq p q => match run p s with (s', None) => run q s' | r => r end
  | Catch p q => match run p s with (s', Some _) => run q s' | r => r end
  | Signomials p => let (s', r) := run p (set_signomials true s) in (set_signomials false s', r)
  | Vectorized n p =>
      let (s', r) := run p (set_vectorization (n :: vectorization s) s) in
      (set_vectorization (tail (vectorization s')) s', r)
  | Named name p =>
      let (s', r) := run p (enter_named name s) in
      match exit_named s' with
      | Ok s'' => (s'', r)
      | Err e => (s', Some e)
      end
  | MakeVar name idx units => (make_var name idx units s, None)
  | ResetNumbers => (State (signomials s) (vectorization s) (current s) [] (namedvars s) (made s) (entered s) (left_ s), None)
  end.

(** Programs that do not reset the numbers of models. *)
Fixpoint no_reset (p : prog) : Prop :=
  match p with
  | Seq p q | Catch p q => no_reset p /\ no_reset q
  | Signomials p | Vectorized _ p | Named _ p => no_reset p
  | ResetNumbers => False
  | _ => True
  end.
