(** Model of the sliders of a model: [modelinteract] (gpkit/interactive/widgets.py:10-93). Simplifications: variables are scalars; solving and
    showing solutions is left out, as it changes no substitution; sets are lists. *)
From Coq Require Import Strings.String.
From Verif Require Import Base Globals Lookup.
Local Open Scope list_scope.
Open Scope nat_scope.

(** [str(k)] (varkey.py:63-76) of a scalar *)
Definition shown_name (k : vkey) : string := sort_name k.

Section Widgets.
Context {T : Type} `{Num T}.

(** A substitution: a number, a sweep of numbers, or something else, such as a function *)
Inductive sub := SNum (v : T) | SSweep (vs : list T) | SOther.
(** A model's variables ([model.varkeys]) and substitutions *)
Record model := Model { vks : list vkey; subs : list (vkey * sub) }.

(** [model.varkeys[k]] (keydict.py:288-296; Lookup.v and C81 have how names are looked up) *)
Definition named (m : model) (k : mapkey) : list vkey :=
  match k with
  | MKey k => if bool_decide (k ∈ vks m) then [k] else []
  | MStr s => List.filter (fun k => bool_decide (MStr s ∈ keys k)) (vks m)
  end.
(** [k in model.substitutions] (keydict.py:57-105). A name of several scalars is parsed to None, as their veckeys are all None. *)
Definition in_subs (m : model) (k : mapkey) : bool :=
  match k with
  | MKey k => dmem (subs m) k
  | MStr _ => match named m k with [k] => dmem (subs m) k | _ => false end
  end.
(** [model.substitutions[name] = v] (keydict.py:57-79, 179-196): None has no shape *)
Definition set_named (m : model) (name : string) (v : T) : res model :=
  match named m (MStr name) with
  | [] => Err KeyErrorE
  | [k] => Ok (Model (vks m) (dset (subs m) k (SNum v)))
  | _ => Err AttributeErrorE
  end.

(** [ranges] as a dictionary: a tuple of numbers, or None *)
Definition ranges := list (mapkey * option (list T)).
Inductive asked := NoRanges | Listed (ks : list mapkey) | Ranges (r : ranges).
(** One round of the loop (widgets.py:34-39) *)
Definition to_keys (m : model) (st : list vkey * ranges) (k : mapkey) : res (list vkey * ranges) :=
  let '(vars, rs) := st in
  if in_subs m k then
    match dget rs k with
    | None => Err KeyErrorE
    | Some r => Ok (fold_left (fun l key => add key l) (named m k) vars,
                    ddel (fold_left (fun rs key => dset rs (MKey key) r) (named m k) rs) k)
    end
  else Ok st.
Fixpoint loop {A B} (f : A -> B -> res A) (st : A) (l : list B) : res A :=
  match l with [] => Ok st | x :: l' => let! st' := f st x in loop f st' l' end.
(** Lines 29-41 *)
Definition slider_vars (m : model) (a : asked) : res (list vkey * ranges) :=
  match a with
  | NoRanges | Listed [] | Ranges [] => Ok (dkeys (subs m), [])
  | Listed ks => let rs := fold_left (fun rs k => dset rs k None) ks [] in loop (to_keys m) ([], rs) (dkeys rs)
  | Ranges rs => loop (to_keys m) ([], rs) (dkeys rs)
  end.

Record slider := Slider { s_key : vkey; s_min : T; s_max : T; s_step : T; s_value : T }.
(** [widgets.FloatSlider] of ipywidgets, which is not part of gpkit: a minimum above the maximum raises a TraitError (here ValueErrorE), and
    values are moved into the range *)
Definition float_slider (k : vkey) (vmin vmax step v : T) : res slider :=
  if nltb vmax vmin then Err ValueErrorE
  else Ok (Slider k vmin vmax step (if nltb v vmin then vmin else if nltb vmax v then vmax else v)).
(** Lines 51-63. At 52 [v] is a number, also of a sweep: 53-54 are never reached. *)
Definition two : T := nadd n1 n1.
Definition make_slider (rs : ranges) (k : vkey) (v : T) : res slider :=
  let default := (ndiv v two, nmul v two) in
  let! minmax :=
    match rs with
    | [] => Ok default
    | _ => match dget rs (MKey k) with
           | None => Err KeyErrorE
           | Some None | Some (Some []) => Ok default
           | Some (Some [a; b]) => Ok (a, b)
           | Some (Some _) => Err ValueErrorE
           end
    end in
  let '(vmin, vmax) := minmax in
  float_slider k vmin vmax (ndiv (nsub vmax vmin) (nofZ 24)) v.
(** A round of the loop (42-64) *)
Definition add_slider (rs : ranges) (st : list (string * slider) * model) (k : vkey) : res (list (string * slider) * model) :=
  let '(out, m) := st in
  match dget (subs m) k with
  | None => Err KeyErrorE
  | Some SOther => Ok st
  | Some (SNum v) => let! s := make_slider rs k v in Ok (dset out (shown_name k) s, m)
  | Some (SSweep []) => Err IndexErrorE
  | Some (SSweep (v :: _)) =>
      let m := Model (vks m) (dset (subs m) k (SNum v)) in
      let! s := make_slider rs k v in Ok (dset out (shown_name k) s, m)
  end.
(** [modelinteract], up to the first solve: the sliders by the names [interactive] has them by, and the model *)
Definition modelinteract (m : model) (a : asked) : res (list (string * slider) * model) :=
  let! st := slider_vars m a in let '(vars, rs) := st in loop (add_slider rs) ([], m) vars.
(** [resolve] (71-74): called with the value of every slider *)
Definition resolve (m : model) (moved : list (string * T)) : res model := loop (fun m '(name, v) => set_named m name v) m moved.
End Widgets.
Arguments sub : clear implicits.
Arguments model : clear implicits.
Arguments slider : clear implicits.
Arguments asked : clear implicits.
Arguments ranges : clear implicits.
