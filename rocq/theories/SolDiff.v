(** Model of [SolutionArray.diff] (gpkit/solution_array.py:377-479), with [cast] and [unrolled_absmax] (270-299) and what [var_table] (745-785) shows. *)
From Verif Require Import Base.
Open Scope nat_scope.
Local Open Scope list_scope.

(** Values: numbers (of any kind that has no shape, or an empty one), and arrays as nested lists *)
Inductive arr (A : Type) := Scal (x : A) | Arr (l : list (arr A)).
Arguments Scal {A}. Arguments Arr {A}.
Fixpoint amap {A B} (f : A -> B) (a : arr A) : arr B :=
  match a with Scal x => Scal (f x) | Arr l => Arr (map (amap f) l) end.
Fixpoint cells {A} (a : arr A) : list A :=
  match a with Scal x => [x] | Arr l => flat_map cells l end.

Fixpoint mapM {A B} (f : A -> res B) (l : list A) : res (list B) :=
  match l with
  | [] => Ok []
  | x :: l' => let! y := f x in let! ys := mapM f l' in Ok (y :: ys)
  end.
(** numpy's broadcasting after [cast] (283-299) has added axes at the end of the array that has fewer: first axes are aligned, and axes of length 1,
    or missing ones, are repeated. Simplification: arrays are rectangular. *)
Fixpoint cast {A B C} (f : A -> B -> C) (a : arr A) (b : arr B) : res (arr C) :=
  match a, b with
  | Scal x, _ => Ok (amap (f x) b)
  | _, Scal y => Ok (amap (fun x => f x y) a)
  | Arr la, Arr lb =>
      let zip := fix zip (la : list (arr A)) (lb : list (arr B)) : res (list (arr C)) :=
        match la, lb with
        | a :: la', b :: lb' => let! c := cast f a b in let! cs := zip la' lb' in Ok (c :: cs)
        | _, _ => Ok []
        end in
      if length la =? length lb then let! lc := zip la lb in Ok (Arr lc)
      else match lb with
           | [b0] => let! lc := (fix over (la : list (arr A)) := match la with [] => Ok [] | a :: la' => let! c := cast f a b0 in let! cs := over la' in Ok (c :: cs) end) la in Ok (Arr lc)
           | _ => match la with
                  | [a0] => let! lc := mapM (cast f a0) lb in Ok (Arr lc)
                  | _ => Err ValueErrorE
                  end
           end
  end.

Section Diff.
Context {T : Type} {NT : Num T}.

(** Floating point numbers: numbers, infinities (is it negative?) and nan *)
Inductive ext := Val (x : T) | Inf (neg : bool) | Nan.
Definition is_nan (c : ext) : bool := match c with Nan => true | _ => false end.
(** [100*(x/y - 1)], by numpy's division; zeros have no sign *)
Definition rel_diff (x y : T) : ext :=
  if decide (y = n0) then (if decide (x = n0) then Nan else Inf (nltb x n0)) else Val (nmul (nofZ 100) (nsub (ndiv x y) n1)).
(** [x - y] *)
Definition abs_diff (x y : T) : ext := Val (nsub x y).
(** [np.abs] *)
Definition eabs (c : ext) : ext := match c with Val x => Val (nabs x) | Inf _ => Inf false | Nan => Nan end.
(** [<=]; false for nan *)
Definition ele (a b : ext) : bool :=
  match a, b with
  | Nan, _ | _, Nan => false
  | Inf true, _ | _, Inf false => true
  | Inf false, _ | _, Inf true => false
  | Val x, Val y => nleb x y
  end.

(** [np.nanmax] of numbers that are not all nan *)
Definition nanmax (l : list ext) : ext :=
  fold_right (fun c m => if is_nan c then m else if is_nan m then c else if ele m c then c else m) Nan l.
(** [a.max()]: nan if there is one; [None] for no elements, a ValueError *)
Fixpoint amax (l : list ext) : option ext :=
  match l with
  | [] => None
  | [c] => Some c
  | c :: l' => match amax l' with Some m => Some (if is_nan c then Nan else if is_nan m then Nan else if ele m c then c else m) | None => None end
  end.

(** [np.isnan(v).all() or np.nanmax(np.abs(v)) <= minval] (780) *)
Definition skipped (minval : T) (v : arr ext) : bool :=
  forallb is_nan (cells v) || ele (nanmax (map eabs (cells v))) (Val minval).
(** [if minval and hidebelowminval and getattr(v, "shape", None): v[np.abs(v) <= minval] = np.nan] (782-783) *)
Definition hide (minval : T) (v : arr ext) : arr ext :=
  match v with
  | Scal _ => v
  | Arr _ => if decide (minval = n0) then v else amap (fun c => if ele (eabs c) (Val minval) then Nan else c) v
  end.
(** The rows of [var_table]; their order, their texts and the arguments that filter models are left out. *)
Definition rows (minval : T) (data : list (nat * arr ext)) : list (nat * arr ext) :=
  flat_map (fun kv => if skipped minval (snd kv) then [] else [(fst kv, hide minval (snd kv))]) data.

(** [np.argmax]: the first of the largest *)
Definition argmax (l : list ext) : option ext :=
  fold_left (fun best c => match best with None => Some c | Some b => if is_nan b then best else if is_nan c then Some c else if ele (eabs c) (eabs b) then best else Some c end) l None.
(** [unrolled_absmax(values)] (270-280): [None] is None *)
Fixpoint absmax_loop (values : list (arr ext)) (finalval : option (arr ext)) (absmaxest : ext) : res (option (arr ext)) :=
  match values with
  | [] => Ok finalval
  | val :: values' =>
      match amax (map eabs (cells val)) with
      | None => Err ValueErrorE
      | Some m => if ele absmaxest m then absmax_loop values' (Some val) m else absmax_loop values' finalval absmaxest
      end
  end.
Definition unrolled_absmax (values : list (arr ext)) : res (option ext) :=
  let! f := absmax_loop values None (Val n0) in
  match f with
  | None => Ok None
  | Some (Scal c) => Ok (Some c)
  | Some v => match argmax (cells v) with Some c => Ok (Some c) | None => Err ValueErrorE end
  end.

(** A section: the rows of the table, and the number in "The largest is" (437-439). Formatting None by [%+g] is a TypeError. *)
Record section := Section_ { s_rows : list (nat * arr ext); s_largest : option ext }.
Definition section_of (minval : T) (data : list (nat * arr ext)) : res section :=
  match data with
  | [] => Ok (Section_ [] None)      (* [if not data: return []] (773) *)
  | _ =>
      let rs := rows minval data in
      match rs with
      | [] => let! l := unrolled_absmax (map snd data) in
              match l with Some c => Ok (Section_ rs (Some c)) | None => Err TypeErrorE end
      | _ => Ok (Section_ rs None)
      end
  end.

Record solution := Sol { vars : list (nat * arr T); senss : list (nat * arr T) }.
Definition getitem (d : list (nat * arr T)) (k : nat) : res (arr T) := match dget d k with Some v => Ok v | None => Err KeyErrorE end.
Definition has (d : list (nat * arr T)) (k : nat) : bool := match dget d k with Some _ => true | None => false end.
(** [{vk: cast(f, a[vk], b[vk]) for vk in keys}] *)
Definition data_of (f : T -> T -> ext) (a b : list (nat * arr T)) (keys : list nat) : res (list (nat * arr ext)) :=
  mapM (fun k => let! x := getitem a k in let! y := getitem b k in let! d := cast f x y in Ok (k, d)) keys.

(** What is asked for: [None] if not, else the tolerance *)
Record options := Options { showvars : list nat; reltol : option T; abstol : option T; sensstol : option T }.
(** What is shown: variables of one solution only, and sections *)
Record report := Report { only_self : list nat; only_other : list nat; r_rel : option section; r_abs : option section; r_senss : option section }.
Definition maybe (tol : option T) (data : res (list (nat * arr ext))) : res (option section) :=
  match tol with
  | None => Ok None
  | Some t => let! d := data in let! s := section_of t d in Ok (Some s)
  end.
(** [diff] (377-479). [ord]: the order in which sets are gone through. Differences of constraints, and reading files, are left out. *)
Definition diff (ord : list nat -> list nat) (opts : options) (self other : solution) : res report :=
  let keys (d : list (nat * arr T)) := match showvars opts with [] => dkeys d | sv => List.filter (has d) (remove_dups sv) end in
  let svks := keys (vars self) in
  let ovks := keys (vars other) in
  let shared := ord (List.filter (fun k => bool_decide (k ∈ ovks)) svks) in
  let! r := maybe (reltol opts) (data_of rel_diff (vars self) (vars other) shared) in
  let! a := maybe (abstol opts) (data_of abs_diff (vars self) (vars other) shared) in
  let! s := maybe (sensstol opts) (data_of abs_diff (senss self) (senss other) shared) in
  Ok (Report (ord (List.filter (fun k => bool_decide (k ∉ ovks)) svks)) (ord (List.filter (fun k => bool_decide (k ∉ svks)) ovks)) r a s).
End Diff.
Arguments ext T : clear implicits.
Arguments solution T : clear implicits.
Arguments options T : clear implicits.
Arguments report T : clear implicits.
Arguments section T : clear implicits.
