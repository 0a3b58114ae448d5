(** Model of the checks that run after a solve: Tight (gpkit/constraints/tight.py:9-40), Loose
    (gpkit/constraints/loose.py:6-33), Bounded.check_boundaries
    (gpkit/constraints/bounded.py:76-100) and get_relaxed (gpkit/constraints/relax.py:235-242).
    Messages are left out: what is modelled is what is warned about, in order. *)
From Verif Require Import Base Flat.
Open Scope nat_scope.

Section Checks.
Context {T : Type} `{Num T}.

(** [tol or default] (tight.py:13-15, loose.py:11-13) *)
Definition tolerance (default : T) (given : option T) : T :=
  match given with Some t => if decide (t = n0) then default else t | None => default end.

(** ** Tight *)
Section Tight.
Context {C : Type}.
(** The values of a constraint's sides at the solution: what substituting all
    variables gives (C09). *)
Variables (lhs rhs : C -> T).

(** [rel_diff >= self.reltol] (tight.py:25-26). The values are numpy floats, of which dividing by zero gives an infinity,
    and 0/0 nan, which is not [>=] anything. *)
Definition not_tight (reltol : T) (c : C) : bool :=
  if decide (rhs c = n0) then negb (bool_decide (lhs c = n0))
  else nleb reltol (nabs (nsub n1 (ndiv (lhs c) (rhs c)))).
(** [Tight.process_result]: the constraints warned about. What is not a constraint
    has no [left]. *)
Fixpoint tight_loop (reltol : T) (l : list (item C)) : res (list C) :=
  match l with
  | [] => Ok []
  | Leaf c :: l' => let! w := tight_loop reltol l' in Ok (if not_tight reltol c then c :: w else w)
  | _ :: _ => Err AttributeErrorE
  end.
Definition tight_warnings (given : option T) (l : list (item C)) : res (list C) :=
  tight_loop (tolerance (ndiv n1 (nofZ 1000)) given) (flat l).

(** ** Loose *)
(** [sensitivities["constraints"]] *)
Variable sens : C -> option T.
(** [Loose.process_result]: the constraints warned about; with [raiseerror] the first raises. *)
Fixpoint loose_loop (senstol : T) (raiseerror : bool) (l : list (item C)) : res (list C) :=
  match l with
  | [] => Ok []
  | Leaf c :: l' =>
      if nleb senstol (match sens c with Some s => s | None => n0 end)
      then if raiseerror then Err RuntimeWarningE
           else let! w := loose_loop senstol raiseerror l' in Ok (c :: w)
      else loose_loop senstol raiseerror l'
  | _ :: _ => Err AttributeErrorE
  end.
Definition loose_warnings (given : option T) (raiseerror : bool) (l : list (item C)) : res (list C) :=
  loose_loop (tolerance (ndiv n1 (nofZ 100000)) given) raiseerror (flat l).
End Tight.

(** ** Bounded *)

Inductive near := SensitiveLower | NearLower | SensitiveUpper | NearUpper.

(** [Bounded.check_boundaries] (bounded.py:76-95) for one variable with its value and the sensitivities of the
    constraints that bound it, in their order (0 where there is none). [log] is [np.log]. *)
Definition check_variable (log : T -> T) (lower upper : T) (value : T) (c_senss : list T) : res (list near) :=
  let sens_threshold := ndiv n1 (nofZ 10000000) in
  let logtol := nofZ 3 in
  let! low :=
    if decide (lower = n0) then Ok [] else
    match c_senss with
    | [] => Err IndexErrorE
    | s :: _ => Ok ((if nleb sens_threshold s then [SensitiveLower] else []) ++
                    (if nleb (log (ndiv value lower)) logtol then [NearLower] else []))
    end in
  let! high :=
    if decide (upper = n0) then Ok [] else
    match rev c_senss with
    | [] => Err IndexErrorE
    | s :: _ => Ok ((if nleb sens_threshold s then [SensitiveUpper] else []) ++
                    (if nleb (log (ndiv upper value)) logtol then [NearUpper] else []))
    end in
  Ok (low ++ high).
(** The loop; [vks] is the iteration order of the frozenset, [senss] the sensitivities of the constraints in [self["variable bounds"]]. *)
Fixpoint check_boundaries (log : T -> T) (lower upper : T) (value : nat -> T) (vks : list nat) (senss : list (list T)) : res (list (near * nat)) :=
  match vks, senss with
  | [], _ => Ok []
  | _ :: _, [] => Err IndexErrorE
  | k :: vks', s :: senss' =>
      let! w := check_variable log lower upper (value k) s in
      let! ws := check_boundaries log lower upper value vks' senss' in
      Ok (map (fun n => (n, k)) w ++ ws)
  end.

(** The sensitivities [c_senss] (bounded.py:81-82) of the constraints that [varkey_bounds] makes for a variable (bounded.py:28-32),
    given the sensitivity of its lower and of its upper bound. *)
Definition bound_senss (lower upper : T) (of_lower of_upper : T) : list T :=
  (if decide (lower = n0) then [] else [of_lower]) ++ (if decide (upper = n0) then [] else [of_upper]).

(** [result["boundedness"].update(self.check_boundaries(result))] (bounded.py:70-75): for each message, of which there is one
    for each kind of warning and bound, the variables. Simplification: bounds that differ but print alike with two digits are distinguished. *)
Definition near_eqb (a b : near) : bool :=
  match a, b with
  | SensitiveLower, SensitiveLower | NearLower, NearLower | SensitiveUpper, SensitiveUpper | NearUpper, NearUpper => true
  | _, _ => false
  end.
Definition kinds : list near := [SensitiveLower; NearLower; SensitiveUpper; NearUpper].
Definition bound_of (lower upper : T) (n : near) : T :=
  match n with SensitiveLower | NearLower => lower | _ => upper end.
Definition by_message (lower upper : T) (out : list (near * nat)) : list ((near * T) * list nat) :=
  flat_map (fun n => match List.filter (fun p => near_eqb n (fst p)) out with
                     | [] => []
                     | ps => [((n, bound_of lower upper n), map snd ps)]
                     end) kinds.
Global Instance near_dec : EqDecision near.
Proof. solve_decision. Defined.
Definition boundedness (before : list ((near * T) * list nat)) (lower upper : T) (out : list (near * nat)) : list ((near * T) * list nat) :=
  fold_left (fun d kv => dset d (fst kv) (snd kv)) (by_message lower upper out) before.

(** ** get_relaxed *)
Section Relaxed.
Context {A : Type}.

(** [sorted(..., key=lambda x: -x[0])]: stable. *)
Fixpoint insert_desc (x : T * A) (l : list (T * A)) : list (T * A) :=
  match l with
  | [] => [x]
  | y :: l' => if nltb (fst x) (fst y) then y :: insert_desc x l' else x :: y :: l'
  end.
Definition sort_desc (l : list (T * A)) : list (T * A) := fold_right insert_desc [] l.

(** [for i, (val, _) in enumerate(sortrelaxed)] *)
Fixpoint above (most : T) (l : list (T * A)) : list (T * A) :=
  match l with
  | [] => []
  | (v, a) :: l' =>
      if nleb v (ndiv (nofZ 101) (nofZ 100)) && nleb (nsub v n1) (ndiv (nsub most n1) (nofZ 10)) then []
      else (v, a) :: above most l'
  end.
Definition get_relaxed (relaxvals : list T) (mapped : list A) : res (list (T * A)) :=
  let s := sort_desc (combine relaxvals mapped) in
  match s with
  | [] => Err IndexErrorE
  | (v, _) :: _ =>
      let t := ndiv (nofZ 101) (nofZ 100) in
      Ok (above (if nltb v t then t else v) s)
  end.
End Relaxed.
End Checks.
