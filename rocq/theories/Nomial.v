(** Model of nomials without units: [NomialMap] as a dict from exponent
    vectors to coefficients (gpkit/nomials/map.py), the classes Signomial,
    Posynomial and Monomial and their operators (gpkit/nomials/math.py,
    core.py, data.py). Units are the subject of Units.v. *)
From Verif Require Import Base HashVec.

Notation expv T := (gmap nat T) (only parsing).

Section Nomial.
Context {T : Type} `{Num T}.

(** An exponent vector: a HashVector whose keys are variables, used as a dict
    key. Variables are numbered; equality of exponent vectors is equality of
    dicts, whatever the insertion order, so a canonical finite map is used
    (lemma [list_to_map_hv_add] in NomialProofs.v relates it to the loop of
    HashVector.__add__). *)

(** [EMPTY_HV] (small_classes.py:229). *)
Definition e_empty : expv T := ∅.

(** [HashVector.__add__] on exponent vectors (small_classes.py:197-216). *)
Definition exp_add (a b : expv T) : expv T :=
  union_with (fun s v => if decide (v = nopp s) then None else Some (nadd v s)) a b.

(** [exp * number], [-exp], [exp - exp] (small_classes.py:187-195, 220-221). *)
Definition exp_mul (a : expv T) (c : T) : expv T := (fun v => nmul v c) <$> a.
Definition exp_neg (a : expv T) : expv T := exp_mul a (nopp n1).
Definition exp_sub (a b : expv T) : expv T := exp_add a (exp_neg b).

(** The dict part of a NomialMap (nomials/map.py:12-23). *)
Definition hmap := list (expv T * T).

(** [HashVector({key: 1}): 1.0], the hmap of a Variable (variables.py:62). *)
Definition var_hmap (x : nat) : hmap := [({[ x := n1 ]}, n1)].

(** The hmap of a number (math.py:46). *)
Definition num_hmap (c : T) : hmap := [(e_empty, c)].

(** [any(c <= 0 for c in hmap.values())] (data.py:24). *)
Definition any_nonpositive (h : hmap) : bool := existsb (fun t => nleb (snd t) n0) h.

(** [Signomial.__init__]: which class the object gets (math.py:57-65). *)
Inductive cls := CSignomial | CPosynomial | CMonomial.

Definition classify (h : hmap) : cls :=
  if any_nonpositive h then CSignomial
  else if Nat.eqb (length h) 1 then CMonomial else CPosynomial.

Global Instance cls_dec : EqDecision cls.
Proof. intros a b; unfold Decision; decide equality. Defined.

(** [Signomial.__init__]: the check (math.py:58-60). [se] is the global
    [SignomialsEnabled] flag. *)
Definition signomial_init (se require_positive : bool) (h : hmap) : res hmap :=
  if any_nonpositive h && require_positive && negb se
  then Err InvalidPosynomialE else Ok h.

(** The body of the double loop of [Signomial.__mul__] (math.py:215-220). *)
Definition smul_term (es : expv T) (cs : T) (h : hmap) (o : expv T * T) : hmap :=
  let '(eo, co) := o in
  let e := exp_add es eo in
  let new := nmul cs co in
  let accumulated := match dget h e with Some a => a | None => n0 end in
  if decide (new = nopp accumulated)
  then (if decide (accumulated = n0) then h else ddel h e)
  else dset h e (nadd accumulated new).

(** [Signomial.__mul__] between nomials, units aside (math.py:211-220). *)
Definition smul (h1 h2 : hmap) : hmap :=
  fold_left (fun h s => fold_left (smul_term (fst s) (snd s)) h2 h) h1 [].

(** [Monomial.__pow__] (math.py:321-333), units aside. *)
Definition mono_pow (h : hmap) (expo : T) : res hmap :=
  match h with
  | [(e, c)] =>
      Ok [(if decide (expo = n0) then e_empty else exp_mul e expo, npow c expo)]
  | _ => Err ValueErrorE
  end.

(** ** Python values of expressions *)

(** The value of a gpkit expression is a Python number or a nomial. *)
Inductive value := VNum (c : T) | VNom (h : hmap).

Section Ops.
Variable se : bool.   (* SignomialsEnabled *)

(** [Signomial.__add__] with a number (math.py:181-192). *)
Definition nom_add_num (h : hmap) (c : T) : res value :=
  if decide (c = n0) then rmap VNom (signomial_init se true h)
  else rmap VNom (signomial_init se true (hv_add h (num_hmap c))).

(** Python's dispatch of [a + b] to [Signomial.__add__]/[__radd__]
    (math.py:179-193, core.py:114). [Signomial.__add__] returns NotImplemented
    when the other hmap is empty (falsy, math.py:186); Python then tries the
    reflected method only if the operands' classes differ. *)
Definition py_add (a b : value) : res value :=
  match a, b with
  | VNum x, VNum y => Ok (VNum (nadd x y))
  | VNom h, VNum c | VNum c, VNom h => nom_add_num h c
  | VNom h1, VNom h2 =>
      match h2, h1 with
      | _ :: _, _ => rmap VNom (signomial_init se true (hv_add h1 h2))
      | [], [] => Err TypeErrorE
      | [], _ :: _ =>
          if decide (classify h1 = CPosynomial) then Err TypeErrorE
          else rmap VNom (signomial_init se true (hv_add h2 h1))
      end
  end.

(** [Signomial.__mul__]/[__rmul__] (math.py:195-225). Multiplying by the number
    zero returns that number. *)
Definition py_mul (a b : value) : res value :=
  match a, b with
  | VNum x, VNum y => Ok (VNum (nmul x y))
  | VNom h, VNum c | VNum c, VNom h =>
      if decide (c = n0) then Ok (VNum c)
      else rmap VNom (signomial_init se true (hv_mul h c))
  | VNom h1, VNom h2 => rmap VNom (signomial_init se true (smul h1 h2))
  end.

(** [Signomial.__neg__] (math.py:247-252). Outside SignomialsEnabled the
    result is the NotImplemented object, modelled as an error. *)
Definition py_neg (a : value) : res value :=
  match a with
  | VNum c => Ok (VNum (nopp c))
  | VNom h => if se then py_mul (VNum (nopp n1)) (VNom h) else Err NotImplementedValueE
  end.

(** [Signomial.__sub__]/[__rsub__] (math.py:254-258). *)
Definition py_sub (a b : value) : res value :=
  match a, b with
  | VNum x, VNum y => Ok (VNum (nsub x y))
  | _, _ => if se then let! nb := py_neg b in py_add a nb else Err TypeErrorE
  end.

(** Powers of Python numbers; [0 ** negative] raises, and a non-integral power
    of a negative number is complex in Python, which no nomial accepts: it is
    modelled as an error at once. *)
Definition num_powz (c : T) (z : Z) : res value :=
  if decide (c = n0) then
    (if (z <? 0)%Z then Err ZeroDivisionE else Ok (VNum (npow c (nofZ z))))
  else Ok (VNum (npow c (nofZ z))).
Definition num_powr (c r : T) : res value :=
  if nltb n0 c then Ok (VNum (npow c r)) else Err ValueErrorE.

(** The loop of [Signomial.__pow__] (math.py:239-242). *)
Fixpoint pow_loop (n : nat) (p : value) (self : hmap) : res value :=
  match n with
  | O => Ok p
  | S n' => let! p' := py_mul p (VNom self) in pow_loop n' p' self
  end.

(** [**] with an int exponent: Monomial.__pow__ (math.py:321-333) or
    Signomial.__pow__ (math.py:237-245). With exponent 0 the latter sets an
    attribute on the int 1, which raises AttributeError. *)
Definition py_powz (a : value) (z : Z) : res value :=
  match a with
  | VNum c => num_powz c z
  | VNom h =>
      if decide (classify h = CMonomial) then
        let! h' := mono_pow h (nofZ z) in rmap VNom (signomial_init se true h')
      else if (z <? 0)%Z then Err TypeErrorE
      else if (z =? 0)%Z then Err AttributeErrorE
      else pow_loop (Z.to_nat z) (VNum n1) h
  end.

(** [**] with a float exponent: only Monomials accept it. *)
Definition py_powr (a : value) (r : T) : res value :=
  match a with
  | VNum c => num_powr c r
  | VNom h =>
      if decide (classify h = CMonomial) then
        let! h' := mono_pow h r in rmap VNom (signomial_init se true h')
      else Err TypeErrorE
  end.

(** [/]: Signomial.__truediv__ (math.py:227-235), Monomial.__rtruediv__
    (math.py:313-319). Dividing the number 0 by a Monomial sets an attribute on
    a number, which raises AttributeError (math.py:316-317). *)
Definition py_div (a b : value) : res value :=
  match a, b with
  | VNum x, VNum y => if decide (y = n0) then Err ZeroDivisionE else Ok (VNum (ndiv x y))
  | VNom h, VNum c =>
      if decide (c = n0) then Err ZeroDivisionE
      else py_mul (VNom h) (VNum (npow c (nopp n1)))
  | _, VNom h2 =>
      if decide (classify h2 = CMonomial) then
        let! inv := py_powz (VNom h2) (-1) in
        match a with
        | VNum x => if decide (x = n0) then Err AttributeErrorE else py_mul a inv
        | VNom _ => py_mul a inv
        end
      else Err TypeErrorE
  end.

(** ** Expression trees *)
Inductive expr : Type :=
| EConst (c : T) | EVar (x : nat)
| EAdd (a b : expr) | ESub (a b : expr) | EMul (a b : expr) | EDiv (a b : expr)
| ENeg (a : expr) | EPowZ (a : expr) (z : Z) | EPowR (a : expr) (r : T).

(** Running an expression as Python does, left operand first. *)
Fixpoint run (e : expr) : res value :=
  match e with
  | EConst c => Ok (VNum c)
  | EVar x => Ok (VNom (var_hmap x))
  | EAdd a b => let! va := run a in let! vb := run b in py_add va vb
  | ESub a b => let! va := run a in let! vb := run b in py_sub va vb
  | EMul a b => let! va := run a in let! vb := run b in py_mul va vb
  | EDiv a b => let! va := run a in let! vb := run b in py_div va vb
  | ENeg a => let! va := run a in py_neg va
  | EPowZ a z => let! va := run a in py_powz va z
  | EPowR a r => let! va := run a in py_powr va r
  end.

End Ops.

(** ** Other methods *)

(** [NomialMap.diff] (nomials/map.py:66-83), units aside. *)
Definition nm_diff (h : hmap) (x : nat) : hmap :=
  fold_left (fun out t =>
    let '(e, c) := t in
    match e !! x with
    | Some p =>
        let c' := nmul c p in
        let e' := if decide (p = n1) then delete x e else <[x := nsub p n1]> e in
        dset out e' c'
    | None => out
    end) h [].

(** [vks] (data.py:50-56): does a variable occur in the nomial. *)
Definition in_vks (h : hmap) (x : nat) : bool :=
  existsb (fun t => match fst t !! x with Some _ => true | None => false end) h.

(** [Signomial.diff] (math.py:67-85); [require_positive=False] so it never
    raises. *)
Definition sig_diff (h : hmap) (x : nat) : hmap :=
  if in_vks h x then nm_diff h x else num_hmap n0.

(** [Signomial.posy_negy] (math.py:87-102): the two hmaps (an empty one stands
    for the returned [0]). *)
Definition posy_negy (h : hmap) : hmap * hmap :=
  fold_left (fun '(py, ny) t =>
    let '(e, c) := t in
    if nltb n0 c then (dset py e c, ny)
    else if nltb c n0 then (py, dset ny e (nopp c))
    else (py, ny)) h ([], []).

(** [Signomial.chop] (math.py:260-265); each piece goes through
    [Monomial(...)], i.e. the check of [Signomial.__init__]. *)
Definition chop (se : bool) (h : hmap) : res (list hmap) :=
  fold_right (fun t acc =>
    let! l := acc in let! m := signomial_init se true [t] in Ok (m :: l))
    (Ok []) h.

(** [Nomial.__eq__]/[NomialData.__eq__] between nomials without units
    (core.py:105-109, data.py:63-73): dict equality, i.e. same length and every
    item of the one found in the other. *)
Definition hmap_eqb (h1 h2 : hmap) : bool :=
  Nat.eqb (length h1) (length h2) &&
  forallb (fun t => match dget h2 (fst t) with
                    | Some c => bool_decide (c = snd t) | None => false end) h1.

(** [Nomial.__eq__] with a number (core.py:107-108): a FixedScalar of that
    value (small_classes.py:11-14). *)
Definition nomial_eq_num (h : hmap) (c : T) : bool :=
  match h with
  | [(e, c')] => bool_decide (e = e_empty) && bool_decide (c' = c)
  | _ => false
  end.

End Nomial.

Arguments hmap T : clear implicits.
Arguments value T : clear implicits.
Arguments expr T : clear implicits.

(** For examples: a nomial as a plain list of terms. *)
Definition items {T} (h : hmap T) : list (list (nat * T) * T) :=
  map (fun t => (map_to_list (fst t), snd t)) h.
Definition vitems {T} (r : res (value T)) : option (list (list (nat * T) * T)) :=
  match r with Ok (VNom h) => Some (items h) | _ => None end.
