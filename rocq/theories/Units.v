(** Model of units (gpkit/units.py) and of the unit bookkeeping of nomials
    (gpkit/nomials/map.py:29-83, gpkit/nomials/math.py). *)
From Verif Require Import Base HashVec Nomial Constraint.

Section Units.
Context {T : Type} `{Num T}.

(** A pint unit: exponents of named units ("m", "ft", ...). Names are numbered.
    Quantities held by gpkit as [units] all have magnitude 1, so a Quantity is
    modelled by its unit. *)
Notation unit_ := (gmap nat T) (only parsing).

(** The pint registry: every named unit has a scale to root units and a vector
    of dimensions. *)
Record unitdef := UD { ud_scale : T; ud_dims : gmap nat T }.
Variable reg : nat -> unitdef.

(** Scale of a unit to root units: the product of powers of the named units. *)
Definition uscale (u : unit_) : T :=
  map_fold (fun n a acc => nmul (npow (ud_scale (reg n)) a) acc) n1 u.

(** [unit.dimensionality]. *)
Definition udim (u : unit_) : gmap nat T :=
  map_fold (fun n a acc => exp_add (if decide (a = n0) then ∅ else exp_mul (ud_dims (reg n)) a) acc) ∅ u.

(** [float(quantity)]: DimensionalityError ([None]) unless dimensionless. *)
Definition float_of (u : unit_) : option T :=
  if decide (udim u = ∅) then Some (uscale u) else None.

(** [q1 == q2] for Quantities of magnitude 1, or None: pint compares after
    conversion. *)
Definition qeqb (a b : option unit_) : bool :=
  match a, b with
  | None, None => true
  | Some a, Some b => bool_decide (udim a = udim b) && bool_decide (uscale a = uscale b)
  | _, _ => false
  end.

(** A NomialMap with its [units] attribute. *)
Record umap := UM { uh : hmap T; uu : option unit_ }.

(** [NomialMap.units_of_product] (map.py:29-46) for things that are None or have
    units; [GPkitUnits.of_product] (units.py:51-62) without its cache, see
    Section Cache below. *)
Definition units_of_product (h : hmap T) (t1 t2 : option unit_) : umap :=
  match t1, t2 with
  | None, None => UM h None
  | Some a, Some b =>
      match float_of (exp_add a b) with
      | Some f => UM (if decide (f = n0) then h else hv_mul h f) None
      | None => UM h (Some (exp_add a b))
      end
  | Some a, None => UM h (Some a)
  | None, Some b => UM h (Some b)
  end.

(** [NomialMap.to] (map.py:48-53) with a unit name or Quantity. *)
Definition nm_to (a : umap) (u : unit_) : res umap :=
  let su := match uu a with Some s => s | None => ∅ end in
  match float_of (exp_sub su u) with
  | Some f => Ok (UM (hv_mul (uh a) f) (Some u))
  | None => Err DimensionalityE
  end.

(** [NomialMap.__add__] (map.py:55-64). *)
Definition nm_add (a b : umap) : res umap :=
  let! bh :=
    if qeqb (uu a) (uu b) then Ok (uh b)
    else match uu a, uu b with
         | Some ua, Some ub =>
             match float_of (exp_sub ub ua) with
             | Some f => Ok (hv_mul (uh b) f)
             | None => Err DimensionalityE
             end
         | _, _ => Err DimensionalityE
         end in
  Ok (UM (hv_add (uh a) bh) (uu a)).

(** [Signomial.__init__] (math.py:41-65) on a NomialMap with units. *)
Definition usig (se : bool) (a : umap) : res umap :=
  let! h := signomial_init se true (uh a) in Ok (UM h (uu a)).

Section Ops.
Variable se : bool.

(** [Signomial.__add__] between nomials (math.py:179-193); see [py_add] for
    the reflected call made when the other hmap is empty. *)
Definition sig_add (a b : umap) : res umap :=
  match uh b, uh a with
  | _ :: _, _ => let! s := nm_add a b in usig se s
  | [], [] => Err TypeErrorE
  | [], _ :: _ =>
      if decide (classify (uh a) = CPosynomial) then Err TypeErrorE
      else let! s := nm_add b a in usig se s
  end.

(** [Signomial.__add__] with a number or Quantity (math.py:181-192). *)
Definition sig_add_num (a : umap) (c : T) (u : option unit_) : res umap :=
  if decide (c = n0) then usig se a
  else let! s := nm_add a (UM (num_hmap c) u) in usig se s.

(** [Signomial.__mul__] between nomials (math.py:211-224). *)
Definition sig_mul (a b : umap) : res umap :=
  usig se (units_of_product (smul (uh a) (uh b)) (uu a) (uu b)).

(** [Signomial.__mul__] with a nonzero number or Quantity (math.py:203-210). A
    zero is returned as it is, a number and not a nomial: modelled as an error. *)
Definition sig_mul_num (a : umap) (c : T) (u : option unit_) : res umap :=
  if decide (c = n0) then Err NotImplementedValueE
  else usig se (units_of_product (hv_mul (uh a) c) (uu a) u).

(** [Monomial.__pow__] (math.py:321-333). *)
Definition sig_pow (a : umap) (expo : T) : res umap :=
  if decide (classify (uh a) = CMonomial) then
    let! h := mono_pow (uh a) expo in
    usig se (UM h (match uu a with
                   | Some u => if decide (expo = n0) then None else Some (exp_mul u expo)
                   | None => None end))
  else Err TypeErrorE.

(** [Signomial.__truediv__] by a Monomial (math.py:227-235, 313-319). *)
Definition sig_div (a b : umap) : res umap :=
  let! inv := sig_pow b (nopp n1) in sig_mul a inv.

(** [__neg__], [__sub__] (math.py:247-258). *)
Definition sig_neg (a : umap) : res umap :=
  if se then sig_mul_num a (nopp n1) None else Err NotImplementedValueE.
Definition sig_sub (a b : umap) : res umap :=
  if se then let! nb := sig_neg b in sig_add a nb else Err TypeErrorE.

(** Units of a variable ([VarKey.units]). *)
Variable vunits : nat -> option unit_.

(** A Variable (variables.py:62-63). *)
Definition uvar (x : nat) : umap := UM (var_hmap x) (vunits x).

(** [Monomial(Quantity(c, u))] and [Monomial(c)] (math.py:45-48). *)
Definition uconst (c : T) (u : option unit_) : res umap := usig se (UM (num_hmap c) u).

(** [NomialMap.diff] (map.py:66-83): [units_of_product] is called before
    the terms are added. *)
Definition nm_diff_u (a : umap) (x : nat) : umap :=
  let out := units_of_product [] (uu a)
               (match vunits x with Some u => Some (exp_neg u) | None => None end) in
  UM (fold_left (fun out t =>
        let '(e, c) := t in
        match e !! x with
        | Some p =>
            dset out (if decide (p = n1) then delete x e else <[x := nsub p n1]> e) (nmul c p)
        | None => out
        end) (uh a) (uh out)) (uu out).

(** [Signomial.diff] (math.py:67-85). *)
Definition sig_diff_u (a : umap) (x : nat) : umap :=
  if in_vks (uh a) x then nm_diff_u a x else UM (num_hmap n0) None.

(** ** Expression trees whose values are nomials *)
Inductive uexpr : Type :=
| UVar (x : nat) | UConst (c : T) (u : option unit_)
| UAdd (a b : uexpr) | USub (a b : uexpr) | UMul (a b : uexpr) | UDiv (a b : uexpr)
| UPow (a : uexpr) (r : T)
| UAddN (a : uexpr) (c : T) (u : option unit_) | UMulN (a : uexpr) (c : T) (u : option unit_)
| UTo (a : uexpr) (u : unit_).

Fixpoint urun (e : uexpr) : res umap :=
  match e with
  | UVar x => Ok (uvar x)
  | UConst c u => uconst c u
  | UAdd a b => let! va := urun a in let! vb := urun b in sig_add va vb
  | USub a b => let! va := urun a in let! vb := urun b in sig_sub va vb
  | UMul a b => let! va := urun a in let! vb := urun b in sig_mul va vb
  | UDiv a b => let! va := urun a in let! vb := urun b in sig_div va vb
  | UPow a r => let! va := urun a in sig_pow va r
  | UAddN a c u => let! va := urun a in sig_add_num va c u
  | UMulN a c u => let! va := urun a in sig_mul_num va c u
  | UTo a u => let! va := urun a in let! t := nm_to va u in usig se t
  end.

End Ops.

(** [GPkitUnits.of_division] (units.py:33-49) without its cache and without the
    identity shortcut, for two [units] attributes. *)
Definition divide_units (a b : option unit_) : option T :=
  match a, b with
  | Some a, Some b => float_of (exp_sub a b)
  | Some a, None => float_of a
  | None, Some b => float_of (exp_neg b)
  | None, None => Some n1
  end.

(** [_gen_unsubbed] with units: [m_c *= units.of_division(m_gt, p_lt)]
    (math.py:456-464). *)
Definition gen_unsubbed_u (se : bool) (p_lt m_gt : umap) : res (list (hmap T)) :=
  match uh m_gt with
  | [(m_exp, m_c)] =>
      match divide_units (uu m_gt) (uu p_lt) with
      | Some f => gen_unsubbed se (uh p_lt) [(m_exp, nmul m_c f)]
      | None => Err DimensionalityE
      end
  | _ => Err TypeErrorE
  end.

(** ** The caches *)

(** [GPkitUnits.of_product] with its cache keyed by the units themselves
    (units.py:51-62). A cached entry is the pair (units, factor). *)
Definition pcache := list ((unit_ * unit_) * (option unit_ * option T)).

Definition of_product (c : pcache) (a b : unit_) : pcache * (option unit_ * option T) :=
  match dget c (a, b) with
  | Some r => (c, r)
  | None =>
      let r := match float_of (exp_add a b) with
               | Some f => (None, Some f)
               | None => (Some (exp_add a b), None)
               end in
      (dset c (a, b) r, r)
  end.

Fixpoint run_products (c : pcache) (qs : list (unit_ * unit_)) : list (option unit_ * option T) :=
  match qs with
  | [] => []
  | (a, b) :: qs' => let '(c', r) := of_product c a b in r :: run_products c' qs'
  end.

(** Quantity objects live at addresses ([id()]); [None] is address 0, which is
    never freed. *)
Record ustate := US { u_live : list (nat * unit_); u_cache : list ((nat * nat) * T) }.

(** What a program does to units: create a Quantity at an address the allocator
    chooses among the free ones, drop the last reference to one, or compute a
    conversion factor. *)
Inductive uop := UNew (i : nat) (u : unit_) | UFree (i : nat) | UDivide (i j : nat).

(** [of_division] with its cache keyed by [id] (units.py:33-49). *)
Definition of_division (s : ustate) (i j : nat) : ustate * option T :=
  if decide (i = j) then (s, Some n1)
  else match dget (u_cache s) (i, j) with
       | Some f => (s, Some f)
       | None =>
           match divide_units (dget (u_live s) i) (dget (u_live s) j) with
           | Some f => (US (u_live s) (dset (u_cache s) (i, j) f), Some f)
           | None => (s, None)
           end
       end.

(** Is an operation possible in a state: addresses of new objects are free
    (and not None's), only live objects are freed or used. *)
Definition uop_ok (s : ustate) (o : uop) : bool :=
  match o with
  | UNew i _ => negb (Nat.eqb i 0) && negb (dmem (u_live s) i)
  | UFree i => dmem (u_live s) i
  | UDivide i j => (Nat.eqb i 0 || dmem (u_live s) i) && (Nat.eqb j 0 || dmem (u_live s) j)
  end.

Definition ustep (s : ustate) (o : uop) : ustate * option (option T) :=
  match o with
  | UNew i u => (US (dset (u_live s) i u) (u_cache s), None)
  | UFree i => (US (ddel (u_live s) i) (u_cache s), None)
  | UDivide i j => let '(s', r) := of_division s i j in (s', Some r)
  end.

(** A history, with what each conversion returned and what the units were at
    that time. *)
Fixpoint uhistory (s : ustate) (ops : list uop)
  : list (option unit_ * option unit_ * option T) :=
  match ops with
  | [] => []
  | o :: ops' =>
      let '(s', r) := ustep s o in
      match o, r with
      | UDivide i j, Some f => (dget (u_live s) i, dget (u_live s) j, f) :: uhistory s' ops'
      | _, _ => uhistory s' ops'
      end
  end.

Fixpoint uhistory_ok (s : ustate) (ops : list uop) : bool :=
  match ops with
  | [] => true
  | o :: ops' => uop_ok s o && uhistory_ok (fst (ustep s o)) ops'
  end.

Definition ustart : ustate := US [] [].

End Units.

Arguments unitdef T : clear implicits.
Arguments umap T : clear implicits.
Arguments ustate T : clear implicits.
Arguments uop T : clear implicits.
Arguments uexpr T : clear implicits.
