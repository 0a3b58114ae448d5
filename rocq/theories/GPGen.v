(** Model of GeometricProgram.gen and CootMatrix. *)
From Verif Require Import Base HashVec Nomial Sub Mono Constraint.
Open Scope nat_scope.

Section GPGen.
Context {T : Type} `{Num T}.

(** [for var in exp]: the order in which the variables of an exponent vector
    are visited (its insertion order). The exponent vectors of the model are
    unordered, so any order is considered. *)
Definition var_order := expv T -> list nat.

(** The maps [gen] builds (gpkit/constraints/gp.py:120-137). A slice is the
    pair of its ends, [row], [col] and [data] are kept as one list of triples
    (they are always extended together). [self.varkeys] is [self.varlocs]. *)
Record gpdata := GP {
  g_k : list nat;
  g_midxs : list (nat * nat);
  g_pidxs : list nat;
  g_cs : list T;
  g_exps : list (expv T);
  g_varlocs : list (nat * list nat);
  g_all : list nat;          (* meq_idxs.all *)
  g_first : list nat;        (* meq_idxs.first_half *)
  g_m : nat;                 (* the loop's m_idx *)
  g_coo : list (nat * nat * T)
}.

(** [set.add] *)
Definition sadd (s : list nat) (i : nat) : list nat := if existsb (Nat.eqb i) s then s else s ++ [i].

(** [self.varlocs[var].append(m_idx)] on a defaultdict(list) (gp.py:153-154). *)
Definition locs_of (vl : list (nat * list nat)) (v : nat) : list nat :=
  match dget vl v with Some l => l | None => [] end.
Definition loc_add (m : nat) (vl : list (nat * list nat)) (v : nat) : list (nat * list nat) :=
  dset vl v (locs_of vl v ++ [m]).

(** The body of [for exp in hmap] (gp.py:148-155). *)
Definition gen_exp (ord : var_order) (st : list (nat * list nat) * nat * list (nat * nat * T)) (e : expv T)
  : list (nat * list nat) * nat * list (nat * nat * T) :=
  let '(vl, m, coo) := st in
  (fold_left (loc_add m) (ord e) vl, S m,
   if decide (e = e_empty) then coo ++ [(m, 0, n0)] else coo).

(** The body of [for p_idx, (N_mons, hmap) in enumerate(zip(self.k, self.hmaps))]
    (gp.py:139-155). A posynomial comes with its [from_meq] attribute. *)
Definition gen_hmap (ord : var_order) (g : gpdata) (ph : nat * (bool * hmap T)) : gpdata :=
  let '(p, (from_meq, h)) := ph in
  let n := length h in
  let m := g_m g in
  let all := if from_meq then sadd (g_all g) m else g_all g in
  let first := if from_meq then
                 if 2 * length (g_first g) <? length all then sadd (g_first g) m else g_first g
               else g_first g in
  let '(vl, m', coo) := fold_left (gen_exp ord) (dkeys h) (g_varlocs g, m, g_coo g) in
  GP (g_k g) (g_midxs g ++ [(m, m + n)]) (g_pidxs g ++ repeat p n)
     (g_cs g ++ dvals h) (g_exps g ++ dkeys h) vl all first m' coo.

(** [enumerate(l)] *)
Definition enumerate {A} (l : list A) : list (nat * A) := combine (seq 0 (length l)) l.

(** [for j, (var, locs) in enumerate(self.varlocs.items())] (gp.py:158-161).
    [self.exps[i][var]] is always present; 0 if not. *)
Definition coo_col (exps : list (expv T)) (jv : nat * (nat * list nat)) : list (nat * nat * T) :=
  let '(j, (v, locs)) := jv in
  map (fun i => (i, j, match exps !! i with
                       | Some e => match e !! v with Some x => x | None => n0 end
                       | None => n0 end)) locs.

(** [gen] (gp.py:120-162). *)
Definition gen (ord : var_order) (hmaps : list (bool * hmap T)) : gpdata :=
  let start := GP (map (fun mh => length (snd mh)) hmaps) [] [] [] [] [] [] [] 0 [] in
  let g := fold_left (gen_hmap ord) (enumerate hmaps) start in
  GP (g_k g) (g_midxs g) (g_pidxs g) (g_cs g) (g_exps g) (g_varlocs g) (g_all g) (g_first g) (g_m g)
     (g_coo g ++ flat_map (coo_col (g_exps g)) (enumerate (g_varlocs g))).

(** [self.varidxs] (gp.py:157), as a lookup: the position of the variable. *)
Fixpoint position (l : list nat) (v : nat) : option nat :=
  match l with
  | [] => None
  | k :: l' => if decide (v = k) then Some 0 else option_map S (position l' v)
  end.
Definition varidx (g : gpdata) (v : nat) : option nat := position (dkeys (g_varlocs g)) v.

(** [CootMatrix.shape] (gpkit/small_classes.py:41-46). *)
Definition coo_shape (coo : list (nat * nat * T)) : nat * nat :=
  match coo with
  | [] => (0, 0)
  | _ => (S (list_max (map (fun t => fst (fst t)) coo)), S (list_max (map (fun t => snd (fst t)) coo)))
  end.

(** [CootMatrix.dot] (small_classes.py:57-65): scipy's [csr_matrix] adds up
    entries at the same place. *)
Definition coo_row (coo : list (nat * nat * T)) (i : nat) : list (nat * nat * T) :=
  List.filter (fun t => Nat.eqb (fst (fst t)) i) coo.
Definition coo_dot (coo : list (nat * nat * T)) (x : nat -> T) (i : nat) : T :=
  fold_left (fun acc t => nadd acc (nmul (snd t) (x (snd (fst t))))) (coo_row coo i) n0.

(** ** The posynomials of a program *)

(** A constraint object: a PosynomialInequality or MonomialEquality with its
    [unsubbed] and the attributes left by earlier calls, or a
    SignomialInequality with its one [unsubbed] signomial. *)
Inductive constr :=
| CPosy (st : cstate T) (unsubbed : list (hmap T))
| CMeq (st : cstate T) (unsubbed : list (hmap T))
| CSig (siglt0 : hmap T).

(** [as_hmapslt1] of each kind (gpkit/nomials/math.py:466-481, 537-542,
    581-619); MonomialEquality sets [from_meq] on what it returns. *)
Definition constr_hmaps (inf : T) (pick : hmap T -> schedule) (se : bool) (fixed : expv T) (c : constr)
  : res (list (bool * hmap T)) :=
  match c with
  | CPosy st us => rmap (fun r => map (pair false) (snd r)) (as_hmapslt1 inf pick fixed st us)
  | CMeq st us => rmap (fun r => map (pair true) (snd r)) (as_hmapslt1 inf pick fixed st us)
  | CSig h => rmap (map (pair false)) (sig_as_hmapslt1 inf pick se fixed h)
  end.

(** [ConstraintSet.as_hmapslt1] (gpkit/constraints/set.py:168-172) of the
    constraints in the order of [flatiter]. *)
Fixpoint chain_hmaps (inf : T) (pick : hmap T -> schedule) (se : bool) (fixed : expv T) (cs : list constr)
  : res (list (bool * hmap T)) :=
  match cs with
  | [] => Ok []
  | c :: cs' =>
      let! a := constr_hmaps inf pick se fixed c in
      let! b := chain_hmaps inf pick se fixed cs' in
      Ok (a ++ b)
  end.

(** [self.hmaps] (gp.py:83-87); the substitutions are already numbers. *)
Definition gp_hmaps (inf : T) (pick : hmap T -> schedule) (se : bool) (fixed : expv T)
    (cost : hmap T) (cs : list constr) : res (list (bool * hmap T)) :=
  let! st := nm_sub inf fixed cost (pick cost) in
  if any_nonpositive (s_cp st) then Err InvalidPosynomialE else
  let! hs := chain_hmaps inf pick se fixed cs in
  Ok ((false, s_cp st) :: hs).

End GPGen.
Arguments constr T : clear implicits.
Arguments gpdata T : clear implicits.
Arguments var_order T : clear implicits.
