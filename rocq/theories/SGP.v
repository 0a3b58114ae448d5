(** Model of SequentialGeometricProgram (gpkit/constraints/sgp.py) and of
    SingleSignomialEquality.as_gpconstr (gpkit/nomials/math.py:684-692). *)
From Verif Require Import Base HashVec Nomial Sub Mono Constraint GPGen.
Open Scope nat_scope.

Section SGP.
Context {T : Type} `{Num T}.
Variable inf : T.
(** The iteration orders Python happens to use: of the substituted variables in
    each call of [sub], of the set [vks] of a nomial, of the items of an
    exponent vector. *)
Variable pick : expv T -> hmap T -> schedule.
Variable vks_of : hmap T -> list nat.
Variable ord : expv T -> list nat.
(** The SignomialsEnabled flag. *)
Variable se : bool.

(** A constraint of the model ([model.flat()]): one that a GeometricProgram may
    accept (GPGen.v), or a SingleSignomialEquality with its [unsubbed]. *)
Inductive sp_constr := SPc (c : constr T) | SPeq (siglt0 : hmap T).

(** The constraints that need approximation. *)
Inductive scons := SIneq (siglt0 : hmap T) | SEqual (siglt0 : hmap T).

(** [SingleSignomialEquality.as_gpconstr] (math.py:684-692): a MonomialEquality
    of the two approximations. A part that is the number 0 has no
    [mono_lower_bound]. *)
Definition seq_as_gpconstr (guess : expv T) (siglt0 : hmap T) : res (list (hmap T)) :=
  let '(posy, negy) := posy_negy siglt0 in
  let bound h := let x0 := x0_of guess (vks_of h) in mono_approx inf x0 (pick x0) se h (vks_of h) in
  match posy, negy with
  | [], _ | _, [] => Err AttributeErrorE
  | _, _ => let! a := bound posy in let! b := bound negy in meq_unsubbed se a b
  end.

(** [cs.as_gpconstr(x0)]: the [unsubbed] of the constraint it returns. *)
Definition approximate (guess : expv T) (c : scons) : res (list (hmap T)) :=
  match c with
  | SIneq s => as_gpconstr inf pick se guess s (vks_of (snd (posy_negy s)))
  | SEqual s => seq_as_gpconstr guess s
  end.

(** [cs.as_gpconstr(x0).as_hmapslt1({})] *)
Definition approx_hmaps (guess : expv T) (c : scons) : res (list (hmap T)) :=
  let! us := approximate guess c in
  let! r := as_hmapslt1 inf (pick ∅) ∅ (CS None None) us in
  Ok (snd r).

Fixpoint approx_all (guess : expv T) (cs : list scons) : res (list (hmap T)) :=
  match cs with
  | [] => Ok []
  | c :: cs' =>
      let! a := approx_hmaps guess c in
      let! b := approx_all guess cs' in
      Ok (a ++ b)
  end.

(** [self.slack]: the number 1, or the variable C of the relaxed problem. *)
Definition slack_hmap (slack : option nat) : hmap T :=
  match slack with None => num_hmap n1 | Some k => var_hmap k end.

(** [Posynomial(hmaplt1) <= self.slack] (sgp.py:82): its [unsubbed]. *)
Definition le_slack (slack : option nat) (h : hmap T) : res (list (hmap T)) :=
  let! p := signomial_init se true h in
  posy_ineq se p OpLe (slack_hmap slack).

(** [Posynomial(hmaplt1)/self.slack] (sgp.py:226). *)
Definition over_slack (slack : option nat) (h : hmap T) : res (hmap T) :=
  let! p := signomial_init se true h in
  let! q := py_div se (VNom p) (match slack with None => VNum n1 | Some k => VNom (var_hmap k) end) in
  match q with VNom q' => Ok q' | VNum _ => Err AttributeErrorE end.

(** [cost *= self.slack**pccp_penalty] (sgp.py:65). *)
Definition slack_cost (slack : option nat) (penalty : T) (cost : hmap T) : res (hmap T) :=
  let! q := match slack with
            | None => py_mul se (VNom cost) (VNum n1)
            | Some k => let! m := mono_pow (var_hmap k) penalty in py_mul se (VNom cost) (VNom m)
            end in
  match q with VNom h => Ok h | VNum _ => Err AttributeErrorE end.

(** [set.update] *)
Definition supdate (s l : list nat) : list nat := fold_left sadd l s.

(** The program and the attributes its methods use. [sg_approx] are the
    [unsubbed] of [approxconstraints]; what these objects keep for
    sensitivities is left out, so is the link from each to its signomial. *)
Record sgp := SG {
  sg_slack : option nat;
  sg_cons : list scons;                     (* sgpconstraints *)
  sg_approx : list (list (hmap T));         (* approxconstraints *)
  sg_vks : list nat;                        (* sgpvks *)
  sg_fixed : expv T;                        (* _gp.substitutions *)
  sg_x0 : expv T;                           (* _gp.x0 *)
  sg_hmaps : list (bool * hmap T);          (* _gp.hmaps *)
  sg_gp : gpdata T;                  (* what _gp.gen made *)
  sg_aidxs : list (nat * list nat)          (* a_idxs *)
}.

(** ** [__init__] *)

(** [for hmaplt1 in cs.as_gpconstr(x0).as_hmapslt1({})] (sgp.py:81-85). *)
Fixpoint add_approx (slack : option nat) (hs : list (hmap T)) (st : list (list (hmap T)) * list nat)
  : res (list (list (hmap T)) * list nat) :=
  match hs with
  | [] => Ok st
  | h :: hs' =>
      let! us := le_slack slack h in
      add_approx slack hs' (fst st ++ [us], supdate (supdate (snd st) (vks_of h)) (vks_of (slack_hmap slack)))
  end.

(** [for cs in model.flat()] (sgp.py:70-85), approximating at [x0]. Constraints
    without [as_hmapslt1] or [as_gpconstr] are not considered. *)
Fixpoint sort_constrs (slack : option nat) (fixed x0 : expv T) (cs : list sp_constr)
    (gpc : list (constr T)) (sc : list scons) (st : list (list (hmap T)) * list nat)
  : res (list (constr T) * list scons * (list (list (hmap T)) * list nat)) :=
  match cs with
  | [] => Ok (gpc, sc, st)
  | c :: cs' =>
      let approximated s :=
        let! hs := approx_hmaps x0 s in
        let! st' := add_approx slack hs st in
        sort_constrs slack fixed x0 cs' gpc (sc ++ [s]) st' in
      match c with
      | SPeq s => approximated (SEqual s)
      | SPc (CSig s) =>
          match sig_as_hmapslt1 inf (pick fixed) se fixed s with
          | Ok _ => sort_constrs slack fixed x0 cs' (gpc ++ [CSig s]) sc st
          | Err InvalidGPConstraintE => approximated (SIneq s)
          | Err x => Err x
          end
      | SPc c' => sort_constrs slack fixed x0 cs' (gpc ++ [c']) sc st
      end
  end.

(** [self.a_idxs[p].append(row_idx)] on a defaultdict(list) *)
Definition own (ai : list (nat * list nat)) (p : nat) : list nat := locs_of ai p.
Definition own_add (ai : list (nat * list nat)) (p r : nat) : list (nat * list nat) := dset ai p (own ai p ++ [r]).

(** [for row_idx, m_idx in enumerate(self._gp.A.row)] (sgp.py:96-101). *)
Definition own_step (g : gpdata T) (cost_mons sp_mons : nat) (ai : list (nat * list nat))
    (re : nat * (nat * nat * T)) : list (nat * list nat) :=
  let '(r, (m, _, _)) := re in
  if (cost_mons <=? m) && (m <=? sp_mons) then own_add ai (nth m (g_pidxs g) 0) r else ai.
Definition own_init (g : gpdata T) (n : nat) : list (nat * list nat) :=
  fold_left (own_step g (nth 0 (g_k g) 0) (list_sum (take (S n) (g_k g)))) (enumerate (g_coo g)) [].

(** [__init__] (sgp.py:51-101), the point of the first approximations being
    [x0]. [slack] is the variable of the relaxed problem if [use_pccp].
    [checkbounds], which only raises, is left out. *)
Definition sgp_build (slack : option nat) (penalty : T) (cost : hmap T) (cs : list sp_constr) (fixed x0 : expv T)
  : res sgp :=
  if any_nonpositive cost then Err InvalidPosynomialE else
  let! first := match slack with
                | None => Ok []
                | Some k => let! us := posy_ineq se (var_hmap k) OpGe (num_hmap n1) in Ok [CPosy (CS None None) us]
                end in
  let! cost' := slack_cost slack penalty cost in
  let! sorted := sort_constrs slack fixed x0 cs first [] ([], []) in
  let '(gpc, sc, (ap, vks)) := sorted in
  match sc with
  | [] => Err ValueErrorE      (* UnnecessarySGP *)
  | _ =>
      let! hmaps := gp_hmaps inf (pick fixed) se fixed cost' (map (CPosy (CS None None)) ap ++ gpc) in
      let g := gen ord hmaps in
      Ok (SG slack sc ap vks fixed x0 hmaps g (own_init g (length ap)))
  end.

(** The point is the substitutions (sgp.py:79). *)
Definition sgp_init (slack : option nat) (penalty : T) (cost : hmap T) (cs : list sp_constr) (fixed : expv T)
  : res sgp := sgp_build slack penalty cost cs fixed fixed.

(** ** [gp]: re-linearization in place *)

(** The lists being changed: A's entries, [a_idxs] (local), [self.a_idxs[p_idx]]. *)
Record upd_st := US { u_coo : list (nat * nat * T); u_free : list nat; u_own : list nat }.

Definition pop_last (l : list nat) : option (list nat * nat) :=
  match rev l with [] => None | x :: l' => Some (rev l', x) end.

(** [for var, x in exp.items()] (sgp.py:235-245). *)
Definition put_entry (g : gpdata T) (row : nat) (e : expv T) (st : upd_st) (v : nat) : res upd_st :=
  match varidx g v with
  | None => Err KeyErrorE
  | Some j =>
      let t := (row, j, match e !! v with Some x => x | None => n0 end) in
      match pop_last (u_free st) with
      | Some (free, r) => Ok (US (<[r := t]> (u_coo st)) free (u_own st))
      | None => Ok (US (u_coo st ++ [t]) [] (u_own st ++ [length (u_coo st)]))
      end
  end.
Fixpoint put_entries (g : gpdata T) (row : nat) (e : expv T) (st : upd_st) (vs : list nat) : res upd_st :=
  match vs with
  | [] => Ok st
  | v :: vs' => let! st' := put_entry g row e st v in put_entries g row e st' vs'
  end.

(** [for i, (exp, c) in enumerate(hmap.items())] (sgp.py:232-245); an index past
    the end of the list is an IndexError. *)
Fixpoint put_terms (row : nat) (h : hmap T) (gs : gpdata T * upd_st) : res (gpdata T * upd_st) :=
  match h with
  | [] => Ok gs
  | (e, c) :: h' =>
      let '(g, st) := gs in
      if length (g_exps g) <=? row then Err IndexErrorE else
      let g' := GP (g_k g) (g_midxs g) (g_pidxs g) (<[row := c]> (g_cs g)) (<[row := e]> (g_exps g))
                   (g_varlocs g) (g_all g) (g_first g) (g_m g) (g_coo g) in
      let! st' := put_entries g row e st (ord e) in
      put_terms (S row) h' (g', st')
  end.

(** [for row_idx in a_idxs] (sgp.py:246-249). *)
Definition zero_entries (coo : list (nat * nat * T)) (rs : list nat) : list (nat * nat * T) :=
  fold_left (fun c r => <[r := (0, 0, n0)]> c) rs coo.

(** The turn of the inner loop for one [hmaplt1], [p] being [p_idx] before it is
    incremented (sgp.py:224-249). *)
Definition put_posy (s : sgp) (p : nat) (hlt1 : hmap T) : res sgp :=
  match sg_approx s !! p with
  | None => Err IndexErrorE
  | Some _ =>
      let! u := over_slack (sg_slack s) hlt1 in
      let! r := as_hmapslt1 inf (pick (sg_fixed s)) (sg_fixed s) (CS None None) [u] in
      match snd r with
      | [h] =>
          if length (sg_hmaps s) <=? S p then Err IndexErrorE else
          match g_midxs (sg_gp s) !! S p with
          | None => Err IndexErrorE
          | Some (m, _) =>
              let own_p := own (sg_aidxs s) (S p) in
              let! gs := put_terms m h (sg_gp s, US (g_coo (sg_gp s)) own_p own_p) in
              let '(g, st) := gs in
              Ok (SG (sg_slack s) (sg_cons s) (<[p := [u]]> (sg_approx s)) (sg_vks s) (sg_fixed s) (sg_x0 s)
                     (<[S p := (false, h)]> (sg_hmaps s))
                     (GP (g_k g) (g_midxs g) (g_pidxs g) (g_cs g) (g_exps g) (g_varlocs g) (g_all g) (g_first g)
                         (g_m g) (zero_entries (u_coo st) (u_free st)))
                     (dset (sg_aidxs s) (S p) (u_own st)))
          end
      | _ => Err ValueErrorE
      end
  end.
Fixpoint put_posys (s : sgp) (p : nat) (hs : list (hmap T)) : res sgp :=
  match hs with
  | [] => Ok s
  | h :: hs' => let! s' := put_posy s p h in put_posys s' (S p) hs'
  end.

(** [for sgpc in self.sgpconstraints] (sgp.py:223-249). *)
Fixpoint put_all (s : sgp) (p : nat) (cs : list scons) : res sgp :=
  match cs with
  | [] => Ok s
  | c :: cs' =>
      let! hs := approx_hmaps (sg_x0 s) c in
      let! s' := put_posys s p hs in
      put_all s' (p + length hs) cs'
  end.

(** [self._gp.x0.update({vk: x0[vk] for vk in self.sgpvks if vk in x0})]
    (sgp.py:221). Simplification: scalar variables only. *)
Definition x0_update (s : sgp) (x0 : expv T) : expv T :=
  fold_left (fun acc k => match x0 !! k with Some v => <[k := v]> acc | None => acc end) (sg_vks s) (sg_x0 s).

(** [gp(x0)] (sgp.py:215-250); no [x0] is the empty map. *)
Definition sgp_gp (s : sgp) (x0 : expv T) : res sgp :=
  if decide (x0 = ∅) then Ok s else
  put_all (SG (sg_slack s) (sg_cons s) (sg_approx s) (sg_vks s) (sg_fixed s) (x0_update s x0)
              (sg_hmaps s) (sg_gp s) (sg_aidxs s)) 0 (sg_cons s).

(** ** [localsolve] *)

(** What the solver is given and returns: for the n-th solve, the matrices; the
    exponentials of [primal] and [objective]. Exceptions included. *)
Definition solver_fn := nat -> gpdata T -> res (list T * T).

(** One solve of the history: the program, the solution and its cost. *)
Record solved := SOL { so_sgp : sgp; so_vals : list T; so_cost : T }.

Definition eps : T := ndiv n1 (nofZ 1000000).

(** [x0 = dict(zip(gp.varlocs, np.exp(solver_out["primal"])))] (sgp.py:162) *)
Definition x0_dict (g : gpdata T) (vals : list T) : expv T :=
  list_to_map (List.combine (dkeys (g_varlocs g)) vals).

Inductive outcome :=
| Returned (hist : list solved)
| Raised (e : exn) (hist : list solved)
| OutOfFuel.

(** The loop (sgp.py:145-179). [hist] is [self.gps] with [self.solver_outs],
    newest last; the copies of the program in it record what it was at the time
    (in Python it is one object). Printing and, at verbosity above 2,
    [generate_result] are left out. [Infeasible] stands for reaching the limit. *)
Fixpoint local_loop (solver : solver_fn) (verbosity limit : Z) (reltol : T) (fuel : nat)
    (s : sgp) (x0 : expv T) (cost rel : option T) (hist : list solved) : outcome :=
  let go :=
    match fuel with
    | O => OutOfFuel
    | S fuel' =>
        let prevcost := cost in
        if (limit <? Z.of_nat (length hist))%Z then Raised InfeasibleE hist else
        match sgp_gp s x0 with
        | Err x => Raised x hist
        | Ok s' =>
            match solver (length hist) (sg_gp s') with
            | Err x => Raised x hist
            | Ok (vals, c) =>
                let hist' := hist ++ [SOL s' vals c] in
                let x0' := x0_dict (sg_gp s') vals in
                match prevcost with
                | None => local_loop solver verbosity limit reltol fuel' s' x0' (Some c) rel hist'
                | Some pc =>
                    if decide (nadd pc c = n0) then Raised ZeroDivisionE hist' else
                    let rel' := ndiv (nsub pc c) (nadd pc c) in
                    if nltb (nadd pc eps) (nmul c (nsub n1 eps)) && (-1 <? verbosity)%Z then
                      if decide (pc = n0) then Raised ZeroDivisionE hist' else
                      local_loop solver verbosity limit reltol fuel' s' x0' None None hist'
                    else local_loop solver verbosity limit reltol fuel' s' x0' (Some c) (Some rel') hist'
                end
            end
        end
    end in
  match rel with
  | None => go
  | Some r => if nltb reltol r then go else Returned hist
  end.

(** [localsolve] (sgp.py:104-179): the history of its solves. The fuel suffices
    (C37). *)
Definition localsolve (solver : solver_fn) (verbosity limit : Z) (reltol : T) (s : sgp) (x0 : expv T) : outcome :=
  local_loop solver verbosity limit reltol (S (Z.to_nat (limit + 1))) s x0 None None [].

End SGP.

Arguments sgp T : clear implicits.
Arguments sp_constr T : clear implicits.
Arguments scons T : clear implicits.
Arguments solved T : clear implicits.
Arguments outcome T : clear implicits.
Arguments solver_fn T : clear implicits.
