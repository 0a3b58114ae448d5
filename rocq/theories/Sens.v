(** Model of the sensitivities: what each constraint reports from its duals
    (gpkit/nomials/math.py:483-506, 549-558, 602-659) and how a program adds them
    up (gpkit/constraints/gp.py:308-341), units aside. *)
From Verif Require Import Base HashVec Nomial Sub Constraint.

Section Sens.
Context {T : Type} `{Num T}.
Variable inf : T.

(** [d.get(k, 0)] *)
Definition hget (d : expv T) (k : nat) : T := match d !! k with Some x => x | None => n0 end.

(** ** PosynomialInequality.sens_from_dual (math.py:483-506) *)

(** [nu_[idx] += w]; [nu_] is an array of the length of the original map. *)
Definition add_at (l : list T) (idx : nat) (w : T) : res (list T) :=
  match l !! idx with
  | Some x => Ok (<[idx := nadd x w]> l)
  | None => Err IndexErrorE
  end.

(** [for idx, percentage in mmap.items(): nu_[idx] += percentage*w] *)
Fixpoint add_fractions (nu_ : list T) (fr : list (nat * T)) (w : T) : res (list T) :=
  match fr with
  | [] => Ok nu_
  | (idx, p) :: fr' => let! nu' := add_at nu_ idx (nmul p w) in add_fractions nu' fr' w
  end.

(** [for i, mmap in enumerate(self.pmap)] with [nu[i]] *)
Fixpoint add_pmap (nu_ : list T) (pmap : list (list (nat * T))) (nu : list T) : res (list T) :=
  match pmap with
  | [] => Ok nu_
  | fr :: pmap' =>
      match fr, nu with
      | [], [] => add_pmap nu_ pmap' []
      | _ :: _, [] => Err IndexErrorE
      | _, w :: nu' => let! nu1 := add_fractions nu_ fr w in add_pmap nu1 pmap' nu'
      end
  end.

(** [self.v_ss[vk] = nu_i*x + self.v_ss.get(vk, 0)] for every variable of a term *)
Definition add_term (v_ss : expv T) (nu_i : T) (e : expv T) : expv T :=
  fold_left (fun d kx => <[fst kx := nadd (nmul nu_i (snd kx)) (hget d (fst kx))]> d) (map_to_list e) v_ss.

(** [for nu_i, exp in zip(nu, presub.hmap)] *)
Definition sum_terms (nu : list T) (presub : hmap T) : expv T :=
  fold_left (fun d ne => add_term d (fst ne) (fst (snd ne))) (combine nu presub) ∅.

(** The whole method: [st] is what [as_hmapslt1] left on the object; the pmap
    and const_mmap are deleted as they are used. *)
Definition posy_sens (st : cstate T) (la : T) (nu : list T) (presub : hmap T)
  : res (cstate T * expv T) :=
  match cs_pmap st with
  | None => Ok (st, sum_terms nu presub)
  | Some pmap =>
      let! nu1 := add_pmap (replicate (length presub) n0) pmap nu in
      match cs_const st with
      | None => Ok (CS None None, sum_terms nu1 presub)
      | Some (fr, coeff) =>
          if decide (coeff = n0) then Err ZeroDivisionE else
          let scale := ndiv (nsub n1 coeff) coeff in
          let! nu2 := add_fractions nu1 fr (nmul la scale) in
          Ok (CS None None, sum_terms nu2 presub)
      end
  end.

(** ** MonomialEquality.sens_from_dual (math.py:549-558) *)

(** [las] is the list kept on the object; [unsubbed] its posynomials. *)
Definition meq_sens (las : list T) (la : T) (unsubbed : list (hmap T)) : res (list T * (expv T * T)) :=
  match las ++ [la] with
  | [l] => Ok ([l], (∅, n0))
  | l0 :: l1 :: _ =>
      match unsubbed with
      | [(e, _)] :: _ => let d := nsub l0 l1 in Ok ([], (exp_mul e d, d))
      | _ :: _ => Err ValueErrorE
      | [] => Err IndexErrorE
      end
  | [] => Err IndexErrorE (* not reached *)
  end.

(** ** SignomialInequality (math.py:602-659) *)

(** What [as_hmapslt1] keeps for the sensitivities (math.py:602-618): the
    quotients, and which original terms made them. [cur] is the expmap. *)
Record sigparts := SP { sp_mons : hmap T; sp_negy : hmap T; sp_coeffs : list (expv T * hmap T) }.

Definition split_term (ne : expv T) (acc : hmap T * list (expv T * hmap T))
    (t : (expv T * T) * expv T) : hmap T * list (expv T * hmap T) :=
  let '((o, c), e) := t in
  if decide (e = ne) then (dset (fst acc) o (nopp c), snd acc)
  else let k := exp_sub e ne in
       let old := match dget (snd acc) k with Some m => m | None => [] end in
       (fst acc, dset (snd acc) k (dset old o c)).

Definition sig_parts (se : bool) (siglt0 : hmap T) (cur : list (expv T)) (posy : hmap T) (ne : expv T) (nc : T)
  : res sigparts :=
  let! q := py_div se (VNom posy) (VNom [(ne, nc)]) in
  match q with
  | VNom mons =>
      let '(negy, coeffs) := fold_left (split_term ne) (combine siglt0 cur) ([], []) in
      Ok (SP mons negy coeffs)
  | VNum _ => Err AttributeErrorE
  end.

(** [subval] (math.py:635-640); [vals] is [result["variables"]]. *)
Variable pick : hmap T -> schedule.
Definition subval1 (vals : expv T) (h : hmap T) : res T :=
  let! st := nm_sub inf vals h (pick h) in
  match s_cp st with
  | [(e, v)] => if decide (e = e_empty) then Ok v else Err ValueErrorE
  | _ => Err ValueErrorE
  end.
Definition recip (x : T) : res T := if decide (x = n0) then Err ZeroDivisionE else Ok (ndiv n1 x).

(** The sensitivity of one quotient to one variable (math.py:649-656). *)
Definition sig_var (vals : expv T) (negy coeff : hmap T) (invnegy inv_mon nu_i : T) (v_ss : expv T) (var : nat)
  : res (expv T) :=
  let! dc := subval1 vals (sig_diff coeff var) in
  let! dn := subval1 vals (sig_diff negy var) in
  let! cv := subval1 vals coeff in
  match vals !! var with
  | None => Err KeyErrorE
  | Some x =>
      let d_mon := nsub (nmul dc invnegy) (nmul (nmul dn cv) (nmul invnegy invnegy)) in
      let sens := nmul (nmul (nmul nu_i inv_mon) d_mon) x in
      Ok (<[var := nadd sens (hget v_ss var)]> v_ss)
  end.
Fixpoint sig_vars (vals : expv T) (negy coeff : hmap T) (invnegy inv_mon nu_i : T) (v_ss : expv T) (vars : list nat)
  : res (expv T) :=
  match vars with
  | [] => Ok v_ss
  | v :: vars' =>
      let! v_ss' := sig_var vals negy coeff invnegy inv_mon nu_i v_ss v in
      sig_vars vals negy coeff invnegy inv_mon nu_i v_ss' vars'
  end.

(** [for i, nu_i in enumerate(nu)] (math.py:644-657). [vks h] lists the
    variables of [h] in the order of the set. *)
Variable vks : hmap T -> list nat.
Fixpoint sig_mons (p : sigparts) (vals : expv T) (invnegy : T) (v_ss : expv T) (nu : list T) (mons : hmap T)
  : res (expv T) :=
  match nu with
  | [] => Ok v_ss
  | nu_i :: nu' =>
      match mons with
      | [] => Err IndexErrorE
      | (e, c) :: mons' =>
          let! mv := subval1 vals [(e, c)] in
          let! inv_mon := recip mv in
          match dget (sp_coeffs p) e with
          | None => Err KeyErrorE
          | Some coeff =>
              let! v_ss' := sig_vars vals (sp_negy p) coeff invnegy inv_mon nu_i v_ss (vks (sp_negy p) ++ vks coeff) in
              sig_mons p vals invnegy v_ss' nu' mons'
          end
      end
  end.
Definition sig_sens (p : sigparts) (vals : expv T) (nu : list T) : res (expv T) :=
  let! nv := subval1 vals (sp_negy p) in
  let! invnegy := recip nv in
  sig_mons p vals invnegy ∅ nu (sp_mons p).

(** ** The program's sensitivities (gp.py:308-341) *)

(** [sum(nu_i*exp for ...)] (gp.py:308-309) *)
Definition cost_sens (nu : list T) (cost : hmap T) : expv T :=
  fold_left (fun d ne => exp_add d (exp_mul (fst (snd ne)) (fst ne))) (combine nu cost) ∅.

(** [for vk, x in v_ss.items(): gpv_ss[vk] = x + gpv_ss.get(vk, 0)] (gp.py:316-317) *)
Definition add_sens (gpv v_ss : expv T) : expv T :=
  fold_left (fun d kx => <[fst kx := nadd (snd kx) (hget d (fst kx))]> d) (map_to_list v_ss) gpv.
Definition total_sens (cost : expv T) (v_sss : list (expv T)) : expv T := fold_left add_sens v_sss cost.

(** One input [c] of a linked variable [v] (gp.py:330-341); the accumulator is
    [gpv_ss], [cost_senss] and the local [dlogcost_dlogv]. Simplification: the
    values are scalars, and the value of [v] is not zero. *)
Definition carry_input (consts : nat -> T) (in_cost : nat -> bool) (v : nat)
    (acc : expv T * expv T * T) (cd : nat * T) : expv T * expv T * T :=
  let '(gpv, cost, dlv) := acc in
  let '(c, dv_dc) := cd in
  let dvc := ndiv (nmul dv_dc (consts c)) (consts v) in
  let gpv' := <[c := nadd (hget gpv c) (nmul dlv dvc)]> gpv in
  match cost !! v with
  | Some dlc =>
      if in_cost c then
        let cost' := delete v cost in
        (gpv', <[c := nadd (hget cost' c) (nmul dlc dvc)]> cost', dlc)
      else (gpv', cost, dlv)
  | None => (gpv', cost, dlv)
  end.

(** One linked variable: [gpv_ss.pop(v)] and the loop over its gradients. *)
Definition carry_var (consts : nat -> T) (in_cost : nat -> bool) (grads : nat -> list (nat * T))
    (acc : expv T * expv T) (v : nat) : expv T * expv T :=
  let '(gpv, cost) := acc in
  let '(gpv', cost', _) :=
    fold_left (carry_input consts in_cost v) (grads v) (delete v gpv, cost, hget gpv v) in
  (gpv', cost').

(** [for v in list(v for v in gpv_ss if v.gradients)] (gp.py:326-341). [order]
    is the order in which [gpv_ss] yields its keys. *)
Definition carry_linked (consts : nat -> T) (in_cost : nat -> bool) (grads : nat -> list (nat * T))
    (gpv cost : expv T) (order : list nat) : expv T * expv T :=
  fold_left (carry_var consts in_cost grads)
    (List.filter (fun v => match grads v with [] => false | _ => true end) order) (gpv, cost).

End Sens.

Arguments sigparts T : clear implicits.
