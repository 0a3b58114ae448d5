(** Model of the single-equation constraints (gpkit/nomials/math.py:365-692),
    units aside. *)
From Verif Require Import Base HashVec Nomial Sub Mono.

Inductive oper := OpLe | OpGe | OpEq.

Section Constraint.
Context {T : Type} `{Num T}.
Variable inf : T.

(** [PosynomialInequality.feastol = 1e-3] (math.py:402). *)
Definition feastol : T := ndiv n1 (nofZ 1000).

(** ** PosynomialInequality *)

(** [hmap[exp-m_exp] = hmap.pop(exp)/m_c] (math.py:461-462); Python evaluates
    the right side first. *)
Definition rename_step (m_exp : expv T) (m_c : T) (h : hmap T) (e : expv T) : res (hmap T) :=
  match dget h e with
  | Some c => Ok (dset (ddel h e) (exp_sub e m_exp) (ndiv c m_c))
  | None => Err KeyErrorE
  end.

(** [for exp in list(hmap): ...] *)
Fixpoint rename_loop (m_exp : expv T) (m_c : T) (h : hmap T) (es : list (expv T)) : res (hmap T) :=
  match es with
  | [] => Ok h
  | e :: es' => let! h' := rename_step m_exp m_c h e in rename_loop m_exp m_c h' es'
  end.

(** [_simplify_posy_ineq] (math.py:421-440); [None] is a tautology. *)
Definition simplify (h : hmap T) : res (option (hmap T)) :=
  match dget h e_empty with
  | None => Ok (Some h)
  | Some c =>
      let coeff := nsub n1 c in
      if nleb (nopp feastol) coeff && Nat.eqb (length h) 1 then Ok None
      else if nltb coeff (nopp feastol) then Err PrimalInfeasibleE
      else let! scaled := hv_div h coeff in Ok (Some (ddel scaled e_empty))
  end.

(** [_gen_unsubbed] (math.py:442-464); without units [of_division] is 1. *)
Definition gen_unsubbed (se : bool) (p_lt m_gt : hmap T) : res (list (hmap T)) :=
  match m_gt with
  | [(m_exp, m_c)] =>
      let! h := rename_loop m_exp m_c p_lt (dkeys p_lt) in
      let! o := simplify h in
      match o with
      | None | Some [] => Ok []
      | Some h' => let! u := signomial_init se true h' in Ok [u]
      end
  | _ => Err TypeErrorE
  end.

(** [PosynomialInequality.__init__] (math.py:405-414). *)
Definition posy_ineq (se : bool) (left : hmap T) (op : oper) (right : hmap T) : res (list (hmap T)) :=
  match op with
  | OpLe => gen_unsubbed se left right
  | OpGe => gen_unsubbed se right left
  | OpEq => Err ValueErrorE
  end.

(** What [as_hmapslt1] leaves on the constraint object (math.py:426-430, 472):
    [pmap], and [const_mmap], [const_coeff] where there was a constant. *)
Record cstate := CS { cs_pmap : option (list (list (nat * T)));
                      cs_const : option (list (nat * T) * T) }.

Definition remove_nth {A} (n : nat) (l : list A) : list A := take n l ++ drop (S n) l.
Fixpoint index_of (e : expv T) (h : hmap T) : nat :=
  match h with
  | [] => 0
  | (e', _) :: h' => if decide (e = e') then 0 else S (index_of e h')
  end.

(** The effect of [_simplify_posy_ineq] with a [pmap] on the object. *)
Definition note_const (st : cstate) (h : hmap T) (pm : list (list (nat * T))) : cstate :=
  match dget h e_empty with
  | None => CS (Some pm) (cs_const st)
  | Some c =>
      let i := index_of e_empty h in
      CS (Some (remove_nth i pm)) (Some (nth i pm [], nsub n1 c))
  end.

(** The loop of [as_hmapslt1] (math.py:466-481). *)
Variable pick : hmap T -> schedule.
Fixpoint as_hmapslt1 (fixed : expv T) (st : cstate) (unsubbed : list (hmap T))
  : res (cstate * list (hmap T)) :=
  match unsubbed with
  | [] => Ok (st, [])
  | posy :: rest =>
      let! sst := nm_sub inf fixed posy (pick posy) in
      let h := s_cp sst in
      let st' := note_const st h (mmap sst) in
      let! o := simplify h in
      match o with
      | None => as_hmapslt1 fixed st' rest
      | Some h' =>
          if any_nonpositive h' then Err InvalidGPConstraintE
          else let! r := as_hmapslt1 fixed st' rest in Ok (fst r, h' :: snd r)
      end
  end.

(** ** MonomialEquality (math.py:509-542) *)
Definition meq_unsubbed (se : bool) (left right : hmap T) : res (list (hmap T)) :=
  let! a := gen_unsubbed se left right in
  let! b := gen_unsubbed se right left in
  Ok (a ++ b).

(** ** SignomialInequality (math.py:562-619, 661-669) *)

(** [self.unsubbed = [plt - pgt]] (math.py:568-578): both sides are Signomials,
    so this is [Signomial.__sub__]. *)
Definition sig_ineq (se : bool) (left : hmap T) (op : oper) (right : hmap T) : res (hmap T) :=
  if negb se then Err TypeErrorE else
  let diff a b := match py_sub se (VNom a) (VNom b) with
                  | Ok (VNom h) => Ok h | Ok (VNum c) => Ok (num_hmap c) | Err e => Err e end in
  match op with
  | OpLe => diff left right
  | OpGe => diff right left
  | OpEq => Err ValueErrorE
  end.

(** [SignomialInequality.as_hmapslt1] (math.py:581-619), without the
    bookkeeping for sensitivities. An empty part stands for the number 0. *)
Definition sig_as_hmapslt1 (se : bool) (fixed : expv T) (siglt0 : hmap T) : res (list (hmap T)) :=
  let! st := nm_sub inf fixed siglt0 (pick siglt0) in
  let '(posy, negy) := posy_negy (s_cp st) in
  match posy, negy with
  | [], _ => Ok []
  | _, [] => Err ValueErrorE
  | _, [_] =>
      let! u := gen_unsubbed se posy negy in
      let! r := as_hmapslt1 fixed (CS None None) u in
      Ok (snd r)
  | _, _ => Err InvalidGPConstraintE
  end.

(** [SignomialInequality.as_gpconstr] (math.py:661-669). [guess] is the x0
    passed in, [vks] the iteration order of [negy.vks]. If [negy] is the number
    0 it has no [vks]; if [posy] is the number 0 it becomes [Signomial(0)]. *)
Definition x0_of (guess : expv T) (vks : list nat) : expv T :=
  list_to_map (map (fun k => (k, match guess !! k with Some v => v | None => n1 end)) vks).

Definition as_gpconstr (pick0 : expv T -> hmap T -> schedule) (se : bool) (guess : expv T)
    (siglt0 : hmap T) (vks : list nat) : res (list (hmap T)) :=
  let '(posy, negy) := posy_negy siglt0 in
  match negy with
  | [] => Err AttributeErrorE
  | _ =>
      let x0 := x0_of guess vks in
      let! m := mono_approx inf x0 (pick0 x0) se negy vks in
      let! p := match posy with [] => signomial_init se true (num_hmap n0) | _ => Ok posy end in
      posy_ineq se p OpLe m
  end.

(** ** Relaxation (math.py:383-393): the relaxed inequalities, as sides. *)
Definition relaxed (rv : nat) (left : hmap T) (op : oper) (right : hmap T)
  : list (hmap T * oper * hmap T) :=
  let times h := smul (var_hmap rv) h in
  match op with
  | OpGe => [(times left, OpGe, right)]
  | OpLe => [(left, OpLe, times right)]
  | OpEq => [(left, OpLe, times right); (times left, OpGe, right)]
  end.

End Constraint.

Arguments cstate T : clear implicits.
