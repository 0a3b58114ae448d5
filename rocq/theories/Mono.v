(** Model of [Signomial.mono_approximation] and [Posynomial.mono_lower_bound]
    (gpkit/nomials/math.py:104-142, 279-291). *)
From Verif Require Import Base HashVec Nomial Sub.

Section Mono.
Context {T : Type} `{Num T}.
Variable inf : T.

(** The point of expansion after [parse_subs] (math.py:115): a number per
    variable. *)
Variable x0 : expv T.

(** The iteration order Python happens to use in each call of [sub]; the
    theorems quantify over every choice of valid schedules. *)
Variable pick : hmap T -> schedule.

(** One turn of the loop over [self.vks] (math.py:121-129). The assignment
    [diff, = ...values()] needs exactly one value. *)
Definition mono_step (h : hmap T) (c0 : T) (acc : T * expv T) (vk : nat) : res (T * expv T) :=
  match x0 !! vk with
  | None => Err KeyErrorE
  | Some v =>
      let dh := nm_diff h vk in
      let! st := nm_sub inf x0 dh (pick dh) in
      match s_cp st with
      | [(_, d)] =>
          if decide (c0 = n0) then Err ZeroDivisionE else
          let e := ndiv (nmul v d) c0 in
          let exp := if decide (e = n0) then snd acc else <[vk := e]> (snd acc) in
          Ok (ndiv (fst acc) (npow v e), exp)
      | _ => Err ValueErrorE
      end
  end.

Fixpoint mono_loop (h : hmap T) (c0 : T) (acc : T * expv T) (vks : list nat) : res (T * expv T) :=
  match vks with
  | [] => Ok acc
  | vk :: vks' => let! acc' := mono_step h c0 acc vk in mono_loop h c0 acc' vks'
  end.

(** [Signomial.mono_approximation]; [vks] is the set of the nomial's variables in
    its iteration order, [se] the SignomialsEnabled flag consulted by
    [Monomial(hmap)] (math.py:115-142). *)
Definition sig_mono_approx (se : bool) (h : hmap T) (vks : list nat) : res (hmap T) :=
  let! st := nm_sub inf x0 h (pick h) in
  match s_cp st with
  | [(e, c0)] =>
      if decide (e = e_empty) then
        let! r := mono_loop h c0 (c0, e_empty) vks in
        signomial_init se true [(snd r, fst r)]
      else Err ValueErrorE
  | _ => Err ValueErrorE
  end.

(** [mono_approximation] as dispatched by the class: [Monomial] overrides it to
    return itself (math.py:354-355). [mono_lower_bound] (math.py:279-291) is
    this on Posynomials. *)
Definition mono_approx (se : bool) (h : hmap T) (vks : list nat) : res (hmap T) :=
  if decide (classify h = CMonomial) then Ok h else sig_mono_approx se h vks.

End Mono.
