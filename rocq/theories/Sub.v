(** Model of substitution of constants into a NomialMap
    (gpkit/nomials/map.py:85-191). *)
From Verif Require Import Base HashVec Nomial.

Section Sub.
Context {T : Type} `{Num T}.
(** numpy's [inf]. *)
Variable inf : T.

(** [np.sign] of a number. *)
Definition nsign (c : T) : T := if nltb n0 c then n1 else if nltb c n0 then nopp n1 else n0.

(** [float(cval)**x if cval != 0 or x >= 0 else np.sign(cval)*np.inf]
    (map.py:171). *)
Definition powval (cval x : T) : T :=
  if bool_decide (cval = n0) && negb (nleb n0 x) then nmul (nsign cval) inf
  else npow cval x.

(** The mutable state of [NomialMap.sub]: the copy [cp], its [csmap] and
    [expmap] (by position of the original term: the original exponents are the
    keys and never change), and the set [squished] (map.py:110-124).

    Simplification: the exponent objects that are keys of [cp] are values. The
    code only mutates an exponent after popping the entry equal to it or after
    checking that no entry equals it, and C02 shows its cached hash stays right,
    so no key of [cp] changes under the dict's feet. *)
Record sst := SST { s_cp : hmap T; s_cs : list T; s_cur : list (expv T); s_sq : list (expv T) }.

Definition sub_init (h : hmap T) : sst := SST h (map snd h) (map fst h) [].

(** [make sure it's never an empty hmap] (map.py:187-188). *)
Definition never_empty (h : hmap T) : hmap T :=
  match h with [] => [(e_empty, n0)] | _ => h end.

(** [subinplace] (map.py:168-191) on the [i]-th original term. *)
Definition subinplace (st : sst) (vk : nat) (cval : T) (i : nat) : res sst :=
  match s_cur st !! i with
  | None => Err IndexErrorE  (* no such term; the callers never do this *)
  | Some e =>
    match e !! vk with
    | None => Err KeyErrorE
    | Some x =>
      let pv := powval cval x in
      let cs := alter (fun c => nmul c pv) i (s_cs st) in
      let e' := delete vk e in
      match dget (s_cp st) e with
      | Some c =>
          let cp1 := ddel (s_cp st) e in
          let value := nmul pv c in
          match dget cp1 e' with
          | Some cv =>
              Ok (SST (never_empty (if decide (value = nopp cv) then ddel cp1 e'
                                    else dset cp1 e' (nadd cv value)))
                      cs (<[i := e']> (s_cur st)) (e' :: s_sq st))
          | None =>
              Ok (SST (never_empty (if decide (value = n0) then cp1 else dset cp1 e' value))
                      cs (<[i := e']> (s_cur st)) (s_sq st))
          end
      | None =>
          if existsb (fun e2 => bool_decide (e2 = e)) (s_sq st)
          then Ok (SST (s_cp st) cs (<[i := e']> (s_cur st)) (s_sq st))
          else Ok (SST (s_cp st) cs (s_cur st) (s_sq st))
      end
    end
  end.

(** [for o_exp, exp in exps: subinplace(...)] (map.py:136-137). *)
Fixpoint sub_pass (st : sst) (vk : nat) (cval : T) (idxs : list nat) : res sst :=
  match idxs with
  | [] => Ok st
  | i :: idxs' => let! st' := subinplace st vk cval i in sub_pass st' vk cval idxs'
  end.

(** A schedule: the order in which the dict [varlocs] yields the substituted
    variables and, for each of them, the order in which the set of its terms is
    iterated (map.py:125-137). *)
Definition schedule := list (nat * list nat).

Fixpoint sub_passes (fixed : expv T) (st : sst) (sched : schedule) : res sst :=
  match sched with
  | [] => Ok st
  | (vk, idxs) :: sched' =>
      match fixed !! vk with
      | None => Err KeyErrorE
      | Some cval => let! st' := sub_pass st vk cval idxs in sub_passes fixed st' sched'
      end
  end.

(** [NomialMap.sub] with parsed numeric substitutions (map.py:85-138). With
    nothing to substitute it returns the map itself, as here. *)
Definition nm_sub (fixed : expv T) (h : hmap T) (sched : schedule) : res sst :=
  sub_passes fixed (sub_init h) sched.

(** The schedules Python may follow: every substituted variable that occurs,
    once; for each, every term it occurs in, once (map.py:113-121). *)
Definition valid_schedule (fixed : expv T) (h : hmap T) (sched : schedule) : Prop :=
  NoDup (map fst sched) /\
  (forall vk, In vk (map fst sched) <->
     (exists v, fixed !! vk = Some v) /\ exists e c, In (e, c) h /\ e !! vk <> None) /\
  (forall vk idxs, In (vk, idxs) sched ->
     NoDup idxs /\
     forall i, In i idxs <-> exists e c, h !! i = Some (e, c) /\ e !! vk <> None).

(** [NomialMap.mmap] (map.py:140-164), by positions: for every term of the
    substituted map, the original terms mapped onto it and their fractions. *)
Definition mmap (st : sst) : list (list (nat * T)) :=
  map (fun ec : expv T * T =>
    flat_map (fun t : nat * (expv T * T) =>
      let '(i, (cu, cs)) := t in
      if decide (cu = fst ec) then [(i, ndiv cs (snd ec))] else [])
    (combine (seq 0 (length (s_cur st))) (combine (s_cur st) (s_cs st))))
  (s_cp st).

End Sub.

Arguments sst T : clear implicits.
