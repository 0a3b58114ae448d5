(** Model of the value of an expression: [Nomial.value] (gpkit/nomials/core.py:88-100). *)
From Verif Require Import Base HashVec Nomial Sub SolRead.
Open Scope nat_scope.

Section NomValue.
Context {T : Type} `{Num T}.
Variable inf : T.
(** The order in which constants are substituted, see Sub.v. *)
Variable pick : expv T -> hmap T -> schedule.
(** Whether SignomialsEnabled. *)
Variable se : bool.

(** What "value" is in the description of a variable (variables.py:47-61). Simplification: units and nan are not modelled. *)
Inductive described := NoValue | ANumber (x : T) | AFunction | ASweep.
Variable values : nat -> described.

(** [isinstance(_, FixedScalar)] (small_classes.py:11-18) *)
Definition is_fixed (h : hmap T) : bool := Nat.eqb (length h) 1 && match vks_in h with [] => true | _ => false end.
(** [cs[0]] (data.py:35-42) *)
Definition first_c (h : hmap T) : res T := match h with (_, c) :: _ => Ok c | [] => Err IndexErrorE end.
(** The constants of [parse_subs] (substitution.py:24-31, 67-75) of the values of the variables: functions and sweeps are put elsewhere. *)
Definition constant_values (h : hmap T) : expv T :=
  fold_right (fun k fixed => match values k with ANumber x => <[k := x]> fixed | _ => fixed end) ∅ (vks_in h).

(** [value]: a number, or what is left *)
Definition nom_value (h : hmap T) : res (T + hmap T) :=
  if is_fixed h then let! c := first_c h in Ok (inl c)
  else
    let fixed := constant_values h in
    let! st := nm_sub inf fixed h (pick fixed h) in
    let! p := signomial_init se true (s_cp st) in
    if is_fixed p then let! c := first_c p in Ok (inl c) else Ok (inr p).
End NomValue.
Arguments described : clear implicits.
