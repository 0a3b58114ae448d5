(** Property C17: sums and products of arrays.
    Specification vocabulary: [elem_val], [elem_units], [positive_elem], [rprod]
    (ArrayProofs.v), UnitsSem.v. *)
From Verif Require Import Base HashVec Nomial NomialSem NomialProofs CanonProofs DiffProofs
  Constraint Units UnitsSem UnitsProofs Array ArrayProofs PropsUnits.
Open Scope R_scope.

(** Whenever [sum()] returns, its value is the sum of the elements' values. *)
Theorem C17_sum_value :
  forall (reg : nat -> unitdef R) (se : bool) (l : list (elem R)) (s : umap R),
  registry_ok reg -> array_sum reg se l = Ok s ->
  forall env, phys reg env s = lsum (elem_val reg env) l.
Proof. intros reg se l s Hr E env. exact (array_sum_val reg Hr se env l s E). Qed.
Print Assumptions C17_sum_value.

(** Whenever [prod()] returns, its value is the product of the elements' values. *)
Theorem C17_prod_value :
  forall (reg : nat -> unitdef R) (se : bool) (l : list (elem R)) (s : elem R),
  registry_ok reg -> array_prod reg se l = Ok s ->
  forall env, elem_val reg env s = rprod (elem_val reg env) l.
Proof. intros reg se l s Hr E env. exact (array_prod_val reg Hr se env l s E). Qed.
Print Assumptions C17_prod_value.

(** It returns whenever adding one by one does, for arrays of posynomials and
    positive numbers. Missing: zeros and signomials (refuted below for zeros). *)
Theorem C17_sum_succeeds_partial :
  forall (reg : nat -> unitdef R) (se : bool) (l : list (elem R)) (s : elem R),
  registry_ok reg -> Forall positive_elem l -> Forall (fun a => proper reg (elem_units a)) l ->
  stepwise (elem_add reg se) l = Ok s ->
  exists t, array_sum reg se l = Ok t /\ forall env, phys reg env t = elem_val reg env s.
Proof.
  intros reg se l s Hr Hp Hpp Hs. destruct (array_sum_stepwise reg Hr se l s Hp Hpp Hs) as [t Ht].
  exists t. split; auto. intros env. rewrite (array_sum_val reg Hr se env l t Ht).
  symmetry. exact (stepwise_add_val reg Hr se env l s Hp Hs).
Qed.
Print Assumptions C17_sum_succeeds_partial.

Theorem C17_prod_succeeds_partial :
  forall (reg : nat -> unitdef R) (se : bool) (l : list (elem R)) (s : elem R),
  registry_ok reg -> Forall positive_elem l -> stepwise (elem_mul reg se) l = Ok s ->
  exists t, array_prod reg se l = Ok t /\ forall env, elem_val reg env t = elem_val reg env s.
Proof.
  intros reg se l s Hr Hp Hs. destruct (array_prod_stepwise reg se l s Hp Hs) as [t Ht].
  exists t. split; auto. intros env. rewrite (array_prod_val reg Hr se env l t Ht).
  symmetry. exact (stepwise_mul_val reg Hr se env l s Hs).
Qed.
Print Assumptions C17_prod_succeeds_partial.

Open Scope nat_scope.
Definition eitems {T} (r : res (elem T)) :=
  match r with Ok (ElNom a) => uitems (Ok a) | _ => None end.
Definition no_reg {T} `{Num T} (n : nat) : unitdef T := UD n1 ∅.

(** [NomialArray([0, x]).sum()] raises InvalidPosynomial although [0 + x] is [x]. *)
Theorem C17_sum_of_zero_refuted :
  let l := [ElNum 0%Q; ElNom (UM (var_hmap 0) None)] in
  eitems (stepwise (elem_add no_reg false) l) = Some ([([(0, 1%Q)], 1%Q)], None) /\
  array_sum no_reg false l = Err InvalidPosynomialE.
Proof. cbn zeta. split; vm_compute; reflexivity. Qed.
Print Assumptions C17_sum_of_zero_refuted.

(** So do two opposite numbers: [NomialArray([1, -1, x]).sum()]. *)
Theorem C17_sum_of_opposite_numbers_refuted :
  let l := [ElNum 1%Q; ElNum (-1)%Q; ElNom (UM (var_hmap 0) None)] in
  eitems (stepwise (elem_add no_reg false) l) = Some ([([(0, 1%Q)], 1%Q)], None) /\
  array_sum no_reg false l = Err InvalidPosynomialE.
Proof. cbn zeta. split; vm_compute; reflexivity. Qed.
Print Assumptions C17_sum_of_opposite_numbers_refuted.

(** The product of y [m] and 1/x [1/ft] keeps the unit m/ft: adding 1 to it
    raises, adding 1 to [y * (1/x)] does not. *)
Theorem C17_prod_units_refuted :
  let y := ElNom (UM (var_hmap 0) (Some metre)) in
  let x := ElNom (UM [({[1 := (-1)%Q]}, 1%Q)] (Some {[1 := (-1)%Q]})) in
  (let! p := stepwise (elem_mul ex_reg false) [y; x] in rmap (fun _ => tt) (elem_add ex_reg false p (ElNum 1%Q))) = Ok tt /\
  (let! p := array_prod ex_reg false [y; x] in rmap (fun _ => tt) (elem_add ex_reg false p (ElNum 1%Q))) = Err DimensionalityE.
Proof. cbn zeta. split; vm_compute; reflexivity. Qed.
Print Assumptions C17_prod_units_refuted.

Example C17_computed : (* [y [m], x [ft]].sum() and .prod() *)
  uitems (array_sum (T := Q) ex_reg false [ElNom (uvar ex_vunits 0); ElNom (uvar ex_vunits 1)])
  = Some ([([(0, 1%Q)], 1%Q); ([(1, 1%Q)], (381 # 1250)%Q)], Some [(0, 1%Q)]) /\
  eitems (array_prod (T := Q) ex_reg false [ElNom (uvar ex_vunits 0); ElNom (uvar ex_vunits 1)])
  = Some ([([(0, 1%Q); (1, 1%Q)], 1%Q)], Some [(0, 1%Q); (1, 1%Q)]).
Proof. split; vm_compute; reflexivity. Qed.

Open Scope R_scope.
Example C17_nonvacuous :
  let l := [ElNum 2; ElNom (UM [({[0%nat := 1]}, 3); (∅, 1)] None)] in
  Forall positive_elem l /\ Forall (fun a => proper ex_reg (elem_units a)) l /\
  exists s, stepwise (elem_add ex_reg false) l = Ok s.
Proof.
  cbn zeta. split; [|split].
  - repeat constructor; cbn; try lra; try discriminate. intros e c [[= <- <-]|[[= <- <-]|[]]]; lra.
  - repeat constructor.
  - cbn [stepwise fold_elems elem_add]. unfold sig_add_num. destruct (decide _) as [E|_]; [cbn in E; lra|].
    unfold nm_add. cbn [uu qeqb rbind uh]. unfold hv_add, num_hmap. cbn [fold_left hv_add_item dget].
    destruct (decide _) as [E|_].
    + apply (f_equal (fun e : gmap nat R => e !! 0%nat)) in E. rewrite lookup_singleton in E. discriminate.
    + destruct (decide _) as [_|E]; [|elim E; reflexivity].
      destruct (decide _) as [E|_]; [cbn in E; lra|]. cbn [dset].
      destruct (decide _) as [E|_].
      * apply (f_equal (fun e : gmap nat R => e !! 0%nat)) in E. rewrite lookup_singleton in E. discriminate.
      * destruct (decide _) as [_|E]; [|elim E; reflexivity].
        unfold usig, signomial_init. cbn [uh any_nonpositive existsb snd nadd n0 R_num nleb].
        assert (B1 : Rleb 3 0 = false) by (apply Rleb_false; lra).
        assert (B2 : Rleb (2 + 1) 0 = false) by (apply Rleb_false; lra).
        rewrite B1, B2. cbn [orb andb rbind rmap]. eauto.
Qed.
