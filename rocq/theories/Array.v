(** Model of [NomialArray.sum] and [.prod] without arguments
    (gpkit/nomials/array.py:149-191). *)
From Verif Require Import Base HashVec Nomial Constraint Units.

Section Array.
Context {T : Type} `{Num T}.
Variable reg : nat -> unitdef T.
Variable se : bool.

(** Array elements: plain numbers or nomials. (Pint Quantities as elements
    are not modelled.) *)
Inductive elem := ElNum (c : T) | ElNom (a : umap T).

(** [a + b] (math.py:179-193). *)
Definition elem_add (a b : elem) : res elem :=
  match a, b with
  | ElNum x, ElNum y => Ok (ElNum (nadd x y))
  | ElNom h, ElNum c | ElNum c, ElNom h => rmap ElNom (sig_add_num reg se h c None)
  | ElNom a, ElNom b => rmap ElNom (sig_add reg se a b)
  end.

(** [a * b] (math.py:195-225): zero times a nomial is that zero. *)
Definition elem_mul (a b : elem) : res elem :=
  match a, b with
  | ElNum x, ElNum y => Ok (ElNum (nmul x y))
  | ElNom h, ElNum c | ElNum c, ElNom h =>
      if decide (c = n0) then Ok (ElNum c) else rmap ElNom (sig_mul_num reg se h c None)
  | ElNom a, ElNom b => rmap ElNom (sig_mul reg se a b)
  end.

(** Adding or multiplying the elements one by one, from the left. *)
Fixpoint fold_elems (f : elem -> elem -> res elem) (acc : elem) (l : list elem) : res elem :=
  match l with
  | [] => Ok acc
  | a :: l' => let! acc' := f acc a in fold_elems f acc' l'
  end.
Definition stepwise (f : elem -> elem -> res elem) (l : list elem) : res elem :=
  match l with [] => Err ValueErrorE | a :: l' => fold_elems f a l' end.

(** One iteration of the loop of [sum] (array.py:156-165). *)
Definition sum_step (acc : umap T) (p : elem) : res (umap T) :=
  match p with
  | ElNom a =>
      let acc' := match uh acc with [] => UM [] (uu a) | _ => acc end in
      nm_add reg acc' a
  | ElNum c =>
      let! c' := match uu acc with
                 | Some u => if decide (c = n0) then Ok c
                             else match float_of reg u with
                                  | Some f => Ok (ndiv c f)
                                  | None => Err DimensionalityE
                                  end
                 | None => Ok c
                 end in
      let old := match dget (uh acc) e_empty with Some v => v | None => n0 end in
      Ok (UM (dset (uh acc) e_empty (nadd c' old)) (uu acc))
  end.

Fixpoint sum_loop (acc : umap T) (l : list elem) : res (umap T) :=
  match l with
  | [] => Ok acc
  | p :: l' => let! acc' := sum_step acc p in sum_loop acc' l'
  end.

(** [NomialArray.sum()] (array.py:149-169). *)
Definition array_sum (l : list elem) : res (umap T) :=
  match l with
  | [] => Err ValueErrorE
  | _ => let! s := sum_loop (UM [] None) l in usig se s
  end.

(** The loop of [prod] (array.py:179-187); [None] when some element is not a
    single-term nomial. *)
Fixpoint prod_loop (c : T) (e : gmap nat T) (u : option (gmap nat T)) (l : list elem)
  : option (T * gmap nat T * option (gmap nat T)) :=
  match l with
  | [] => Some (c, e, u)
  | ElNom (UM [(me, mc)] mu) :: l' =>
      prod_loop (nmul c mc) (exp_add e me)
        (match mu with
         | Some v => Some (match u with Some w => exp_add w v | None => v end)
         | None => u
         end) l'
  | _ => None
  end.

(** [NomialArray.prod()] (array.py:171-191). numpy's product of an object array
    multiplies from the left. *)
Definition array_prod (l : list elem) : res elem :=
  match l with
  | [] => Err ValueErrorE
  | _ =>
      match prod_loop n1 e_empty None l with
      | Some (c, e, u) => rmap ElNom (usig se (UM [(e, c)] u))
      | None => stepwise elem_mul l
      end
  end.

End Array.

Arguments elem T : clear implicits.
