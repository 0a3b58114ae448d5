(** What is said about sensitivity diagrams (C96). *)
From Coq Require Import Reals.
From Verif Require Import Base NomialSem Sankey.
Open Scope R_scope.

Definition slink := ((node * node) * R)%type.
(** What flows into a node *)
Definition inflow (L : list slink) (n : node) : R := lsum (fun l => if decide (snd (fst l) = n) then snd l else 0) L.
(** A node that something flows into passes just that on, along one link. *)
Definition passes_on (L : list slink) (n : node) : Prop :=
  forall a v, In ((a, n), v) L -> exists p, In ((n, p), inflow L n) L /\ forall q w, In ((n, q), w) L -> q = p /\ w = inflow L n.

(** The constraints of a set, in order *)
Fixpoint cons_of (t : tree R) : list (con R) :=
  match t with Leaf c => [c] | Set_ _ _ _ cs => (fix each cs := match cs with [] => [] | c :: cs' => cons_of c ++ each cs' end) cs end.
(** The fixed variables of the named models of a set, except those under a label *)
Fixpoint fixed_of (labeled : bool) (t : tree R) : list (fvar R) :=
  match t with
  | Leaf _ => []
  | Set_ k _ labels cs =>
      (match k with Named fixed => if labeled then [] else List.filter f_const fixed | _ => [] end)
      ++ (fix each cs := match cs with [] => [] | c :: cs' => fixed_of (match labels with [] => false | _ => true end) c ++ each cs' end) cs
  end.
(** The sensitivities of the solution: of a constraint, negative when no variable is asked for, or to the variable; of a fixed variable *)
Definition con_sens (var : option nat) (c : con R) : R :=
  match var with
  | None => match c_senss c with Some s => - Rabs s | None => 0 end
  | Some v => match c_vss c with Some d => match dget d v with Some x => x | None => 0 end | None => 0 end
  end.
Definition fixed_sens (f : fvar R) : R := match f_sens f with FVal x => - Rabs x | _ => 0 end.
Definition shown_fixed (var : option nat) (t : tree R) : list (fvar R) := match var with None => fixed_of false t | Some _ => [] end.
(** The sum of them all *)
Definition all_sens (var : option nat) (t : tree R) : R := lsum (con_sens var) (cons_of t) + lsum fixed_sens (shown_fixed var t).
Definition how_many (var : option nat) (t : tree R) : nat := (length (cons_of t) + length (shown_fixed var t))%nat.

(** Labels are of each position once, in order; those of sets are no integers. *)
Fixpoint labels_ok (t : tree R) : Prop :=
  match t with
  | Leaf _ => True
  | Set_ k _ labels cs =>
      (labels = [] \/ map snd labels = seq 0 (length cs)) /\ (k = Dict \/ forall n, ~ In (KInt n) (map fst labels)) /\
      (fix each cs := match cs with [] => True | c :: cs' => labels_ok c /\ each cs' end) cs
  end.
