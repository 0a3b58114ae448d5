(** Shared vocabulary of the model: exceptions as values, number operations,
    Python dicts as insertion-ordered association lists. *)
From Coq Require Export List Bool Arith ZArith QArith Qcanon Reals Lra Lia.
From stdpp Require Export base decidable gmap.
Export ListNotations.
Open Scope nat_scope.

(** ** Exceptions as values *)

(** The exceptions the modelled functions raise (Python built-ins and
    gpkit/exceptions.py). *)
Inductive exn : Type :=
| TypeErrorE | ValueErrorE | KeyErrorE | IndexErrorE | AttributeErrorE
| ZeroDivisionE | OverflowE | AssertionE | UnboundLocalE
| InvalidPosynomialE | InvalidGPConstraintE | PrimalInfeasibleE
| DualInfeasibleE | InfeasibleE | UnboundedGPE | UnknownInfeasibleE
| DimensionalityE | RuntimeWarningE | NotImplementedValueE
| InvalidLicenseE | OSErrorE.

Inductive res (A : Type) : Type := Ok (a : A) | Err (e : exn).
Arguments Ok {A} a.
Arguments Err {A} e.

Definition rbind {A B} (x : res A) (f : A -> res B) : res B :=
  match x with Ok a => f a | Err e => Err e end.
Definition rmap {A B} (f : A -> B) (x : res A) : res B :=
  match x with Ok a => Ok (f a) | Err e => Err e end.
Notation "'let!' x ':=' e1 'in' e2" := (rbind e1 (fun x => e2))
  (at level 200, x pattern, e1 at level 100, e2 at level 200).

(** ** Number operations *)

(** gpkit's coefficients, exponents and values are Python numbers (floats).
    The model is written against these operations only; [npow] is Python's
    [**], [ndec] decides [==]. *)
Class Num (T : Type) := {
  n0 : T; n1 : T;
  nadd : T -> T -> T; nmul : T -> T -> T; nopp : T -> T; ninv : T -> T;
  npow : T -> T -> T;
  nofZ : Z -> T;
  nleb : T -> T -> bool; nltb : T -> T -> bool;
  ndec : EqDecision T
}.
Global Existing Instance ndec.

Definition nsub {T} `{Num T} (a b : T) : T := nadd a (nopp b).
Definition ndiv {T} `{Num T} (a b : T) : T := nmul a (ninv b).
Definition nabs {T} `{Num T} (a : T) : T := if nltb a n0 then nopp a else a.

(** *** Exact reals *)

Definition Rleb (a b : R) : bool := if Rle_dec a b then true else false.
Definition Rltb (a b : R) : bool := if Rlt_dec a b then true else false.

(** Python's float [b ** e]: [Rpower] for a positive base; [0 ** e] is 0 or 1
    for [e >= 0]; an integral power of a negative base is the signed power.
    The remaining cases ([0 ** negative], a non-integral power of a negative
    base) are not real numbers in Python either (an exception, nan or a complex
    number); they are given the value 0 here and are excluded by hypothesis
    in the theorems. *)
Definition Rpow (b e : R) : R :=
  if Rlt_dec 0 b then Rpower b e
  else if Req_EM_T b 0 then (if Req_EM_T e 0 then 1%R else 0%R)
  else if Req_EM_T e (IZR (Int_part e)) then powerRZ b (Int_part e) else 0%R.

Global Instance R_num : Num R := {|
  n0 := 0%R; n1 := 1%R; nadd := Rplus; nmul := Rmult; nopp := Ropp;
  ninv := Rinv; npow := Rpow; nofZ := IZR;
  nleb := Rleb; nltb := Rltb; ndec := Req_EM_T |}.

(** *** Executable rationals, always reduced so that [=] is equality of
    numbers. [npow] supports integral exponents, and any exponent of 1 (0
    otherwise). *)

Definition Qpowi (b e : Q) : Q :=
  if (Qden e =? 1)%positive then Qred (Qpower b (Qnum e))
  else if Qeq_bool b 1 then 1%Q else 0%Q.

Global Instance Q_dec : EqDecision Q.
Proof. intros [a b] [c d]; unfold Decision; decide equality;
       [apply Pos.eq_dec | apply Z.eq_dec]. Defined.

Global Instance Q_num : Num Q := {|
  n0 := 0%Q; n1 := 1%Q;
  nadd a b := Qred (Qplus a b); nmul a b := Qred (Qmult a b);
  nopp a := Qred (Qopp a); ninv a := Qred (Qinv a);
  npow := Qpowi; nofZ := inject_Z;
  nleb := Qle_bool; nltb a b := negb (Qle_bool b a); ndec := Q_dec |}.

(** ** Python dicts *)

Section Dict.
Context {K V : Type} `{EqDecision K}.

(** [d.get(k)] *)
Fixpoint dget (d : list (K * V)) (k : K) : option V :=
  match d with
  | [] => None
  | (k', v) :: d' => if decide (k = k') then Some v else dget d' k
  end.

(** [d[k] = v]: replaces in place, or appends at the end. *)
Fixpoint dset (d : list (K * V)) (k : K) (v : V) : list (K * V) :=
  match d with
  | [] => [(k, v)]
  | (k', v') :: d' => if decide (k = k') then (k', v) :: d'
                      else (k', v') :: dset d' k v
  end.

(** [del d[k]] (no effect if absent; callers check). *)
Fixpoint ddel (d : list (K * V)) (k : K) : list (K * V) :=
  match d with
  | [] => []
  | (k', v') :: d' => if decide (k = k') then d' else (k', v') :: ddel d' k
  end.

(** [k in d] *)
Definition dmem (d : list (K * V)) (k : K) : bool :=
  match dget d k with Some _ => true | None => false end.

(** [d.keys()], [d.values()] *)
Definition dkeys (d : list (K * V)) : list K := map fst d.
Definition dvals (d : list (K * V)) : list V := map snd d.

(** [dict(items)] *)
Definition dict_of (l : list (K * V)) : list (K * V) :=
  fold_left (fun d kv => dset d (fst kv) (snd kv)) l [].

(** [d == d']: the same items, in any order. *)
Definition dict_equiv (d d' : list (K * V)) : Prop := forall k, dget d k = dget d' k.

(** ** Facts about dicts *)

Lemma dget_dset_eq d k v : dget (dset d k v) k = Some v.
Proof.
  induction d as [|[k' v'] d IH]; simpl.
  - rewrite decide_True; auto.
  - destruct (decide (k = k')) as [->|Hne]; simpl.
    + rewrite decide_True; auto.
    + rewrite decide_False; auto.
Qed.

Lemma dget_dset_ne d k k' v : k' <> k -> dget (dset d k v) k' = dget d k'.
Proof.
  intros Hne; induction d as [|[a b] d IH]; simpl.
  - rewrite decide_False; auto.
  - destruct (decide (k = a)) as [->|Hk]; simpl.
    + rewrite !decide_False; auto.
    + destruct (decide (k' = a)); auto.
Qed.

Lemma dget_dset d k k' v :
  dget (dset d k v) k' = if decide (k' = k) then Some v else dget d k'.
Proof.
  destruct (decide (k' = k)) as [->|Hne];
    [apply dget_dset_eq | apply dget_dset_ne; auto].
Qed.

Lemma dget_In d k v : dget d k = Some v -> In (k, v) d.
Proof.
  induction d as [|[a b] d IH]; simpl; [discriminate|].
  destruct (decide (k = a)) as [->|]; [intros [= ->]; auto | auto].
Qed.

Lemma dget_None d k : dget d k = None <-> ~ In k (dkeys d).
Proof.
  induction d as [|[a b] d IH]; simpl; [tauto|].
  destruct (decide (k = a)) as [->|Hne].
  - split; [discriminate | intros H; exfalso; auto].
  - rewrite IH. split; intros H; [intros [->|]; auto | auto].
Qed.

Lemma In_dget d k v : NoDup (dkeys d) -> In (k, v) d -> dget d k = Some v.
Proof.
  induction d as [|[a b] d IH]; simpl; [tauto|].
  intros Hnd [[= -> ->]|Hin].
  - rewrite decide_True; auto.
  - inversion Hnd as [|x l Hx Hnd' E]; subst. rewrite decide_False; auto.
    intros ->. apply Hx. apply elem_of_list_In. apply in_map_iff. exists (a, v); auto.
Qed.

Lemma dget_Some d k v : NoDup (dkeys d) -> dget d k = Some v <-> In (k, v) d.
Proof. intros; split; [apply dget_In | apply In_dget; auto]. Qed.

Lemma dkeys_dset_In d k v x : In x (dkeys (dset d k v)) <-> x = k \/ In x (dkeys d).
Proof.
  induction d as [|[a b] d IH]; simpl; [intuition|].
  destruct (decide (k = a)) as [->|]; simpl; [intuition|].
  rewrite IH; intuition.
Qed.

Lemma dkeys_dset_present d k v :
  In k (dkeys d) -> dkeys (dset d k v) = dkeys d.
Proof.
  induction d as [|[a b] d IH]; simpl; [tauto|].
  intros [->|Hin].
  - rewrite decide_True by auto. reflexivity.
  - destruct (decide (k = a)) as [->|]; simpl; [reflexivity|]. f_equal; auto.
Qed.

Lemma dset_absent d k v : ~ In k (dkeys d) -> dset d k v = d ++ [(k, v)].
Proof.
  induction d as [|[a b] d IH]; simpl; intros H; [reflexivity|].
  rewrite decide_False by (intros ->; apply H; auto).
  f_equal. apply IH. intros H'; apply H; auto.
Qed.

Lemma NoDup_dset d k v : NoDup (dkeys d) -> NoDup (dkeys (dset d k v)).
Proof.
  intros Hnd. destruct (in_dec (fun x y => decide (x = y)) k (dkeys d)) as [Hin|Hin].
  - rewrite dkeys_dset_present; auto.
  - rewrite dset_absent by auto. unfold dkeys. rewrite map_app.
    apply NoDup_app; repeat split; auto.
    + intros x Hx Hx'. simpl in Hx'. apply elem_of_list_singleton in Hx'. subst.
      apply Hin. apply elem_of_list_In; auto.
    + simpl. apply NoDup_singleton.
Qed.

Lemma dkeys_ddel_In d k x : In x (dkeys (ddel d k)) -> In x (dkeys d).
Proof.
  induction d as [|[a b] d IH]; simpl; [tauto|].
  destruct (decide (k = a)); simpl; intuition.
Qed.

Lemma NoDup_ddel d k : NoDup (dkeys d) -> NoDup (dkeys (ddel d k)).
Proof.
  induction d as [|[a b] d IH]; simpl; auto.
  intros Hnd; inversion Hnd as [|x l Hx Hnd' E]; subst.
  destruct (decide (k = a)); simpl; auto. constructor; auto.
  intros H. apply Hx. apply elem_of_list_In. apply elem_of_list_In in H.
  eapply dkeys_ddel_In; eauto.
Qed.

Lemma dget_ddel_eq d k : NoDup (dkeys d) -> dget (ddel d k) k = None.
Proof.
  intros Hnd. induction d as [|[a b] d IH]; simpl; auto.
  inversion Hnd as [|x l Hx Hnd' E]; subst.
  destruct (decide (k = a)) as [->|]; simpl.
  - apply dget_None. intros H; apply Hx; apply elem_of_list_In; auto.
  - rewrite decide_False; auto.
Qed.

Lemma dget_ddel_ne d k k' : k' <> k -> dget (ddel d k) k' = dget d k'.
Proof.
  intros Hne. induction d as [|[a b] d IH]; simpl; auto.
  destruct (decide (k = a)) as [->|]; simpl.
  - rewrite decide_False; auto.
  - destruct (decide (k' = a)); auto.
Qed.

Lemma dmem_In d k : dmem d k = true <-> In k (dkeys d).
Proof.
  unfold dmem. destruct (dget d k) eqn:E.
  - split; auto. intros _. apply dget_In in E. apply in_map_iff.
    exists (k, v); auto.
  - apply dget_None in E. split; [discriminate | tauto].
Qed.

Lemma dget_In_keys d k v : dget d k = Some v -> In k (dkeys d).
Proof. intros E; apply dget_In in E; apply in_map_iff; exists (k, v); auto. Qed.

End Dict.

Arguments dget {K V _} d k.
Arguments dset {K V _} d k v.
Arguments ddel {K V _} d k.

(** Case analysis on the first decision in the goal. *)
Ltac dcase E :=
  match goal with
  | |- context [@decide ?P ?D] => destruct (@decide P D) as [E|E]
  end.

Global Arguments gmap_eq_eq : simpl never.
Global Arguments ndec : simpl never.
Global Arguments Req_EM_T : simpl never.
