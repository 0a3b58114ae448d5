(** Proofs about comparisons. *)
From Verif Require Import Base HashVec Nomial NomialSem NomialProofs CanonProofs DiffProofs
  Sub SubSem SubProofs SubExtra Mono Constraint ConstraintSem ConstraintProofs Compare CompareSpec.
From Verif Require Layout Vector PropsLayout.
Open Scope R_scope.

(** ** The table of comparisons *)
Definition mon_or_num (a : operand R) : bool := is_monomial a || is_number a.
Definition pos_or_num (a : operand R) : bool := is_posynomial a || is_number a.
Definition gp_form (op : oper) (a b : operand R) : bool :=
  match op with
  | OpEq => mon_or_num a && mon_or_num b
  | OpLe => pos_or_num a && mon_or_num b
  | OpGe => pos_or_num b && mon_or_num a
  end.
Definition truth_num (op : oper) (x y : R) : bool :=
  match op with OpLe => nleb x y | OpGe => nleb y x | OpEq => if decide (x = y) then true else false end.

Lemma compare_table se op (a b : operand R) :
  (exists x y, a = Number x /\ b = Number y /\ compare se op a b = Ok (Truth (truth_num op x y))) \/
  (is_number a && is_number b = false /\
   (if gp_form op a b
    then match op with
         | OpEq => compare se op a b = monomial_equality se a b \/ compare se op a b = monomial_equality se b a
         | _ => compare se op a b = posynomial_inequality se a op b \/ compare se op a b = posynomial_inequality se b (mirror op) a
         end
    else match op with
         | OpEq => compare se op a b = Ok (Truth (identical a b)) \/ compare se op a b = Ok (Truth (identical b a))
         | _ => compare se op a b = signomial_inequality se a op b \/ compare se op a b = signomial_inequality se b (mirror op) a
         end)).
Proof.
  assert (N : forall r (d : res (comparison R)), or_else (rmap Some r) d = r) by (intros [] ?; reflexivity).
  destruct a as [x|v h], b as [y|v' h'].
  1: { left. exists x, y. repeat split. destruct op; reflexivity. }
  all: right; split; [reflexivity|].
  all: unfold compare, method, mirror, le_method, ge_method, eq_method, gp_form, pos_or_num, mon_or_num, is_posynomial, is_monomial, is_number, class_of.
  - destruct (classify h') eqn:E, op, v'; cbn; rewrite ?E; cbn; rewrite ?N; auto.
  - destruct (classify h) eqn:E, op, v; cbn; rewrite ?E; cbn; rewrite ?N; auto.
  - destruct (classify h) eqn:E1, (classify h') eqn:E2, op, v, v'; cbn; rewrite ?E1, ?E2; cbn; rewrite ?N; auto.
Qed.

(** ** Sides *)
Lemma eval_num q (c : R) : eval q (num_hmap c) = c.
Proof. cbn [num_hmap eval]. unfold mono_val, e_empty. rewrite map_fold_empty. lra. Qed.
Lemma value_terms q (a : operand R) : value_at q a = eval q (terms a).
Proof. destruct a as [c|v h]; [symmetry; apply eval_num|reflexivity]. Qed.
Lemma side_ok se (a : operand R) h : side se a = Ok h -> h = terms a.
Proof. destruct a as [c|v h']; cbn; [unfold signomial_init; destruct (_ && _)|]; intros [= <-]; reflexivity. Qed.
Lemma side_err se (a : operand R) e : side se a = Err e -> e = InvalidPosynomialE /\ se = false /\ nonpositive a.
Proof.
  destruct a as [c|v h']; cbn [side]; [|discriminate]. unfold signomial_init, num_hmap. cbn [any_nonpositive existsb snd].
  destruct (nleb c n0) eqn:E; [|discriminate]. destruct se; [discriminate|]. intros [= <-]. split; [reflexivity|]. split; [reflexivity|].
  exists c. split; [reflexivity|]. apply Rleb_true in E. exact E.
Qed.
Lemma exp_canon_empty : exp_canon e_empty.
Proof. intros k x H. unfold e_empty in H. rewrite lookup_empty in H. discriminate. Qed.
Lemma mono_num c : 0 < c -> is_mono (num_hmap c).
Proof. intros H. exists e_empty, c. split; [reflexivity|]. split; [apply exp_canon_empty|exact H]. Qed.
Lemma mono_posy (h : hmap R) : is_mono h -> is_posy h.
Proof.
  intros (e & c & -> & He & Hc). split; [split|split].
  - apply NoDup_ListNoDup. cbn. repeat constructor. intros [].
  - intros e' c' [[= <- <-]|[]]. split; [exact He|lra].
  - intros e' c' [[= <- <-]|[]]. exact Hc.
  - discriminate.
Qed.
Lemma mon_or_num_side (a : operand R) : proper a -> ~ nonpositive a -> mon_or_num a = true <-> mono_side a.
Proof.
  intros P N. destruct a as [c|v h].
  - split; [|reflexivity]. intros _. apply mono_num. destruct (Rlt_le_dec 0 c) as [L|L]; [exact L|]. exfalso. apply N. exists c. auto.
  - unfold mon_or_num, is_monomial, mono_side. cbn [class_of terms is_number]. destruct P as (C & NE & _). rewrite orb_false_r. split.
    + intros E. assert (classify h = CMonomial) as K by (destruct (classify h); [discriminate|discriminate|reflexivity]).
      apply classify_mono in K as (_ & e & c & -> & Hc). exists e, c. split; [reflexivity|]. split; [|exact Hc].
      apply (proj2 C e c). left. reflexivity.
    + intros (e & c & -> & He & Hc). assert (classify [(e, c)] = CMonomial) as -> by (apply classify_CMonomial; eauto).
      destruct v; reflexivity.
Qed.
Lemma pos_or_num_side (a : operand R) : proper a -> ~ nonpositive a -> pos_or_num a = true <-> posy_side a.
Proof.
  intros P N. destruct a as [c|v h].
  - split; [|reflexivity]. intros _. apply mono_posy. apply (mon_or_num_side (Number c) P N). reflexivity.
  - unfold pos_or_num, is_posynomial, posy_side. cbn [class_of terms is_number]. destruct P as (C & NE & _). rewrite orb_false_r. split.
    + intros E. split; [exact C|]. split; [|exact NE]. apply any_nonpositive_false. unfold classify in E.
      destruct (any_nonpositive h); [discriminate|reflexivity].
    + intros (_ & HP & _). unfold classify. rewrite (proj2 (any_nonpositive_false h) HP). destruct (length h =? 1)%nat, v; reflexivity.
Qed.
Lemma compatible_form op (a b : operand R) : gp_compatible op a b -> proper a -> proper b -> gp_form op a b = true.
Proof.
  assert (M : forall a, proper a -> mono_side a -> mon_or_num a = true).
  { intros [c|v h] P H; [reflexivity|]. apply mon_or_num_side; auto. intros (c & K & _). discriminate. }
  assert (Q : forall a, proper a -> posy_side a -> pos_or_num a = true).
  { intros [c|v h] P H; [reflexivity|]. apply pos_or_num_side; auto. intros (c & K & _). discriminate. }
  destruct op; cbn [gp_form gp_compatible lesser_side greater_side]; intros [H1 H2] Pa Pb; rewrite andb_true_iff; auto.
Qed.
Lemma gp_form_compatible op (a b : operand R) : proper a -> proper b -> ~ nonpositive a -> ~ nonpositive b ->
  gp_form op a b = true <-> gp_compatible op a b.
Proof.
  intros Pa Pb Na Nb. destruct op; cbn [gp_form gp_compatible lesser_side greater_side]; rewrite andb_true_iff.
  - rewrite pos_or_num_side, mon_or_num_side by assumption. reflexivity.
  - rewrite pos_or_num_side, mon_or_num_side by assumption. reflexivity.
  - rewrite !mon_or_num_side by assumption. reflexivity.
Qed.

Lemma posy_ineq_se (l r : hmap R) op e : posy_ineq true l op r = Err e -> posy_ineq false l op r = Err e.
Proof.
  assert (G : forall p m : hmap R, gen_unsubbed true p m = Err e -> gen_unsubbed false p m = Err e).
  { intros p m. unfold gen_unsubbed. destruct m as [|[me mc] [|]]; auto.
    destruct (rename_loop _ _ _ _) as [h|]; cbn [rbind]; auto. destruct (simplify h) as [[[|]|]|]; cbn [rbind]; auto.
    unfold signomial_init. rewrite andb_false_r. cbn [rbind]. discriminate. }
  unfold posy_ineq. destruct op; [apply G|apply G|auto].
Qed.

Lemma holds_related q (l r : hmap R) op : holds q l op r <-> related op (eval q l) (eval q r).
Proof. destruct op; reflexivity. Qed.
Lemma related_mirror op x y : related (mirror op) y x <-> related op x y.
Proof. destruct op; cbn; [reflexivity|reflexivity|]. split; intros; symmetry; assumption. Qed.
Lemma lesser_mirror (op : oper) (l r : hmap R) : op <> OpEq -> lesser r (mirror op) l = lesser l op r /\ greater r (mirror op) l = greater l op r.
Proof. destruct op; cbn; auto. congruence. Qed.

Lemma divides_err (p m : hmap R) x : divides p m = Err x -> x = ZeroDivisionE /\ exists e, m = [(e, 0)].
Proof.
  unfold divides. destruct p as [|]; [discriminate|]. destruct m as [|[e c] [|]]; try discriminate.
  destruct (decide (c = n0)) as [->|]; [|discriminate]. intros [= <-]. split; [reflexivity|]. exists e. reflexivity.
Qed.
Lemma terms_zero (a : operand R) e : proper a -> terms a = [(e, 0)] -> a = Number 0.
Proof.
  destruct a as [c|v h]; cbn [terms proper]; [unfold num_hmap; intros _ [= _ ->]; reflexivity|].
  intros (C & _) ->. exfalso. apply (proj2 (proj2 C e 0 (or_introl eq_refl))). reflexivity.
Qed.
Lemma zero_nonpositive : nonpositive (Number 0).
Proof. exists 0. split; [reflexivity|lra]. Qed.

Lemma posynomial_inequality_spec se op (a b : operand R) : proper a -> proper b -> op <> OpEq ->
  match posynomial_inequality se a op b with
  | Ok c => exists u, c = Posy (terms a) op (terms b) u /\ posy_ineq se (terms a) op (terms b) = Ok u
  | Err e => (nonpositive a \/ nonpositive b) \/
             (gp_compatible op a b -> free_of_clashes op a b -> forall q, ~ related op (value_at q a) (value_at q b))
  end.
Proof.
  intros Pa Pb No. unfold posynomial_inequality.
  destruct (side se a) as [l|e] eqn:Ea; cbn [rbind]; [|left; left; apply (side_err _ _ _ Ea)].
  destruct (side se b) as [r|e] eqn:Eb; cbn [rbind]; [|left; right; apply (side_err _ _ _ Eb)].
  apply side_ok in Ea as ->. apply side_ok in Eb as ->.
  destruct (match op with OpGe => _ | _ => _ end) as [u|e] eqn:D; cbn [rbind].
  2: { left. destruct op; [| |congruence].
       - apply divides_err in D as (_ & e' & D). apply terms_zero in D as ->; [|exact Pb]. right. apply zero_nonpositive.
       - apply divides_err in D as (_ & e' & D). apply terms_zero in D as ->; [|exact Pa]. left. apply zero_nonpositive. }
  destruct (posy_ineq se (terms a) op (terms b)) as [us|e] eqn:E; cbn [rmap]; [exists us; auto|].
  right. intros G F q. rewrite !value_terms, <- holds_related.
  assert (E' : posy_ineq false (terms a) op (terms b) = Err e) by (destruct se; [apply posy_ineq_se; exact E|exact E]).
  assert (HP : forall k v, (∅ : gmap nat R) !! k = Some v -> 0 < v) by (intros k v K; rewrite lookup_empty in K; discriminate).
  pose proof (posy_ineq_correct 0 (std_schedule ∅) ∅ HP (fun h => std_schedule_valid ∅ h) (CS None None) (terms a) (terms b) op No) as C.
  rewrite E' in C. apply C.
  - destruct op; [apply G|apply G|congruence].
  - destruct op; [apply G|apply G|congruence].
  - intros e' c' K. destruct op; [apply (F e' c' K)|apply (F e' c' K)|congruence].
Qed.

Lemma sig_ineq_ok (l r : hmap R) op : op <> OpEq -> l <> [] -> r <> [] ->
  exists u, sig_ineq true l op r = Ok u /\ forall q, positive_point q -> (eval q u <= 0 <-> related op (eval q l) (eval q r)).
Proof.
  intros No Nl Nr.
  assert (G : forall a b : hmap R, a <> [] -> b <> [] ->
    exists u, match py_sub true (VNom a) (VNom b) with Ok (VNom h) => Ok h | Ok (VNum c) => Ok (num_hmap c) | Err e => Err e end = Ok u /\
    forall q, positive_point q -> eval q u = eval q a - eval q b).
  { intros a b Na Nb.
    assert (exists h, py_sub true (VNom a) (VNom b) = Ok (VNom h)) as [h E].
    { unfold py_sub, py_neg, py_mul. destruct (decide _) as [D|D]; [exfalso; cbn in D; lra|]. unfold signomial_init.
      rewrite andb_false_r. cbn [rmap rbind]. unfold py_add. destruct (hv_mul b (nopp n1)) as [|t l'] eqn:Z.
      - destruct b; [congruence|]. discriminate Z.
      - unfold signomial_init. rewrite andb_false_r. cbn [rmap]. eauto. }
    rewrite E. exists h. split; [reflexivity|]. intros q Pq. exact (val_py_sub true q _ _ _ E). }
  unfold sig_ineq. cbn [negb]. destruct op; [| |congruence].
  - destruct (G l r Nl Nr) as (u & E & V). exists u. split; [exact E|]. intros q Pq. rewrite (V q Pq). cbn. lra.
  - destruct (G r l Nr Nl) as (u & E & V). exists u. split; [exact E|]. intros q Pq. rewrite (V q Pq). cbn. lra.
Qed.
Lemma terms_nonempty (a : operand R) : proper a -> terms a <> [].
Proof. destruct a as [c|v h]; cbn; [discriminate|intros (_ & N & _); exact N]. Qed.

Lemma signomial_inequality_spec se op (a b : operand R) : proper a -> proper b -> op <> OpEq ->
  match signomial_inequality se a op b with
  | Ok c => se = true /\ exists u, c = Sig (terms a) op (terms b) u /\
            forall q, positive_point q -> (eval q u <= 0 <-> related op (value_at q a) (value_at q b))
  | Err e => se = false /\ (e = TypeErrorE \/ e = InvalidPosynomialE)
  end.
Proof.
  intros Pa Pb No. unfold signomial_inequality.
  destruct (side se a) as [l|e] eqn:Ea; cbn [rbind]; [|apply side_err in Ea as (-> & -> & _); auto].
  destruct (side se b) as [r|e] eqn:Eb; cbn [rbind]; [|apply side_err in Eb as (-> & -> & _); auto].
  apply side_ok in Ea as ->. apply side_ok in Eb as ->. destruct se; [|cbn; auto].
  destruct (sig_ineq_ok (terms a) (terms b) op No (terms_nonempty a Pa) (terms_nonempty b Pb)) as (u & -> & V). cbn [rmap].
  split; [reflexivity|]. exists u. split; [reflexivity|]. intros q Pq. rewrite !value_terms. exact (V q Pq).
Qed.

Lemma monomial_equality_spec se (a b : operand R) : proper a -> proper b ->
  match monomial_equality se a b with
  | Ok c => exists u, c = Meq (terms a) (terms b) u /\ meq_unsubbed se (terms a) (terms b) = Ok u
  | Err e => (nonpositive a \/ nonpositive b) \/
             (gp_compatible OpEq a b -> forall q, value_at q a <> value_at q b)
  end.
Proof.
  intros Pa Pb. unfold monomial_equality.
  destruct (side se a) as [l|e] eqn:Ea; cbn [rbind]; [|left; left; apply (side_err _ _ _ Ea)].
  destruct (side se b) as [r|e] eqn:Eb; cbn [rbind]; [|left; right; apply (side_err _ _ _ Eb)].
  apply side_ok in Ea as ->. apply side_ok in Eb as ->.
  destruct (divides (terms a) (terms b)) as [u|e] eqn:D; cbn [rbind].
  2: { left. apply divides_err in D as (_ & e' & D). apply terms_zero in D as ->; [|exact Pb]. right. apply zero_nonpositive. }
  destruct (divides (terms b) (terms a)) as [u'|e] eqn:D'; cbn [rbind].
  2: { left. apply divides_err in D' as (_ & e' & D'). apply terms_zero in D' as ->; [|exact Pa]. left. apply zero_nonpositive. }
  destruct (meq_unsubbed se (terms a) (terms b)) as [us|e] eqn:E; cbn [rmap]; [exists us; auto|].
  right. intros G q. rewrite !value_terms.
  assert (HP : forall k v, (∅ : gmap nat R) !! k = Some v -> 0 < v) by (intros k v K; rewrite lookup_empty in K; discriminate).
  pose proof (meq_correct 0 (std_schedule ∅) ∅ HP (fun h => std_schedule_valid ∅ h) (CS None None) se (terms a) (terms b) (proj1 G) (proj2 G)) as C.
  rewrite E in C. apply C.
Qed.

Lemma identical_decides (a b : operand R) : proper a -> proper b -> is_number a && is_number b = false ->
  identical a b = true <-> forall q, positive_point q -> value_at q a = value_at q b.
Proof.
  assert (N : forall (h : hmap R) c, canonical h -> h <> [] -> nomial_eq_num h c = true <-> forall q, positive_point q -> eval q h = c).
  { intros h c C NE. destruct (decide (c = 0)) as [->|Hc]; [|apply eq_num_decides; assumption]. split.
    - unfold nomial_eq_num. destruct h as [|[e c'] [|]]; try discriminate. intros K. apply andb_true_iff in K as [_ K].
      apply bool_decide_eq_true in K. exfalso. apply (proj2 (proj2 C e c' (or_introl eq_refl))). exact K.
    - intros K. exfalso. apply NE. assert (hmap_eqb h [] = true) as E.
      { apply eq_decides; [exact C| |exact K]. split; [apply NoDup_ListNoDup; constructor|intros ? ? []]. }
      unfold hmap_eqb in E. destruct h; [reflexivity|discriminate E]. }
  destruct a as [x|v h], b as [y|v' h']; cbn [is_number andb identical proper value_at]; try discriminate.
  - intros _ (C & NE & _) _. rewrite N by assumption. split; intros K q Pq; symmetry; auto.
  - intros (C & NE & _) _ _. rewrite N by assumption. split; intros K q Pq; auto.
  - intros (C & NE & _) (C' & NE' & _) _. apply eq_decides; assumption.
Qed.

(** ** All comparisons *)
Lemma truth_num_related op x y : truth_num op x y = true <-> related op x y.
Proof.
  destruct op; cbn [truth_num related]; [apply Rleb_true|apply Rleb_true|]. destruct (decide (x = y)); [tauto|]. split; [discriminate|tauto].
Qed.
Lemma mirror_ne op : op <> OpEq -> mirror op <> OpEq.
Proof. destruct op; cbn; congruence. Qed.
Lemma sides_mirror op (a b : operand R) : op <> OpEq ->
  lesser_side (mirror op) b a = lesser_side op a b /\ greater_side (mirror op) b a = greater_side op a b.
Proof. destruct op; cbn; auto. congruence. Qed.
Lemma compatible_mirror op (a b : operand R) : op <> OpEq -> gp_compatible (mirror op) b a <-> gp_compatible op a b.
Proof. destruct op; cbn; [reflexivity|reflexivity|congruence]. Qed.
Lemma terms_sides op (a b : operand R) : op <> OpEq ->
  lesser (terms a) op (terms b) = terms (lesser_side op a b) /\ greater (terms a) op (terms b) = terms (greater_side op a b).
Proof. destruct op; cbn; auto. Qed.

Lemma op_eq_dec (op : oper) : {op = OpEq} + {op <> OpEq}.
Proof. destruct op; [right|right|left]; congruence. Qed.
Lemma compare_spec se op (a b : operand R) : proper a -> proper b ->
  match compare se op a b with Ok c => made se op a b c | Err e => rejected se op a b e end.
Proof.
  intros Pa Pb. destruct (compare_table se op a b) as [(x & y & -> & -> & ->)|[NN T]].
  { left. split; [reflexivity|]. split; [reflexivity|]. intros q. apply truth_num_related. }
  assert (CN : {nonpositive a \/ nonpositive b} + {~ nonpositive a /\ ~ nonpositive b}).
  { assert (D : forall a, {nonpositive a} + {~ nonpositive a}).
    { intros [c|v h]; [|right; intros (c & K & _); discriminate]. destruct (Rle_lt_dec c 0) as [L|L]; [left; exists c; auto|].
      right. intros (c' & K & L'). injection K as ->. lra. }
    destruct (D a); [left; auto|]. destruct (D b); [left; auto|]. right; auto. }
  destruct (gp_form op a b) eqn:F.
  - assert (GC : nonpositive a \/ nonpositive b \/ gp_compatible op a b).
    { destruct CN as [[?|?]|[Na Nb]]; auto. right; right. apply gp_form_compatible; auto. }
    destruct (op_eq_dec op) as [->|No].
    + destruct T as [-> | ->].
      * pose proof (monomial_equality_spec se a b Pa Pb) as S. destruct (monomial_equality se a b) as [c|e].
        -- destruct S as (u & -> & E). split; [reflexivity|]. auto.
        -- destruct S as [[?|?]|S]; [left; auto|right; left; auto|]. destruct GC as [?|[?|GC]]; [left; auto|right; left; auto|].
           right; right; right. split; [exact GC|]. intros _ q. apply S. exact GC.
      * pose proof (monomial_equality_spec se b a Pb Pa) as S. destruct (monomial_equality se b a) as [c|e].
        -- destruct S as (u & -> & E). split; [reflexivity|]. auto.
        -- destruct S as [[?|?]|S]; [right; left; auto|left; auto|]. destruct GC as [?|[?|GC]]; [left; auto|right; left; auto|].
           right; right; right. split; [exact GC|]. intros _ q K. apply (S (conj (proj2 GC) (proj1 GC)) q). symmetry. exact K.
    + assert (T' : compare se op a b = posynomial_inequality se a op b \/ compare se op a b = posynomial_inequality se b (mirror op) a)
        by (destruct op; [exact T|exact T|congruence]). clear T.
      destruct T' as [-> | ->].
      * pose proof (posynomial_inequality_spec se op a b Pa Pb No) as S. destruct (posynomial_inequality se a op b) as [c|e].
        -- destruct S as (u & -> & E). destruct (terms_sides op a b No) as [S1 S2]. split; [exact No|]. split; [exact GC|].
           split; [intros q; rewrite holds_related, <- !value_terms; reflexivity|]. auto.
        -- destruct S as [[?|?]|S]; [left; auto|right; left; auto|]. destruct GC as [?|[?|GC]]; [left; auto|right; left; auto|].
           right; right; right. split; [exact GC|]. apply S. exact GC.
      * pose proof (posynomial_inequality_spec se (mirror op) b a Pb Pa (mirror_ne op No)) as S.
        destruct (sides_mirror op a b No) as [M1 M2].
        destruct (posynomial_inequality se b (mirror op) a) as [c|e].
        -- destruct S as (u & -> & E). destruct (terms_sides (mirror op) b a (mirror_ne op No)) as [S1 S2]. rewrite M1 in S1. rewrite M2 in S2.
           split; [exact No|]. split; [exact GC|].
           split; [intros q; rewrite holds_related, related_mirror, <- !value_terms; reflexivity|].
           split; [exact S1|]. split; [exact S2|]. split; [apply mirror_ne; exact No|exact E].
        -- destruct S as [[?|?]|S]; [right; left; auto|left; auto|]. destruct GC as [?|[?|GC]]; [left; auto|right; left; auto|].
           right; right; right. split; [exact GC|]. intros FC q K. apply (S (proj2 (compatible_mirror op a b No) GC)) with (q := q).
           ++ unfold free_of_clashes. rewrite M1, M2. exact FC.
           ++ apply related_mirror. exact K.
  - assert (GC : ~ gp_compatible op a b) by (intros G; rewrite (compatible_form op a b G Pa Pb) in F; discriminate).
    destruct (op_eq_dec op) as [->|No].
    + destruct T as [-> | ->].
      * right. split; [reflexivity|]. split; [exact GC|]. apply identical_decides; assumption.
      * right. split; [reflexivity|]. split; [exact GC|]. rewrite identical_decides by (try assumption; rewrite andb_comm; assumption).
        split; intros K q Pq; symmetry; auto.
    + assert (T' : compare se op a b = signomial_inequality se a op b \/ compare se op a b = signomial_inequality se b (mirror op) a)
        by (destruct op; [exact T|exact T|congruence]). clear T.
      destruct T' as [-> | ->].
      * pose proof (signomial_inequality_spec se op a b Pa Pb No) as S. destruct (signomial_inequality se a op b) as [c|e].
        -- destruct S as (-> & u & -> & E). split; [reflexivity|]. split; [exact No|]. split; [exact GC|].
           split; [intros q; rewrite holds_related, <- !value_terms; reflexivity|]. exact E.
        -- destruct S as (-> & E). right; right; left. auto.
      * pose proof (signomial_inequality_spec se (mirror op) b a Pb Pa (mirror_ne op No)) as S. destruct (signomial_inequality se b (mirror op) a) as [c|e].
        -- destruct S as (-> & u & -> & E). split; [reflexivity|]. split; [exact No|]. split; [exact GC|].
           split; [intros q; rewrite holds_related, related_mirror, <- !value_terms; reflexivity|].
           intros q Pq. rewrite (E q Pq). apply related_mirror.
        -- destruct S as (-> & E). right; right; left. auto.
Qed.

(** ** Arrays *)
Open Scope nat_scope.
Lemma broadcast_at a b c : broadcast a b = Ok c ->
  length c = max (length a) (length b) /\
  forall d n, c !! d = Some n ->
  match a !! d, b !! d with
  | Some x, Some y => (x = n /\ y = n) \/ (x = 1 /\ y = n) \/ (x = n /\ y = 1)
  | Some x, None => x = n
  | None, Some y => y = n
  | None, None => False
  end.
Proof.
  revert b c. induction a as [|x a IH]; intros b c; cbn [broadcast].
  - intros [= <-]. split; [reflexivity|]. intros d n E. rewrite lookup_nil, E. reflexivity.
  - destruct b as [|y b].
    + intros [= <-]. split; [reflexivity|]. intros d n E. rewrite lookup_nil, E. reflexivity.
    + intros E. destruct (if x =? y then _ else _) as [m|] eqn:Em; [|discriminate E]. cbn [rbind] in E.
      destruct (broadcast a b) as [ds|] eqn:B; [|discriminate E]. cbn [rbind] in E. injection E as <-.
      destruct (IH b ds B) as [L P]. split; [cbn; lia|]. intros [|d] n K; cbn in K |- *; [|apply P; exact K]. injection K as ->.
      destruct (Nat.eqb_spec x y); [injection Em as <-; auto|]. destruct (Nat.eqb_spec x 1); [injection Em as <-; auto|].
      destruct (Nat.eqb_spec y 1); [injection Em as <-; auto|discriminate].
Qed.
Lemma broadcast_total a b c : length c = max (length a) (length b) ->
  (forall d n, c !! d = Some n ->
   match a !! d, b !! d with
   | Some x, Some y => (x = n /\ y = n) \/ (x = 1 /\ y = n) \/ (x = n /\ y = 1)
   | Some x, None => x = n
   | None, Some y => y = n
   | None, None => False
   end) -> broadcast a b = Ok c.
Proof.
  revert b c. induction a as [|x a IH]; intros b c L P; cbn [broadcast].
  - f_equal. apply list_eq. intros d. specialize (P d). rewrite lookup_nil in P. destruct (c !! d) as [n|] eqn:E.
    + specialize (P n eq_refl). destruct (b !! d); [congruence|contradiction].
    + apply lookup_ge_None in E. apply lookup_ge_None. cbn in L. lia.
  - destruct b as [|y b].
    + f_equal. apply list_eq. intros d. specialize (P d). rewrite lookup_nil in P. destruct (c !! d) as [n|] eqn:E.
      * specialize (P n eq_refl). destruct ((x :: a) !! d); [congruence|contradiction].
      * apply lookup_ge_None in E. apply lookup_ge_None. cbn in L |- *. lia.
    + destruct c as [|n c]; [cbn in L; lia|]. rewrite (IH b c); [|cbn in L; lia|intros d m K; apply (P (S d) m K)].
      specialize (P 0 n eq_refl). cbn in P.
      assert ((if x =? y then Ok x else if x =? 1 then Ok y else if y =? 1 then Ok x else Err ValueErrorE) = Ok n) as ->; [|reflexivity].
      destruct (Nat.eqb_spec x y); [f_equal; lia|]. destruct (Nat.eqb_spec x 1); [f_equal; lia|]. destruct (Nat.eqb_spec y 1); [f_equal; lia|]. lia.
Qed.
Lemma broadcast_together a b c : broadcast_shape a b = Ok c <-> together a b c.
Proof.
  unfold broadcast_shape, together. split.
  - destruct (broadcast (rev a) (rev b)) as [d|] eqn:E; cbn [rmap]; [|discriminate]. intros [= <-].
    rewrite rev_involutive. apply broadcast_at in E as [L P]. rewrite (rev_length a), (rev_length b) in L. rewrite rev_length. split; [exact L|exact P].
  - intros [L P]. rewrite (broadcast_total (rev a) (rev b) (rev c)); [cbn [rmap]; f_equal; apply rev_involutive| |exact P].
    rewrite !rev_length. exact L.
Qed.

Lemma clamp_at from idx : length from <= length idx ->
  length (Vector.clamp from idx) = length from /\
  forall d n, from !! d = Some n -> exists x y, Vector.clamp from idx !! d = Some x /\ idx !! d = Some y /\ (if n =? 1 then x = 0 else x = y).
Proof.
  revert idx. induction from as [|n from IH]; intros [|i idx] L; cbn [Vector.clamp length] in *; try lia.
  - split; [reflexivity|]. intros d n E. rewrite lookup_nil in E. discriminate.
  - split; [reflexivity|]. intros d n E. rewrite lookup_nil in E. discriminate.
  - destruct (IH idx ltac:(lia)) as [L' P]. split; [lia|]. intros [|d] m E; cbn in E |- *; [|apply P; exact E]. injection E as ->.
    exists (if m =? 1 then 0 else i), i. split; [reflexivity|]. split; [reflexivity|]. destruct (m =? 1); reflexivity.
Qed.
Lemma index_matches shape i : length shape <= length i -> matches shape (index_in shape i) i.
Proof.
  intros L. unfold matches, index_in. rewrite rev_length, rev_involutive.
  destruct (clamp_at (rev shape) (rev i)) as [L' P]; [rewrite !rev_length; exact L|]. rewrite rev_length in L'. auto.
Qed.
Lemma matches_index shape j i : matches shape j i -> j = index_in shape i.
Proof.
  intros (Lj & L & P). assert (M : matches shape (index_in shape i) i) by (apply index_matches; exact L). destruct M as (Lj' & _ & P').
  rewrite <- (rev_involutive j), <- (rev_involutive (index_in shape i)). f_equal. apply list_eq. intros d.
  destruct (rev shape !! d) as [n|] eqn:E.
  - destruct (P d n E) as (x & y & -> & Ey & C). destruct (P' d n E) as (x' & y' & -> & Ey' & C'). rewrite Ey in Ey'. injection Ey' as <-.
    destruct (n =? 1); congruence.
  - apply lookup_ge_None in E. rewrite rev_length in E. rewrite !(proj2 (lookup_ge_None _ _)); [reflexivity| |]; rewrite rev_length; lia.
Qed.

Lemma evaluate_ok {A} (f : list nat -> res A) idxs l : evaluate f idxs = Ok l <-> Forall2 (fun i x => f i = Ok x) idxs l.
Proof.
  revert l. induction idxs as [|i idxs IH]; intros l; cbn [evaluate].
  - split; [intros [= <-]; constructor|]. intros H. inversion H. reflexivity.
  - split.
    + destruct (f i) as [x|] eqn:E; [|discriminate]. cbn [rbind]. destruct (evaluate f idxs) as [xs|] eqn:Es; [|discriminate]. cbn [rbind].
      intros [= <-]. constructor; [exact E|]. apply IH. reflexivity.
    + intros H. inversion H as [|? x ? xs E Es]; subst. rewrite E. cbn [rbind]. apply IH in Es as ->. reflexivity.
Qed.
Lemma evaluate_total {A} (f : list nat -> res A) idxs : (forall i, In i idxs -> exists x, f i = Ok x) -> exists l, evaluate f idxs = Ok l.
Proof.
  induction idxs as [|i idxs IH]; intros H; [exists []; reflexivity|]. cbn [evaluate]. destruct (H i (or_introl eq_refl)) as [x ->]. cbn [rbind].
  destruct IH as [l ->]; [intros j Hj; apply H; right; exact Hj|]. exists (x :: l). reflexivity.
Qed.
Lemma indices_length shape : length (Layout.indices shape) = size shape.
Proof.
  induction shape as [|n shape IH]; [reflexivity|]. cbn [Layout.indices]. unfold size in *. cbn [fold_right]. rewrite <- IH.
  generalize (Layout.indices shape) as l. intros l. generalize 0 as s. induction n as [|n IHn]; intros s; [reflexivity|].
  cbn [seq flat_map]. rewrite app_length, map_length, IHn. lia.
Qed.
Lemma together_length a b c : together a b c -> length a <= length c /\ length b <= length c.
Proof. intros [L _]. lia. Qed.
Lemma clamp_range from to idx : Forall2 lt idx to ->
  (forall d n, from !! d = Some n -> exists m, to !! d = Some m /\ (n = m \/ n = 1)) -> Forall2 lt (Vector.clamp from idx) from.
Proof.
  revert to idx. induction from as [|n from IH]; intros to idx F P; [destruct idx; constructor|].
  destruct (P 0 n eq_refl) as (m & Em & Hm). destruct to as [|m' to]; [discriminate Em|]. injection Em as ->.
  inversion F as [|i ? idx' ? Hi Ht]; subst. cbn [Vector.clamp]. constructor.
  - destruct (Nat.eqb_spec n 1); lia.
  - apply (IH to idx' Ht). intros d k E. apply (P (S d) k E).
Qed.
Lemma Forall2_rev' {A B} (Q : A -> B -> Prop) l k : Forall2 Q l k -> Forall2 Q (rev l) (rev k).
Proof. induction 1; cbn; [constructor|]. apply Forall2_app; [assumption|]. repeat constructor. assumption. Qed.
Lemma index_range_l a b c i : together a b c -> in_range c i -> in_range a (index_in a i).
Proof.
  intros [L P] I. unfold in_range, index_in. rewrite <- (rev_involutive a) at 2. apply Forall2_rev'. rewrite <- (rev_involutive a) at 2.
  rewrite (rev_involutive a). apply (clamp_range (rev a) (rev c)); [apply Forall2_rev'; exact I|].
  intros d n E. assert (d < length (rev c)) as K by (apply lookup_lt_Some in E; rewrite rev_length in *; lia).
  apply lookup_lt_is_Some in K as [m K]. exists m. split; [exact K|]. specialize (P d m K). rewrite E in P. destruct (rev b !! d); lia.
Qed.
Lemma together_comm a b c : together a b c -> together b a c.
Proof.
  intros [L P]. split; [lia|]. intros d n E. specialize (P d n E). destruct (rev a !! d), (rev b !! d); auto.
  destruct P as [[? ?]|[[? ?]|[? ?]]]; auto.
Qed.
Lemma zeros_matches (a i : list nat) : length a <= length i -> matches a (map (fun _ => 0) a) (map (fun _ => 0) i).
Proof.
  assert (Z : forall (l : list nat) d, d < length l -> rev (map (fun _ => 0) l) !! d = Some 0).
  { intros l d H. rewrite <- map_rev. change (map (fun _ => 0) (rev l)) with ((fun _ : nat => 0) <$> rev l). rewrite list_lookup_fmap.
    assert (d < length (rev l)) as K by (rewrite rev_length; exact H). apply lookup_lt_is_Some in K as [m ->]. reflexivity. }
  intros L. split; [apply map_length|]. split; [rewrite map_length; exact L|]. intros d n E.
  assert (d < length a) as K by (apply lookup_lt_Some in E; rewrite rev_length in E; exact E).
  exists 0, 0. rewrite !Z by lia. split; [reflexivity|]. split; [reflexivity|]. destruct (n =? 1); reflexivity.
Qed.
Lemma zeros_range c : Forall (fun n => n <> 0) c -> in_range c (map (fun _ => 0) c).
Proof. induction 1; cbn; constructor; [lia|assumption]. Qed.
Lemma size_zero c : size c = 0 <-> In 0 c.
Proof.
  unfold size. induction c as [|n c IH]; cbn; [split; [discriminate|intros []]|]. rewrite Nat.eq_mul_0, IH. reflexivity.
Qed.
Lemma together_nonzero a b c : together a b c -> size a <> 0 -> size b <> 0 -> Forall (fun n => n <> 0) c.
Proof.
  intros [L P] Ha Hb. rewrite size_zero in Ha, Hb. apply Forall_forall. intros n Hn ->. apply elem_of_list_In in Hn. apply in_rev in Hn.
  apply elem_of_list_In, elem_of_list_lookup in Hn as [d E]. specialize (P d 0 E).
  assert (Ia : forall l : list nat, rev l !! d = Some 0 -> In 0 l).
  { intros l K. apply in_rev. apply elem_of_list_In. apply elem_of_list_lookup. eauto. }
  destruct (rev a !! d) as [x|] eqn:Ea, (rev b !! d) as [y|] eqn:Eb; [|subst; auto|subst; auto|auto].
  destruct P as [[-> _]|[[_ ->]|[-> _]]]; auto.
Qed.

Lemma compare_satisfied se op (a b : operand R) c q : proper a -> proper b -> compare se op a b = Ok c -> is_truth c = false ->
  satisfied q c <-> related op (value_at q a) (value_at q b).
Proof.
  intros Pa Pb E NT. pose proof (compare_spec se op a b Pa Pb) as S. rewrite E in S. destruct c as [t|l o r u|l o r u|l r u]; cbn [made satisfied] in *.
  - discriminate.
  - apply S.
  - apply S.
  - destruct S as (-> & _ & S & _). rewrite !value_terms. destruct S as [[-> ->]|[-> ->]]; cbn [related]; [reflexivity|]. split; intros; symmetry; assumption.
Qed.
Lemma mono_identical (e e' : expv R) (c c' : R) : canonical [(e, c)] -> canonical [(e', c')] ->
  (c = c' /\ e = e') <-> forall q, positive_point q -> eval q [(e, c)] = eval q [(e', c')].
Proof.
  intros C C'. rewrite <- eq_decides by assumption. unfold hmap_eqb. cbn [length Nat.eqb andb forallb fst snd dget]. rewrite andb_true_r. split.
  - intros [-> ->]. destruct (decide (e' = e')); [|congruence]. apply bool_decide_eq_true. reflexivity.
  - destruct (decide (e = e')) as [->|]; [|discriminate]. intros K. apply bool_decide_eq_true in K. auto.
Qed.
