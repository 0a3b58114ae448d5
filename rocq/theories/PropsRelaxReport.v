(** C102: what is said of relaxed constraints and constants.
    Specification vocabulary: NomialSem.v, ConstraintSem.v, RelaxSem.v, [relaxed_enough] and [entries] of PropsChecks.v. *)
From Coq Require Import NArith ZArith Ascii String Sorting.Sorted.
From Verif Require Import Base HashVec Nomial NomialSem NomialProofs CanonProofs Sub SubSem SubProofs SubExtra Mono Constraint ConstraintSem ConstraintProofs
  Flat FlatProofs Relax RelaxSem RelaxProofs Checks PropsChecks ConTable SetLayout RelaxReport.
Open Scope R_scope.
Local Open Scope list_scope.

(** ** Specification *)

(** The pairs reported of some pairs of a relaxation and what is relaxed: those relaxed enough, the most relaxed first, equal ones in the order given. *)
Definition reported {A} (all out : list (R * A)) : Prop :=
  descending out /\
  forall v, (relaxed_enough (map fst all) v -> entries v out = entries v all) /\ (~ relaxed_enough (map fst all) v -> entries v out = []).

(** [%i] takes the whole part of what is not negative. *)
Definition whole_part (trunc : R -> Z) : Prop := forall x, 0 <= x -> IZR (trunc x) <= x < IZR (trunc x) + 1.

Definition spaces (s : text) : Prop := forall c, In c s -> c = 32%N.
(** The message says that constraint number [i], which was [old], has been relaxed by [p] percent and now is [new]. *)
Definition says (i : nat) (p : Z) (old new : text * text * text) (msg : text) : Prop :=
  exists gap1 gap2 gap3 gap4 : text, spaces gap1 /\ spaces gap2 /\ spaces gap3 /\ spaces gap4 /\
    msg = gap1 ++ digits i ++ chars ": " ++ gap2 ++ digits (Z.to_nat p) ++ chars "% relaxed, from "
          ++ gap3 ++ fst (fst old) ++ chars " " ++ snd (fst old) ++ chars " " ++ snd old ++ [10%N] ++ gap4 ++ chars "to "
          ++ fst (fst new) ++ chars " " ++ snd (fst new) ++ chars " " ++ snd new.

(** The sides of a constraint relaxed to [v], as functions: the larger is multiplied by [v]. *)
Definition relaxed_sides (v : R) (op : oper) (lhs rhs lhs' rhs' : hmap R) : Prop :=
  forall env, positive_point env ->
    match op with
    | OpGe => eval env lhs' = v * eval env lhs /\ eval env rhs' = eval env rhs
    | _ => eval env lhs' = eval env lhs /\ eval env rhs' = v * eval env rhs
    end.
Definition relaxed_oper (op : oper) : text := match op with OpGe => chars ">=" | _ => chars "<=" end.
Definition oper_written (op : oper) : text := match op with OpGe => chars ">=" | OpLe => chars "<=" | OpEq => chars "=" end.

(** The report of constraint [i], relaxed to [v]: it is about this constraint, shows it as it was and as it is now, and the nearest percentage. *)
Definition reports (show : hmap R -> text) (l : list (item (eqn R))) (r : R * nat) (w : report (item (eqn R))) : Prop :=
  exists lhs op rhs lhs' rhs' p,
    flat l !! snd r = Some (Leaf (lhs, op, rhs)) /\ snd w = Leaf (lhs, op, rhs) /\
    relaxed_sides (fst r) op lhs rhs lhs' rhs' /\ Rabs (IZR p - 100 * (fst r - 1)) <= 1 / 2 /\
    says (snd r) p (show lhs, oper_written op, show rhs) (show lhs', relaxed_oper op, show rhs') (fst w).

(** The relaxation variables are new. *)
Definition new_vars (rv : nat -> nat) (l : list (item (eqn R))) : Prop :=
  forall i c lhs op rhs, In c (flat l) -> c = Leaf (lhs, op, rhs) -> in_vks lhs (rv i) = false /\ in_vks rhs (rv i) = false.

Definition all_canonical (l : list (item (eqn R))) : Prop :=
  forall c, In c (flat l) -> exists lhs op rhs, c = Leaf (lhs, op, rhs) /\ canonical lhs /\ canonical rhs.

(** Whatever the constraints that have been relaxed, and whatever the relaxations found for them (more than one may be given, as the last ones may belong to no
    constraint), the reports are those of the relaxed constraints. *)
Definition C102_for (cond : list (nat * nat) -> list (item (eqn R)) -> Prop) : Prop :=
  forall (inf : R) (pick : gmap nat R -> hmap R -> schedule) (show : hmap R -> text) (shown_array : list (item (eqn R)) -> text * text * text)
         (trunc : R -> Z) (rv : nat -> nat) (idx : list (nat * nat)) (l : list (item (eqn R))) (vals : list R),
    (forall fixed h, valid_schedule fixed h (pick fixed h)) -> whole_part trunc ->
    all_canonical l -> new_vars rv l -> (length (flat l) <= length l)%nat -> flat l <> [] -> length vals = length l -> cond idx l ->
    exists out ws, check_relaxed inf pick show shown_array trunc rv idx l vals = Ok ws /\
      reported (combine vals (seq 0 (length (flat l)))) out /\ Forall2 (reports show l) out ws.

(** ** Proofs *)

Lemma each_Forall2 {A B} (f : A -> res B) (l : list A) : forall ys, each f l = Ok ys -> Forall2 (fun x y => f x = Ok y) l ys.
Proof.
  induction l as [|x l IH]; simpl; intros ys E; [injection E as <-; constructor|].
  destruct (f x) as [y|] eqn:Ex; [|discriminate]. simpl in E. destruct (each f l) as [ys'|] eqn:El; [|discriminate]. injection E as <-. constructor; auto.
Qed.
Lemma each_ok {A B} (f : A -> res B) (l : list A) : (forall x, In x l -> exists y, f x = Ok y) -> exists ys, each f l = Ok ys.
Proof.
  induction l as [|x l IH]; simpl; intros Hf; [eauto|]. destruct (Hf x (or_introl eq_refl)) as (y & ->). destruct IH as (ys & ->); auto. simpl. eauto.
Qed.

Lemma numbered_ok {C} n (l : list (item C)) : forall i, (i + length l <= n)%nat -> numbered n i l = Ok (combine (seq i (length l)) l).
Proof.
  induction l as [|c l IH]; intros i Hi; simpl in *; auto. destruct (Nat.ltb_spec i n); [|lia]. rewrite IH by lia. auto.
Qed.

Lemma combine_In {A B} (l : list A) (m : list B) x y : In (x, y) (combine l m) -> exists i, l !! i = Some x /\ m !! i = Some y.
Proof.
  revert m. induction l as [|a l IH]; intros [|b m]; simpl; try tauto. intros [[= -> ->]|Hi]; [exists 0%nat; auto|]. destruct (IH m Hi) as (i & H1 & H2). exists (S i). auto.
Qed.

Lemma entries_In {A} (out : list (R * A)) p : In p out <-> In p (entries (fst p) out).
Proof. unfold entries. rewrite filter_In. destruct (Req_EM_T (fst p) (fst p)); [tauto|congruence]. Qed.
Lemma reported_In {A} (all out : list (R * A)) p : reported all out -> (In p out <-> In p all /\ relaxed_enough (map fst all) (fst p)).
Proof.
  intros (_ & H). specialize (H (fst p)). rewrite (entries_In out), (entries_In all). split.
  - intros Hp. destruct (Rlt_dec (101/100) (fst p)) as [Hl|Hl]; [assert (He : relaxed_enough (map fst all) (fst p)) by (left; auto)|].
    + rewrite <- (proj1 H He). auto.
    + destruct (Classical_Prop.classic (relaxed_enough (map fst all) (fst p))) as [He|He]; [rewrite <- (proj1 H He); auto|].
      rewrite (proj2 H He) in Hp. destruct Hp.
  - intros [Hp He]. rewrite (proj1 H He). auto.
Qed.

Lemma get_relaxed_reported {A} (vals : list R) (mapped : list A) : combine vals mapped <> [] ->
  exists out, get_relaxed vals mapped = Ok out /\ reported (combine vals mapped) out.
Proof.
  intros Hne. set (all := combine vals mapped) in *.
  destruct (C54_relaxed_partial A (map fst all) (map snd all)) as (out & E & Hd & He); [rewrite !map_length; auto|destruct all; [contradiction|discriminate]|].
  assert (Hc : combine (map fst all) (map snd all) = all) by (clear; induction all as [|[a b] l IH]; simpl; f_equal; auto).
  exists out. split; [|split; [exact Hd|rewrite Hc in He; exact He]]. unfold get_relaxed in *. rewrite Hc in E. exact E.
Qed.

Lemma powers_one (v : R) k (h : hmap R) : 0 < v -> powers_defined {[k := v]} h.
Proof. intros Hv e c k' x _ _ Hf. apply lookup_singleton_Some in Hf as [_ Hf]. lra. Qed.
Lemma sub1_eval inf pick k v (h : hmap R) : (forall fixed h, valid_schedule fixed h (pick fixed h)) -> canonical h -> 0 < v ->
  exists h', sub1 inf pick k v h = Ok h' /\ forall env, positive_point env -> eval env h' = eval (upd env k v) h.
Proof.
  intros Hp Hc Hv. unfold sub1. destruct (sub_main inf h {[k := v]} (proj1 Hc) (powers_one v k h Hv) (pick {[k := v]} h) (Hp _ _)) as (st & E & _ & _ & Hev).
  rewrite E. cbn [rbind]. eexists. split; [reflexivity|]. intros env He.
  assert (Hpos : forall k' v', ({[k := v]} : gmap nat R) !! k' = Some v' -> 0 < v') by (intros k' v' Hf; apply lookup_singleton_Some in Hf as [_ <-]; auto).
  rewrite <- (evalp_pos _ (s_cp st) He), Hev, (evalp_pos _ h (override_positive env _ He Hpos)). apply eval_agree. intros j _.
  unfold override, upd. destruct (decide (j = k)) as [->|Hn]; [rewrite lookup_singleton|rewrite lookup_singleton_ne by auto]; auto.
Qed.

Lemma repeat_spaces n : spaces (repeat space n).
Proof. intros c Hc. apply repeat_spec in Hc. exact Hc. Qed.

Lemma enough_big vals v : relaxed_enough vals v -> 1001 / 1000 < v.
Proof. intros [?|[? _]]; lra. Qed.

Lemma percent_near (trunc : R -> Z) v : whole_part trunc -> 1 <= v ->
  Rabs (IZR (trunc (nadd (ndiv n1 (nofZ 2)) (nmul (nsub v n1) hundred))) - 100 * (v - 1)) <= 1 / 2.
Proof.
  intros Hw Hv. unfold hundred. cbn [nadd nmul n1 nofZ R_num]. unfold nsub, ndiv. cbn [nadd nmul nopp ninv n1 nofZ R_num].
  set (x := 1 * / 2 + (v + - (1)) * 100). destruct (Hw x) as [H1 H2]; [unfold x; lra|]. unfold x in *. apply Rabs_le. lra.
Qed.

Lemma message_says (trunc : R -> Z) i v (old new : text * text * text) :
  says i (trunc (nadd (ndiv n1 (nofZ 2)) (nmul (nsub v n1) hundred))) old new (relaxed_message trunc i v old new).
Proof.
  destruct old as [[ol oo] or], new as [[nl no] nr]. unfold says, relaxed_message, percent, whole. cbn [fst snd].
  set (z := trunc _). unfold pad at 1 2.
  exists (32%N :: repeat space (3 - length (digits i))), (repeat space (5 - length (digits (Z.to_nat z) ++ chars "%"))),
    (if (length ol <? length nl)%nat then repeat space (length nl - length ol) else []), (repeat space 23).
  split; [intros c [<-|Hc]; [auto|eapply repeat_spaces; eauto]|]. split; [apply repeat_spaces|].
  split; [destruct (_ <? _)%nat; [apply repeat_spaces|intros c []]|]. split; [apply repeat_spaces|].
  assert (E0 : chars "                       to " = repeat space 23 ++ chars "to ") by reflexivity.
  assert (E1 : chars "% relaxed, from " = chars "%" ++ chars " relaxed, from ") by reflexivity.
  assert (E2 : chars " " = [32%N]) by reflexivity.
  rewrite E0, E1. destruct (_ <? _)%nat; rewrite <- ?app_assoc; rewrite E2; cbn [app]; rewrite <- ?app_assoc; cbn [app]; repeat f_equal.
Qed.

Lemma relaxed_first rv lhs op rhs : exists a o b more, relaxed (T := R) rv lhs op rhs = (a, o, b) :: more /\ oper_text o = relaxed_oper op /\
  match op with OpGe => a = smul (var_hmap rv) lhs /\ b = rhs | _ => a = lhs /\ b = smul (var_hmap rv) rhs end.
Proof. destruct op; unfold relaxed; repeat eexists. Qed.


Lemma report_ok inf pick show shown_array trunc rv idx l new v i lhs op rhs :
  (forall fixed h, valid_schedule fixed h (pick fixed h)) -> whole_part trunc -> 1 <= v ->
  canonical lhs -> canonical rhs -> in_vks lhs (rv i) = false -> in_vks rhs (rv i) = false ->
  flat l !! i = Some (Leaf (lhs, op, rhs)) -> original idx l i = Ok (Leaf (lhs, op, rhs)) ->
  new !! i = Some (relaxed (rv i) lhs op rhs) ->
  exists w, report_constraint inf pick show shown_array trunc rv idx l new (v, i) = Ok w /\ reports show l (v, i) w.
Proof.
  intros Hp Hw Hv Cl Cr Vl Vr Hf Ho Hn. unfold report_constraint. rewrite Ho, Hn. cbn [rbind].
  destruct (relaxed_first (rv i) lhs op rhs) as (a & o & b & more & -> & Eo & Eab).
  assert (Ca : canonical a) by (destruct op; destruct Eab as [-> ->]; auto; apply canonical_smul; auto; apply canonical_var).
  assert (Cb : canonical b) by (destruct op; destruct Eab as [-> ->]; auto; apply canonical_smul; auto; apply canonical_var).
  destruct (sub1_eval inf pick (rv i) v a Hp Ca ltac:(lra)) as (a' & -> & Ha). destruct (sub1_eval inf pick (rv i) v b Hp Cb ltac:(lra)) as (b' & -> & Hb).
  cbn [rbind printed]. eexists. split; [reflexivity|]. exists lhs, op, rhs, a', b', (trunc (nadd (ndiv n1 (nofZ 2)) (nmul (nsub v n1) hundred))).
  cbn [fst snd]. split; [exact Hf|]. split; [reflexivity|]. split; [|split].
  - intros env He. assert (U : upd env (rv i) v (rv i) = v) by (unfold upd; rewrite decide_True; auto).
    assert (M : forall h, in_vks h (rv i) = false -> eval (upd env (rv i) v) (smul (var_hmap (rv i)) h) = v * eval env h).
    { intros h Hh. rewrite eval_smul, eval_var by (rewrite U; lra). rewrite U, eval_upd_absent; auto. }
    destruct op; destruct Eab as [-> ->]; rewrite Ha, Hb by auto; rewrite M, eval_upd_absent by auto; auto.
  - apply percent_near; auto.
  - rewrite Eo. assert (Ew : oper_text op = oper_written op) by (destruct op; auto). rewrite Ew. apply message_says.
Qed.

(** The sets for which it works: constraints that are not in lists or sets of their own, and keys that are no integers. *)
Definition flat_set (idx : list (nat * nat)) (l : list (item (eqn R))) : Prop :=
  idx = [] /\ forall c, In c l -> exists e, c = Leaf e.

Lemma flat_leaves (l : list (item (eqn R))) : (forall c, In c l -> exists e, c = Leaf e) -> flat l = l.
Proof.
  unfold flat, flatiter. induction l as [|c l IH]; simpl; intros Hl; auto. destruct (Hl c (or_introl eq_refl)) as (e & ->). simpl. f_equal. apply IH. auto.
Qed.

(** What is missing: sets with members that are no constraints, and sets with integers for keys. *)
Theorem C102_constraints_partial : C102_for flat_set.
Proof.
  intros inf pick show shown_array trunc rv idx l vals Hp Hw Hc Hnew _ Hne Hlen [-> Hleaf].
  pose proof (flat_leaves l Hleaf) as Hflat. rewrite Hflat in *.
  assert (Hnew' : exists new, relaxed_constraints rv l = Ok new /\ length new = length l /\
    forall i lhs op rhs, l !! i = Some (Leaf (lhs, op, rhs)) -> new !! i = Some (relaxed (rv i) lhs op rhs)).
  { unfold relaxed_constraints, relax_numbers. rewrite Hflat. rewrite numbered_ok by lia. cbn [rbind].
    destruct (each_ok (fun ni : nat * item (eqn R) => relax_item (rv (fst ni)) (snd ni)) (combine (seq 0 (length l)) l)) as (new & E).
    { intros [n c] Hi. apply in_combine_r in Hi. destruct (Hleaf c Hi) as ([[a o] b] & ->). simpl. eauto. }
    exists new. split; [exact E|]. apply each_Forall2 in E. split.
    - apply Forall2_length in E. rewrite <- E, combine_length, seq_length. lia.
    - intros i lhs op rhs Hi. destruct (new !! i) as [x|] eqn:Ex.
      + assert (Hci : combine (seq 0 (length l)) l !! i = Some (i, Leaf (lhs, op, rhs))).
        { pose proof (lookup_lt_Some _ _ _ Hi) as Hlt. clear - Hi Hlt. 
          assert (G : forall s (m : list (item (eqn R))) i x, m !! i = Some x -> combine (seq s (length m)) m !! i = Some ((s + i)%nat, x)).
          { intros s m. revert s. induction m as [|c m IH]; intros s [|j] x; simpl; try discriminate.
            - intros [= ->]. do 2 f_equal. lia.
            - intros Hj. rewrite (IH (S s) j x Hj). do 2 f_equal. lia. }
          apply (G 0%nat l i _ Hi). }
        pose proof (Forall2_lookup_lr _ _ _ _ _ _ E Hci Ex) as Hq. cbn [relax_item fst snd] in Hq. injection Hq as <-. reflexivity.
      + apply lookup_ge_None in Ex. apply Forall2_length in E. rewrite combine_length, seq_length in E. apply lookup_lt_Some in Hi. exfalso. clear - E Hi Ex. unfold eqn in *. lia. }
  destruct Hnew' as (new & En & Ln & Hn). unfold check_relaxed. rewrite En. cbn [rbind]. rewrite Ln.
  destruct (get_relaxed_reported vals (seq 0 (length l))) as (out & Eo & Hrep).
  { destruct l; [contradiction|]. destruct vals; simpl in *; discriminate. }
  rewrite Eo. cbn [rbind]. exists out.
  assert (Hall : forall r, In r out -> exists w, report_constraint inf pick show shown_array trunc rv [] l new r = Ok w /\ reports show l r w).
  { intros [v i] Hr. apply (reported_In _ _ _ Hrep) in Hr as [Hr He]. apply enough_big in He. cbn [fst] in He.
    apply in_combine_r in Hr. apply in_seq in Hr as [_ Hr]. simpl in Hr. destruct (lookup_lt_is_Some_2 l i Hr) as (c & Hi).
    assert (Hin : In c l) by (apply elem_of_list_In, elem_of_list_lookup; eauto).
    destruct (Hc c) as (lhs & op & rhs & -> & Cl & Cr); [rewrite Hflat; auto|].
    destruct (Hnew i (Leaf (lhs, op, rhs)) lhs op rhs) as [Vl Vr]; [rewrite Hflat; auto|auto|].
    apply (report_ok inf pick show shown_array trunc rv [] l new v i lhs op rhs); [exact Hp|exact Hw|lra|exact Cl|exact Cr|exact Vl|exact Vr| | |apply Hn; exact Hi].
    - rewrite Hflat. exact Hi.
    - unfold original. simpl. rewrite Hi. reflexivity. }
  destruct (each_ok (report_constraint inf pick show shown_array trunc rv [] l new) out) as (ws & Ew).
  { intros r Hr. destruct (Hall r Hr) as (w & -> & _). eauto. }
  exists ws. split; [exact Ew|]. split; [exact Hrep|]. apply each_Forall2 in Ew. clear - Ew Hall.
  induction Ew as [|r w out ws Er Ew IH]; constructor.
  - destruct (Hall r (or_introl eq_refl)) as (w' & E' & H'). congruence.
  - apply IH. intros r' Hr'. apply Hall. right. auto.
Qed.
Print Assumptions C102_constraints_partial.

(** *** Where it fails *)

Lemma each_In {A B} (f : A -> res B) (l : list A) ys x : each f l = Ok ys -> In x l -> exists y, In y ys /\ f x = Ok y.
Proof.
  intros E. apply each_Forall2 in E. induction E as [|a y l ys E1 E IH]; intros []; [subst; exists y; simpl; auto|]. destruct IH as (y' & ? & ?); auto. exists y'. simpl. auto.
Qed.
Lemma Forall2_In_l {A B} (P : A -> B -> Prop) l m x : Forall2 P l m -> In x l -> exists y, In y m /\ P x y.
Proof. induction 1; intros []; [subst; eexists; simpl; eauto|]. destruct IHForall2 as (z & ? & ?); auto. exists z. simpl. auto. Qed.
Lemma each_back {A B} (f : A -> res B) (l : list A) ys y : each f l = Ok ys -> In y ys -> exists x, In x l /\ f x = Ok y.
Proof.
  intros E. apply each_Forall2 in E. induction E as [|a z l ys E1 E IH]; intros []; [subst; exists a; simpl; auto|]. destruct IH as (y' & ? & ?); auto. exists y'. simpl. auto.
Qed.

(** [x >= 1] and [x <= 2] *)
Definition a_con : eqn R := (var_hmap 0, OpGe, num_hmap 1).
Definition b_con : eqn R := (var_hmap 0, OpLe, num_hmap 2).
Lemma con_canonical : canonical (var_hmap (T := R) 0) /\ canonical (num_hmap 1) /\ canonical (num_hmap 2).
Proof. split; [apply canonical_var|]. split; apply canonical_num; lra. Qed.
Lemma con_new (l : list (item (eqn R))) : (forall c, In c (flat l) -> c = Leaf a_con \/ c = Leaf b_con) -> new_vars (fun i => S i) l /\ all_canonical l.
Proof.
  destruct con_canonical as (C0 & C1 & C2). intros Hl. split.
  - intros i c lhs op rhs Hi ->. destruct (Hl _ Hi) as [E|E]; unfold a_con, b_con in E; injection E as -> -> ->; unfold in_vks, var_hmap, num_hmap; split; cbn; rewrite ?lookup_singleton_ne by lia; rewrite ?lookup_empty; reflexivity.
  - intros c Hc. destruct (Hl c Hc) as [-> | ->]; unfold a_con, b_con; do 3 eexists; (split; [reflexivity|auto]).
Qed.
Lemma Int_part_whole : whole_part Int_part.
Proof. intros x _. destruct (base_Int_part x). lra. Qed.

(** A set whose only member is a list of one constraint, or a model with one: the relaxed program is solved, and then looking for what to say raises AttributeError. *)
Theorem C102_nested_refuted : ~ C102_for (fun idx l => idx = []).
Proof.
  intros H. destruct (con_new [Flat.Lst [Leaf a_con]]) as [Hn Hc]; [intros c [<-|[]]; auto|].
  destruct (H 0 std_schedule (fun _ => []) (fun _ => ([], [], [])) Int_part (fun i => S i) [] [Flat.Lst [Leaf a_con]] [2]) as (out & ws & E & Hr & _);
    [intros; apply std_schedule_valid|apply Int_part_whole|exact Hc|exact Hn|simpl; lia|discriminate|reflexivity|reflexivity|].
  unfold check_relaxed in E. cbn -[get_relaxed report_constraint] in E.
  destruct (get_relaxed_reported [2] [0%nat]) as (out' & Eo & Hr'); [discriminate|]. change (get_relaxed [2] [0%nat]) with (get_relaxed (T := R) [2] [0%nat]) in E.
  match type of E with context [get_relaxed ?a ?b] => replace (get_relaxed a b) with (Ok out') in E by (symmetry; exact Eo) end.
  cbn [rbind] in E. destruct (each_In _ _ _ (2, 0%nat) E) as (w & _ & Ew).
  { apply (reported_In _ _ _ Hr'). split; [left; auto|]. left. simpl. lra. }
  unfold report_constraint, original in Ew. cbn -[sub1] in Ew.
  destruct (sub1 _ _ _ _ _); [|discriminate]. cbn -[sub1] in Ew. destruct (sub1 _ _ _ _ _); discriminate.
Qed.
Print Assumptions C102_nested_refuted.

(** A set with integers for keys: constraint 1 of [{1: x >= 1, 2: x <= 2}] is relaxed, and what is said is about the other one. *)
Theorem C102_keys_refuted : ~ C102_for (fun idx l => forall c, In c l -> exists e, c = Leaf e).
Proof.
  intros H. destruct (con_new [Leaf a_con; Leaf b_con]) as [Hn Hc]; [intros c [<-|[<-|[]]]; auto|].
  destruct (H 0 std_schedule (fun _ => []) (fun _ => ([], [], [])) Int_part (fun i => S i) [(1, 0); (2, 1)]%nat [Leaf a_con; Leaf b_con] [1; 2]) as (out & ws & E & Hr & Hf);
    [intros; apply std_schedule_valid|apply Int_part_whole|exact Hc|exact Hn|simpl; lia|discriminate|reflexivity|intros c [<-|[<-|[]]]; eauto|].
  assert (Hone : forall o : list (R * nat), reported (combine [1; 2] [0; 1]%nat) o -> In (2, 1%nat) o /\ forall p, In p o -> p = (2, 1%nat)).
  { intros o Ho. split; [apply (reported_In _ _ _ Ho); split; [simpl; auto|left; simpl; lra]|].
    intros p Hp. apply (reported_In _ _ _ Ho) in Hp as [Hp He]. apply enough_big in He. destruct Hp as [<-|[<-|[]]]; [simpl in He; lra|auto]. }
  destruct (Forall2_In_l _ _ _ (2, 1%nat) Hf (proj1 (Hone out Hr))) as (w & Hw & (lhs & op & rhs & _ & _ & _ & E1 & E2 & _)).
  cbn in E1. injection E1 as <- <- <-.
  unfold check_relaxed in E. cbn -[get_relaxed report_constraint] in E.
  destruct (get_relaxed_reported [1; 2] [0; 1]%nat) as (out' & Eo & Hr'); [discriminate|].
  match type of E with context [get_relaxed ?a ?b] => replace (get_relaxed a b) with (Ok out') in E by (symmetry; exact Eo) end.
  cbn [rbind] in E. destruct (each_back _ _ _ _ E Hw) as (r & Hi & Ew). rewrite (proj2 (Hone out' Hr') r Hi) in Ew.
  unfold report_constraint, original in Ew. cbn -[sub1] in Ew.
  destruct (sub1 _ _ _ _ _); [|discriminate]. cbn -[sub1] in Ew. destruct (sub1 _ _ _ _ _); [|discriminate]. cbn [rbind] in Ew. injection Ew as <-.
  cbn in E2. discriminate E2.
Qed.
Print Assumptions C102_keys_refuted.

(** ** The two versions of a constraint are shown one below the other *)

Definition C102_aligned_for (cond : text * text * text -> text * text * text -> Prop) : Prop :=
  forall (trunc : R -> Z) i v (old new : text * text * text),
    (length (digits i) <= 3)%nat -> (length (percent trunc v) <= 5)%nat -> cond old new ->
    exists a b : text, length (a ++ fst (fst old)) = length (b ++ fst (fst new)) /\
      relaxed_message trunc i v old new = a ++ fst (fst old) ++ chars " " ++ snd (fst old) ++ chars " " ++ snd old ++ [10%N]
                                          ++ b ++ fst (fst new) ++ chars " " ++ snd (fst new) ++ chars " " ++ snd new.

(** What is missing: left sides that are shorter once relaxed. *)
Theorem C102_aligned_partial : C102_aligned_for (fun old new => (length (fst (fst old)) <= length (fst (fst new)))%nat).
Proof.
  intros trunc i v [[ol oo] or] [[nl no] nr] Hi Hp Hl. cbn [fst snd] in *.
  exists (chars " " ++ pad 3 (digits i) ++ chars ": " ++ pad 5 (percent trunc v) ++ chars " relaxed, from " ++ repeat space (length nl - length ol)), (chars "                       to ").
  split.
  - rewrite !app_length. unfold pad. rewrite !app_length, !repeat_length. change (length (chars " ")) with 1%nat. change (length (chars ": ")) with 2%nat.
    change (length (chars " relaxed, from ")) with 15%nat. change (length (chars "                       to ")) with 26%nat. lia.
  - unfold relaxed_message. destruct (Nat.ltb_spec (length ol) (length nl)).
    + rewrite <- !app_assoc. reflexivity.
    + replace (length nl - length ol)%nat with 0%nat by lia. cbn [repeat]. rewrite app_nil_r, <- !app_assoc. reflexivity.
Qed.
Print Assumptions C102_aligned_partial.

(** [0.5x >= 1], relaxed to [x >= 1], is shown three places to the left. *)
Theorem C102_aligned_refuted : ~ C102_aligned_for (fun old new => True).
Proof.
  intros H. destruct (H (fun _ => 100%Z) 0%nat 2 (chars "0.5x", chars ">=", chars "1") (chars "x", chars ">=", chars "1")) as (a & b & El & E); [vm_compute; lia| |exact I|].
  { unfold percent, whole. vm_compute. lia. }
  assert (Hp : percent (fun _ : R => 100%Z) 2 = chars "100%") by reflexivity.
  assert (Hm : length (relaxed_message (fun _ : R => 100%Z) 0 2 (chars "0.5x", chars ">=", chars "1") (chars "x", chars ">=", chars "1")) = 68%nat).
  { unfold relaxed_message. rewrite Hp. reflexivity. }
  rewrite E in Hm. do 12 (try rewrite app_length in Hm). rewrite !app_length in El. cbn [fst snd] in *.
  change (length (chars "0.5x")) with 4%nat in *. change (length (chars "x")) with 1%nat in *. change (length (chars ">=")) with 2%nat in Hm. change (length (chars "1")) with 1%nat in Hm.
  change (length (chars " ")) with 1%nat in Hm. change (length [10%N]) with 1%nat in Hm. lia.
Qed.
Print Assumptions C102_aligned_refuted.

(** ** All constraints relaxed equally *)

(** A report exactly if the relaxation is of more than 0.1 %, and the percentage is within one of it *)
Theorem C102_equally : forall (trunc : R -> Z) (v : R), whole_part trunc ->
  exists ws, check_relaxed_equally trunc v = Ok ws /\
    (v <= 1001 / 1000 -> ws = []) /\
    (1001 / 1000 < v -> exists p, Rabs (IZR p - 100 * (v - 1)) < 1 /\ ws = [(chars "All constraints relaxed by " ++ digits (Z.to_nat p) ++ chars "%", tt)]).
Proof.
  intros trunc v Hw. unfold check_relaxed_equally. destruct (get_relaxed_reported [v] [tt]) as (out & E & Hr); [discriminate|].
  match goal with |- context [get_relaxed ?a ?b] => replace (get_relaxed a b) with (Ok out) by (symmetry; exact E) end. cbn [rbind].
  eexists. split; [reflexivity|]. split.
  - intros Hv. destruct out as [|p out]; [auto|]. exfalso. assert (Hi : In p (p :: out)) by (left; auto). apply (reported_In _ _ _ Hr) in Hi as [Hi He].
    apply enough_big in He. destruct Hi as [<-|[]]. simpl in He. lra.
  - intros Hv. destruct Hr as (_ & Hr). destruct (Hr v) as [Hr1 _]. cbn [combine map fst] in Hr1.
    assert (He : relaxed_enough [v] v) by (right; split; [auto|]; intros w [<-|[]]; lra). specialize (Hr1 He).
    assert (Hall : forall p, In p out -> fst p = v).
    { intros p Hp. destruct (Hr (fst p)) as [Hp1 Hp2]. apply (proj1 (entries_In out p)) in Hp. destruct (Req_EM_T (fst p) v) as [|Hn]; [auto|]. exfalso.
      assert (Hz : entries (fst p) (combine [v] [tt]) = []) by (unfold entries; simpl; destruct (Req_EM_T v (fst p)); [congruence|auto]).
      destruct (Classical_Prop.classic (relaxed_enough (map fst (combine [v] [tt])) (fst p))) as [Hq|Hq]; [rewrite (Hp1 Hq), Hz in Hp|rewrite (Hp2 Hq) in Hp]; destruct Hp. }
    assert (Ho : entries v out = out).
    { unfold entries. clear - Hall. induction out as [|p out IH]; simpl; auto. rewrite (Hall p) by (left; auto). destruct (Req_EM_T v v); [|congruence]. f_equal. apply IH. intros; apply Hall; right; auto. }
    rewrite Ho in Hr1. subst out. unfold entries. cbn [List.filter fst]. destruct (Req_EM_T v v); [|congruence]. cbn [map fst].
    exists (trunc (nadd (ndiv (nofZ 9) (nofZ 10)) (nmul (nsub v n1) hundred))). split; [|reflexivity].
    unfold hundred. cbn [nadd nmul n1 nofZ R_num]. unfold nsub, ndiv. cbn [nadd nmul nopp ninv n1 nofZ R_num].
    set (x := 9 * / 10 + (v + - (1)) * 100). destruct (Hw x) as [H1 H2]; [unfold x; lra|]. unfold x in *. apply Rabs_def1; lra.
Qed.
Print Assumptions C102_equally.

(** It is not the nearest: constraints relaxed by 10.2 % are said to be relaxed by 11 %. *)
Theorem C102_equally_refuted : exists v, check_relaxed_equally Int_part v = Ok [(chars "All constraints relaxed by 11%", tt)] /\ 100 * (v - 1) < 10 + 1 / 4.
Proof.
  exists (1102 / 1000). split; [|lra]. destruct (C102_equally Int_part (1102 / 1000) Int_part_whole) as (ws & E & _ & Hws).
  destruct Hws as (p & _ & Ews); [lra|]. rewrite E. unfold check_relaxed_equally in E.
  destruct (get_relaxed_reported [1102 / 1000] [tt]) as (out & Eo & Hr); [discriminate|].
  match type of E with context [get_relaxed ?a ?b] => replace (get_relaxed a b) with (Ok out) in E by (symmetry; exact Eo) end. cbn [rbind] in E. injection E as E.
  destruct out as [|q [|q' out]]; rewrite Ews in E; try discriminate E. cbn [map] in E.
  assert (Hq : q = (1102 / 1000, tt)). { assert (Hi : In q [q]) by (left; auto). apply (reported_In _ _ _ Hr) in Hi as [[<-|[]] _]. auto. }
  subst q. rewrite Ews, <- E. unfold equally_message, whole. cbn [fst].
  assert (Hp : Int_part (nadd (ndiv (nofZ 9) (nofZ 10)) (nmul (nsub (1102 / 1000) n1) hundred)) = 11%Z).
  { unfold hundred. cbn [nadd nmul n1 nofZ R_num]. unfold nsub, ndiv. cbn [nadd nmul nopp ninv n1 nofZ R_num].
    set (x := 9 * / 10 + (1102 / 1000 + - (1)) * 100). destruct (base_Int_part x) as [H1 H2].
    assert (G1 : (10 < Int_part x)%Z) by (apply lt_IZR; unfold x in *; lra). assert (G2 : (Int_part x < 12)%Z) by (apply lt_IZR; unfold x in *; lra). lia. }
  rewrite Hp. reflexivity.
Qed.
Print Assumptions C102_equally_refuted.

(** ** Relaxed constants *)

Global Instance chosen_decision name inc exc k v : Decision (chosen name inc exc k v) := chosen_dec name name name name inc exc k v.

(** The constants to be relaxed, in the order of all constants *)
Definition to_relax (name : nat -> nat) (include_only exclude : list nat) (constants : list (nat * R)) : list nat :=
  map fst (List.filter (fun kv => bool_decide (chosen name include_only exclude (fst kv) (snd kv))) constants).

(** After a solve that gives values to the relaxation variables and to the constants that were freed: of the constants relaxed enough, most relaxed first, it is said
    what they were and what they are. *)
Definition C102_constants_for (cond : list nat -> Prop) : Prop :=
  forall (name shown rk ok : nat -> nat) (include_only exclude : list nat) (subs constants : list (nat * R)) (st : relaxing R)
         (name_of : nat -> text) (fmt : R -> text) (free : list (nat * R)) (relaxation value : nat -> R),
    NoDup (dkeys constants) -> constants_relaxed name shown rk ok include_only exclude subs constants = Ok st ->
    (forall k, In k (to_relax name include_only exclude constants) -> dget free (rk k) = Some (relaxation k) /\ dget free k = Some (value k)) ->
    cond (to_relax name include_only exclude constants) ->
    exists out ws, check_relaxed_constants name_of fmt st constants free = Ok ws /\
      reported (map (fun k => (relaxation k, k)) (to_relax name include_only exclude constants)) out /\
      Forall2 (fun r w => exists old, In (snd r, old) constants /\
                 w = (chars "  " ++ name_of (snd r) ++ chars ": relaxed from " ++ fmt old ++ chars " to " ++ fmt (value (snd r)), snd r)) out ws.

Lemma relax_lists name shown rk ok inc exc cs : forall st st', relax_constants name shown rk ok inc exc st cs = Ok st' ->
  rx_freed st' = rx_freed st ++ to_relax name inc exc cs /\ rx_vars st' = rx_vars st ++ map rk (to_relax name inc exc cs).
Proof.
  induction cs as [|[k v] cs IH]; intros st st' E; cbn [relax_constants] in E.
  - injection E as <-. unfold to_relax. simpl. rewrite !app_nil_r. auto.
  - destruct (relax_constant name shown rk ok inc exc st (k, v)) as [st1|] eqn:E1; [|discriminate]. cbn [rbind] in E. destruct (IH _ _ E) as [Hf Hv].
    unfold to_relax in *. cbn [List.filter fst snd]. case_bool_decide as Hc; cbn [map fst].
    + assert (H1 : rx_freed st1 = rx_freed st ++ [k] /\ rx_vars st1 = rx_vars st ++ [rk k]).
      { revert E1. unfold relax_constant. destruct Hc as (Hv0 & Hi & He). rewrite decide_False by auto.
        assert (negb (bool_decide (inc = [])) && negb (bool_decide (name k ∈ inc)) = false) as ->.
        { case_bool_decide; simpl; auto. destruct Hi as [?|Hi]; [contradiction|]. rewrite bool_decide_true by (apply elem_of_list_In; auto). auto. }
        rewrite bool_decide_false by (rewrite elem_of_list_In; auto).
        destruct (dget (rx_subs st) k); [|discriminate]. destruct (over _ _); [|discriminate]. cbn [rbind]. destruct (times _ _); [|discriminate]. cbn [rbind]. intros [= <-]. auto. }
      destruct H1 as [H1 H2]. rewrite H1 in Hf. rewrite H2 in Hv. rewrite Hf, Hv, <- !app_assoc. auto.
    + assert (H1 : rx_freed st1 = rx_freed st /\ rx_vars st1 = rx_vars st).
      { destruct (decide (v = 0)) as [->|Hn].
        - rewrite step_zero in E1. injection E1 as <-. auto.
        - rewrite (step_kept name shown rk ok inc exc st k v Hn Hc) in E1. injection E1 as <-. auto. }
      destruct H1 as [H1 H2]. rewrite H1 in Hf. rewrite H2 in Hv. auto.
Qed.

(** What is missing: relaxing no constant at all. *)
Theorem C102_constants_partial : C102_constants_for (fun ks => ks <> []).
Proof.
  intros name shown rk ok inc exc subs constants st name_of fmt free relaxation value Hnd E Hfree Hne.
  apply relax_lists in E as [Hf Hv]. cbn [rx_freed rx_vars app] in Hf, Hv. set (ks := to_relax name inc exc constants) in *.
  unfold check_relaxed_constants. rewrite Hf, Hv.
  assert (Ev : each (value_in free) (map rk ks) = Ok (map relaxation ks)).
  { assert (Hs : forall k, In k ks -> dget free (rk k) = Some (relaxation k)) by (intros; apply Hfree; auto). clear - Hs.
    induction ks as [|k ks IH]; simpl; auto. unfold value_in at 1. rewrite (Hs k) by (left; auto). cbn [rbind]. rewrite IH; [auto|]. intros; apply Hs; right; auto. }
  rewrite Ev. cbn [rbind].
  assert (Ec : combine (map relaxation ks) ks = map (fun k => (relaxation k, k)) ks) by (clear; induction ks; simpl; f_equal; auto).
  destruct (get_relaxed_reported (map relaxation ks) ks) as (out & Eo & Hr); [rewrite Ec; destruct ks; [contradiction|discriminate]|].
  rewrite Eo. cbn [rbind]. rewrite Ec in Hr. exists out.
  assert (Hall : forall r, In r out -> exists w old, In (snd r, old) constants /\ report_constant name_of fmt constants free r = Ok w /\
    w = (chars "  " ++ name_of (snd r) ++ chars ": relaxed from " ++ fmt old ++ chars " to " ++ fmt (value (snd r)), snd r)).
  { intros r Hr0. apply (reported_In _ _ _ Hr) in Hr0 as [Hr0 _]. apply in_map_iff in Hr0 as (k & <- & Hk). cbn [snd].
    pose proof Hk as Hk'. unfold ks, to_relax in Hk'. apply in_map_iff in Hk' as ([k' old] & Ek & Hi). cbn [fst] in Ek. subst k'. apply filter_In in Hi as [Hi _].
    unfold report_constant, value_in. cbn [snd]. rewrite (In_dget constants k old Hnd Hi). cbn [rbind]. rewrite (proj2 (Hfree k Hk)). cbn [rbind]. eauto. }
  destruct (each_ok (report_constant name_of fmt constants free) out) as (ws & Ew); [intros r Hr0; destruct (Hall r Hr0) as (w & old & _ & -> & _); eauto|].
  exists ws. split; [exact Ew|]. split; [exact Hr|]. apply each_Forall2 in Ew. clear - Ew Hall.
  induction Ew as [|r w out ws Er Ew IH]; constructor.
  - destruct (Hall r (or_introl eq_refl)) as (w' & old & Hi & E' & ->). rewrite Er in E'. injection E' as ->. eauto.
  - apply IH. intros r' Hr'. apply Hall. right. auto.
Qed.
Print Assumptions C102_constants_partial.

(** With all constants excluded, or zero, processing the result raises IndexError. *)
Theorem C102_constants_refuted : ~ C102_constants_for (fun ks => True).
Proof.
  intros H. destruct (H (fun k => k) (fun k => k) S (fun k => S (S k)) [] [0%nat] [(0%nat, 1)] [(0%nat, 1)] (RX [(0%nat, 1)] [] [] []) (fun _ => []) (fun _ => []) [] (fun _ => 0) (fun _ => 0))
    as (out & ws & E & _); [apply NoDup_singleton| | |exact I|].
  - unfold constants_relaxed, relax_constants. rewrite step_kept; [reflexivity|lra|]. intros (_ & _ & Hn). apply Hn. left. auto.
  - intros k Hk. unfold to_relax in Hk. cbn [List.filter] in Hk. rewrite bool_decide_false in Hk; [destruct Hk|]. intros (_ & _ & Hn). apply Hn. left. auto.
  - discriminate E.
Qed.
Print Assumptions C102_constants_refuted.

(** ** Sensitivities of relaxed constants *)

(** What was found for the variable with a constant's original value is given as the constant's, and nothing else changes. *)
Theorem C102_sensitivities : forall (ok : nat -> nat) (ks : list nat) (senss : list (nat * R)),
  NoDup ks -> NoDup (dkeys senss) -> (forall k k', In k ks -> In k' ks -> ok k = ok k' -> k = k') -> (forall k k', In k ks -> In k' ks -> ok k <> k') ->
  (forall k, In k ks -> In (ok k) (dkeys senss)) ->
  exists senss', derelax (map (fun k => (ok k, k)) ks) senss = Ok senss' /\
    (forall k, In k ks -> dget senss' k = dget senss (ok k) /\ dget senss' (ok k) = None) /\
    (forall x, (forall k, In k ks -> x <> k /\ x <> ok k) -> dget senss' x = dget senss x).
Proof.
  intros ok ks. induction ks as [|k ks IH]; intros senss Hnd Hns Hinj Hne Hin; cbn [map derelax].
  - exists senss. split; [auto|]. split; [intros k []|auto].
  - apply NoDup_cons in Hnd as [Hk Hnd]. rewrite elem_of_list_In in Hk. unfold value_in.
    destruct (dget senss (ok k)) as [s|] eqn:Es; [|apply dget_None in Es; destruct Es; apply Hin; left; auto]. cbn [rbind].
    assert (Hkok : ok k <> k) by (apply Hne; left; auto).
    set (s1 := ddel (dset senss k s) (ok k)). assert (Hn1 : NoDup (dkeys s1)) by (apply NoDup_ddel, NoDup_dset; auto).
    assert (G : forall x, x <> k -> x <> ok k -> dget s1 x = dget senss x) by (intros x H1 H2; unfold s1; rewrite dget_ddel_ne, dget_dset_ne by auto; auto).
    assert (Gk : dget s1 k = Some s) by (unfold s1; rewrite dget_ddel_ne by auto; apply dget_dset_eq).
    assert (Gok : dget s1 (ok k) = None) by (apply Base.dget_ddel_eq, NoDup_dset; auto).
    assert (D : forall k', In k' ks -> ok k' <> k /\ ok k' <> ok k /\ k' <> k /\ k' <> ok k).
    { intros k' Hk'. repeat split.
      - apply Hne; [right|left]; auto.
      - intros Heq. assert (k' = k) by (apply Hinj; [right|left|]; auto). congruence.
      - congruence.
      - intros Heq. apply (Hne k k'); [left|right|]; auto. }
    destruct (IH s1 Hnd Hn1) as (senss' & E' & H1 & H2).
    + intros; apply Hinj; auto; right; auto.
    + intros; apply Hne; right; auto.
    + intros k' Hk'. destruct (dget s1 (ok k')) eqn:Ed; [eapply dget_In_keys; eauto|]. destruct (D k' Hk') as (D1 & D2 & D3 & D4). rewrite G in Ed by auto. apply dget_None in Ed. destruct Ed. apply Hin. right. auto.
    + exists senss'. split; [exact E'|]. split.
      * intros k' [<-|Hk'].
        -- assert (Ho : forall k', In k' ks -> k <> k' /\ k <> ok k') by (intros k' Hk'; destruct (D k' Hk') as (? & ? & ? & ?); split; auto).
           assert (Ho' : forall k', In k' ks -> ok k <> k' /\ ok k <> ok k') by (intros k' Hk'; destruct (D k' Hk') as (? & ? & ? & ?); split; auto).
           rewrite (H2 k Ho), (H2 (ok k) Ho'), Gk, Gok. auto.
        -- destruct (H1 k' Hk') as [-> ->]. split; [|auto]. destruct (D k' Hk') as (D1 & D2 & D3 & D4). apply G; auto.
      * intros x Hx. rewrite H2 by (intros k' Hk'; apply Hx; right; auto). destruct (Hx k (or_introl eq_refl)). apply G; auto.
Qed.
Print Assumptions C102_sensitivities.

(** ** Cases that meet the hypotheses *)

(** Of [x >= 1], [x <= 2] the second has been relaxed by a half *)
Example C102_nonvacuous : (forall fixed h, valid_schedule fixed h (std_schedule (T := R) fixed h)) /\ whole_part Int_part /\
  all_canonical [Leaf a_con; Leaf b_con] /\ new_vars (fun i => S i) [Leaf a_con; Leaf b_con] /\ flat_set [] [Leaf a_con; Leaf b_con] /\
  relaxed_enough [1; 3 / 2] (3 / 2) /\ ~ relaxed_enough [1; 3 / 2] 1.
Proof.
  destruct (con_new [Leaf a_con; Leaf b_con]) as [Hn Hc]; [intros c [<-|[<-|[]]]; auto|].
  split; [intros; apply std_schedule_valid|]. split; [apply Int_part_whole|]. split; [exact Hc|]. split; [exact Hn|].
  split; [split; [auto|intros c [<-|[<-|[]]]; eauto]|]. split; [left; lra|]. intros He. apply enough_big in He. lra.
Qed.
(** The same with rationals *)
Example C102_report : check_relaxed (T := Q) 1000%Q std_schedule (fun h => if bool_decide (h = num_hmap 3%Q) then chars "3" else if bool_decide (h = num_hmap 2%Q) then chars "2" else chars "x")
    (fun _ => ([], [], [])) (fun q => (Qnum q / Zpos (Qden q))%Z) (fun i => S i) [] [Leaf (var_hmap 0, OpGe, num_hmap 1%Q); Leaf (var_hmap 0, OpLe, num_hmap 2%Q)] [1; 3 # 2]%Q
  = Ok [(chars "   1:   50% relaxed, from x <= 2" ++ [10%N] ++ chars "                       to x <= 3", Leaf (var_hmap 0, OpLe, num_hmap 2%Q))].
Proof. vm_compute. reflexivity. Qed.
Example C102_constants_report : check_relaxed_constants (T := Q) (fun k => [65 + N.of_nat k]%N) (fun q => digits (Z.to_nat (Qnum q)))
    (RX [] [10; 11]%nat [0; 1]%nat []) [(0%nat, 2%Q); (1%nat, 3%Q)] [(10%nat, 1%Q); (11%nat, 2%Q); (0%nat, 2%Q); (1%nat, 6%Q)]
  = Ok [(chars "  B: relaxed from 3 to 6", 1%nat)].
Proof. vm_compute. reflexivity. Qed.
Example C102_derelaxed : derelax (T := Q) [(10, 0); (11, 1)]%nat [(5%nat, 7%Q); (10%nat, 1%Q); (11%nat, 2%Q)] = Ok [(5%nat, 7%Q); (0%nat, 1%Q); (1%nat, 2%Q)].
Proof. vm_compute. reflexivity. Qed.
