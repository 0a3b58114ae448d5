(** Proofs about tables of constraints. *)
From Coq Require Import NArith Sorting.Sorted.
From Verif Require Import Base ConTable.
Open Scope nat_scope.
Local Open Scope list_scope.

(** ** Splitting *)

Lemma match_len_bound s n : match_len s = Some n -> 3 <= n <= length s.
Proof.
  unfold match_len. destruct s as [|a [|b [|c s]]]; try discriminate.
  case_bool_decide; [intros [= <-]; simpl; lia|]. case_bool_decide; [intros [= <-]; simpl; lia|].
  case_bool_decide as H1; [intros [= <-]; destruct H1 as [_ H1]; destruct s; [discriminate|simpl; lia]|].
  case_bool_decide as H2; [intros [= <-]; destruct H2 as [_ H2]; destruct s; [discriminate|simpl; lia]|].
  case_bool_decide; [intros [= <-]; simpl; lia|]. discriminate.
Qed.
Lemma split_go_concat s : forall skip cur, skip <= length s -> concat (split_go s skip cur) = cur ++ skipn skip s.
Proof.
  induction s as [|c s IH]; intros skip cur Hs.
  - assert (skip = 0) by (simpl in Hs; lia). subst. simpl. reflexivity.
  - destruct skip as [|k]; [|cbn [split_go skipn]; apply IH; simpl in Hs; lia]. cbn [split_go skipn].
    destruct (match_len (c :: s)) as [n|] eqn:E.
    + apply match_len_bound in E. simpl in E. cbn [concat]. f_equal. rewrite IH by lia. simpl app. destruct n as [|n]; [lia|].
      simpl firstn. simpl Nat.sub. rewrite Nat.sub_0_r. simpl. f_equal. apply firstn_skipn.
    + rewrite IH by lia. simpl. rewrite <- app_assoc. reflexivity.
Qed.
Lemma concat_filter (l : list text) : concat (List.filter (fun s => negb (bool_decide (s = []))) l) = concat l.
Proof. induction l as [|s l IH]; simpl; auto. destruct s; simpl; [auto|]. rewrite IH. reflexivity. Qed.
Lemma segments_concat s : concat (segments s) = s.
Proof. unfold segments. rewrite concat_filter, split_go_concat by lia. reflexivity. Qed.

(** ** Wrapping *)

(** The lines of a text: it is cut into pieces, of which all but the first are indented by two spaces. *)
Fixpoint indent (first : bool) (pieces : list text) : list text :=
  match pieces with [] => [] | p :: ps => (if first then p else space :: space :: p) :: indent false ps end.

Lemma indent_false_app a b : indent false (a ++ b) = indent false a ++ indent false b.
Proof. induction a; simpl; congruence. Qed.
Lemma indent_app first a b : a <> [] -> indent first (a ++ b) = indent first a ++ indent false b.
Proof. destruct a; [congruence|]. intros _. simpl. rewrite indent_false_app. reflexivity. Qed.

(** What [line] is while pieces are collected: an unfinished piece with its indentation *)
Definition unfinished (first : bool) (p : text) : text := if first then p else space :: space :: p.
Lemma cut_spec fuel : forall first p full rest, length (unfinished first p) <= fuel -> cut fuel (unfinished first p) = (full, rest) ->
  exists ps q, p = concat ps ++ q /\ full = indent first ps /\ rest = unfinished (first && bool_decide (ps = [])) q /\ length rest <= maxlen /\
  Forall (fun l => length l <= maxlen) full /\ (length (unfinished first p) <= maxlen -> ps = []).
Proof.
  induction fuel as [|fuel IH]; intros first p full rest Hf E; cbn [cut] in E.
  - injection E as <- <-. exists [], p. simpl. rewrite andb_true_r. repeat split; auto. unfold maxlen. lia.
  - destruct (maxlen <? length (unfinished first p)) eqn:El.
    2:{ injection E as <- <-. apply Nat.ltb_ge in El. exists [], p. simpl. rewrite andb_true_r. repeat split; auto. }
    apply Nat.ltb_lt in El. set (q := skipn maxlen (unfinished first p)) in *.
    destruct (cut fuel (space :: space :: q)) as [full' rest'] eqn:E'. injection E as <- <-.
    change (space :: space :: q) with (unfinished false q) in E'.
    assert (Hq : length q = length (unfinished first p) - maxlen) by apply skipn_length.
    destruct (IH false q full' rest') as (ps & r & E1 & -> & -> & H1 & H2 & _); auto.
    { simpl. rewrite Hq. unfold maxlen in *. lia. }
    assert (Hp : exists p0, p = p0 ++ q /\ firstn maxlen (unfinished first p) = unfinished first p0).
    { destruct first; simpl unfinished in *.
      - exists (firstn maxlen p). split; [symmetry; apply firstn_skipn|reflexivity].
      - exists (firstn (maxlen - 2) p). split; [symmetry; apply firstn_skipn|reflexivity]. }
    destruct Hp as (p0 & Ep & E0). exists (p0 :: ps), r. split; [rewrite Ep, E1; simpl; rewrite app_assoc; reflexivity|].
    split; [rewrite E0; destruct first; reflexivity|]. split; [destruct first; reflexivity|]. split; [auto|].
    split; [constructor; [rewrite firstn_length; lia|auto]|]. lia.
Qed.

Lemma wrap_spec segs : forall carry first p, length (unfinished first p) <= maxlen -> (segs = [] -> carry = []) ->
  exists ps q, p ++ carry ++ concat segs = p ++ q /\ p ++ q = concat ps /\ wrap segs carry (unfinished first p) = indent first ps /\ ps <> [] /\
  Forall (fun l => length l <= maxlen) (indent first ps) /\
  (length (unfinished first p) + length carry + length (concat segs) <= maxlen -> exists x, ps = [x]).
Proof.
  induction segs as [|s segs IH]; intros carry first p Hl Hc.
  - rewrite Hc by auto. exists [p], []. simpl. rewrite app_nil_r. destruct first; simpl; repeat split; auto; try discriminate; eauto.
  - cbn [wrap]. set (segment := carry ++ s).
    (* putting [x] on the line, after which [carry'] and the other segments are left *)
    assert (Hstep : forall first p x carry' full line, (segs = [] -> carry' = []) -> length (unfinished first p) <= maxlen -> cut (length (unfinished first p ++ x)) (unfinished first p ++ x) = (full, line) ->
      exists ps, p ++ x ++ carry' ++ concat segs = concat ps /\ full ++ wrap segs carry' line = indent first ps /\ ps <> [] /\ Forall (fun l => length l <= maxlen) (indent first ps) /\
      (length (unfinished first p) + length x + length carry' + length (concat segs) <= maxlen -> exists x, ps = [x])).
    { clear first p Hl. intros first p x carry' full line Hc' Hl Ec.
      replace (unfinished first p ++ x) with (unfinished first (p ++ x)) in Ec by (destruct first; reflexivity).
      destruct (cut_spec _ _ _ _ _ (le_n _) Ec) as (ps & q & E1 & -> & -> & H1 & H2 & H3).
      destruct (IH carry' (first && bool_decide (ps = [])) q H1 Hc') as (ps' & q' & E2 & E3 & E4 & N & H4 & H5).
      exists (ps ++ ps'). split; [|split; [|split; [|split]]].
      - rewrite concat_app, <- E3, <- E2. rewrite (app_assoc p x), E1, <- !app_assoc. reflexivity.
      - rewrite E4. destruct ps as [|p0 ps]; [rewrite andb_true_r; reflexivity|]. rewrite indent_app by discriminate. rewrite andb_false_r. reflexivity.
      - destruct ps'; [congruence|]. destruct ps; discriminate.
      - destruct ps as [|p0 ps]; [rewrite andb_true_r in H4; exact H4|]. rewrite indent_app by discriminate. apply Forall_app. split; [exact H2|]. rewrite andb_false_r in H4. exact H4.
      - intros Hb. assert (Hps : ps = []).
        { apply H3. destruct first; simpl in *; rewrite ?app_length; lia. }
        subst ps. simpl in E1. subst q. rewrite andb_true_r in *. apply H5. destruct first; simpl in *; rewrite ?app_length in *; lia. }
    assert (Hsplit : forall x carry', segment = x ++ carry' -> forall full line, (segs = [] -> carry' = []) -> cut (length (unfinished first p ++ x)) (unfinished first p ++ x) = (full, line) ->
      exists ps q, p ++ carry ++ concat (s :: segs) = p ++ q /\ p ++ q = concat ps /\ full ++ wrap segs carry' line = indent first ps /\ ps <> [] /\
        Forall (fun l => length l <= maxlen) (indent first ps) /\ (length (unfinished first p) + length carry + length (concat (s :: segs)) <= maxlen -> exists x, ps = [x])).
    { intros x carry' Ex full line Hc' Ec. destruct (Hstep first p x carry' full line Hc' Hl Ec) as (ps & E1 & E2 & N & H1 & H2).
      exists ps, (x ++ carry' ++ concat segs). split; [|split; [auto|split; [auto|split; [auto|split; [auto|]]]]].
      - simpl. f_equal. rewrite (app_assoc carry s). fold segment. rewrite Ex, <- app_assoc. reflexivity.
      - intros Hb. apply H2. simpl in Hb. rewrite app_length in Hb. assert (El : length carry + length s = length x + length carry') by (rewrite <- !app_length; fold segment; rewrite Ex; auto). lia. }
    assert (Hother : let '(before, line) := if (maxlen <? length (unfinished first p) + length segment) && (minlen <? length (unfinished first p)) then ([unfinished first p], [space; space]) else ([], unfinished first p) in
      let '(full, line) := cut (length (line ++ segment)) (line ++ segment) in
      exists ps q, p ++ carry ++ concat (s :: segs) = p ++ q /\ p ++ q = concat ps /\ before ++ full ++ wrap segs [] line = indent first ps /\ ps <> [] /\
        Forall (fun l => length l <= maxlen) (indent first ps) /\ (length (unfinished first p) + length carry + length (concat (s :: segs)) <= maxlen -> exists x, ps = [x])).
    { destruct ((maxlen <? length (unfinished first p) + length segment) && (minlen <? length (unfinished first p))) eqn:Eb.
      - apply andb_true_iff in Eb as [Eb _]. apply Nat.ltb_lt in Eb. change [space; space] with (unfinished false []).
        destruct (cut (length (unfinished false [] ++ segment)) (unfinished false [] ++ segment)) as [full line] eqn:Ec.
        destruct (Hstep false [] segment [] full line ltac:(auto) ltac:(simpl; unfold maxlen; lia) Ec) as (ps & E1 & E2 & N & H1 & H2).
        exists (p :: ps), (concat ps). simpl app in E1 |- *. split; [|split; [reflexivity|split; [|split; [discriminate|split]]]].
        + f_equal. rewrite <- E1. simpl. unfold segment. rewrite <- app_assoc. reflexivity.
        + rewrite E2. destruct first; reflexivity.
        + destruct first; simpl; constructor; auto.
        + intros Hb. exfalso. simpl in Hb. unfold segment in Eb. rewrite !app_length in *. lia.
      - destruct (cut (length (unfinished first p ++ segment)) (unfinished first p ++ segment)) as [full line] eqn:Ec. simpl app at 3.
        apply (Hsplit segment []); auto. rewrite app_nil_r. reflexivity. }
    assert (Hother' : exists ps q, p ++ carry ++ concat (s :: segs) = p ++ q /\ p ++ q = concat ps /\
      (let '(before, line) := if (maxlen <? length (unfinished first p) + length segment) && (minlen <? length (unfinished first p)) then ([unfinished first p], [space; space]) else ([], unfinished first p) in
       let '(full, line) := cut (length (line ++ segment)) (line ++ segment) in before ++ full ++ wrap segs [] line) = indent first ps /\ ps <> [] /\
        Forall (fun l => length l <= maxlen) (indent first ps) /\ (length (unfinished first p) + length carry + length (concat (s :: segs)) <= maxlen -> exists x, ps = [x])).
    { destruct (if _ && _ then _ else _) as [before line] in Hother |- *. destruct (cut (length (line ++ segment)) (line ++ segment)). exact Hother. }
    clear Hother. destruct (match_len segment) as [n|] eqn:Em; [|exact Hother'].
    destruct segment as [|c rest] eqn:Es; [exact Hother'|]. destruct segs as [|s2 segs]; [exact Hother'|].
    destruct (cut (length (unfinished first p ++ [c])) (unfinished first p ++ [c])) as [full line] eqn:Ec.
    apply (Hsplit [c] rest); auto; discriminate.
Qed.

(** A text is cut into pieces; lines have at most 80 characters; a text that fits is one line. *)
Lemma constraintlines_spec s : exists ps, concat ps = s /\ constraintlines s = indent true ps /\ ps <> [] /\ Forall (fun l => length l <= maxlen) (indent true ps) /\
  (length s <= maxlen -> constraintlines s = [s]).
Proof.
  destruct (wrap_spec (segments s) [] true []) as (ps & q & E1 & E2 & E3 & N & H & H1); [simpl; unfold maxlen; lia|auto|].
  simpl in E1. rewrite segments_concat in E1. exists ps. unfold constraintlines. simpl in E2. split; [congruence|]. split; [exact E3|]. split; [auto|]. split; [auto|].
  intros Hs. destruct H1 as (x & ->); [simpl; rewrite segments_concat; lia|]. transitivity (indent true [x]); [exact E3|]. simpl in *. rewrite app_nil_r in E2. subst q s. reflexivity.
Qed.

(** ** Sorting *)

Section SortProofs.
Context {A : Type} (leb : A -> A -> bool).
Lemma insert_perm x l : Permutation (insert leb x l) (x :: l).
Proof. induction l as [|y l IH]; simpl; auto. destruct (leb x y); auto. rewrite IH. apply perm_swap. Qed.
Lemma sort_perm l : Permutation (sort leb l) l.
Proof. induction l as [|x l IH]; simpl; auto. rewrite insert_perm, IH. reflexivity. Qed.
Hypothesis Htot : forall x y, leb x y = true \/ leb y x = true.
Hypothesis Htrans : forall x y z, leb x y = true -> leb y z = true -> leb x z = true.
Lemma insert_sorted x l : StronglySorted (fun a b => leb a b = true) l -> StronglySorted (fun a b => leb a b = true) (insert leb x l).
Proof.
  induction 1 as [|y l Hl IH Hy]; simpl; [repeat constructor|]. destruct (leb x y) eqn:E.
  - constructor; [constructor; auto|]. constructor; auto. eapply Forall_impl; [exact Hy|]. simpl. intros z Hz. eapply Htrans; eauto.
  - constructor; auto. rewrite List.Forall_forall in *. intros z Hz. apply (Permutation_in _ (insert_perm x l)) in Hz as [<-|Hz]; auto. destruct (Htot x y); congruence.
Qed.
Lemma sort_sorted l : StronglySorted (fun a b => leb a b = true) (sort leb l).
Proof. induction l as [|x l IH]; simpl; [constructor|apply insert_sorted; auto]. Qed.
End SortProofs.
(** Sorted lists with the same elements are the same, when different elements are ordered strictly. *)
Lemma sorted_unique {A} (leb1 leb2 : A -> A -> bool) : forall l1 l2, Permutation l1 l2 ->
  StronglySorted (fun a b => leb1 a b = true) l1 -> StronglySorted (fun a b => leb2 a b = true) l2 ->
  (forall x y, In x l1 -> In y l1 -> leb1 x y = true -> leb2 y x = true -> x = y) -> l1 = l2.
Proof.
  induction l1 as [|x l1 IH]; intros l2 P S1 S2 H.
  - apply Permutation_nil in P. auto.
  - destruct l2 as [|y l2]; [symmetry in P; apply Permutation_nil in P; discriminate|]. inversion S1; subst. inversion S2; subst. rewrite List.Forall_forall in *.
    assert (x = y).
    { assert (I1 : In y (x :: l1)) by (eapply Permutation_in; [symmetry; exact P|left; auto]).
      assert (I2 : In x (y :: l2)) by (eapply Permutation_in; [exact P|left; auto]).
      destruct I1 as [?|I1]; auto. destruct I2 as [?|I2]; auto. apply H; auto; [left; auto|right; auto]. }
    subst y. f_equal. apply Permutation_cons_inv in P. apply IH; auto. intros; apply H; auto; right; auto.
Qed.

(** Orders *)
Record order_ok {A} (leb : A -> A -> bool) : Prop := {
  o_tot : forall x y, leb x y = true \/ leb y x = true;
  o_trans : forall x y z, leb x y = true -> leb y z = true -> leb x z = true }.
Lemma lex_ok {A B} (la : A -> A -> bool) (lb : B -> B -> bool) : order_ok la -> order_ok lb -> order_ok (lex la lb).
Proof.
  intros Ha Hb. constructor; unfold lex.
  - intros x y. destruct (la (fst x) (fst y)) eqn:E1, (la (fst y) (fst x)) eqn:E2; auto; [apply (o_tot _ Hb)|]. destruct (o_tot _ Ha (fst x) (fst y)); congruence.
  - intros x y z H1 H2. destruct (la (fst x) (fst y)) eqn:E1; [|discriminate]. destruct (la (fst y) (fst z)) eqn:E2; [|discriminate].
    rewrite (o_trans _ Ha _ _ _ E1 E2). destruct (la (fst z) (fst x)) eqn:E3; auto.
    rewrite (o_trans _ Ha _ _ _ E2 E3) in H1. rewrite (o_trans _ Ha _ _ _ E3 E1) in H2. eapply (o_trans _ Hb); eauto.
Qed.
Lemma lex_fst {A B} (la : A -> A -> bool) (lb : B -> B -> bool) x y : lex la lb x y = true -> la (fst x) (fst y) = true.
Proof. unfold lex. destruct (la (fst x) (fst y)); auto. Qed.
Lemma nat_leb_ok : order_ok Nat.leb.
Proof. constructor; intros *; rewrite ?Nat.leb_le; lia. Qed.
Lemma text_leb_ok : order_ok text_leb.
Proof.
  constructor.
  - induction x as [|a x IH]; intros [|b y]; simpl; auto. case_bool_decide as E; case_bool_decide as E'; try congruence; auto. rewrite !N.ltb_lt. lia.
  - induction x as [|a x IH]; intros [|b y] [|c z]; simpl; auto; try discriminate.
    repeat case_bool_decide; subst; try congruence; eauto; rewrite ?N.ltb_lt; try lia. 
Qed.
Lemma text_leb_antisym x : forall y, text_leb x y = true -> text_leb y x = true -> x = y.
Proof.
  induction x as [|a x IH]; intros [|b y]; simpl; auto; try discriminate. repeat case_bool_decide; subst; try congruence; rewrite ?N.ltb_lt; try lia.
  intros H1 H2. f_equal. apply IH; auto.
Qed.

(** ** Numbering models *)

Section Groups.
Context {K : Type} (kleb : K -> K -> bool) (Hk : order_ok kleb) (sortbymodel showmodels : bool).

(** The model a constraint is listed under, and its text *)
Definition model_of (e : entry K) : text := if sortbymodel then c_model (e_con e) else [].
Definition text_of (e : entry K) : text := no_address (c_print (e_con e) showmodels).
Definition deco_of (num : text -> nat) (e : entry K) : deco K := Deco (num (model_of e)) (model_of e) (e_sortby e) (text_of e) (e_opening e).

Definition add (models : list (text * nat)) (m : text) : list (text * nat) := if dmem models m then models else dset models m (length models).
Definition num_in (models : list (text * nat)) (m : text) : nat := default 0 (dget models m).
Fixpoint final (models : list (text * nat)) (l : list (entry K)) : list (text * nat) :=
  match l with [] => models | e :: l' => final (add models (model_of e)) l' end.

Lemma dmem_dget {V} (d : list (text * V)) k : dmem d k = true <-> exists v, dget d k = Some v.
Proof. unfold dmem. destruct (dget d k) as [v|]; split; eauto; try discriminate. intros (v & ?). discriminate. Qed.
(** Models are numbered from 0 *)
Definition numbered (models : list (text * nat)) : Prop :=
  (forall m i, dget models m = Some i -> i < length models) /\ (forall m m' i, dget models m = Some i -> dget models m' = Some i -> m = m').
Lemma dset_new_length (d : list (text * nat)) k v : dget d k = None -> length (dset d k v) = S (length d).
Proof. induction d as [|[a b] d IH]; simpl; auto. destruct (decide (k = a)) as [->|]; [discriminate|]. intros H. simpl. rewrite IH; auto. Qed.
Lemma add_spec models m : numbered models -> numbered (add models m) /\ (forall m' i, dget models m' = Some i -> dget (add models m) m' = Some i) /\
  (forall m' i, dget (add models m) m' = Some i -> dget models m' = Some i \/ m' = m /\ dget models m = None /\ i = length models) /\ (exists i, dget (add models m) m = Some i).
Proof.
  intros [N1 N2]. unfold add. destruct (dmem models m) eqn:E.
  - apply dmem_dget in E as (v & E). split; [split; auto|]. split; [auto|]. split; [auto|eauto].
  - assert (E' : dget models m = None) by (unfold dmem in E; destruct (dget models m); [discriminate|auto]).
    assert (H3 : forall m' i, dget (dset models m (length models)) m' = Some i -> dget models m' = Some i \/ m' = m /\ dget models m = None /\ i = length models).
    { intros m' i H. destruct (decide (m' = m)) as [->|N]; [rewrite dget_dset_eq in H; injection H as <-; auto|rewrite dget_dset_ne in H by auto; auto]. }
    split; [split|split; [|split; [exact H3|]]].
    + intros m' i H. rewrite dset_new_length by auto. apply H3 in H as [H|(_ & _ & ->)]; [apply N1 in H; lia|lia].
    + intros m1 m2 i H1 H2. apply H3 in H1 as [H1|(-> & _ & ->)]; apply H3 in H2 as [H2|(-> & _ & E2)]; eauto.
      * subst i. apply N1 in H1. lia.
      * apply N1 in H2. lia.
    + intros m' i H. rewrite dget_dset_ne; auto. intros ->. congruence.
    + exists (length models). apply dget_dset_eq.
Qed.
Lemma final_spec l : forall models, numbered models -> numbered (final models l) /\ (forall m i, dget models m = Some i -> dget (final models l) m = Some i) /\
  (forall e, In e l -> exists i, dget (final models l) (model_of e) = Some i) /\
  (forall m1 m2 i1 i2, dget (final models l) m1 = Some i1 -> dget (final models l) m2 = Some i2 -> i1 < i2 -> dget models m2 = None ->
     (exists i, dget models m1 = Some i) \/ exists l1 e1 l2, l = l1 ++ e1 :: l2 /\ model_of e1 = m1 /\ Forall (fun e => model_of e <> m2) l1) /\
  decorate sortbymodel showmodels models l = map (deco_of (num_in (final models l))) l.
Proof.
  induction l as [|e l IH]; intros models N.
  - simpl. split; [auto|]. split; [auto|]. split; [intros _ []|]. split; [|reflexivity]. intros; eauto.
  - destruct (add_spec models (model_of e) N) as (N' & A1 & A2 & (i & A3)). destruct (IH _ N') as (F1 & F2 & F3 & F4 & F5). cbn [final].
    split; [auto|]. split; [auto|]. split; [intros e' [<-|H]; eauto|]. split.
    + intros m1 m2 i1 i2 H1 H2 L Hm. destruct (dget (add models (model_of e)) m2) as [j|] eqn:Ej.
      * destruct (A2 _ _ Ej) as [?|(-> & _ & ->)]; [congruence|]. pose proof (F2 _ _ Ej) as H2'. rewrite H2 in H2'. injection H2' as H2'. left.
        (* [m1] has a smaller number than [length models], so it was there *)
        destruct (dget models m1) as [j|] eqn:Em1; [eauto|]. exfalso.
        destruct (dget (add models (model_of e)) m1) as [j|] eqn:Ej1.
        -- destruct (A2 _ _ Ej1) as [?|(-> & _ & ->)]; [congruence|]. rewrite (F2 _ _ Ej1) in H1. injection H1 as H1. lia.
        -- (* numbers of later ones are larger *)
           assert (G : forall l models m i, numbered models -> dget models m = None -> dget (final models l) m = Some i -> length models <= i).
           { clear. induction l as [|e l IH]; intros models m i N Hm H; cbn [final] in H; [congruence|].
             destruct (add_spec models (model_of e) N) as (N' & A1 & A2 & (i' & A3)).
             destruct (dget (add models (model_of e)) m) as [j|] eqn:Ej.
             - destruct (A2 _ _ Ej) as [?|(-> & _ & ->)]; [congruence|].
               assert (F : forall l models m i, numbered models -> dget models m = Some i -> dget (final models l) m = Some i).
               { clear. induction l as [|e l IH]; intros models m i N H; cbn [final]; auto. destruct (add_spec models (model_of e) N) as (N' & A1 & _). apply IH; auto. }
               rewrite (F l _ _ _ N' Ej) in H. injection H as H. lia.
             - specialize (IH _ _ _ N' Ej H). unfold add in IH. destruct (dmem models (model_of e)) eqn:Ed; [exact IH|].
               rewrite dset_new_length in IH; [lia|]. unfold dmem in Ed. destruct (dget models (model_of e)); [discriminate|auto]. }
           pose proof (G l _ _ _ N' Ej1 H1) as Hge. assert (length models <= length (add models (model_of e))); [|lia].
           unfold add. destruct (dmem models (model_of e)) eqn:Ed; [lia|]. rewrite dset_new_length; [lia|]. unfold dmem in Ed. destruct (dget models (model_of e)); [discriminate|auto].
      * destruct (F4 m1 m2 i1 i2 H1 H2 L Ej) as [(j & Hj)|(l1 & e1 & l2 & -> & Hm1 & Hl1)].
        -- destruct (A2 _ _ Hj) as [?|(-> & _ & _)]; [eauto|]. right. exists [], e, l. split; [auto|]. split; [auto|constructor].
        -- right. exists (e :: l1), e1, l2. split; [auto|]. split; [auto|]. constructor; auto. intros E. rewrite E in A3. congruence.
    + cbn [decorate map]. fold (model_of e). fold (add models (model_of e)). rewrite F5. f_equal. unfold deco_of, text_of. f_equal.
      unfold num_in. rewrite A3, (F2 _ _ A3). reflexivity.
Qed.

(** ** The lines of a table *)

Definition row_lines (e : entry K) : list tline :=
  let ls := constraintlines (remove (model_of e) (text_of e)) in
  Text (e_opening e ++ colon) (match ls with l0 :: _ => l0 | [] => [] end) :: map (Text []) (tl ls).
(** An empty line between groups, the model's name (if it has one, or if other models come before) *)
Definition head_lines (first : bool) (m : text) : list tline :=
  if first then match m with [] => [] | _ => [Title m] end else [Text [] []; Title m].
Fixpoint groups_lines (first : bool) (gs : list (text * list (entry K))) : list tline :=
  match gs with [] => [] | (m, es) :: gs' => head_lines first m ++ concat (map row_lines es) ++ groups_lines false gs' end.

Fixpoint cont (previous : option text) (first : bool) (l : list (entry K)) : list tline :=
  match l with
  | [] => []
  | e :: l' => (if bool_decide (previous = Some (model_of e)) then [] else head_lines first (model_of e)) ++ row_lines e ++ cont (Some (model_of e)) false l'
  end.
Definition is_nil {A} (l : list A) : bool := match l with [] => true | _ => false end.
Lemma body_step num e ds previous lines : body previous (deco_of num e :: ds) lines =
  body (Some (model_of e)) ds (lines ++ (if bool_decide (previous = Some (model_of e)) then [] else head_lines (is_nil lines) (model_of e)) ++ row_lines e).
Proof.
  cbn [body]. unfold deco_of. cbn [d_model d_text d_opening]. f_equal.
  case_bool_decide as Hp; [reflexivity|]. unfold head_lines. destruct lines as [|x lines]; cbn [is_nil].
  - unfold row_lines. destruct (model_of e) eqn:Em; reflexivity.
  - destruct (model_of e) eqn:Em; cbn [app]; rewrite <- !app_assoc; unfold row_lines; rewrite Em; reflexivity.
Qed.
Lemma body_cont num l : forall previous lines, body previous (map (deco_of num) l) lines = lines ++ cont previous (is_nil lines) l.
Proof.
  induction l as [|e l IH]; intros previous lines; [simpl; rewrite app_nil_r; auto|]. cbn [map cont]. rewrite body_step, IH, <- !app_assoc. f_equal. f_equal. f_equal.
  f_equal. destruct lines; [|reflexivity]. simpl. destruct (if bool_decide _ then _ else _); reflexivity.
Qed.

Fixpoint chunks (l : list (entry K)) : list (text * list (entry K)) :=
  match l with
  | [] => []
  | e :: l' => match chunks l' with
               | (m, es) :: gs => if bool_decide (m = model_of e) then (m, e :: es) :: gs else (model_of e, [e]) :: (m, es) :: gs
               | [] => [(model_of e, [e])]
               end
  end.
Lemma chunks_head e l : exists es gs, chunks (e :: l) = (model_of e, e :: es) :: gs.
Proof. simpl. destruct (chunks l) as [|[m es] gs]; eauto. case_bool_decide; subst; eauto. Qed.
Lemma chunks_spec l : concat (map snd (chunks l)) = l /\ Forall (fun g => snd g <> [] /\ Forall (fun e => model_of e = fst g) (snd g)) (chunks l).
Proof.
  induction l as [|e l [IH1 IH2]]; [simpl; auto|]. simpl. destruct (chunks l) as [|[m es] gs].
  - simpl in *. subst l. split; auto. constructor; simpl; auto.
  - inversion IH2 as [|? ? [N H] IH2']; subst. simpl in *. case_bool_decide; simpl.
    + subst m. split; auto. constructor; auto. simpl. split; [discriminate|constructor; auto].
    + split; auto. constructor; [simpl; split; [discriminate|constructor; auto]|]. constructor; auto.
Qed.
Lemma cont_chunks l : (forall first, cont None first l = groups_lines first (chunks l)) /\
  (forall m, cont (Some m) false l = match chunks l with (m', es) :: gs => if bool_decide (m' = m) then concat (map row_lines es) ++ groups_lines false gs else groups_lines false (chunks l) | [] => [] end).
Proof.
  induction l as [|e l [IH1 IH2]]; [simpl; auto|].
  assert (G : row_lines e ++ cont (Some (model_of e)) false l = match chunks (e :: l) with (m', es) :: gs => concat (map row_lines es) ++ groups_lines false gs | [] => [] end).
  { rewrite IH2. simpl. destruct (chunks l) as [|[m es] gs]; [simpl; rewrite !app_nil_r; reflexivity|]. case_bool_decide; simpl.
    - rewrite <- app_assoc. reflexivity.
    - rewrite app_nil_r. reflexivity. }
  destruct (chunks_head e l) as (es & gs & E). rewrite E in *. split.
  - intros first. cbn [cont]. rewrite bool_decide_false by discriminate. rewrite G. reflexivity.
  - intros m. cbn [cont]. rewrite G. case_bool_decide as Hm; case_bool_decide as Hm'; try congruence; reflexivity.
Qed.

(** Adjacent groups differ; when the list is sorted by number, groups are numbered in ascending order. *)
Lemma chunks_sorted (num : text -> nat) l : StronglySorted (fun a b => num (model_of a) <= num (model_of b)) l ->
  (forall a b, In a l -> In b l -> num (model_of a) = num (model_of b) -> model_of a = model_of b) ->
  StronglySorted (fun g h => num (fst g) < num (fst h)) (chunks l).
Proof.
  induction l as [|e l IH]; intros S Hinj; [constructor|]. inversion S as [|? ? S' He]; subst.
  assert (IH' : StronglySorted (fun g h => num (fst g) < num (fst h)) (chunks l)) by (apply IH; auto; intros; apply Hinj; auto; right; auto). clear IH.
  destruct (chunks_spec l) as [C1 C2].
  simpl. destruct (chunks l) as [|[m es] gs] eqn:Ec; [repeat constructor|].
  inversion IH' as [|? ? IH1 IH2]; subst. inversion C2 as [|? ? [Nes Hes] C2']; subst. simpl in *.
  case_bool_decide as Hm; [constructor; auto|]. constructor; [constructor; auto|].
  destruct es as [|e' es]; [congruence|]. inversion Hes; subst.
  assert (Hlt : num (model_of e) < num (model_of e')).
  { assert (In e' ((e' :: es) ++ concat (map snd gs))) by (left; auto). rewrite List.Forall_forall in He. specialize (He e' H).
    destruct (Nat.eq_dec (num (model_of e)) (num (model_of e'))) as [Heq|]; [|lia]. exfalso. apply Hm. symmetry. apply Hinj; solve [auto | right; auto]. }
  constructor; [exact Hlt|]. eapply Forall_impl; [exact IH2|]. simpl. intros g Hg. lia.
Qed.
End Groups.

(** Sorting commutes with maps *)
Lemma sort_map {A B} (leb : B -> B -> bool) (f : A -> B) l : sort leb (map f l) = map f (sort (fun a b => leb (f a) (f b)) l).
Proof.
  induction l as [|x l IH]; simpl; auto. rewrite IH. generalize (sort (fun a b => leb (f a) (f b)) l). clear. intros l.
  induction l as [|y l IH]; simpl; auto. destruct (leb (f x) (f y)); simpl; auto. rewrite IH. reflexivity.
Qed.
Lemma SS_map {A B} (R : B -> B -> Prop) (f : A -> B) l : StronglySorted R (map f l) <-> StronglySorted (fun a b => R (f a) (f b)) l.
Proof.
  induction l as [|x l IH]; simpl; [split; constructor|]. split; inversion 1; subst; constructor; try apply IH; auto; rewrite List.Forall_forall in *.
  - intros y Hy. apply H3. apply in_map. auto.
  - intros y Hy. apply in_map_iff in Hy as (z & <- & Hz). auto.
Qed.
Lemma SS_impl {A} (R S : A -> A -> Prop) l : (forall a b, In a l -> In b l -> R a b -> S a b) -> StronglySorted R l -> StronglySorted S l.
Proof.
  induction l as [|x l IH]; intros H; [constructor|]. inversion 1; subst. constructor.
  - apply IH; auto. intros. apply H; auto; right; auto.
  - rewrite List.Forall_forall in *. intros y Hy. apply H; auto; [left; auto|right; auto].
Qed.
Lemma SS_app {A} (R : A -> A -> Prop) l1 l2 : StronglySorted R (l1 ++ l2) -> StronglySorted R l1 /\ StronglySorted R l2 /\ forall a b, In a l1 -> In b l2 -> R a b.
Proof.
  induction l1 as [|x l1 IH]; simpl; intros S; [split; [constructor|split; [auto|intros _ _ []]]|]. inversion S; subst. destruct (IH H1) as (S1 & S2 & H).
  rewrite List.Forall_forall in *. split; [constructor; auto; apply List.Forall_forall; intros; apply H2; apply in_app_iff; auto|]. split; [auto|].
  intros a b [<-|Ha] Hb; auto. apply H2. apply in_app_iff. auto.
Qed.
Lemma SS_concat {A B} (R : A -> A -> Prop) (f : B -> list A) gs : StronglySorted R (concat (map f gs)) -> forall g, In g gs -> StronglySorted R (f g).
Proof.
  induction gs as [|g0 gs IH]; [intros _ g []|]. simpl. intros S g [<-|Hg]; apply SS_app in S as (S1 & S2 & _); auto.
Qed.

(** ** Texts *)

Lemma starts_spec p : forall s, starts p s = true <-> exists b, s = p ++ b.
Proof.
  induction p as [|a p IH]; intros s; simpl; [split; eauto|]. destruct s as [|c s]; [split; [discriminate|intros (b & ?); discriminate]|].
  rewrite andb_true_iff, bool_decide_eq_true, IH. split.
  - intros (-> & b & ->). eauto.
  - intros (b & [= -> ->]). eauto.
Qed.
Definition occurs (p s : text) : Prop := exists a b, s = a ++ p ++ b.
Lemma occurs_cons p c s : occurs p s -> occurs p (c :: s).
Proof. intros (a & b & ->). exists (c :: a), b. auto. Qed.
Lemma no_address_id s : ~ occurs at0x s -> no_address s = s.
Proof.
  induction s as [|c s IH]; intros H; [reflexivity|]. cbn [no_address]. destruct (starts at0x (c :: s)) eqn:E.
  - exfalso. apply starts_spec in E as (b & E). apply H. exists [], b. exact E.
  - f_equal. apply IH. intros Ho. apply H. apply occurs_cons. auto.
Qed.
Lemma remove_id p s : p = [] \/ ~ occurs p s -> remove p s = s.
Proof.
  unfold remove. induction s as [|c s IH]; intros H; [reflexivity|]. cbn [remove_go]. match goal with |- (if ?b then _ else _) = _ => destruct b eqn:E end.
  - exfalso. apply andb_true_iff in E as [E1 E]. apply negb_true_iff, bool_decide_eq_false in E1. destruct H as [?|H]; [contradiction|].
    apply starts_spec in E as (b & E). apply H. exists [], b. exact E.
  - f_equal. apply IH. destruct H as [?|H]; [auto|]. right. intros Ho. apply H. apply occurs_cons. auto.
Qed.

(** ** Padding *)
Lemma lstrip_spec s : exists sp, s = sp ++ lstrip s /\ Forall (fun c => is_space c = true) sp /\ (lstrip s = [] \/ exists c t, lstrip s = c :: t /\ is_space c = false).
Proof.
  induction s as [|c s (sp & E & F & H)]; [exists []; simpl; auto|]. simpl. destruct (is_space c) eqn:Ec.
  - exists (c :: sp). split; [simpl; congruence|]. split; auto.
  - exists []. split; auto. split; [auto|]. right. eauto.
Qed.
Lemma rstrip_spec s : exists sp, s = rstrip s ++ sp /\ Forall (fun c => is_space c = true) sp /\ (rstrip s = [] \/ exists t c, rstrip s = t ++ [c] /\ is_space c = false).
Proof.
  destruct (lstrip_spec (rev s)) as (sp & E & F & H). exists (rev sp). unfold rstrip. split; [|split].
  - rewrite <- rev_app_distr, <- E, rev_involutive. reflexivity.
  - apply List.Forall_forall. rewrite List.Forall_forall in F. intros c Hc. apply F. rewrite in_rev. auto.
  - destruct H as [->|(c & t & -> & Hc)]; auto. right. exists (rev t), c. auto.
Qed.
Lemma lstrip_app sp s : Forall (fun c => is_space c = true) sp -> lstrip (sp ++ s) = lstrip s.
Proof. induction 1 as [|c sp Hc _ IH]; simpl; auto. rewrite Hc. auto. Qed.
Lemma rstrip_padr n s : rstrip (s ++ repeat space n) = rstrip s.
Proof.
  unfold rstrip. rewrite rev_app_distr, lstrip_app; auto. apply List.Forall_forall. intros c Hc. rewrite <- in_rev in Hc. apply repeat_spec in Hc. subst. reflexivity.
Qed.
Lemma widths_left ls a b : In (Text a b) ls -> length a <= fst (widths ls).
Proof. induction ls as [|l ls IH]; intros []; simpl; [subst l; simpl; lia|]. specialize (IH H). destruct l; simpl; lia. Qed.
Lemma lex_snd {A B} (la : A -> A -> bool) (lb : B -> B -> bool) x y : lex la lb x y = true -> la (fst y) (fst x) = true -> lb (snd x) (snd y) = true.
Proof. unfold lex. intros H E. rewrite E in H. destruct (la (fst x) (fst y)); [auto|discriminate]. Qed.
Lemma order_on {A B} (leb : B -> B -> bool) (f : A -> B) : order_ok leb -> order_ok (fun a b => leb (f a) (f b)).
Proof. intros H. constructor; intros; [apply (o_tot _ H)|eapply (o_trans _ H); eauto]. Qed.
Lemma order_refl {A} (leb : A -> A -> bool) x : order_ok leb -> leb x x = true.
Proof. intros H. destruct (o_tot _ H x x); auto. Qed.
Lemma entry_leb_ok {K} (kleb : K -> K -> bool) : order_ok kleb -> order_ok (entry_leb kleb).
Proof. intros Hk. unfold entry_leb. apply (order_on (lex kleb (lex text_leb Nat.leb)) (fun a : entry K => (e_sortby a, (e_opening a, c_id (e_con a))))). auto using lex_ok, text_leb_ok, nat_leb_ok. Qed.
Lemma deco_leb_ok {K} (kleb : K -> K -> bool) : order_ok kleb -> order_ok (deco_leb kleb).
Proof.
  intros Hk. unfold deco_leb. apply (order_on (lex Nat.leb (lex text_leb (lex kleb (lex text_leb text_leb)))) (fun a : deco K => (d_num a, (d_model a, (d_sortby a, (d_text a, d_opening a)))))).
  auto 10 using lex_ok, text_leb_ok, nat_leb_ok.
Qed.

(** ** Tables *)
Section TableProofs.
Context {K : Type} (kleb : K -> K -> bool) (Hk : order_ok kleb) (sortbymodel showmodels : bool).
Notation model_of := (model_of (K:=K) sortbymodel).
Notation deco_of := (deco_of (K:=K) sortbymodel showmodels).

Lemma table_groups data : exists groups : list (text * list (entry K)),
  Permutation (concat (map snd groups)) data /\ NoDup (map fst groups) /\
  (forall m es, In (m, es) groups -> es <> [] /\ (forall e, In e es -> model_of e = m) /\ StronglySorted (fun a b => kleb (e_sortby a) (e_sortby b) = true) es) /\
  StronglySorted (fun g h => exists e, In e (snd g) /\ forall e', In e' (snd h) -> kleb (e_sortby e) (e_sortby e') = true) groups /\
  body None (sort (deco_leb kleb) (decorate sortbymodel showmodels [] (sort (entry_leb kleb) data))) [] = groups_lines sortbymodel showmodels true groups.
Proof.
  set (E0 := sort (entry_leb kleb) data).
  assert (S0 : StronglySorted (fun a b => entry_leb kleb a b = true) E0) by (apply sort_sorted; apply (entry_leb_ok kleb Hk)).
  assert (P0 : Permutation E0 data) by apply sort_perm.
  assert (N0 : numbered []) by (split; intros; discriminate).
  destruct (final_spec sortbymodel showmodels E0 [] N0) as (F1 & _ & F3 & F4 & F5). set (fin := final sortbymodel [] E0) in *. set (num := num_in fin) in *.
  rewrite F5, sort_map. set (le := fun a b => deco_leb kleb (deco_of num a) (deco_of num b)). set (E := sort le E0).
  assert (Ole : order_ok le) by (apply (order_on (deco_leb kleb) (deco_of num)); apply deco_leb_ok; auto).
  assert (S1 : StronglySorted (fun a b => le a b = true) E) by (apply sort_sorted; apply Ole).
  assert (P1 : Permutation E E0) by apply sort_perm.
  assert (Hnum : forall e, In e E -> dget fin (model_of e) = Some (num (model_of e))).
  { intros e He. assert (He0 : In e E0) by (eapply Permutation_in; eauto). destruct (F3 e He0) as (i & Hi). unfold num, num_in. rewrite Hi. reflexivity. }
  assert (Hinj : forall a b, In a E -> In b E -> num (model_of a) = num (model_of b) -> model_of a = model_of b).
  { intros a b Ha Hb Heq. destruct F1 as [_ F1]. apply (F1 _ _ (num (model_of a))); [apply Hnum; auto|rewrite Heq; apply Hnum; auto]. }
  assert (Sn : StronglySorted (fun a b => num (model_of a) <= num (model_of b)) E).
  { eapply SS_impl; [|exact S1]. intros a b _ _ Hab. apply lex_fst in Hab. simpl in Hab. apply Nat.leb_le. exact Hab. }
  pose proof (chunks_sorted sortbymodel num E Sn Hinj) as Sg.
  destruct (chunks_spec sortbymodel E) as [C1 C2]. rewrite List.Forall_forall in C2.
  exists (chunks sortbymodel E).
  assert (Hnd : NoDup (map fst (chunks sortbymodel E))).
  { clear -Sg. induction Sg as [|g gs Sg IH H]; simpl; constructor; auto. rewrite elem_of_list_In, in_map_iff. intros (h & Eh & Hh). rewrite List.Forall_forall in H. specialize (H h Hh). rewrite Eh in H. lia. }
  split; [rewrite C1, P1; exact P0|]. split; [exact Hnd|]. split; [|split].
  - intros m es Hg. destruct (C2 _ Hg) as [Nes Hes]. simpl in *. rewrite List.Forall_forall in Hes. split; [auto|]. split; [auto|].
    assert (Ses : StronglySorted (fun a b => le a b = true) es) by (rewrite <- C1 in S1; exact (SS_concat _ snd _ S1 _ Hg)).
    eapply SS_impl; [|exact Ses]. intros a b Ha Hb Hab. unfold le, deco_leb in Hab. simpl in Hab.
    apply lex_snd in Hab; [|simpl; rewrite (Hes a Ha), (Hes b Hb); apply Nat.leb_refl]. simpl in Hab.
    apply lex_snd in Hab; [|simpl; rewrite (Hes a Ha), (Hes b Hb); apply (order_refl _ _ text_leb_ok)]. simpl in Hab. apply lex_fst in Hab. exact Hab.
  - eapply SS_impl; [|exact Sg]. intros [m1 es1] [m2 es2] H1 H2 Hlt. simpl in *.
    destruct (C2 _ H1) as [N1 Hes1]. destruct (C2 _ H2) as [N2 Hes2]. simpl in *. rewrite List.Forall_forall in Hes1, Hes2.
    assert (In1 : forall e, In e es1 -> In e E) by (intros e He; rewrite <- C1; apply in_concat; exists es1; split; auto; apply in_map_iff; exists (m1, es1); auto).
    assert (In2 : forall e, In e es2 -> In e E) by (intros e He; rewrite <- C1; apply in_concat; exists es2; split; auto; apply in_map_iff; exists (m2, es2); auto).
    destruct es1 as [|a1 es1]; [congruence|]. destruct es2 as [|a2 es2]; [congruence|].
    assert (D1 : dget fin m1 = Some (num m1)) by (rewrite <- (Hes1 a1 (or_introl eq_refl)); apply Hnum; apply In1; left; auto).
    assert (D2 : dget fin m2 = Some (num m2)) by (rewrite <- (Hes2 a2 (or_introl eq_refl)); apply Hnum; apply In2; left; auto).
    destruct (F4 m1 m2 _ _ D1 D2 Hlt eq_refl) as [(i & ?)|(l1 & e1 & l2 & Ee & Hm1 & Hl1)]; [discriminate|].
    exists e1. split.
    + assert (He1 : In e1 E) by (apply (Permutation_in _ (Permutation_sym P1)); rewrite Ee; apply in_app_iff; right; left; auto).
      rewrite <- C1 in He1. apply in_concat in He1 as (es & Hes & He1). apply in_map_iff in Hes as ([m es'] & <- & Hg). simpl in He1.
      destruct (C2 _ Hg) as [_ Hm]. rewrite List.Forall_forall in Hm. specialize (Hm e1 He1). simpl in Hm.
      assert (Hmm : m = m1) by congruence. clear Hm. subst m.
      assert (es' = a1 :: es1); [|subst; auto].
      clear -Hnd Hg H1. revert Hnd H1 Hg. generalize (chunks sortbymodel E). induction l as [|[m es] gs IH]; [intros _ []|]. simpl. intros Hnd. apply NoDup_cons in Hnd as [Hn Hnd].
      intros [Ha|Ha] [Hb|Hb]; [congruence| | |auto]; exfalso; apply Hn, elem_of_list_In, in_map_iff.
      * exists (m1, es'). split; [simpl; congruence|exact Hb].
      * exists (m1, a1 :: es1). split; [simpl; congruence|exact Ha].
    + intros e' He'. assert (He2 : In e' E0) by (apply (Permutation_in _ P1); auto).
      rewrite Ee in He2, S0. apply in_app_iff in He2 as [He2|He2].
      * rewrite List.Forall_forall in Hl1. exfalso. apply (Hl1 e' He2). apply Hes2. auto.
      * apply SS_app in S0 as (_ & S0 & _). inversion S0 as [|? ? _ Hf]; subst. rewrite List.Forall_forall in Hf. destruct He2 as [<-|He2].
        -- apply (order_refl _ _ Hk).
        -- specialize (Hf e' He2). apply lex_fst in Hf. exact Hf.
  - rewrite (body_cont sortbymodel showmodels num E None []). simpl. apply cont_chunks.
Qed.
End TableProofs.
