(** What the texts of variables determine (KeyText.v). *)
From Coq Require Import Strings.String Strings.Ascii Lia.
From Verif Require Import Base Globals VarKeyProofs KeyText KeyTextSpec.
Local Open Scope list_scope.

Lemma split_last (c : ascii) x1 x2 y1 y2 : ~ In c y1 -> ~ In c y2 -> x1 ++ c :: y1 = x2 ++ c :: y2 -> x1 = x2 /\ y1 = y2.
Proof.
  intros H1 H2 E. apply (f_equal (@rev ascii)) in E. rewrite !rev_app_distr in E. simpl in E. rewrite <- !app_assoc in E. simpl in E.
  apply split_first in E as [E1 E2]; [|rewrite <- in_rev; auto..].
  split; [rewrite <- (rev_involutive x1), <- (rev_involutive x2), E2|rewrite <- (rev_involutive y1), <- (rev_involutive y2), E1]; auto.
Qed.


Definition num_str (n : nat) : string := if n =? 0 then "" else show_nat n.
Definition piece (p : string * nat) : list ascii := chars (fst p) ++ chars (num_str (snd p)).

Lemma num_digits n c : In c (chars (num_str n)) -> is_digit c.
Proof. unfold num_str. destruct (n =? 0); [intros []|apply digits_digits]. Qed.
Lemma num_inj a b : chars (num_str a) = chars (num_str b) -> a = b.
Proof.
  assert (Hs : forall n, chars (show_nat n) <> []).
  { intros n E. change [] with (chars "") in E. apply chars_inj in E. unfold show_nat in E.
    destruct (Nat.to_uint n) eqn:Hn; simpl in E; try discriminate.
    pose proof (f_equal Nat.of_uint Hn) as H0. rewrite DecimalNat.Unsigned.of_to in H0. simpl in H0. subst n. discriminate. }
  unfold num_str. destruct (Nat.eqb_spec a 0), (Nat.eqb_spec b 0); intros E; subst; auto.
  - simpl in E. symmetry in E. destruct (Hs _ E).
  - destruct (Hs _ E).
  - apply show_nat_chars_inj. auto.
Qed.

Lemma digits_end x1 : forall x2 d1 d2, (forall c, In c d1 -> is_digit c) -> (forall c, In c d2 -> is_digit c) ->
  (exists r c, x1 = r ++ [c] /\ ~ is_digit c) -> (exists r c, x2 = r ++ [c] /\ ~ is_digit c) -> x1 ++ d1 = x2 ++ d2 -> x1 = x2 /\ d1 = d2.
Proof.
  intros x2 d1. revert x1 x2. induction d1 as [|c d1 IH] using rev_ind; intros x1 x2 d2 H1 H2 N1 N2 E.
  - destruct d2 as [|c d2 _] using rev_ind; [rewrite !app_nil_r in E; auto|]. destruct N1 as (r & a & -> & Ha).
    rewrite app_nil_r, app_assoc in E. apply app_inj_tail in E as [_ ->]. destruct Ha. apply H2, in_app_iff. right. left. auto.
  - destruct d2 as [|b d2 _] using rev_ind.
    + destruct N2 as (r & a & -> & Ha). rewrite app_nil_r, app_assoc in E. apply app_inj_tail in E as [_ <-]. destruct Ha. apply H1, in_app_iff. right. left. auto.
    + rewrite !app_assoc in E. apply app_inj_tail in E as [E ->].
      destruct (IH x1 x2 d2) as [-> ->]; auto; intros; [apply H1|apply H2]; apply in_app_iff; auto.
Qed.

Lemma piece_inj p q : class_name (fst p) -> class_name (fst q) -> piece p = piece q -> p = q.
Proof.
  intros (_ & Hp & _) (_ & Hq & _) E. apply digits_end in E as [E1 E2]; auto; try (intros; eapply num_digits; eassumption).
  apply chars_inj in E1. apply num_inj in E2. destruct p, q. simpl in *. subst. auto.
Qed.
Lemma dot_digit : ~ is_digit "."%char. Proof. unfold is_digit. simpl. intuition discriminate. Qed.
Lemma brace_digit : ~ is_digit "{"%char. Proof. unfold is_digit. simpl. intuition discriminate. Qed.
Lemma piece_no_dot p : class_name (fst p) -> ~ In "."%char (piece p).
Proof. intros (_ & _ & _ & H) Hi. apply in_app_iff in Hi as [Hi|Hi]; [exact (H Hi)|]. apply num_digits in Hi. exact (dot_digit Hi). Qed.
Lemma piece_no_brace p : class_name (fst p) -> ~ In "{"%char (piece p).
Proof. intros (_ & _ & H & _) Hi. apply in_app_iff in Hi as [Hi|Hi]; [exact (H Hi)|]. apply num_digits in Hi. exact (brace_digit Hi). Qed.

Fixpoint dotted (l : list (string * nat)) : list ascii :=
  match l with [] => [] | [p] => piece p | p :: r => piece p ++ "."%char :: dotted r end.
Lemma lineagestr_dotted l m : chars (lineagestr l m) = dotted (renum m l).
Proof.
  assert (Hp : forall p : string * nat, chars (if negb (snd p =? 0) && m then String.append (fst p) (show_nat (snd p)) else fst p) = piece (fst p, if m then snd p else 0)).
  { intros [s n]. unfold piece, num_str. simpl. destruct m; simpl; [destruct (n =? 0); simpl; rewrite ?chars_app, ?app_nil_r; auto|].
    rewrite andb_false_r, app_nil_r. auto. }
  unfold lineagestr. induction l as [|p [|q l] IH]; [reflexivity|simpl; apply Hp|].
  change (chars (String.append (if negb (snd p =? 0) && m then String.append (fst p) (show_nat (snd p)) else fst p)
    (String.append "." (join "." (map (fun p => if negb (snd p =? 0) && m then String.append (fst p) (show_nat (snd p)) else fst p) (q :: l)))))
    = piece (fst p, if m then snd p else 0) ++ "."%char :: dotted (renum m (q :: l))).
  rewrite !chars_app, Hp, IH. reflexivity.
Qed.

Lemma dotted_step p l : l <> [] -> dotted (p :: l) = piece p ++ "."%char :: dotted l.
Proof. destruct l; [contradiction|reflexivity]. Qed.
Lemma dotted_inj l1 : forall l2, classes l1 -> classes l2 -> l1 <> [] -> l2 <> [] -> dotted l1 = dotted l2 -> l1 = l2.
Proof.
  induction l1 as [|p l1 IH]; intros [|q l2] C1 C2 N1 N2 E; try contradiction.
  inversion C1 as [|? ? P1 C1']; subst. inversion C2 as [|? ? P2 C2']; subst.
  destruct (decide (l1 = [])) as [->|D1], (decide (l2 = [])) as [->|D2].
  - f_equal. apply piece_inj; auto.
  - rewrite (dotted_step q l2 D2) in E. simpl in E. exfalso. apply (piece_no_dot p P1). rewrite E. apply in_app_iff. right. left. auto.
  - rewrite (dotted_step p l1 D1) in E. simpl in E. exfalso. apply (piece_no_dot q P2). rewrite <- E. apply in_app_iff. right. left. auto.
  - rewrite (dotted_step p l1 D1), (dotted_step q l2 D2) in E. apply split_first in E as [E1 E2]; try (apply piece_no_dot; auto).
    f_equal; [apply piece_inj; auto|apply IH; auto].
Qed.
Lemma dotted_no_brace l : classes l -> ~ In "{"%char (dotted l).
Proof.
  induction 1 as [|p l Hp Hl IH]; [intros []|]. destruct l as [|q l]; [apply piece_no_brace; auto|]. rewrite dotted_step by discriminate.
  intros Hi. apply in_app_iff in Hi as [Hi|[Hi|Hi]]; [exact (piece_no_brace p Hp Hi)|discriminate|auto].
Qed.
Lemma dotted_head l : classes l -> l <> [] -> exists c r, dotted l = c :: r /\ ~ is_digit c.
Proof.
  intros Hc Hn. destruct l as [|p l]; [contradiction|]. inversion Hc as [|? ? ((c & r & E & Hd) & _) _]; subst. exists c.
  destruct (decide (l = [])) as [->|D]; [|rewrite dotted_step by auto]; simpl; unfold piece; rewrite E; simpl; eauto.
Qed.
Lemma renum_classes m l : classes l -> classes (renum m l).
Proof. induction 1; constructor; auto. Qed.

(** Indices *)
Definition idx_text (l : list nat) : list ascii := chars (join "," (map show_nat l)).
Lemma idx_digits l c : In c (idx_text l) -> c = ","%char \/ is_digit c.
Proof.
  intros H. apply join_In in H as [[H|[]]|(s & Hs & H)]; [auto|]. apply in_map_iff in Hs as (n & <- & _). right. eapply digits_digits, H.
Qed.
Lemma idx_free d l : d <> ","%char -> ~ is_digit d -> ~ In d (idx_text l).
Proof. intros Hc Hd Hi. apply idx_digits in Hi as [Hi|Hi]; auto. Qed.
Lemma show_head n : exists c r, chars (show_nat n) = c :: r /\ is_digit c.
Proof.
  destruct (chars (show_nat n)) as [|c r] eqn:E.
  - exfalso. assert (E' : chars (num_str 0) = chars (show_nat n)) by (rewrite E; auto).
    destruct n as [|n]; [discriminate|]. change (show_nat (S n)) with (num_str (S n)) in E'. apply num_inj in E'. discriminate.
  - exists c, r. split; auto. apply (digits_digits (Nat.to_uint n)). change (In c (chars (show_nat n))). rewrite E. left. auto.
Qed.
Lemma idx_head l : l <> [] -> exists c r, idx_text l = c :: r /\ is_digit c.
Proof.
  destruct l as [|n [|m l]]; intros Hn; [contradiction| |]; destruct (show_head n) as (c & r & E & Hd); unfold idx_text; simpl.
  - eauto.
  - rewrite chars_app, E. simpl. eauto.
Qed.
Lemma idx_inj l1 l2 : l1 <> [] -> l2 <> [] -> idx_text l1 = idx_text l2 -> l1 = l2.
Proof. intros H1 H2 E. destruct (show_idx_inj l1 l2 [] []) as [? _]; auto. unfold idx_text in E. rewrite E. auto. Qed.

(** ** The whole text *)


Lemma prints_shown ex v : prints_lineage ex v = true -> shown_lineage ex v = renum (negb (no_modelnums ex)) (vi_lineage v) /\ shown_lineage ex v <> [].
Proof.
  unfold prints_lineage, shown_lineage. destruct (no_lineage ex); simpl; [discriminate|]. intros H. apply andb_true_iff in H as [H1 H2].
  replace (no_unnecessary ex && negb (vi_necessary v)) with false by (destruct (no_unnecessary ex), (vi_necessary v); simpl in *; auto; discriminate).
  split; auto. destruct (vi_lineage v); [discriminate|]. discriminate.
Qed.
Lemma prints_hidden ex v : prints_lineage ex v = false -> shown_lineage ex v = [].
Proof.
  unfold prints_lineage, shown_lineage. destruct (no_lineage ex); simpl; auto. destruct (vi_lineage v); simpl; [destruct (_ && _); auto|].
  destruct (no_unnecessary ex), (vi_necessary v); simpl; auto; discriminate.
Qed.
Lemma shown_classes ex v : classes (vi_lineage v) -> classes (shown_lineage ex v).
Proof.
  intros H. unfold shown_lineage. destruct (no_lineage ex); [constructor|]. destruct (_ && _); [constructor|]. apply renum_classes. auto.
Qed.

Definition subscripted (base sub : list ascii) : list ascii := "{"%char :: base ++ "}"%char :: "_"%char :: "{"%char :: sub ++ ["}"%char].
Definition vec_text (vec : bool) (name : string) : list ascii := if vec then chars "\vec{" ++ chars name ++ ["}"%char] else chars name.
Definition elem_text (idx : list nat) (base : list ascii) : list ascii := match idx with [] => base | _ => subscripted base (idx_text idx) end.
Definition lin_text (l : list (string * nat)) (base : list ascii) : list ascii := match l with [] => base | _ => subscripted base (dotted l) end.

Lemma latex_text ex v : chars (key_latex ex v) = lin_text (shown_lineage ex v) (elem_text (shown_idx ex v) (vec_text (shown_vec ex v) (vi_name v))).
Proof.
  unfold key_latex. cbv zeta.
  set (base := if negb (no_vec ex) && negb (no_idx ex) && vi_shape v then _ else _).
  assert (Hb : chars base = vec_text (shown_vec ex v) (vi_name v)).
  { subst base. unfold vec_text, shown_vec. destruct (_ && _); [rewrite !chars_app|]; auto. }
  clearbody base.
  set (el := if negb (no_idx ex) && _ then _ else _).
  assert (He : chars el = elem_text (shown_idx ex v) (vec_text (shown_vec ex v) (vi_name v))).
  { subst el. rewrite <- Hb. unfold shown_idx, elem_text. destruct (no_idx ex); simpl; auto. destruct (vi_idx v); auto.
    unfold subscripted, idx_text. rewrite !chars_app. simpl. rewrite <- ?app_assoc. auto. }
  clearbody el. rewrite <- He. destruct (prints_lineage ex v) eqn:E.
  - destruct (prints_shown _ _ E) as [E1 E2]. unfold lin_text. destruct (shown_lineage ex v) as [|p l] eqn:El; [contradiction|]. rewrite E1.
    unfold subscripted. rewrite !chars_app, lineagestr_dotted. simpl. rewrite <- ?app_assoc. auto.
  - rewrite (prints_hidden _ _ E). auto.
Qed.

Lemma subscripted_inj b1 b2 s1 s2 : ~ In "{"%char s1 -> ~ In "{"%char s2 -> subscripted b1 s1 = subscripted b2 s2 -> b1 = b2 /\ s1 = s2.
Proof.
  intros H1 H2 E. unfold subscripted in E. injection E as E.
  assert (E' : (b1 ++ ["}"%char; "_"%char]) ++ "{"%char :: (s1 ++ ["}"%char]) = (b2 ++ ["}"%char; "_"%char]) ++ "{"%char :: (s2 ++ ["}"%char]))
    by (rewrite <- !app_assoc; exact E).
  assert (Hn : forall s, ~ In "{"%char s -> ~ In "{"%char (s ++ ["}"%char])).
  { intros s Hs Hi. apply in_app_iff in Hi as [Hi|[Hi|[]]]; [auto|discriminate]. }
  apply split_last in E' as [E1 E2]; auto. apply app_inj_tail in E2 as [-> _]. apply app_inv_tail in E1. auto.
Qed.
Lemma idx_no_brace l : ~ In "{"%char (idx_text l).
Proof. apply idx_free; [discriminate|apply brace_digit]. Qed.


Lemma vec_text_inj v1 v2 n1 n2 : latex_name n1 -> latex_name n2 -> vec_text v1 n1 = vec_text v2 n2 -> v1 = v2 /\ n1 = n2.
Proof.
  intros [_ H1] [_ H2] E. destruct v1, v2; unfold vec_text in E.
  - apply app_inv_head in E. apply app_inj_tail in E as [E _]. apply chars_inj in E. auto.
  - symmetry in E. destruct (H2 _ E).
  - destruct (H1 _ E).
  - apply chars_inj in E. auto.
Qed.
Lemma vec_text_head v n r : latex_name n -> vec_text v n <> "{"%char :: r.
Proof. intros [H _] E. destruct v; [discriminate|]. exact (H _ E). Qed.
Lemma elem_text_inj i1 i2 v1 v2 n1 n2 : latex_name n1 -> latex_name n2 -> elem_text i1 (vec_text v1 n1) = elem_text i2 (vec_text v2 n2) ->
  i1 = i2 /\ v1 = v2 /\ n1 = n2.
Proof.
  intros H1 H2 E. destruct i1 as [|a i1], i2 as [|b i2]; simpl in E.
  - split; auto. apply vec_text_inj; auto.
  - destruct (vec_text_head _ _ _ H1 E).
  - symmetry in E. destruct (vec_text_head _ _ _ H2 E).
  - apply subscripted_inj in E as [E1 E2]; try apply idx_no_brace. apply idx_inj in E2; try discriminate. split; auto. apply vec_text_inj; auto.
Qed.
Lemma lin_text_inj l1 l2 i1 i2 v1 v2 n1 n2 : latex_name n1 -> latex_name n2 -> classes l1 -> classes l2 ->
  lin_text l1 (elem_text i1 (vec_text v1 n1)) = lin_text l2 (elem_text i2 (vec_text v2 n2)) -> l1 = l2 /\ i1 = i2 /\ v1 = v2 /\ n1 = n2.
Proof.
  assert (Hmix : forall l i v n b, latex_name n -> classes l -> l <> [] -> elem_text i (vec_text v n) <> subscripted b (dotted l)).
  { intros l i v n b Hn Hc Hl E. destruct i as [|a i]; simpl in E; [exact (vec_text_head _ _ _ Hn E)|].
    apply subscripted_inj in E as [_ E]; [|apply idx_no_brace|apply dotted_no_brace; auto].
    destruct (dotted_head l Hc Hl) as (c & r & E1 & Hd). destruct (idx_head (a :: i)) as (d & r' & E2 & Hd'); [discriminate|].
    rewrite E1, E2 in E. injection E as -> _. auto. }
  intros H1 H2 C1 C2 E. destruct l1 as [|p l1], l2 as [|q l2]; unfold lin_text in E.
  - split; auto. apply elem_text_inj; auto.
  - destruct (Hmix (q :: l2) i1 v1 n1 _ H1 C2 ltac:(discriminate) E).
  - symmetry in E. destruct (Hmix (p :: l1) i2 v2 n2 _ H2 C1 ltac:(discriminate) E).
  - apply subscripted_inj in E as [E1 E2]; try (apply dotted_no_brace; auto). apply dotted_inj in E2; auto; try discriminate.
    apply elem_text_inj in E1 as (-> & -> & ->); auto.
Qed.

(** Plain text *)
Definition tail_text (idx : list nat) (vec : bool) : list ascii :=
  match idx with [] => if vec then chars "[:]" else [] | _ => "["%char :: idx_text idx ++ ["]"%char] end.
Definition head_text (l : list (string * nat)) : list ascii := match l with [] => [] | _ => dotted l ++ ["."%char] end.
Lemma str_text ex v : chars (key_str ex v) = head_text (shown_lineage ex v) ++ chars (vi_name v) ++ tail_text (shown_idx ex v) (shown_vec ex v).
Proof.
  unfold key_str. cbv zeta.
  set (name := if prints_lineage ex v then _ else _).
  assert (Hn : chars name = head_text (shown_lineage ex v) ++ chars (vi_name v)).
  { subst name. destruct (prints_lineage ex v) eqn:E.
    - destruct (prints_shown _ _ E) as [E1 E2]. unfold head_text. destruct (shown_lineage ex v) as [|p l] eqn:El; [contradiction|]. rewrite E1.
      rewrite !chars_app, lineagestr_dotted, <- app_assoc. auto.
    - rewrite (prints_hidden _ _ E). auto. }
  clearbody name. rewrite app_assoc, <- Hn. unfold shown_idx, shown_vec, tail_text. destruct (no_idx ex).
  - rewrite andb_false_r. simpl. rewrite app_nil_r. auto.
  - rewrite andb_true_r. destruct (vi_idx v).
    + destruct (_ && _); [rewrite chars_app|rewrite app_nil_r]; auto.
    + rewrite !chars_app. auto.
Qed.
Lemma tail_inj i1 i2 v1 v2 : tail_text i1 v1 = tail_text i2 v2 -> i1 = i2 /\ (i1 = [] -> v1 = v2).
Proof.
  assert (Hmix : forall a i x, idx_text (a :: i) ++ ["]"%char] <> ":"%char :: x).
  { intros a i x E. destruct (idx_head (a :: i)) as (c & r & E1 & Hd); [discriminate|]. rewrite E1 in E. injection E as -> _.
    unfold is_digit in Hd. simpl in Hd. intuition discriminate. }
  destruct i1 as [|a i1], i2 as [|b i2]; unfold tail_text; intros E.
  - split; auto. destruct v1, v2; auto; discriminate.
  - destruct v1; [|discriminate]. injection E as E. symmetry in E. destruct (Hmix _ _ _ E).
  - destruct v2; [|discriminate]. injection E as E. destruct (Hmix _ _ _ E).
  - injection E as E. apply app_inj_tail in E as [E _]. apply idx_inj in E; try discriminate. split; auto. rewrite E. discriminate.
Qed.
Lemma tail_no_dot i v : ~ In "."%char (tail_text i v).
Proof.
  destruct i as [|a i]; simpl; [destruct v; simpl; intuition discriminate|]. intros [H|H]; [discriminate|].
  apply in_app_iff in H as [H|[H|[]]]; [|discriminate]. revert H. apply idx_free; [discriminate|apply dot_digit].
Qed.
Lemma name_tail_inj n1 n2 i1 i2 v1 v2 : free "[" n1 -> free "[" n2 -> chars n1 ++ tail_text i1 v1 = chars n2 ++ tail_text i2 v2 ->
  n1 = n2 /\ tail_text i1 v1 = tail_text i2 v2.
Proof.
  assert (Ht : forall i v, tail_text i v = [] \/ exists r, tail_text i v = "["%char :: r).
  { intros [|a i] v; simpl; [destruct v; simpl; eauto|eauto]. }
  intros H1 H2 E. destruct (Ht i1 v1) as [E1|[r1 E1]], (Ht i2 v2) as [E2|[r2 E2]]; rewrite E1, E2 in *; rewrite ?app_nil_r in E.
  - apply chars_inj in E. auto.
  - destruct H1. rewrite E. apply in_app_iff. right. left. auto.
  - destruct H2. rewrite <- E. apply in_app_iff. right. left. auto.
  - apply split_first in E as [E ->]; auto. apply chars_inj in E. auto.
Qed.
Lemma str_text_inj l1 l2 i1 i2 v1 v2 n1 n2 : str_name n1 -> str_name n2 -> classes l1 -> classes l2 ->
  head_text l1 ++ chars n1 ++ tail_text i1 v1 = head_text l2 ++ chars n2 ++ tail_text i2 v2 -> l1 = l2 /\ n1 = n2 /\ i1 = i2 /\ (i1 = [] -> v1 = v2).
Proof.
  intros [D1 B1] [D2 B2] C1 C2 E.
  assert (Hd : forall n i v, free "." n -> ~ In "."%char (chars n ++ tail_text i v)).
  { intros n i v Hn Hi. apply in_app_iff in Hi as [Hi|Hi]; [auto|exact (tail_no_dot _ _ Hi)]. }
  assert (Hl : l1 = l2 /\ chars n1 ++ tail_text i1 v1 = chars n2 ++ tail_text i2 v2).
  { destruct l1 as [|p l1], l2 as [|q l2]; unfold head_text in E; rewrite <- ?app_assoc in E.
    - auto.
    - exfalso. apply (Hd n1 i1 v1 D1). change ([] ++ chars n1 ++ tail_text i1 v1) with (chars n1 ++ tail_text i1 v1) in E. rewrite E.
      apply in_app_iff. right. left. auto.
    - exfalso. apply (Hd n2 i2 v2 D2). change ([] ++ chars n2 ++ tail_text i2 v2) with (chars n2 ++ tail_text i2 v2) in E. rewrite <- E.
      apply in_app_iff. right. left. auto.
    - change (["."%char] ++ chars n1 ++ tail_text i1 v1) with ("."%char :: (chars n1 ++ tail_text i1 v1)) in E.
      change (["."%char] ++ chars n2 ++ tail_text i2 v2) with ("."%char :: (chars n2 ++ tail_text i2 v2)) in E.
      apply split_last in E as [E1 E2]; auto. apply dotted_inj in E1; auto; discriminate. }
  destruct Hl as [-> El]. apply name_tail_inj in El as [-> Et]; auto. apply tail_inj in Et as [-> Hv]. auto.
Qed.
