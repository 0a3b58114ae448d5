(** Searching and splitting strings, for C69. *)
From Verif Require Import Base Settings Docstring DocstringSpec.
From Coq Require Import Strings.String Strings.Ascii.
Local Open Scope list_scope.
Open Scope nat_scope.

Lemma starts_iff p s : starts p s = true <-> exists b, s = p ++ b.
Proof.
  revert s. induction p as [|a p IH]; intros s; simpl; [split; eauto|].
  destruct s as [|b s]; [split; [discriminate|intros (c & [=])]|]. rewrite andb_true_iff, Ascii.eqb_eq, IH. split.
  - intros [-> (c & ->)]. eauto.
  - intros (c & [= -> ->]). eauto.
Qed.
Lemma starts_app p s : starts p (p ++ s) = true.
Proof. apply starts_iff. eauto. Qed.

(** No occurrence of [p] in [a ++ r] starts in [a]. *)
Definition clean (p a r : text) : Prop := forall a1 c d, a = a1 ++ c -> c <> [] -> c ++ r <> p ++ d.

Lemma clean_nil p r : clean p [] r.
Proof. intros a1 c d E Hc. apply eq_sym, app_eq_nil in E as [_ ->]. contradiction. Qed.
Lemma clean_app p a b r : clean p a (b ++ r) -> clean p b r -> clean p (a ++ b) r.
Proof.
  intros Ha Hb a1 c d E Hc. apply app_eq_app in E as (l & [(E1 & E2)|(E1 & E2)]).
  - (* a = a1 ++ l, c = l ++ b *) subst c. destruct l as [|x l].
    + apply (Hb [] b d); auto.
    + rewrite <- app_assoc. apply (Ha a1 (x :: l) d); [auto|discriminate].
  - (* a1 = a ++ l, b = l ++ c *) apply (Hb l c d); auto.
Qed.
Lemma clean_tl p x a r : clean p (x :: a) r -> clean p a r.
Proof. intros H a1 c d -> Hc. apply (H (x :: a1) c d); auto. Qed.
Lemma clean_suffix p x a r : clean p (x ++ a) r -> clean p a r.
Proof. induction x as [|c x IH]; auto. intros H. apply IH. eapply clean_tl. exact H. Qed.
Lemma clean_hd p x a r : clean p (x :: a) r -> starts p (x :: a ++ r) = false.
Proof. intros H. destruct (starts p (x :: a ++ r)) eqn:E; auto. exfalso. apply starts_iff in E as (b & E). eapply (H [] (x :: a) b); [auto|discriminate|exact E]. Qed.

Lemma find_clean p a r : clean p a r -> find p (a ++ r) = option_map (Nat.add (List.length a)) (find p r).
Proof.
  induction a as [|x a IH]; intros H.
  - simpl app. destruct (find p r); auto.
  - simpl app. cbn [find]. rewrite clean_hd by exact H. rewrite IH by (eapply clean_tl; eauto). destruct (find p r); auto.
Qed.
Lemma find_here p b : find p (p ++ b) = Some 0.
Proof. destruct (p ++ b) eqn:E; cbn [find]; rewrite <- E, starts_app; auto. Qed.
Lemma find_at p a b : clean p a (p ++ b) -> find p (a ++ p ++ b) = Some (List.length a).
Proof. intros H. rewrite find_clean, find_here by auto. simpl. f_equal. lia. Qed.

Lemma split_skip sep r : forall k x cur, List.length x = k -> split_go sep (x ++ r) k cur = split_go sep r 0 cur.
Proof. induction k as [|k IH]; intros [|a x] cur Hl; simpl in *; try discriminate; auto. Qed.
Lemma split_at p a b : p <> [] -> clean p a (p ++ b) -> split p (a ++ p ++ b) = a :: split p b.
Proof.
  intros Hp. unfold split. assert (G : forall cur, clean p a (p ++ b) -> split_go p (a ++ p ++ b) 0 cur = (rev cur ++ a) :: split_go p b 0 []).
  { induction a as [|c a IH]; intros cur H.
    - destruct p as [|d p]; [contradiction|]. rewrite app_nil_r. simpl app. cbn [split_go].
      replace (starts (d :: p) (d :: p ++ b)) with true by (symmetry; apply (starts_app (d :: p))). f_equal. apply split_skip. simpl. lia.
    - simpl app. cbn [split_go]. rewrite clean_hd by exact H. rewrite IH by (eapply clean_tl; eauto). simpl. rewrite <- app_assoc. auto. }
  intros H. rewrite G; auto.
Qed.
Lemma split_none p a : clean p a [] -> split p a = [a].
Proof.
  unfold split. assert (G : forall cur, clean p a [] -> split_go p a 0 cur = [rev cur ++ a]).
  { induction a as [|c a IH]; intros cur H; [simpl; rewrite app_nil_r; auto|]. cbn [split_go].
    replace (starts p (c :: a)) with false by (symmetry; rewrite <- (app_nil_r a); apply clean_hd; auto).
    rewrite IH by (eapply clean_tl; eauto). simpl. rewrite <- app_assoc. auto. }
  intros H. rewrite G; auto.
Qed.

(** *** When is a text clean? *)
Lemma first_sep {A} (x : A) a r b d : ~ In x a -> ~ In x b -> a ++ x :: r = b ++ x :: d -> a = b /\ r = d.
Proof.
  revert b. induction a as [|y a IH]; intros [|z b] Ha Hb E; simpl in *.
  - injection E as ->. auto.
  - injection E as -> _. exfalso. apply Hb. left. auto.
  - injection E as -> _. exfalso. apply Ha. left. auto.
  - injection E as -> E. destruct (IH b) as [-> ->]; auto.
Qed.
Lemma sep_prefix {A} (x : A) a r p d : ~ In x p -> a ++ x :: r = p ++ d -> exists e, a = p ++ e.
Proof.
  revert p. induction a as [|y a IH]; intros [|z p] Hp E; simpl in *; eauto.
  - injection E as -> _. exfalso. apply Hp. left. auto.
  - injection E as -> E. destruct (IH p) as (e & ->); eauto.
Qed.
(** An occurrence of a pattern without [x] is before or after an [x]. *)
Lemma clean_before p a (x : ascii) r : ~ In x p -> ~ contains p a -> clean p a (x :: r).
Proof. intros Hx Ha a1 c d -> Hc E. apply sep_prefix in E as (e & ->); auto. apply Ha. exists a1, e. auto. Qed.
Lemma clean_snoc p a (x : ascii) r : p <> [] -> ~ In x p -> ~ contains p a -> clean p (a ++ [x]) r.
Proof.
  intros Hp Hx Ha. apply clean_app; [apply clean_before; auto|]. intros a1 c d E Hc E'. destruct a1 as [|y a1].
  - simpl in E. subst c. destruct p as [|z p]; [contradiction|]. injection E' as -> _. apply Hx. left. auto.
  - injection E as _ E. apply eq_sym, app_eq_nil in E as [_ ->]. contradiction.
Qed.
Lemma contains_sep p a (x : ascii) b : ~ In x p -> contains p (a ++ x :: b) -> contains p a \/ contains p b.
Proof.
  intros Hx (u & v & E). revert u E. induction a as [|y a IH]; intros [|z u] E; simpl in E.
  - destruct p as [|z p]; [left; exists [], []; auto|]. simpl in E. injection E as -> _. exfalso. apply Hx. left. auto.
  - injection E as -> E. right. exists u, v. auto.
  - left. assert (H : (y :: a) ++ x :: b = p ++ v) by exact E. apply sep_prefix in H as (e & ->); auto. exists [], e. auto.
  - injection E as -> E. destruct (IH u E) as [(u' & v' & ->)|H]; auto. left. exists (z :: u'), v'. auto.
Qed.
Lemma not_contains_sep p a (x : ascii) b : ~ In x p -> ~ contains p a -> ~ contains p b -> ~ contains p (a ++ x :: b).
Proof. intros Hx Ha Hb H. apply contains_sep in H as [H|H]; auto. Qed.
Lemma not_contains_chars p s : p <> [] -> (forall c, In c p -> In c s -> False) -> ~ contains p s.
Proof. intros Hp H (a & b & ->). destruct p as [|c p]; [contradiction|]. apply (H c); [left; auto|]. rewrite !in_app_iff. right. left. left. auto. Qed.
Lemma not_contains_missing p s c : In c p -> ~ In c s -> ~ contains p s.
Proof. intros Hc Hs (a & b & ->). apply Hs. rewrite !in_app_iff. auto. Qed.
(** A boolean test, for literals *)
Fixpoint containsb (p s : text) : bool := starts p s || match s with [] => false | _ :: s' => containsb p s' end.
Lemma containsb_spec p s : contains p s <-> containsb p s = true.
Proof.
  split.
  - intros (a & b & ->). induction a as [|c a IH]; simpl.
    + destruct (p ++ b) eqn:E; simpl; apply orb_true_iff; left; apply starts_iff; exists b; auto.
    + rewrite IH. apply orb_true_r.
  - induction s as [|c s IH]; simpl; intros H; apply orb_true_iff in H as [H|H]; try discriminate H.
    + apply starts_iff in H as (b & E). exists [], b. auto.
    + apply starts_iff in H as (b & E). exists [], b. auto.
    + destruct (IH H) as (a & b & ->). exists (c :: a), b. auto.
Qed.
Lemma not_containsb p s : containsb p s = false -> ~ contains p s.
Proof. intros E H. apply containsb_spec in H. congruence. Qed.

(** *** Lines *)
Definition unlines (ls : list text) : text := flat_map (fun l => l ++ NL) ls.
Lemma unlines_app a b : unlines (a ++ b) = unlines a ++ unlines b.
Proof. apply flat_map_app. Qed.
Lemma unlines_cons l ls : unlines (l :: ls) = l ++ NL ++ unlines ls.
Proof. unfold unlines. simpl. rewrite <- app_assoc. auto. Qed.
Lemma lines_text_unlines ls last : lines_text (ls ++ [last]) = unlines ls ++ last.
Proof.
  induction ls as [|l ls IH]; auto. rewrite unlines_cons, <- !app_assoc, <- IH. simpl. destruct (ls ++ [last]) eqn:E; auto. apply app_eq_nil in E as [_ E]. discriminate.
Qed.
Lemma snoc_suffix {A} (l : list A) x a1 c : l ++ [x] = a1 ++ c -> c <> [] -> exists c', c = c' ++ [x] /\ l = a1 ++ c'.
Proof.
  intros E Hc. destruct c as [|y c _] using rev_ind; [contradiction|]. rewrite app_assoc in E. apply app_inj_tail in E as [-> ->]. eauto.
Qed.
(** Flags that end in a line end *)
Lemma clean_word_line w l r : ~ In newline l -> ~ In newline w -> ~ ends w l -> clean (w ++ NL) (l ++ NL) r.
Proof.
  intros Hl Hw He a1 c d E Hc E'. apply snoc_suffix in E as (c' & -> & ->); auto. rewrite <- !app_assoc in E'. simpl in E'.
  apply first_sep in E' as [-> _]; auto; [|intros H; apply Hl; apply in_or_app; auto]. apply He. exists a1. auto.
Qed.
(** Flags within a line *)
Lemma clean_line p l r : p <> [] -> ~ In newline p -> ~ contains p l -> clean p (l ++ NL) r.
Proof. intros. apply clean_snoc; auto. Qed.
Lemma clean_lines (P : text -> Prop) p ls r : (forall l r, P l -> clean p (l ++ NL) r) -> Forall P ls -> clean p (unlines ls) r.
Proof.
  intros H. induction 1 as [|l ls Hl Hls IH]; [apply clean_nil|]. unfold unlines in *. cbn [flat_map]. apply clean_app; auto.
Qed.
Lemma not_contains_one (c : ascii) s : ~ In c s -> ~ contains [c] s.
Proof. intros Hs. apply (not_contains_missing _ _ c); auto. left. auto. Qed.
Lemma clean_nl l r : ~ In newline l -> clean NL l (NL ++ r).
Proof. intros Hl a1 c d -> Hc E. destruct c as [|x c]; [contradiction|]. injection E as -> _. apply Hl. apply in_or_app. right. left. auto. Qed.
Lemma split_unlines ls last : Forall (fun l => ~ In newline l) ls -> ~ In newline last -> split NL (unlines ls ++ last) = ls ++ [last].
Proof.
  intros H Hlast. induction H as [|l ls Hl Hls IH].
  - simpl. apply split_none. intros a1 c d -> Hc E. destruct c as [|x c]; [contradiction|]. injection E as -> _. apply Hlast. apply in_or_app. right. left. auto.
  - rewrite unlines_cons, <- !app_assoc, split_at; [rewrite IH; auto|discriminate|]. apply clean_nl. auto.
Qed.
Lemma count_unlines ls : Forall (fun l => ~ In newline l) ls -> count NL (unlines ls) = List.length ls.
Proof. intros H. unfold count. rewrite <- (app_nil_r (unlines ls)), split_unlines by auto. rewrite app_length. simpl. lia. Qed.

(** *** Replacing a character *)
Lemma replace_char q r s : replace [q] r s = flat_map (fun c => if Ascii.eqb c q then r else [c]) s.
Proof.
  unfold replace, split.
  assert (Hne : forall s cur, split_go [q] s 0 cur <> []). { clear. induction s as [|c s IH]; intros cur; [discriminate|]. cbn [split_go]. destruct (starts _ _); [discriminate|auto]. }
  assert (G : forall cur, join r (split_go [q] s 0 cur) = rev cur ++ flat_map (fun c => if Ascii.eqb c q then r else [c]) s); [|apply G].
  induction s as [|c s IH]; intros cur; [simpl; rewrite app_nil_r; auto|]. cbn [split_go starts flat_map]. rewrite andb_true_r. rewrite (Ascii.eqb_sym q c).
  destruct (Ascii.eqb c q).
  - simpl Nat.sub. change (join r (rev cur :: split_go [q] s 0 [])) with (match split_go [q] s 0 [] with [] => rev cur | _ :: _ => rev cur ++ r ++ join r (split_go [q] s 0 []) end).
    destruct (split_go [q] s 0 []) eqn:E; [destruct (Hne s [] E)|]. rewrite <- E, IH. auto.
  - rewrite IH. simpl. rewrite <- app_assoc. auto.
Qed.
Lemma split_go_ne p : forall s k cur, split_go p s k cur <> [].
Proof. induction s as [|c s IH]; intros k cur; [discriminate|]. cbn [split_go]. destruct k; [destruct (starts _ _); [discriminate|auto]|auto]. Qed.
Lemma replace_at p q a b : p <> [] -> clean p a (p ++ b) -> replace p q (a ++ p ++ b) = a ++ q ++ replace p q b.
Proof.
  intros Hp H. unfold replace. rewrite split_at by auto. destruct (split p b) eqn:E; [destruct (split_go_ne p b 0 [] E)|auto].
Qed.
Lemma replace_none p q a : clean p a [] -> replace p q a = a.
Proof. intros H. unfold replace. rewrite split_none by auto. auto. Qed.

(** *** Whitespace *)
Lemma space_white c : c = " "%char \/ c = "009"%char -> is_space c = true.
Proof. intros [-> | ->]; reflexivity. Qed.
Lemma visible c : 33 <= nat_of_ascii c -> is_space c = false.
Proof.
  intros H. unfold is_space. apply orb_false_iff. split; apply andb_false_iff; right; apply Nat.leb_gt; lia.
Qed.
Lemma lstrip_white s r : white s -> lstrip (s ++ r) = lstrip r.
Proof. induction 1 as [|c s Hc Hs IH]; auto. simpl. rewrite space_white; auto. Qed.
Lemma lstrip_visible c s : 33 <= nat_of_ascii c -> lstrip (c :: s) = c :: s.
Proof. intros H. simpl. rewrite visible; auto. Qed.
Lemma white_rev s : white s -> white (rev s).
Proof. unfold white. rewrite !List.Forall_forall. intros H c Hc. apply H. apply in_rev. auto. Qed.
Lemma strip_white s : white s -> strip s = [].
Proof. intros H. unfold strip. rewrite <- (app_nil_r s), lstrip_white; auto. Qed.
Lemma strip_around a s b : white a -> white b -> (forall c r, s = c :: r \/ s = r ++ [c] -> 33 <= nat_of_ascii c) -> strip (a ++ s ++ b) = s.
Proof.
  intros Ha Hb Hs. destruct s as [|c s].
  - simpl. apply strip_white. apply Forall_app. auto.
  - unfold strip. rewrite lstrip_white by auto. simpl app. rewrite lstrip_visible by (apply (Hs c s); auto).
    change (c :: s ++ b) with ((c :: s) ++ b). rewrite rev_app_distr, lstrip_white by (apply white_rev; auto).
    destruct (c :: s) as [|d r _] using rev_ind; auto. rewrite rev_app_distr. simpl. rewrite visible by (apply (Hs d r); auto).
    simpl. rewrite rev_involutive. auto.
Qed.
Lemma strip_nonempty s c : In c s -> 33 <= nat_of_ascii c -> strip s <> [].
Proof.
  intros Hc Hv. assert (G : forall s, In c s -> In c (lstrip s)).
  { clear - Hv. induction s as [|d s IH]; intros H; [destruct H|]. destruct H as [->|H]; cbn [lstrip].
    - rewrite visible by auto. left. auto.
    - destruct (is_space d); auto. right. auto. }
  assert (H : In c (strip s)) by (unfold strip; rewrite <- in_rev; apply G; rewrite <- in_rev; apply G; auto). intros E. rewrite E in H. destruct H.
Qed.
Lemma words_white s r : white s -> words_go (s ++ r) [] = words_go r [].
Proof. induction 1 as [|c s Hc Hs IH]; auto. simpl. rewrite space_white; auto. Qed.
Lemma words_word w r : Forall (fun c => 33 <= nat_of_ascii c) w -> forall cur, words_go (w ++ r) cur = words_go r (rev w ++ cur).
Proof. induction 1 as [|c w Hc Hw IH]; intros cur; auto. simpl. rewrite visible by auto. rewrite IH, <- app_assoc. auto. Qed.
Lemma words_end s cur : white s -> cur <> [] -> words_go s cur = [rev cur].
Proof.
  intros Hs Hc. destruct Hs as [|c s H Hs]; simpl; [destruct cur; [contradiction|auto]|]. rewrite space_white by auto. destruct cur; [contradiction|].
  rewrite <- (app_nil_r s), words_white by auto. auto.
Qed.
Lemma words_one a w b : white a -> white b -> w <> [] -> Forall (fun c => 33 <= nat_of_ascii c) w -> words (a ++ w ++ b) = [w].
Proof.
  intros Ha Hb Hw Hv. unfold words. rewrite words_white, words_word by auto. rewrite app_nil_r. rewrite words_end, rev_involutive; auto.
  intros E. apply Hw. rewrite <- (rev_involutive w), E. auto.
Qed.
Lemma words_two a w b v c : white a -> white b -> white c -> b <> [] -> w <> [] -> v <> [] -> Forall (fun c => 33 <= nat_of_ascii c) w -> Forall (fun c => 33 <= nat_of_ascii c) v ->
  words (a ++ w ++ b ++ v ++ c) = [w; v].
Proof.
  intros Ha Hb Hc Hbn Hw Hv Hwv Hvv. unfold words. rewrite words_white, words_word by auto. rewrite app_nil_r.
  destruct Hb as [|x b Hx Hb]; [contradiction|]. simpl app. cbn [words_go]. rewrite space_white by auto.
  destruct (rev w) as [|y w'] eqn:E; [exfalso; apply Hw; rewrite <- (rev_involutive w), E; auto|]. rewrite <- E, rev_involutive. f_equal.
  rewrite words_white by auto. apply (words_one [] v c); auto. constructor.
Qed.
