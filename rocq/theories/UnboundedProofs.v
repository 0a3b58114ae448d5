(** Proofs about reading lists of unbounded variables, for C71. *)
From Verif Require Import Base Settings Docstring DocstringSpec DocstringStrings DocstringRows Unbounded UnboundedSpec.
From Coq Require Import Strings.String Strings.Ascii.
Local Open Scope list_scope.
Open Scope nat_scope.

Lemma clean_first (x : ascii) p a r : ~ In x a -> clean (x :: p) a r.
Proof. intros Ha a1 c d -> Hc E. destruct c as [|y c]; [contradiction|]. injection E as -> _. apply Ha. apply in_or_app. right. left. auto. Qed.
Lemma clean_end p a : ~ contains p a -> clean p a [].
Proof. intros Ha a1 c d -> Hc E. rewrite app_nil_r in E. apply Ha. exists a1, d. rewrite E. auto. Qed.
Lemma find_none p a : p <> [] -> ~ contains p a -> find p a = None.
Proof. intros Hp Ha. rewrite <- (app_nil_r a), find_clean by (apply clean_end; auto). destruct p; [contradiction|reflexivity]. Qed.
(** A header at the end of a line is found nowhere else *)
Lemma clean_header w pre r : ~ In newline w -> ~ contains (w ++ NL) pre -> clean (w ++ NL) pre (w ++ NL ++ r).
Proof.
  intros Hw Hp a1 c d -> Hc E. rewrite <- app_assoc in E. change (NL ++ d) with (newline :: d) in E. change (NL ++ r) with (newline :: r) in E.
  destruct (decide (newline ∈ c)) as [Hi|Hn].
  - apply elem_of_list_split_l in Hi as (c1 & c2 & -> & Hc1). rewrite <- app_assoc in E. simpl in E. apply first_sep in E as [-> _]; [|rewrite <- elem_of_list_In; auto|auto].
    apply Hp. exists a1, c2. unfold NL. rewrite <- !app_assoc. auto.
  - rewrite app_assoc in E. apply first_sep in E as [E _]; [|rewrite in_app_iff, <- elem_of_list_In; tauto|auto].
    apply (f_equal (@List.length ascii)) in E. rewrite app_length in E. destruct c; [contradiction|]. simpl in E. lia.
Qed.

(** *** Spaces *)
Definition solid (s : text) : Prop := Forall (fun c => c <> " "%char) s.
Lemma collapse_solid s r : solid s -> s <> [] -> forall b, collapse b (s ++ r) = s ++ collapse false r.
Proof.
  intros H Hne. destruct H as [|c s Hc Hs]; [contradiction|]. clear Hne. intros b. simpl app. cbn [collapse].
  replace (Ascii.eqb c " ") with false by (symmetry; apply Ascii.eqb_neq; auto). f_equal. clear b. induction Hs as [|d s Hd Hs IH]; auto.
  simpl app. cbn [collapse]. replace (Ascii.eqb d " ") with false by (symmetry; apply Ascii.eqb_neq; auto). f_equal. auto.
Qed.
Lemma collapse_spaces n r : collapse true (spaces n ++ r) = collapse true r.
Proof. induction n; simpl; auto. Qed.
Lemma spaces_shift n y : spaces n ++ " "%char :: y = " "%char :: spaces n ++ y.
Proof. unfold spaces. induction n as [|n IH]; auto. cbn [repeat app]. rewrite IH. auto. Qed.
Lemma ident_solid s : identifier s -> solid s.
Proof. intros H. apply List.Forall_forall. intros c Hc ->. revert Hc. apply ident_not; auto. not_ident. Qed.
Lemma solid_app a b : solid a -> solid b -> solid (a ++ b).
Proof. intros. apply Forall_app. auto. Qed.
Lemma join_solid l : Forall identifier l -> solid (join (chars ".") l).
Proof.
  induction 1 as [|s l Hs Hl IH]; [constructor|]. cbn [join]. destruct l; [apply ident_solid; auto|].
  apply solid_app; [apply ident_solid; auto|]. apply solid_app; auto. repeat constructor. discriminate.
Qed.
Lemma join_ne l : l <> [] -> Forall identifier l -> join (chars ".") l <> [].
Proof. intros Hl H. destruct H as [|s l [Hs _] H]; [contradiction|]. cbn [join]. destruct l; auto. destruct s; [contradiction|discriminate]. Qed.

(** An element with single spaces *)
Definition canon (i : item) : text :=
  join (chars ".") (i_path i) ++
  match i_if i with None => [] | Some (gap, negated, c) => chars " (if " ++ (if negated then chars "not " else []) ++ c ++ chars ")" end.
Lemma collapse_item i r b : item_ok i -> collapse b (item_text i ++ r) = canon i ++ collapse false r.
Proof.
  intros (Hp & Hi & Hc). unfold item_text, canon. rewrite <- !app_assoc. rewrite collapse_solid by (auto using join_solid, join_ne). f_equal.
  destruct (i_if i) as [[[gap neg] c]|]; auto. destruct Hc as [Hc1 Hc2]. pose proof (ident_solid c (conj Hc1 Hc2)) as Hs.
  assert (E : forall x, collapse false (spaces gap ++ chars " (if " ++ x) = chars " (if " ++ collapse true x).
  { intros x. change (chars " (if " ++ x) with (" "%char :: chars "(if " ++ x). rewrite spaces_shift. cbn [collapse]. simpl app. rewrite collapse_spaces. reflexivity. }
  rewrite <- !app_assoc, E. f_equal.
  assert (E2 : collapse true (c ++ chars ")" ++ r) = c ++ chars ")" ++ collapse false r) by (rewrite collapse_solid by auto; reflexivity).
  destruct neg; [|exact E2]. change (collapse true (chars "not " ++ c ++ chars ")" ++ r)) with (chars "not " ++ collapse true (c ++ chars ")" ++ r)).
  rewrite E2. auto.
Qed.

(** The elements after the first one of a list, with what is before each *)
Definition sep_text (gi : nat * item) : text := chars ", " ++ spaces (fst gi) ++ item_text (snd gi).
Lemma collapse_rest l : Forall (fun gi => item_ok (snd gi)) l -> collapse false (flat_map sep_text l) = flat_map (fun gi => chars ", " ++ canon (snd gi)) l.
Proof.
  induction 1 as [|[g i] l Hi Hl IH]; auto. cbn [flat_map]. unfold sep_text at 1. rewrite <- !app_assoc.
  change (collapse false (chars ", " ++ spaces (fst (g, i)) ++ item_text (snd (g, i)) ++ flat_map sep_text l))
    with (chars ", " ++ collapse true (spaces g ++ item_text i ++ flat_map sep_text l)).
  rewrite collapse_spaces, collapse_item by auto. rewrite IH. auto.
Qed.
(** The lines after the first one, once newlines are replaced *)
Definition line_seps (l : line) : list (nat * item) := (l_indent l, l_first l) :: l_rest l.
Definition tail_seps (ls : list line) : list (nat * item) := match ls with [] => [] | l :: ls' => l_rest l ++ flat_map line_seps ls' end.
Lemma solid_no_nl s : (forall c, In c s -> 32 <= nat_of_ascii c) -> ~ In newline s.
Proof. intros H Hn. specialize (H _ Hn). change (32 <= 10) in H. lia. Qed.
Definition printed (s : text) : Prop := Forall (fun c => 32 <= nat_of_ascii c) s.
Lemma printed_app a b : printed a -> printed b -> printed (a ++ b).
Proof. intros. apply Forall_app. auto. Qed.
Lemma printed_spaces n : printed (spaces n).
Proof. induction n; constructor; auto. Qed.
Lemma printed_chars s : forallb (fun c => 32 <=? nat_of_ascii c) s = true -> printed s.
Proof. intros H. apply List.Forall_forall. intros c Hc. rewrite forallb_forall in H. specialize (H c Hc). apply Nat.leb_le in H. auto. Qed.
Lemma printed_ident s : identifier s -> printed s.
Proof. intros H. pose proof (ident_visible s H) as Hv. apply (Forall_impl _ _ _ Hv). intros c Hc. simpl in Hc. lia. Qed.
Lemma printed_join l : Forall identifier l -> printed (join (chars ".") l).
Proof.
  induction 1 as [|s l Hs Hl IH]; [constructor|]. cbn [join]. destruct l; [apply printed_ident; auto|].
  apply printed_app; [apply printed_ident; auto|]. apply printed_app; auto. apply printed_chars. reflexivity.
Qed.
Lemma printed_item i : item_ok i -> printed (item_text i).
Proof.
  intros (Hp & Hi & Hc). unfold item_text. apply printed_app; [apply printed_join; auto|]. destruct (i_if i) as [[[gap neg] c]|]; [|constructor].
  apply printed_app; [apply printed_spaces|]. apply printed_app; [apply printed_chars; reflexivity|]. apply printed_app; [destruct neg; apply printed_chars; reflexivity|].
  apply printed_app; [apply printed_ident; auto|]. apply printed_chars. reflexivity.
Qed.
Lemma printed_line l : Forall item_ok (line_items l) -> printed (line_text l).
Proof.
  intros H. apply Forall_cons in H as [H1 H2]. unfold line_text. apply printed_app; [apply printed_spaces|]. apply printed_app; [apply printed_item; auto|].
  induction (l_rest l) as [|[g i] r IH]; [constructor|]. apply Forall_cons in H2 as [H2 H3]. cbn [flat_map]. apply printed_app; auto.
  apply printed_app; [apply printed_chars; reflexivity|]. apply printed_app; [apply printed_spaces|apply printed_item; auto].
Qed.
Lemma printed_no_nl s : printed s -> ~ In newline s.
Proof. intros H. apply solid_no_nl. apply List.Forall_forall. exact H. Qed.

Definition nl2 (c : ascii) : text := if Ascii.eqb c newline then chars ", " else [c].
Lemma nl2_printed s : printed s -> flat_map nl2 s = s.
Proof.
  intros H. apply printed_no_nl in H. induction s as [|c s IH]; auto. cbn [flat_map]. unfold nl2 at 1.
  destruct (Ascii.eqb c newline) eqn:E; [apply Ascii.eqb_eq in E as ->; destruct H; left; auto|]. simpl. f_equal. apply IH. intros Hc. apply H. right. auto.
Qed.
(** All lines but the spaces before the first element *)
Definition body_rest (ls : list line) : text :=
  match ls with [] => [] | l :: ls' => item_text (l_first l) ++ flat_map sep_text (l_rest l) ++ flat_map (fun l => NL ++ line_text l) ls' end.
Lemma lines_text_cons l (ls : list line) : lines_text (map line_text (l :: ls)) = line_text l ++ flat_map (fun l => NL ++ line_text l) ls.
Proof.
  revert l. induction ls as [|l' ls IH]; intros l; [simpl; rewrite app_nil_r; auto|]. 
  change (lines_text (map line_text (l :: l' :: ls))) with (line_text l ++ [newline] ++ lines_text (map line_text (l' :: ls))). rewrite IH. cbn [flat_map]. rewrite <- !app_assoc. auto.
Qed.
Lemma body_split l ls : lines_text (map line_text (l :: ls)) = spaces (l_indent l) ++ body_rest (l :: ls).
Proof. rewrite lines_text_cons. unfold line_text at 1, body_rest. rewrite <- !app_assoc. auto. Qed.
Lemma nl2_body l ls : Forall item_ok (items (l :: ls)) -> flat_map nl2 (body_rest (l :: ls)) = item_text (l_first l) ++ flat_map sep_text (tail_seps (l :: ls)).
Proof.
  intros H. unfold items in H. cbn [flat_map] in H. apply Forall_app in H as [H1 H2]. unfold body_rest, tail_seps. rewrite !flat_map_app.
  pose proof (printed_line l H1) as P. unfold line_text in P. apply Forall_app in P as [_ P]. apply Forall_app in P as [P1 P2]. change (printed (flat_map sep_text (l_rest l))) in P2. rewrite (nl2_printed _ P1), (nl2_printed _ P2).
  f_equal. f_equal. clear -H2. induction ls as [|l ls IH]; auto. cbn [flat_map] in *. apply Forall_app in H2 as [H1 H2]. rewrite !flat_map_app, IH by auto.
  f_equal. rewrite (nl2_printed _ (printed_line l H1)). unfold line_text, line_seps. cbn [flat_map].
  change (sep_text (l_indent l, l_first l)) with (chars ", " ++ spaces (l_indent l) ++ item_text (l_first l)). rewrite <- !app_assoc. reflexivity.
Qed.

(** *** The list, read *)
Lemma join_sep_items i l : join (chars ", ") (map canon (i :: map snd l)) = canon i ++ flat_map (fun gi : nat * item => chars ", " ++ canon (snd gi)) l.
Proof.
  revert i. induction l as [|[g i'] l IH]; intros i; [simpl; rewrite app_nil_r; auto|].
  change (join (chars ", ") (map canon (i :: map snd ((g, i') :: l)))) with (canon i ++ chars ", " ++ join (chars ", ") (map canon (i' :: map snd l))).
  rewrite IH. cbn [flat_map]. rewrite <- !app_assoc. auto.
Qed.
Lemma items_seps l ls : items (l :: ls) = l_first l :: map snd (tail_seps (l :: ls)).
Proof.
  unfold items, tail_seps. cbn [flat_map]. rewrite map_app. unfold line_items at 1. simpl. f_equal. f_equal. induction ls as [|l' ls IH]; auto. cbn [flat_map]. rewrite map_app, IH. auto.
Qed.
Lemma last_visible_item i x c : item_ok i -> item_text i = x ++ [c] -> 33 <= nat_of_ascii c.
Proof.
  intros (Hp & Hi & Hc) E. unfold item_text in E. destruct (i_if i) as [[[gap neg] d]|].
  - assert (E' : (join (chars ".") (i_path i) ++ spaces gap ++ chars " (if " ++ (if neg then chars "not " else []) ++ d) ++ chars ")" = x ++ [c]) by (rewrite <- E, <- !app_assoc; auto).
    apply app_inj_tail in E' as [_ <-]. change (33 <= 41). lia.
  - rewrite app_nil_r in E. assert (Hc' : In c (join (chars ".") (i_path i))) by (rewrite E; apply in_or_app; right; left; auto).
    assert (Hv : Forall (fun c => 33 <= nat_of_ascii c) (join (chars ".") (i_path i))).
    { clear -Hi. induction Hi as [|s l Hs Hl IH]; [constructor|]. cbn [join]. pose proof (ident_visible s Hs) as Hv. destruct l; auto.
      apply Forall_app. split; auto. apply Forall_app. split; auto. constructor; [change (33 <= 46); lia|constructor]. }
    rewrite List.Forall_forall in Hv. auto.
Qed.
Lemma item_ne i : item_ok i -> exists c r, item_text i = c :: r /\ 33 <= nat_of_ascii c.
Proof.
  intros (Hp & Hi & _). unfold item_text. destruct Hi as [|s l Hs Hl]; [contradiction|]. destruct Hs as [Hs1 Hs2]. destruct s as [|c s]; [contradiction|].
  exists c. pose proof (ident_visible (c :: s) (conj Hs1 Hs2)) as Hv. apply Forall_cons in Hv as [Hv _]. cbn [join]. destruct l; simpl; eauto.
Qed.
Lemma last_app_ne {A} (a b : list A) x c : b <> [] -> a ++ b = x ++ [c] -> exists y, b = y ++ [c].
Proof.
  intros Hb E. destruct (exists_last Hb) as (y & d & ->). rewrite app_assoc in E. apply app_inj_tail in E as [_ ->]. eauto.
Qed.
Lemma seps_last rest x c : Forall (fun gi => item_ok (snd gi)) rest -> rest <> [] -> flat_map sep_text rest = x ++ [c] -> 33 <= nat_of_ascii c.
Proof.
  intros H Hne. revert x. induction H as [|[g i] l Hi Hl IH]; intros x E; [contradiction|]. cbn [flat_map] in E. destruct l as [|gi l].
  - simpl in Hi. cbn [flat_map] in E. rewrite app_nil_r in E. unfold sep_text in E. simpl fst in E. simpl snd in E. rewrite app_assoc in E.
    destruct (item_ne i Hi) as (d & r & Ed & _). apply last_app_ne in E as (y & Ey); [|rewrite Ed; discriminate]. apply (last_visible_item i y); auto.
  - apply last_app_ne in E as (y & Ey); [|destruct gi; discriminate]. apply (IH ltac:(discriminate) y). auto.
Qed.
Lemma line_last l x c : Forall item_ok (line_items l) -> item_text (l_first l) ++ flat_map sep_text (l_rest l) = x ++ [c] -> 33 <= nat_of_ascii c.
Proof.
  intros H E. apply Forall_cons in H as [H1 H2]. destruct (l_rest l) as [|gi r] eqn:Er.
  - cbn [flat_map] in E. rewrite app_nil_r in E. apply (last_visible_item _ _ _ H1 E).
  - apply last_app_ne in E as (y & Ey); [|destruct gi; discriminate]. refine (seps_last (gi :: r) y c _ _ Ey); [|discriminate].
    clear -H2. induction (gi :: r) as [|a l0 IH]; [constructor|]. apply Forall_cons in H2 as [H2 H3]. constructor; auto.
Qed.
Lemma body_last l ls x c : Forall item_ok (items (l :: ls)) -> body_rest (l :: ls) = x ++ [c] -> 33 <= nat_of_ascii c.
Proof.
  revert l x. induction ls as [|l' ls IH]; intros l x H E; unfold items in H; cbn [flat_map] in H; apply Forall_app in H as [H1 H2].
  - unfold body_rest in E. cbn [flat_map] in E. rewrite app_nil_r in E. eapply line_last; eauto.
  - assert (E' : body_rest (l :: l' :: ls) = (item_text (l_first l) ++ flat_map sep_text (l_rest l) ++ NL ++ spaces (l_indent l')) ++ body_rest (l' :: ls)).
    { unfold body_rest. cbn [flat_map]. unfold line_text at 1. rewrite <- !app_assoc. auto. }
    rewrite E' in E. apply last_app_ne in E as (y & Ey).
    + apply (IH l' y); auto.
    + cbn [flat_map] in H2. apply Forall_app in H2 as [H2 _]. apply Forall_cons in H2 as [H2 _]. destruct (item_ne _ H2) as (d & r & Ed & _). unfold body_rest. rewrite Ed. discriminate.
Qed.
Lemma white_spaces n : white (spaces n).
Proof. induction n; constructor; auto. Qed.
Lemma read_list l ls : Forall item_ok (items (l :: ls)) ->
  collapse false (replace NL (chars ", ") (strip (lines_text (map line_text (l :: ls))))) = join (chars ", ") (map canon (items (l :: ls))).
Proof.
  intros H. rewrite body_split. pose proof H as Hf. rewrite items_seps in Hf. apply Forall_cons in Hf as [Hf Hr].
  rewrite <- (app_nil_r (body_rest (l :: ls))), strip_around; [|apply white_spaces|constructor|].
  - unfold NL. rewrite replace_char. change (fun c => if Ascii.eqb c newline then chars ", " else [c]) with nl2. rewrite nl2_body, collapse_item by auto. rewrite items_seps, join_sep_items. f_equal.
    apply collapse_rest. clear -Hr. induction (tail_seps (l :: ls)) as [|a s IH]; [constructor|]. apply Forall_cons in Hr as [H1 H2]. constructor; auto.
  - intros c r [E|E]; [|eapply body_last; eauto]. destruct (item_ne _ Hf) as (d & r' & Ed & Hd). unfold body_rest in E. rewrite Ed in E. simpl in E. injection E as <- _. auto.
Qed.
Lemma canon_no_comma i : item_ok i -> ~ In ","%char (canon i).
Proof.
  intros (Hp & Hi & Hc). unfold canon. rewrite in_app_iff. intros [H|H].
  - revert H. clear -Hi. induction Hi as [|s l Hs Hl IH]; [auto|]. cbn [join]. destruct l; [apply ident_not; auto; not_ident|]. rewrite !in_app_iff.
    intros [H|[[H|[]]|H]]; [revert H; apply ident_not; auto; not_ident|discriminate H|auto].
  - destruct (i_if i) as [[[gap neg] c]|]; [|destruct H]. rewrite !in_app_iff in H. destruct H as [H|[H|[H|H]]].
    + simpl in H. repeat (destruct H as [H|H]; [discriminate H|]). destruct H.
    + destruct neg; simpl in H; [|destruct H]. repeat (destruct H as [H|H]; [discriminate H|]). destruct H.
    + revert H. apply ident_not; auto. not_ident.
    + simpl in H. repeat (destruct H as [H|H]; [discriminate H|]). destruct H.
Qed.
Lemma split_items l : l <> [] -> Forall item_ok l -> split (chars ", ") (join (chars ", ") (map canon l)) = map canon l.
Proof.
  intros Hne H. induction H as [|i l Hi Hl IH]; [contradiction|]. destruct l as [|j l].
  - simpl. apply split_none. apply clean_first, canon_no_comma. auto.
  - change (join (chars ", ") (map canon (i :: j :: l))) with (canon i ++ chars ", " ++ join (chars ", ") (map canon (j :: l))).
    rewrite split_at; [rewrite IH; [auto|discriminate]|discriminate|]. apply clean_first, canon_no_comma. auto.
Qed.
Lemma split_dots l : l <> [] -> Forall identifier l -> split (chars ".") (join (chars ".") l) = l.
Proof.
  intros Hne H. assert (Hd : forall s, identifier s -> ~ In "."%char s) by (intros s Hs; apply ident_not; auto; not_ident).
  induction H as [|s l Hs Hl IH]; [contradiction|]. destruct l as [|t l].
  - simpl. apply split_none. apply clean_first. auto.
  - change (join (chars ".") (s :: t :: l)) with (s ++ chars "." ++ join (chars ".") (t :: l)).
    rewrite split_at; [rewrite IH; [auto|discriminate]|discriminate|]. apply clean_first. auto.
Qed.

Section Objects.
Context {obj : Type} (getattr : obj -> text -> option obj) (truth : obj -> res bool) (keys_of : obj -> res (list nat)).
Lemma follow_leads : forall ns o, leads getattr o ns (follow getattr o ns).
Proof. induction ns as [|n ns IH]; intros o; simpl; [constructor|]. destruct (getattr o n) eqn:E; [econstructor; eauto|constructor; auto]. Qed.
Lemma attr_stands inst i : i_path i <> [] -> Forall identifier (i_path i) -> counts getattr truth inst i = Ok true ->
  stands_for getattr truth keys_of inst i (attr_bounds getattr keys_of inst (join (chars ".") (i_path i))).
Proof.
  intros Hp Hi Hc. unfold attr_bounds. rewrite split_dots by auto. pose proof (follow_leads (i_path i) inst) as H. destruct (follow getattr inst (i_path i)) as [o|]; [eapply sf_found|eapply sf_missing]; eauto.
Qed.
Lemma item_stands inst i : item_ok i -> stands_for getattr truth keys_of inst i (item_bounds getattr truth keys_of inst (canon i)).
Proof.
  intros (Hp & Hi & Hc). pose proof (attr_stands inst i Hp Hi) as Ha. unfold counts in *. pose proof (join_solid _ Hi) as Hs.
  assert (Hn : ~ In " "%char (join (chars ".") (i_path i))) by (intros Hx; unfold solid in Hs; rewrite List.Forall_forall in Hs; apply (Hs _ Hx); auto).
  unfold item_bounds, canon, has_sub. destruct (i_if i) as [[[gap neg] c]|] eqn:Ei.
  - assert (Hpar : ~ In "("%char (c ++ chars ")")).
    { rewrite in_app_iff. intros [H|[H|[]]]; [revert H; apply ident_not; auto; not_ident|discriminate H]. }
    assert (Hpar2 : ~ In "("%char ((if neg then chars "not " else []) ++ c ++ chars ")")).
    { rewrite in_app_iff. intros [H|H]; [|auto]. destruct neg; [|destruct H]. simpl in H. repeat (destruct H as [H|H]; [discriminate H|]). destruct H. }
    rewrite find_at by (apply clean_first; auto). rewrite split_at by (discriminate || (apply clean_first; auto)).
    rewrite split_none by (apply clean_end, (not_contains_missing _ _ "("%char); [right; left; auto|auto]).
    assert (Er : rev ((if neg then chars "not " else []) ++ c ++ chars ")") = ")"%char :: rev ((if neg then chars "not " else []) ++ c)).
    { rewrite app_assoc. rewrite (rev_app_distr ((if neg then chars "not " else []) ++ c) (chars ")")). auto. }
    rewrite Er. replace (Ascii.eqb ")" ")") with true by reflexivity. cbn [Ascii.eqb]. rewrite rev_involutive.
    assert (Einv : starts (chars "not ") ((if neg then chars "not " else []) ++ c) = neg).
    { destruct neg; [apply starts_app|]. destruct (starts (chars "not ") ([] ++ c)) eqn:E; auto. apply starts_iff in E as (b & E). simpl in E.
      exfalso. assert (Hx : In " "%char c) by (rewrite E; simpl; tauto). revert Hx. apply ident_not; auto. not_ident. }
    rewrite Einv. replace (if neg then skipn 4 ((if neg then chars "not " else []) ++ c) else (if neg then chars "not " else []) ++ c) with c by (destruct neg; reflexivity).
    destruct (getattr inst c) as [o|] eqn:Eg; [|apply sf_error; unfold counts; rewrite Ei, Eg; auto].
    destruct (truth o) as [t|e] eqn:Et; simpl; [|apply sf_error; unfold counts; rewrite Ei, Eg, Et; auto].
    destruct neg, t; simpl in *; auto; apply sf_no; unfold counts; rewrite Ei, Eg, Et; auto.
  - rewrite app_nil_r. rewrite find_none; [auto|discriminate|]. apply (not_contains_missing _ _ " "%char); [left; auto|auto].
Qed.

Lemma items_stand inst l : Forall item_ok l -> all_stand getattr truth keys_of inst l (items_bounds getattr truth keys_of inst (map canon l)).
Proof.
  induction 1 as [|i l Hi Hl IH]; [constructor|]. cbn [map items_bounds]. pose proof (item_stands inst i Hi) as Hs. destruct (item_bounds getattr truth keys_of inst (canon i)) as [ks|e]; [|constructor; auto].
  cbn [rbind]. replace (let! ks' := items_bounds getattr truth keys_of inst (map canon l) in Ok (ks ++ ks')) with (rmap (app ks) (items_bounds getattr truth keys_of inst (map canon l))).
  - constructor; auto.
  - destruct (items_bounds _ _ _ _ _); auto.
Qed.

Lemma header_no_nl up : ~ In newline (header up).
Proof. apply solid_no_nl. intros c Hc. destruct up; simpl in Hc; repeat (destruct Hc as [<-|Hc]; [apply Nat.leb_le; reflexivity|]); destruct Hc. Qed.
Lemma flag_header up : unbounded_flag up = header up ++ NL.
Proof. destruct up; reflexivity. Qed.
Lemma clean_body l ls r : Forall item_ok (items (l :: ls)) -> clean (NL ++ NL) (lines_text (map line_text (l :: ls))) r.
Proof.
  revert l. induction ls as [|l' ls IH]; intros l H; unfold items in H; cbn [flat_map] in H; apply Forall_app in H as [H1 H2].
  - simpl. apply clean_first. apply printed_no_nl, printed_line. auto.
  - change (lines_text (map line_text (l :: l' :: ls))) with (line_text l ++ NL ++ lines_text (map line_text (l' :: ls))).
    apply clean_app; [apply clean_first, printed_no_nl, printed_line; auto|]. apply clean_app; [|apply IH; auto].
    intros a1 c d E Hc E'. destruct a1 as [|y a1]; [|injection E as _ E; apply eq_sym, app_eq_nil in E as [_ ->]; contradiction].
    simpl in E. subst c. change (newline :: (lines_text (map line_text (l' :: ls)) ++ r) = newline :: newline :: d) in E'. assert (E2 : lines_text (map line_text (l' :: ls)) ++ r = newline :: d) by congruence. clear E'. rename E2 into E'. cbn [flat_map] in H2. apply Forall_app in H2 as [H2 _]. pose proof (printed_line l' H2) as P. pose proof (printed_no_nl _ P) as Hnl.
    rewrite lines_text_cons in E'. destruct (line_text l') as [|x t] eqn:El.
    + unfold line_text in El. apply app_eq_nil in El as [_ El]. apply app_eq_nil in El as [El _]. apply Forall_cons in H2 as [H2 _]. destruct (item_ne _ H2) as (y & s & Ey & _). rewrite Ey in El. discriminate.
    + simpl in E'. injection E' as -> _. apply Hnl. left. auto.
Qed.
Lemma skip_two (a b c : text) : skipn (List.length a + List.length b) (a ++ b ++ c) = c.
Proof. rewrite app_assoc, <- app_length, skipn_app, skipn_all, Nat.sub_diag. auto. Qed.
Lemma direction_stands inst doc up ls : says doc up ls -> all_stand getattr truth keys_of inst (items ls) (direction_bounds getattr truth keys_of inst doc up).
Proof.
  intros [(pre & under & post & -> & Hpre & Hpost & Hu & Hls & Hok & Hend)|[-> Hno]]; unfold direction_bounds; rewrite flag_header.
  2:{ unfold count. rewrite split_none by (apply clean_end; auto). constructor. }
  fold NL in *. destruct ls as [|l ls]; [contradiction|]. set (body := lines_text (map line_text (l :: ls))) in *. set (rest := under ++ NL ++ body ++ NL ++ post) in *.
  replace (pre ++ header up ++ NL ++ rest) with (pre ++ (header up ++ NL) ++ rest) by (rewrite <- !app_assoc; auto).
  assert (Hc : clean (header up ++ NL) pre ((header up ++ NL) ++ rest)) by (rewrite <- app_assoc; apply clean_header; auto; apply header_no_nl).
  unfold count. rewrite split_at by (auto; destruct up; discriminate). rewrite split_none by (apply clean_end; auto). cbn [List.length Nat.sub].
  unfold varstrs, index_of. rewrite find_at by auto. cbn [rbind]. rewrite skip_two.
  unfold rest at 1. rewrite find_at by (apply clean_nl; auto). cbn [rbind].
  assert (E2 : skipn (List.length under + 1) rest = body ++ NL ++ post).
  { unfold rest. apply (skip_two under NL). }
  rewrite E2.
  assert (E3 : (match find (NL ++ NL) (body ++ NL ++ post) with Some i => Ok i | None => match find NL (body ++ NL ++ post) with Some i => Ok i | None => Err ValueErrorE end end) = Ok (List.length body)).
  { destruct Hend as [(post' & ->)|[Hl Hend]].
    - change (body ++ NL ++ newline :: post') with (body ++ (NL ++ NL) ++ post'). rewrite find_at; auto. apply clean_body. auto.
    - destruct ls; [|discriminate Hl]. rewrite find_clean by (apply clean_body; auto). rewrite (find_none (NL ++ NL)); [|discriminate|exact Hend]. simpl option_map.
      rewrite find_at; auto. apply clean_nl. unfold body. simpl. apply printed_no_nl, printed_line. unfold items in Hok. simpl in Hok. rewrite app_nil_r in Hok. auto. }
  rewrite E3. cbn [rbind]. rewrite firstn_app, firstn_all, Nat.sub_diag. simpl firstn. rewrite app_nil_r. unfold body. rewrite read_list by auto.
  assert (Hne : items (l :: ls) <> []) by (rewrite items_seps; discriminate).
  destruct (join (chars ", ") (map canon (items (l :: ls)))) eqn:Ej.
  - exfalso. rewrite items_seps in Ej, Hok. apply Forall_cons in Hok as [(Hp & Hi & _) _]. rewrite join_sep_items in Ej. apply app_eq_nil in Ej as [Ej _]. unfold canon in Ej. apply app_eq_nil in Ej as [Ej _].
    apply (join_ne _ Hp Hi). auto.
  - rewrite <- Ej. rewrite split_items by auto. apply items_stand. auto.
Qed.
End Objects.
