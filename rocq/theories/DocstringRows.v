(** Rows of tables, for C69. *)
From Verif Require Import Base Settings Docstring DocstringSpec DocstringStrings.
From Coq Require Import Strings.String Strings.Ascii.
Local Open Scope list_scope.
Open Scope nat_scope.

Definition esc (s : text) : text := flat_map (fun c => if Ascii.eqb c quote then chars "\'" else [c]) s.
(** The declaration of a row *)
Definition call_value (r : row) : text := match r_value r with Some (_, v) => v ++ chars ", " | None => [] end.
Definition call_body (r : row) : text := chars "'" ++ r_name r ++ chars "', " ++ call_value r ++ chars "'" ++ r_units r ++ chars "', " ++ chars "'" ++ esc (r_label r).
Definition call_args (k : kind) (r : row) : text :=
  match k with Vecs n => n ++ chars ", " | _ => [] end ++ call_body r ++ match k with Consts => chars "', constant=True)" | _ => chars "')" end.
Definition declared_name (r : row) : text := r_name r ++ chars " = self." ++ r_name r ++ chars " = ".
Definition declared (k : kind) (r : row) : text := declared_name r ++ row_function k ++ chars "(" ++ call_args k r.

(** *** What a row is made of *)
Definition pre_text (r : row) : text := r_indent r ++ r_name r ++ (match r_value r with Some (gap, v) => gap ++ v | None => [] end) ++ r_gap r.
Lemma row_text_split r : row_text r = pre_text r ++ chars "[" ++ r_units r ++ chars "]" ++ r_gap' r ++ r_label r.
Proof. unfold row_text, pre_text. rewrite <- !app_assoc. auto. Qed.
Lemma white_not c s : white s -> c <> " "%char -> c <> "009"%char -> ~ In c s.
Proof. intros Hs H1 H2 Hc. unfold white in Hs. rewrite List.Forall_forall in Hs. destruct (Hs c Hc); auto. Qed.
Definition ident_char (c : ascii) : Prop := let n := nat_of_ascii c in 48 <= n <= 57 \/ 65 <= n <= 90 \/ n = 95 \/ 97 <= n <= 122.
Lemma ident_not c s : identifier s -> ~ ident_char c -> ~ In c s.
Proof. intros [_ Hs] Hn Hc. rewrite List.Forall_forall in Hs. apply Hn, Hs. auto. Qed.
Ltac not_ident := match goal with |- ~ ident_char ?c =>
  let n := eval vm_compute in (nat_of_ascii c) in change (~ (48 <= n <= 57 \/ 65 <= n <= 90 \/ n = 95 \/ 97 <= n <= 122)); lia end.
Lemma pre_no r c : row_ok r -> c = "["%char \/ c = "]"%char -> ~ In c (pre_text r).
Proof.
  intros (H1 & H2 & H3 & H4 & _) Hc. unfold pre_text. rewrite !in_app_iff.
  assert (Hw : forall s, white s -> ~ In c s) by (intros s Hs; apply white_not; auto; destruct Hc as [-> | ->]; discriminate).
  intros [H|[H|[H|H]]]; [exact (Hw _ H1 H)| | |exact (Hw _ H4 H)].
  - revert H. apply ident_not; auto. destruct Hc as [-> | ->]; not_ident.
  - destruct (r_value r) as [[gap v]|]; [|destruct H]. destruct H3 as (G1 & G2 & G3 & G4). apply in_app_or in H as [H|H]; [exact (Hw _ G1 H)|].
    rewrite List.Forall_forall in G4. destruct (G4 c H) as (_ & N1 & N2). destruct Hc; auto.
Qed.
Lemma clean_char c a r : ~ In c a -> clean [c] a r.
Proof. intros Ha a1 x d -> Hx E. destruct x as [|y x]; [contradiction|]. injection E as -> _. apply Ha. apply in_or_app. right. left. auto. Qed.
Lemma skip_spaces_row gap l : spaces_only gap -> l <> [] -> (forall s, l <> " "%char :: s) -> skip_spaces (gap ++ l) = Ok l.
Proof.
  intros Hg Hne Hl. induction Hg as [|c gap -> Hg IH]; simpl; auto. destruct l as [|c l]; [contradiction|]. cbn [skip_spaces].
  destruct (Ascii.eqb c " ") eqn:E; auto. apply Ascii.eqb_eq in E as ->. destruct (Hl l); auto.
Qed.
Lemma ident_visible s : identifier s -> Forall (fun c => 33 <= nat_of_ascii c) s.
Proof. intros [_ H]. eapply Forall_impl; [exact H|]. intros c Hc. simpl in Hc. lia. Qed.

Lemma line_declaration_row r : row_ok r -> line_declaration (row_text r) = Ok (declared Vars r ++ NL).
Proof.
  intros Hok. unfold line_declaration, index_of. rewrite row_text_split.
  rewrite find_at by (apply clean_char, pre_no; auto).
  assert (Ej : find (chars "]") (pre_text r ++ chars "[" ++ r_units r ++ chars "]" ++ r_gap' r ++ r_label r) = Some (List.length (pre_text r ++ chars "[" ++ r_units r))).
  { rewrite <- (find_at (chars "]") (pre_text r ++ chars "[" ++ r_units r) (r_gap' r ++ r_label r)); [rewrite <- !app_assoc; auto|].
    apply clean_char. rewrite !in_app_iff. intros [H|[H|H]]; [revert H; apply pre_no; auto|destruct H as [H|[]]; discriminate H|].
    destruct Hok as (_ & _ & _ & _ & _ & H6 & _). auto. }
  rewrite Ej. cbn [rbind].
  set (pre := pre_text r). set (line := pre ++ chars "[" ++ r_units r ++ chars "]" ++ r_gap' r ++ r_label r).
  assert (E1 : firstn (List.length (pre ++ chars "[" ++ r_units r)) line = pre ++ chars "[" ++ r_units r).
  { unfold line. rewrite <- (take_app (pre ++ chars "[" ++ r_units r) (chars "]" ++ r_gap' r ++ r_label r)) at 2. rewrite <- !app_assoc. auto. }
  assert (E2 : skipn (List.length pre + 1) (pre ++ chars "[" ++ r_units r) = r_units r).
  { replace (List.length pre + 1) with (List.length (pre ++ chars "[")) by (rewrite app_length; auto). rewrite app_assoc. apply drop_app. }
  assert (E3 : firstn (List.length pre) line = pre) by (unfold line; apply take_app).
  assert (E4 : skipn (List.length (pre ++ chars "[" ++ r_units r) + 1) line = r_gap' r ++ r_label r).
  { replace (List.length (pre ++ chars "[" ++ r_units r) + 1) with (List.length ((pre ++ chars "[" ++ r_units r) ++ chars "]")) by (rewrite (app_length _ (chars "]")); auto).
    unfold line. replace (pre ++ chars "[" ++ r_units r ++ chars "]" ++ r_gap' r ++ r_label r) with (((pre ++ chars "[" ++ r_units r) ++ chars "]") ++ r_gap' r ++ r_label r) by (rewrite <- !app_assoc; auto). apply drop_app. }
  rewrite E1, E2, E3, E4.
  assert (El : (if (List.length line <=? List.length (pre ++ chars "[" ++ r_units r) + 1)%nat then Ok [] else skip_spaces (r_gap' r ++ r_label r)) = Ok (r_label r)).
  { destruct Hok as (_ & _ & _ & _ & _ & _ & _ & _ & H9 & _ & _ & H12 & H13).
    destruct (r_label r) as [|c l] eqn:E.
    - rewrite H13 by auto. unfold line. rewrite ?H13 by auto. rewrite ?E. rewrite (proj2 (Nat.leb_le _ _)); auto. rewrite !app_length. simpl. lia.
    - rewrite (proj2 (Nat.leb_gt _ _)); [apply skip_spaces_row; auto; discriminate|]. unfold line. rewrite ?E, !app_length. simpl. lia. }
  rewrite El. cbn [rbind]. rewrite (replace_char quote). change (flat_map _ (r_label r)) with (esc (r_label r)).
  destruct Hok as (H1 & H2 & H3 & H4 & _). unfold declared, declared_name, call_args, call_body, call_value. unfold pre, pre_text.
  destruct (r_value r) as [[gap v]|].
  - destruct H3 as (G1 & G2 & G3 & G4). rewrite <- !app_assoc. rewrite (app_assoc gap v), <- (app_assoc gap v). rewrite words_two; auto.
    + apply H2.
    + apply G3.
    + apply ident_visible; auto.
    + eapply Forall_impl; [exact G4|]. simpl. intros c Hc. apply Hc.
  - simpl app at 3. rewrite words_one; auto.
    + rewrite <- !app_assoc. reflexivity.
    + apply H2.
    + apply ident_visible; auto.
Qed.
Lemma row_not_white r : strip (row_text r) <> [].
Proof. rewrite row_text_split. apply (strip_nonempty _ "["%char); [rewrite !in_app_iff; right; left; left; auto|apply Nat.leb_le; reflexivity]. Qed.

(** *** What Python reads *)
Lemma read_quoted_esc s : ~ In backslash s -> forall r, read_quoted (esc s ++ chars "'" ++ r) = Some (s, r).
Proof.
  induction s as [|c s IH]; intros Hb r; [reflexivity|]. assert (Hb' : ~ In backslash s) by (intros H; apply Hb; right; auto). specialize (IH Hb' r).
  unfold esc in *. cbn [flat_map]. destruct (Ascii.eqb c quote) eqn:E.
  - apply Ascii.eqb_eq in E as ->. rewrite <- app_assoc. simpl app at 1. cbn [read_quoted]. simpl. simpl app in IH. rewrite IH. auto.
  - simpl app. cbn [read_quoted]. rewrite E. destruct (Ascii.eqb c backslash) eqn:E2; [apply Ascii.eqb_eq in E2 as ->; exfalso; apply Hb; left; auto|].
    simpl app in IH. rewrite IH. auto.
Qed.
Lemma esc_id s : ~ In quote s -> esc s = s.
Proof.
  induction s as [|c s IH]; intros H; auto. unfold esc in *. cbn [flat_map]. rewrite IH by (intros Hq; apply H; right; auto). destruct (Ascii.eqb c quote) eqn:E; auto.
  apply Ascii.eqb_eq in E as ->. exfalso. apply H. left. auto.
Qed.
Lemma read_code_closed v c r : c = ","%char \/ c = ")"%char -> forall d, closed d v = true -> read_code d (v ++ c :: r) = (v, c :: r).
Proof.
  intros Hc. induction v as [|x v IH]; intros d H; simpl in H.
  - apply Nat.eqb_eq in H as ->. destruct Hc as [-> | ->]; reflexivity.
  - simpl app. cbn [read_code]. destruct (Ascii.eqb x "("); [rewrite IH; auto|]. destruct (Ascii.eqb x ")").
    + destruct d; [discriminate H|]. rewrite IH; auto.
    + destruct (Ascii.eqb x "," && (d =? 0)%nat); [discriminate H|]. rewrite IH; auto.
Qed.
Lemma read_more_quoted f s r : ~ In backslash s -> read_args_go (S f) (chars "'" ++ esc s ++ chars "', " ++ r) = option_map (fun x => (Quoted s :: fst x, snd x)) (read_args_go f r).
Proof.
  intros Hb. change (chars "', ") with (chars "'" ++ chars ", "). rewrite <- app_assoc. cbn [chars read_args_go app]. simpl Ascii.eqb. cbn iota.
  pose proof (read_quoted_esc s Hb (chars ", " ++ r)) as E. simpl app in E. rewrite E. cbn [option_map fst snd]. reflexivity.
Qed.
Lemma read_last_quoted f s r : ~ In backslash s -> read_args_go (S f) (chars "'" ++ esc s ++ chars "')" ++ r) = Some ([Quoted s], r).
Proof.
  intros Hb. change (chars "')") with (chars "'" ++ chars ")"). rewrite <- app_assoc. cbn [chars read_args_go app]. simpl Ascii.eqb. cbn iota.
  pose proof (read_quoted_esc s Hb (chars ")" ++ r)) as E. simpl app in E. rewrite E. cbn [option_map fst snd]. reflexivity.
Qed.
Lemma read_more_code f v r : code v -> read_args_go (S f) (v ++ chars ", " ++ r) = option_map (fun x => (Code v :: fst x, snd x)) (read_args_go f r).
Proof.
  intros (Hne & Hcl & Hq). destruct v as [|c v]; [contradiction|]. cbn [read_args_go]. simpl app at 1. destruct (Ascii.eqb c quote) eqn:E.
  - apply Ascii.eqb_eq in E as ->. exfalso. apply Hq. left. auto.
  - pose proof (read_code_closed (c :: v) ","%char (" "%char :: r) (or_introl eq_refl) 0 Hcl) as E2. simpl app in E2 |- *. rewrite E2, E. reflexivity.
Qed.
Lemma ident_esc r : row_ok r -> r_name r = esc (r_name r) /\ ~ In backslash (r_name r).
Proof. intros (_ & H & _). split; [symmetry; apply esc_id|]; apply ident_not; auto; not_ident. Qed.

Lemma read_row k r tail : row_ok r -> row_fits k r -> read_args (call_args k r ++ tail) = Some (row_args k r, tail).
Proof.
  intros Hok Hfit. destruct (ident_esc r Hok) as [En Hn]. pose proof Hok as (_ & _ & H3 & _ & _ & _ & Hu & Hub & _ & _ & Hlb & _).
  assert (Eu : r_units r = esc (r_units r)) by (symmetry; apply esc_id; auto).
  assert (Hlast : forall f, (match k with Consts => 2 | _ => 1 end) <= f ->
    read_args_go f (chars "'" ++ esc (r_label r) ++ match k with Consts => chars "', constant=True)" | _ => chars "')" end ++ tail) =
    Some (Quoted (r_label r) :: match k with Consts => [Code (chars "constant=True")] | _ => [] end, tail)).
  { intros f Hf. destruct k; [|destruct f; [lia|]; apply read_last_quoted; auto|destruct f; [lia|]; apply read_last_quoted; auto].
    destruct f as [|[|f]]; [lia|lia|]. change (chars "', constant=True)") with (chars "', " ++ chars "constant=True)"). rewrite <- app_assoc, read_more_quoted by auto. reflexivity. }
  assert (Hbody : forall f, 5 <= f -> read_args_go f (call_body r ++ match k with Consts => chars "', constant=True)" | _ => chars "')" end ++ tail) =
    Some ([Quoted (r_name r)] ++ match r_value r with Some (_, v) => [Code v] | None => [] end ++ [Quoted (r_units r); Quoted (r_label r)] ++
      match k with Consts => [Code (chars "constant=True")] | _ => [] end, tail)).
  { intros f Hf. unfold call_body, call_value. rewrite <- !app_assoc. pattern (r_name r) at 1. rewrite En. pattern (r_units r) at 1. rewrite Eu.
    destruct f as [|[|[|f]]]; [lia|lia|lia|]. rewrite read_more_quoted by auto. destruct (r_value r) as [[gap v]|].
    - destruct H3 as (_ & _ & Hv & _). rewrite <- !app_assoc. rewrite read_more_code, read_more_quoted, Hlast by (auto; destruct k; lia). reflexivity.
    - cbn [app]. rewrite read_more_quoted, Hlast by (auto; destruct k; lia). reflexivity. }
  unfold read_args, call_args, row_args. rewrite <- !app_assoc. set (body := call_body r ++ _) in *.
  assert (Hlen : 7 <= List.length body) by (unfold body, call_body; rewrite !app_length; simpl; lia).
  destruct k as [| |n]; cbn [app]; [apply Hbody; lia|apply Hbody; lia|].
  destruct Hfit as [Hc _]. rewrite <- app_assoc. rewrite !app_length. simpl (List.length (chars ", ")).
  replace (List.length n + (2 + List.length body)) with (S (List.length n + 1 + List.length body)) by lia. rewrite read_more_code by auto. rewrite Hbody by lia. reflexivity.
Qed.

(** *** Replacing in declarations *)
Lemma split_go_cur p : forall s k cur x, split_go p s k (cur ++ x) = match split_go p s k cur with h :: t => (rev x ++ h) :: t | [] => [] end.
Proof.
  induction s as [|c s IH]; intros k cur x; cbn [split_go]; [rewrite rev_app_distr; auto|]. destruct k; [|apply IH]. destruct (starts p (c :: s)); [rewrite rev_app_distr; auto|].
  apply (IH 0 (c :: cur) x).
Qed.
Lemma split_prefix p a r : clean p a r -> split p (a ++ r) = match split p r with h :: t => (a ++ h) :: t | [] => [] end.
Proof.
  intros H. unfold split. assert (G : forall cur, split_go p (a ++ r) 0 cur = split_go p r 0 (rev a ++ cur)).
  { induction a as [|c a IH]; intros cur; auto. simpl app. cbn [split_go]. rewrite clean_hd by exact H. rewrite IH by (eapply clean_tl; eauto). simpl. rewrite <- app_assoc. auto. }
  rewrite G. pose proof (split_go_cur p r 0 [] (rev a)) as E. simpl app in E. rewrite app_nil_r, E, rev_involutive. auto.
Qed.
Lemma replace_prefix p q a r : clean p a r -> replace p q (a ++ r) = a ++ replace p q r.
Proof.
  intros H. unfold replace. rewrite split_prefix by auto. destruct (split p r) as [|h t] eqn:E; [destruct (split_go_ne p r 0 [] E)|].
  destruct t; simpl; rewrite ?app_assoc; auto.
Qed.

(** Patterns of two characters *)
Lemma clean_two x y a r : ~ contains [x; y] a -> (forall s, r <> y :: s) -> clean [x; y] a r.
Proof.
  intros Ha Hr a1 c d -> Hc E. destruct c as [|c1 [|c2 c]]; [contradiction| |].
  - injection E as -> E. apply (Hr d). exact E.
  - injection E as -> -> E. apply Ha. exists a1, c. auto.
Qed.
Lemma not_two_app x y a b : ~ contains [x; y] a -> ~ contains [x; y] b -> (forall s, b <> y :: s) -> ~ contains [x; y] (a ++ b).
Proof.
  intros Ha Hb Hy (u & v & E). pose proof (clean_two x y a b Ha Hy) as Hcl. destruct (app_eq_app _ _ _ _ E) as (l & [(E1 & E2)|(E1 & E2)]).
  - (* a = u ++ l *) destruct l as [|c l].
    + apply Hb. exists [], v. simpl in *. congruence.
    + eapply (Hcl u (c :: l) v); [auto|discriminate|symmetry; exact E2].
  - (* u = a ++ l *) apply Hb. exists l, v. auto.
Qed.
Lemma esc_two y s : y <> backslash -> contains [quote; y] (esc s) -> contains [quote; y] s.
Proof.
  intros Hy. induction s as [|c s IH]; intros H; auto. unfold esc in *. cbn [flat_map] in H.
  assert (Hcons : contains [quote; y] s -> contains [quote; y] (c :: s)) by (intros (a & b & ->); exists (c :: a), b; auto).
  destruct (Ascii.eqb c quote) eqn:E.
  - apply Ascii.eqb_eq in E as ->. destruct H as (a & b & E). destruct a as [|a1 [|a2 a]]; simpl in E.
    + discriminate E.
    + injection E as _ E. (* the quote is the escaped one: the next character *)
      destruct s as [|c s]; [discriminate E|]. cbn [flat_map] in E. destruct (Ascii.eqb c quote) eqn:E2.
      * simpl in E. injection E as E _. exfalso. apply Hy. symmetry. exact E.
      * simpl in E. injection E as -> _. exists [], s. auto.
    + injection E as _ _ E. apply Hcons, IH. exists a, b. auto.
  - destruct H as (a & b & E'). destruct a as [|a1 a]; simpl in E'.
    + injection E' as -> _. rewrite Ascii.eqb_refl in E. discriminate E.
    + injection E' as _ E'. apply Hcons, IH. exists a, b. auto.
Qed.

(** Patterns without quotes and backslashes *)
Lemma esc_contains p s : p <> [] -> ~ In quote p -> ~ In backslash p -> contains p (esc s) -> contains p s.
Proof.
  intros Hp Hq Hb. assert (G : forall x s, ~ contains p x -> contains p (x ++ esc s) -> contains p (x ++ s)); [|intros H; apply (G [] s); auto; intros (a & b & E); destruct a, p; try discriminate; contradiction].
  clear s. intros x s. revert x. induction s as [|c s IH]; intros x Hx H; auto. unfold esc in *. cbn [flat_map] in H. destruct (Ascii.eqb c quote) eqn:E.
  - apply Ascii.eqb_eq in E as ->. simpl in H. apply contains_sep in H as [H|H]; auto; [contradiction|].
    apply (contains_sep p [] quote (esc s)) in H as [H|H]; auto.
    + destruct H as (a & b & H). destruct a, p; try discriminate; contradiction.
    + specialize (IH []). simpl in IH. destruct IH as (a & b & ->); auto.
      * intros (a & b & E). destruct a, p; try discriminate; contradiction.
      * exists (x ++ quote :: a), b. rewrite <- app_assoc. auto.
  - simpl in H. destruct (containsb p (x ++ [c])) eqn:E2.
    + apply containsb_spec in E2 as (a & b & E2). exists a, (b ++ s). rewrite !app_assoc. rewrite <- (app_assoc a p b), <- E2, <- app_assoc. auto.
    + apply not_containsb in E2. specialize (IH (x ++ [c]) E2). rewrite <- !app_assoc in IH. apply IH. exact H.
Qed.

(** Constants *)
Lemma call_clean_constants r : row_ok r -> row_fits Consts r -> ~ contains (chars "')") (declared_name r ++ chars "Variable(" ++ call_body r).
Proof.
  intros Hok (F1 & F2 & F3). pose proof Hok as (_ & Hn & Hv & _ & _ & _ & Hu & _ & _ & _ & _ & _ & _).
  assert (Nn : ~ contains (chars "')") (r_name r)) by (apply (not_contains_missing _ _ quote); [left; auto|apply ident_not; auto; not_ident]).
  assert (Sn : forall s, r_name r <> ")"%char :: s) by (intros s E; apply (ident_not ")"%char (r_name r) Hn); [not_ident|rewrite E; left; auto]).
  assert (Sn2 : forall s t, r_name r ++ t <> ")"%char :: s).
  { intros s t E. destruct (r_name r) as [|c n] eqn:En; [destruct Hn as [Hn _]; contradiction|]. injection E as -> _. apply (Sn n). auto. }
  assert (Nu : ~ contains (chars "')") (r_units r)) by (apply F1; left; auto).
  assert (Nl : ~ contains (chars "')") (esc (r_label r))) by (intros H; apply esc_two in H; [revert H; apply F1; right; left; auto|discriminate]).
  assert (Lit : forall s, containsb (chars "')") s = false -> ~ contains (chars "')") s) by apply not_containsb.
  unfold declared_name, call_body. rewrite <- !app_assoc.
  assert (T1 : ~ contains (chars "')") (chars "'" ++ esc (r_label r))).
  { apply not_two_app; auto. intros s E. destruct (r_label r) as [|c l] eqn:El; [discriminate E|]. unfold esc in E. cbn [flat_map] in E. destruct (Ascii.eqb c quote); simpl in E; [discriminate E|].
    injection E as -> _. apply (F3 l). auto. }
  assert (T2 : ~ contains (chars "')") (chars "', " ++ chars "'" ++ esc (r_label r))) by (apply not_two_app; auto; intros s; discriminate).
  assert (T3 : ~ contains (chars "')") (r_units r ++ chars "', " ++ chars "'" ++ esc (r_label r))) by (apply not_two_app; auto; intros s; discriminate).
  assert (T4 : ~ contains (chars "')") (chars "'" ++ r_units r ++ chars "', " ++ chars "'" ++ esc (r_label r))).
  { apply not_two_app; auto. intros s E. destruct (r_units r) as [|c u] eqn:Eu; [discriminate E|]. injection E as -> _. apply (F2 u). auto. }
  assert (T5 : ~ contains (chars "')") (call_value r ++ chars "'" ++ r_units r ++ chars "', " ++ chars "'" ++ esc (r_label r))).
  { apply not_two_app; [|exact T4|intros s; discriminate]. unfold call_value. destruct (r_value r) as [[gap v]|]; [|apply Lit; reflexivity].
    apply not_two_app; [|apply Lit; reflexivity|intros s; discriminate]. apply F1. right. right. left. auto. }
  assert (T6 : ~ contains (chars "')") (chars "', " ++ call_value r ++ chars "'" ++ r_units r ++ chars "', " ++ chars "'" ++ esc (r_label r))).
  { apply not_two_app; auto. intros s E. unfold call_value in E. destruct (r_value r) as [[gap v]|]; [|discriminate E]. destruct Hv as (_ & _ & (V1 & V2 & _) & _).
    destruct v as [|c v]; [contradiction|]. injection E as -> _. discriminate V2. }
  assert (T7 : ~ contains (chars "')") (r_name r ++ chars "', " ++ call_value r ++ chars "'" ++ r_units r ++ chars "', " ++ chars "'" ++ esc (r_label r))) by (apply not_two_app; auto; intros s; discriminate).
  assert (T8 : ~ contains (chars "')") (chars "'" ++ r_name r ++ chars "', " ++ call_value r ++ chars "'" ++ r_units r ++ chars "', " ++ chars "'" ++ esc (r_label r))) by (apply not_two_app; auto).
  assert (T9 : forall x, containsb (chars "')") x = false -> (forall s, x ++ chars "'" <> ")"%char :: s) ->
    ~ contains (chars "')") (x ++ chars "'" ++ r_name r ++ chars "', " ++ call_value r ++ chars "'" ++ r_units r ++ chars "', " ++ chars "'" ++ esc (r_label r))).
  { intros x Hx _. apply not_two_app; auto. }
  apply not_two_app; [auto| |intros s; discriminate].
  apply not_two_app; [apply Lit; reflexivity| |intros s; apply Sn2].
  apply not_two_app; [auto| |intros s; discriminate].
  apply not_two_app; [apply Lit; reflexivity| |intros s; discriminate].
  apply T9; [reflexivity|intros s; discriminate].
Qed.
Lemma replace_constants rows : Forall (fun r => row_ok r /\ row_fits Consts r) rows ->
  replace (chars "')") (chars "', constant=True)") (flat_map (fun r => declared Vars r ++ NL) rows) = flat_map (fun r => declared Consts r ++ NL) rows.
Proof.
  set (p := chars "')"). set (q := chars "', constant=True)"). intros H.
  induction H as [|r rows [Hok Hfit] Hrows IH]; [reflexivity|]. cbn [flat_map].
  assert (E : declared Vars r = (declared_name r ++ chars "Variable(" ++ call_body r) ++ p).
  { unfold declared, call_args. cbn [row_function]. change (chars "Variable(") with (chars "Variable" ++ chars "("). rewrite <- !app_assoc. reflexivity. }
  assert (E' : declared Consts r = (declared_name r ++ chars "Variable(" ++ call_body r) ++ q).
  { unfold declared, call_args. cbn [row_function]. change (chars "Variable(") with (chars "Variable" ++ chars "("). rewrite <- !app_assoc. reflexivity. }
  assert (HA := call_clean_constants r Hok Hfit). rewrite E, E'. set (A := declared_name r ++ chars "Variable(" ++ call_body r) in *. clearbody A.
  rewrite <- !(app_assoc A). rewrite <- !app_assoc. rewrite replace_at; [|discriminate|].
  - rewrite replace_prefix, IH; [reflexivity|]. apply clean_two; [apply not_containsb; reflexivity|].
    intros s Es. destruct rows as [|r2 rows]; [discriminate Es|]. cbn [flat_map] in Es. unfold declared, declared_name in Es.
    inversion Hrows as [|? ? [Hok2 _] _]; subst. destruct Hok2 as (_ & [Hn1 Hn2] & _). destruct (r_name r2) as [|c n]; [contradiction|]. injection Es as -> _.
    inversion Hn2 as [|? ? Hc _]; subst. vm_compute in Hc. lia.
  - apply clean_two; [exact HA|intros s; discriminate].
Qed.

(** Vectors *)
Lemma replace_vectors n rows : Forall (fun r => row_ok r /\ row_fits (Vecs n) r) rows ->
  replace (chars "Variable(") (chars "VectorVariable(" ++ n ++ chars ", ") (flat_map (fun r => declared Vars r ++ NL) rows) = flat_map (fun r => declared (Vecs n) r ++ NL) rows.
Proof.
  set (p := chars "Variable("). set (q := chars "VectorVariable(" ++ n ++ chars ", "). intros H.
  induction H as [|r rows [Hok [Hc Hfit]] Hrows IH]; [reflexivity|]. cbn [flat_map].
  pose proof Hok as (_ & Hn & Hv & _ & _ & _ & Hu & _ & _ & _ & _ & _ & _).
  assert (Lit : forall s, containsb p s = false -> ~ contains p s) by apply not_containsb.
  assert (Nn : ~ contains p (r_name r)) by (apply (not_contains_missing _ _ "("%char); [repeat (try (left; reflexivity); right)|apply ident_not; auto; not_ident]).
  assert (E : (declared Vars r ++ NL) = declared_name r ++ p ++ (call_args Vars r ++ NL)).
  { unfold declared. cbn [row_function]. change p with (chars "Variable" ++ chars "("). rewrite <- !app_assoc. reflexivity. }
  assert (E' : declared (Vecs n) r ++ NL = declared_name r ++ q ++ (call_args Vars r ++ NL)).
  { unfold declared, q. cbn [row_function]. change (chars "VectorVariable(") with (chars "VectorVariable" ++ chars "("). unfold call_args. rewrite <- !app_assoc. reflexivity. }
  rewrite E, E', <- !app_assoc. rewrite replace_at; [|discriminate|].
  - f_equal. f_equal. rewrite !app_assoc, replace_prefix, IH; [rewrite <- !app_assoc; reflexivity|]. apply clean_line; [discriminate|intros Hx; vm_compute in Hx; repeat (destruct Hx as [Hx|Hx]; [discriminate Hx|]); exact Hx|].
    assert (Hno : forall c, In c (chars "', )") -> ~ In c p).
    { intros c Hx Hy. vm_compute in Hx. destruct Hx as [<-|[<-|[<-|[<-|[]]]]]; vm_compute in Hy; repeat (destruct Hy as [Hy|Hy]; [discriminate Hy|]); exact Hy. }
    assert (Q : ~ In quote p) by (apply Hno; left; auto). assert (S : ~ In " "%char p) by (apply Hno; right; right; left; auto).
    assert (Nl : ~ contains p (esc (r_label r))).
    { intros Hx. apply esc_contains in Hx; [revert Hx; apply Hfit; right; left; auto|discriminate|auto|].
      intros Hx2; vm_compute in Hx2; repeat (destruct Hx2 as [Hx2|Hx2]; [discriminate Hx2|]); exact Hx2. }
    assert (Nu : ~ contains p (r_units r)) by (apply Hfit; left; auto).
    assert (Sep : forall x lit b, lit <> [] -> (forall c, In c lit -> In c (chars "', )")) -> ~ contains p x -> ~ contains p b -> ~ contains p (x ++ lit ++ b)).
    { intros x lit. revert x. induction lit as [|c lit IHl]; intros x b Hne Hlit Hx Hb; [contradiction|]. simpl app. apply not_contains_sep; [apply Hno, Hlit; left; auto|auto|].
      destruct lit as [|c2 lit]; [auto|]. apply (IHl [] b); [discriminate|intros; apply Hlit; right; auto|apply Lit; reflexivity|auto]. }
    assert (Lits : forall c, (In c (chars "'") \/ In c (chars "', ") \/ In c (chars "')") \/ In c (chars ", ")) -> In c (chars "', )")) by (intros c; simpl; tauto).
    assert (Nil : ~ contains p []) by (apply Lit; reflexivity).
    assert (T : ~ contains p (chars "'" ++ r_units r ++ chars "', " ++ chars "'" ++ esc (r_label r) ++ chars "')")).
    { apply (Sep []); [discriminate|auto|auto|]. apply Sep; [discriminate|auto|auto|]. apply (Sep []); [discriminate|auto|auto|].
      rewrite <- (app_nil_r (chars "')")). apply Sep; [discriminate|auto|auto|auto]. }
    unfold call_args, call_body. cbn [app]. rewrite <- !app_assoc. apply (Sep []); [discriminate|auto|auto|]. apply Sep; [discriminate|auto|auto|].
    unfold call_value. destruct (r_value r) as [[gap v]|]; [|exact T]. rewrite <- app_assoc. apply Sep; [discriminate|auto|apply Hfit; right; right; left; auto|exact T].
  - unfold declared_name. change (chars " = ") with (chars " =" ++ chars " "). rewrite !app_assoc. apply clean_snoc; [discriminate|intros Hx; vm_compute in Hx; repeat (destruct Hx as [Hx|Hx]; [discriminate Hx|]); exact Hx|].
    apply (not_contains_missing _ _ "("%char); [repeat (try (left; reflexivity); right)|]. rewrite !in_app_iff. intros [[[Hx|Hx]|Hx]|Hx];
      try (revert Hx; apply ident_not; auto; not_ident); vm_compute in Hx; repeat (destruct Hx as [Hx|Hx]; [discriminate Hx|]); exact Hx.
Qed.
