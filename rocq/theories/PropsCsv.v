(** C92: what a solution's CSV file says when read back. *)
From Coq Require Import Sorting.Sorted Permutation.
From Verif Require Import Base Globals Lookup Naming Layout Saved VarKeyProofs ReportProofs PropsLookup PropsLayout PropsNaming.
From Coq Require Import Reals Lra QArith Strings.String Strings.Ascii.
Local Open Scope list_scope.
Open Scope nat_scope.

(** ** Specification: reading CSV *)

(** A text split at a character *)
Fixpoint split_at (c : ascii) (s : string) : list string :=
  match s with
  | EmptyString => [""%string]
  | String d s' => if ascii_dec d c then ""%string :: split_at c s'
                   else match split_at c s' with f :: fs => String d f :: fs | [] => [String d ""] end
  end.
(** A variable as read: its model, name, lines of values, units and label *)
Record entry := Entry { e_model : string; e_name : string; e_lines : list (list string); e_units : string; e_label : string }.
Definition add_line (e : entry) (words : list string) : entry := Entry (e_model e) (e_name e) (e_lines e ++ [words]) (e_units e) (e_label e).
(** A line: after a blank one no model is given; a line with a model's name begins it; one without a variable's name goes on with the last variable's
    values. *)
Definition nonempty (s : string) : bool := negb (bool_decide (s = ""%string)).
Definition read_line (valcols : nat) (st : string * list entry) (line : string) : string * list entry :=
  let '(model, es) := st in
  match split_at "," line with
  | m :: name :: rest =>
      let model := if nonempty m then m else model in
      let words := List.filter nonempty (firstn valcols rest) in
      if nonempty name then (model, es ++ [Entry model name [words] (nth valcols rest ""%string) (nth (S valcols) rest ""%string)])
      else (model, match rev es with e :: es' => rev es' ++ [add_line e words] | [] => [] end)
  | _ => (""%string, es)
  end.
(** The columns are those of the header. *)
Definition read_csv (file : string) : list entry :=
  match split_at "010" file with
  | header :: lines => snd (fold_left (read_line (List.length (split_at "," header) - 4)) lines (""%string, []))
  | [] => []
  end.

(** Text that can be in a cell *)
Definition clean (s : string) : Prop := free "," s /\ free "010" s.
Definition a_word (s : string) : Prop := clean s /\ s <> ""%string.
(** The model of a variable, with numbers *)
Definition model_of (k : vkey) : string := match vk_lineage k with Some l => join "." (map numbered_model l) | None => ""%string end.
(** Lines show a value: a number by itself; the elements of an array each once, in lines of [w] at most *)
Definition shows {T} (fmt : option T -> string) (w : nat) (lines : list (list string)) (v : value (T := T)) : Prop :=
  match v with
  | Scalar c => lines = [[fmt c]]
  | Array shape val => (forall l, In l lines -> List.length l <= w) /\
      exists idxs, List.concat lines = map (fun i => fmt (val i)) idxs /\ NoDup idxs /\ forall i, In i idxs <-> index_of shape i
  end.
Definition entry_of {T} (fmt : option T -> string) (unitstr : vkey -> string) (w : nat) (e : entry) (kv : vkey * (value (T := T) * string)) : Prop :=
  e_model e = model_of (fst kv) /\ e_name e = vk_name (fst kv) /\ shows fmt w (e_lines e) (fst (snd kv)) /\ e_units e = unitstr (fst kv) /\ e_label e = snd (snd kv).
(** Values that are not all zero or nan *)
Definition some_value (v : value (T := R)) : Prop :=
  match v with Scalar c => exists x, c = Some x /\ x <> 0%R | Array shape val => exists i x, index_of shape i /\ val i = Some x /\ x <> 0%R end.
(** What the file is about: text without commas and line ends, arrays with elements *)
Definition csv_ok {T} (unitstr : vkey -> string) (vars : variables (T := T)) : Prop := forall k v label, In (k, (v, label)) vars ->
  clean (model_of k) /\ a_word (vk_name k) /\ clean (unitstr k) /\ clean label /\ match v with Scalar _ => True | Array shape _ => shape <> [] /\ forall n, In n shape -> 1 <= n end.

(** ** Lemmas on text *)

Lemma append_assoc_s a b c : ((a ++ b) ++ c)%string = (a ++ b ++ c)%string.
Proof. apply chars_inj. rewrite !chars_app, app_assoc. auto. Qed.
Lemma split_free c s : free c s -> split_at c s = [s].
Proof.
  unfold free. induction s as [|d s IH]; simpl; intros F; [auto|]. destruct (ascii_dec d c) as [->|]; [exfalso; auto|]. rewrite IH by auto. auto.
Qed.
Lemma split_cons c a b : free c a -> split_at c (a ++ String c b) = a :: split_at c b.
Proof.
  unfold free. induction a as [|d a IH]; intros F.
  - simpl. destruct (ascii_dec c c); [auto|contradiction].
  - simpl in F. change ((String d a ++ String c b)%string) with (String d (a ++ String c b)). cbn [split_at]. destruct (ascii_dec d c) as [->|]; [exfalso; auto|].
    rewrite IH by auto. auto.
Qed.
Lemma one_app c x : (String c "" ++ x)%string = String c x.
Proof. reflexivity. Qed.
Lemma nil_app x : ("" ++ x)%string = x.
Proof. reflexivity. Qed.
Lemma concat_cons x l : String.concat "" (x :: l) = (x ++ String.concat "" l)%string.
Proof. destruct l as [|y l]; simpl; [symmetry; apply app_nil_string|auto]. Qed.
Lemma concat_app_s l1 l2 : String.concat "" (l1 ++ l2) = (String.concat "" l1 ++ String.concat "" l2)%string.
Proof. induction l1 as [|x l1 IH]; [auto|]. rewrite <- app_comm_cons, !concat_cons, IH, append_assoc_s. auto. Qed.
Lemma free_app c a b : free c a -> free c b -> free c (a ++ b).
Proof. unfold free. rewrite chars_app, in_app_iff. tauto. Qed.
Lemma free_commas n : free "010" (commas n).
Proof. unfold free. induction n as [|n IH]; simpl; [auto|]. intros [H|H]; [discriminate H|auto]. Qed.
Lemma split_commas n s : split_at "," (commas n ++ s) = repeat ""%string n ++ split_at "," s.
Proof. induction n as [|n IH]; [auto|]. change ((commas (S n) ++ s)%string) with (String "," (commas n ++ s)). cbn [split_at repeat]. destruct (ascii_dec "," ","); [|contradiction]. rewrite IH. auto. Qed.
Lemma split_words words s : Forall clean words -> split_at "," (String.concat "" (map (fun w => (w ++ ",")%string) words) ++ s) = words ++ split_at "," s.
Proof.
  induction 1 as [|w words [Fw _] _ IH]; [auto|]. cbn [map]. rewrite concat_cons, !append_assoc_s. rewrite one_app, split_cons by auto. rewrite IH. auto.
Qed.

(** The text of a line after the model *)
Definition line_text (valcols : nat) (m name : string) (words : list string) (units label : string) : string :=
  (m ++ "," ++ name ++ "," ++ String.concat "" (map (fun w => w ++ ",") words) ++ commas (valcols - List.length words) ++ units ++ "," ++ label)%string.
Lemma line_fields valcols m name words units label : clean m -> clean name -> Forall clean words -> clean units -> clean label ->
  split_at "," (line_text valcols m name words units label) = m :: name :: words ++ repeat ""%string (valcols - List.length words) ++ [units; label].
Proof.
  intros [Fm _] [Fn _] Fw [Fu _] [Fl _]. unfold line_text. rewrite !one_app. rewrite split_cons by auto. f_equal. rewrite split_cons by auto. f_equal.
  rewrite split_words by auto. f_equal. rewrite split_commas. f_equal. rewrite split_cons by auto. f_equal. apply split_free. auto.
Qed.
Lemma line_clean valcols m name words units label : clean m -> clean name -> Forall clean words -> clean units -> clean label ->
  free "010" (line_text valcols m name words units label).
Proof.
  intros [_ Fm] [_ Fn] Fw [_ Fu] [_ Fl]. assert (Fc : free "010" ",") by (unfold free; simpl; intros [H|[]]; discriminate H). unfold line_text.
  repeat apply free_app; auto; [|apply free_commas]. induction Fw as [|w words [_ Hw] _ IH]; [unfold free; simpl; auto|]. cbn [map]. rewrite concat_cons.
  repeat apply free_app; auto.
Qed.
Lemma filter_blank n : List.filter nonempty (repeat ""%string n) = [].
Proof. induction n as [|n IH]; [auto|]. cbn [repeat List.filter]. change (nonempty "") with false. exact IH. Qed.
Lemma read_line_text valcols m name words units label cur es : clean m -> clean name -> Forall a_word words -> List.length words <= valcols -> clean units -> clean label ->
  read_line valcols (cur, es) (line_text valcols m name words units label) =
  let model := if nonempty m then m else cur in
  if nonempty name then (model, es ++ [Entry model name [words] units label])
  else (model, match rev es with e :: es' => rev es' ++ [add_line e words] | [] => [] end).
Proof.
  intros Cm Cn Cw Lw Cu Cl. unfold read_line. rewrite line_fields; auto; [|eapply Forall_impl; [exact Cw|intros w [H _]; exact H]].
  assert (E1 : firstn valcols (words ++ repeat ""%string (valcols - List.length words) ++ [units; label]) = words ++ repeat ""%string (valcols - List.length words)).
  { rewrite app_assoc, firstn_app. rewrite app_length, repeat_length. replace (valcols - (List.length words + (valcols - List.length words))) with 0 by lia.
    rewrite firstn_O, app_nil_r. apply firstn_all2. rewrite app_length, repeat_length. lia. }
  assert (E2 : List.filter nonempty (words ++ repeat ""%string (valcols - List.length words)) = words).
  { rewrite List.filter_app. rewrite filter_blank, app_nil_r.
    clear Lw E1. induction Cw as [|w words [_ Hw] _ IH]; simpl; [auto|]. unfold nonempty at 1. rewrite bool_decide_eq_false_2 by auto. simpl. rewrite IH. auto. }
  assert (E3 : forall j, nth (j + valcols) (words ++ repeat ""%string (valcols - List.length words) ++ [units; label]) ""%string = nth j [units; label] ""%string).
  { intros j. rewrite app_assoc, app_nth2; rewrite app_length, repeat_length; [f_equal; lia|lia]. }
  rewrite E1, E2. rewrite (E3 0 : nth valcols _ _ = units), (E3 1 : nth (S valcols) _ _ = label). auto.
Qed.

(** ** Rows *)

Section Csv.
Context {T : Type} `{Num T}.
Variables (fmt : option T -> string) (unitstr : vkey -> string).
Hypothesis fmt_word : forall c, a_word (fmt c).

(** A row that can be read *)
Definition row_ok (valcols : nat) (r : row) : Prop :=
  clean (r_model r) /\ a_word (r_name r) /\ clean (r_units r) /\ clean (r_label r) /\ r_lines r <> [] /\ forall l, In l (r_lines r) -> Forall a_word l /\ List.length l <= valcols.
Definition entry_row (r : row) : entry := Entry (r_model r) (r_name r) (r_lines r) (r_units r) (r_label r).

Lemma clean_empty : clean "".
Proof. split; unfold free; simpl; auto. Qed.
Lemma write_is valcols name words units label rest : (write_line valcols (Line name words units label) ++ rest)%string = (line_text valcols "" name words units label ++ String "010" rest)%string.
Proof. unfold write_line, line_text, newline. rewrite nil_app, !append_assoc_s, one_app. reflexivity. Qed.
Lemma write_model valcols m name words units label rest :
  (m ++ write_line valcols (Line name words units label) ++ rest)%string = (line_text valcols m name words units label ++ String "010" rest)%string.
Proof. rewrite write_is. unfold line_text. rewrite nil_app, !append_assoc_s. reflexivity. Qed.

(** The lines of values after the first *)
Lemma read_more valcols lines : (forall l, In l lines -> Forall a_word l /\ List.length l <= valcols) -> forall rest cur es e,
  fold_left (read_line valcols) (split_at "010" (String.concat "" (map (write_line valcols) (map (fun l => Line "" l "" "") lines)) ++ rest)) (cur, es ++ [e]) =
  fold_left (read_line valcols) (split_at "010" rest) (cur, es ++ [Entry (e_model e) (e_name e) (e_lines e ++ lines) (e_units e) (e_label e)]).
Proof.
  induction lines as [|l lines IH]; intros L rest cur es e.
  - simpl. rewrite app_nil_r. destruct e; auto.
  - cbn [map]. rewrite concat_cons, append_assoc_s, write_is. destruct (L l (or_introl eq_refl)) as [Wl Ll].
    assert (Cl : Forall clean l) by (eapply Forall_impl; [exact Wl|intros w [Hw _]; exact Hw]).
    rewrite split_cons by (apply line_clean; auto using clean_empty). cbn [fold_left]. rewrite read_line_text by auto using clean_empty.
    change (nonempty "") with false. cbv zeta iota. rewrite rev_app_distr. cbn [rev app]. rewrite rev_involutive.
    rewrite IH by (intros; apply L; right; auto). unfold add_line. cbn. rewrite <- app_assoc. auto.
Qed.
(** A row, after its model's name *)
Lemma read_row valcols r m rest cur es : row_ok valcols r -> clean m -> (m = ""%string -> cur = r_model r) -> (m <> ""%string -> m = r_model r) ->
  fold_left (read_line valcols) (split_at "010" (m ++ String.concat "" (map (write_line valcols) (row_lines r)) ++ rest)) (cur, es) =
  fold_left (read_line valcols) (split_at "010" rest) (r_model r, es ++ [entry_row r]).
Proof.
  intros (Cm & [Cn Nn] & Cu & Cl & Nl & L) Cmm M1 M2. unfold row_lines, entry_row. destruct (r_lines r) as [|l ls]; [contradiction|].
  cbn [map]. rewrite concat_cons, append_assoc_s. rewrite write_model. destruct (L l (or_introl eq_refl)) as [Wl Ll].
  assert (Cw : Forall clean l) by (eapply Forall_impl; [exact Wl|intros w [Hw _]; exact Hw]).
  rewrite split_cons by (apply line_clean; auto). cbn [fold_left]. rewrite read_line_text by auto. cbv zeta.
  assert (nonempty (r_name r) = true) as -> by (unfold nonempty; rewrite bool_decide_eq_false_2; auto).
  assert ((if nonempty m then m else cur) = r_model r) as ->.
  { unfold nonempty. destruct (bool_decide (m = ""%string)) eqn:E; [apply bool_decide_eq_true in E|apply bool_decide_eq_false in E]; simpl; auto. }
  rewrite read_more by (intros; apply L; right; auto). cbn. auto.
Qed.
Lemma read_blank valcols rest cur es : fold_left (read_line valcols) (split_at "010" (newline ++ rest)) (cur, es) = fold_left (read_line valcols) (split_at "010" rest) (""%string, es).
Proof. unfold newline. rewrite one_app. cbn [split_at]. destruct (ascii_dec "010" "010"); [|contradiction]. reflexivity. Qed.
Lemma read_table valcols l : Forall (row_ok valcols) l -> forall previous started cur es,
  (forall m, previous = Some m -> cur = m) -> (previous = None -> started = false /\ cur = ""%string) -> (started = false -> previous = None) ->
  snd (fold_left (read_line valcols) (split_at "010" (String.concat "" (map (write_line valcols) (table_lines previous started l)))) (cur, es)) = es ++ map entry_row l.
Proof.
  induction 1 as [|r l Hr _ IH]; intros previous started cur es P1 P2 P3.
  - simpl. rewrite app_nil_r. auto.
  - cbn [table_lines]. rewrite !map_app, !concat_app_s.
    assert (IH' : snd (fold_left (read_line valcols) (split_at "010" (String.concat "" (map (write_line valcols) (table_lines (Some (r_model r)) true l)))) (r_model r, es ++ [entry_row r])) = es ++ map entry_row (r :: l)).
    { rewrite IH; [rewrite <- app_assoc; auto|intros m [= <-]; auto|intros [=]|intros [=]]. }
    pose proof Hr as (Cm & _).
    destruct (bool_decide (previous = Some (r_model r))) eqn:E.
    + apply bool_decide_eq_true in E. cbn [map String.concat]. rewrite nil_app.
      pose proof (read_row valcols r "" (String.concat "" (map (write_line valcols) (table_lines (Some (r_model r)) true l))) cur es Hr clean_empty (fun _ => P1 _ E)) as R. rewrite nil_app in R.
      rewrite R by (intros X; contradiction). exact IH'.
    + apply bool_decide_eq_false in E.
      assert (G : forall cur', cur' = ""%string -> snd (fold_left (read_line valcols) (split_at "010" (String.concat "" (map (write_line valcols) (if bool_decide (r_model r = ""%string) then [] else [NewModel (r_model r)]))
                ++ String.concat "" (map (write_line valcols) (row_lines r)) ++ String.concat "" (map (write_line valcols) (table_lines (Some (r_model r)) true l)))) (cur', es)) = es ++ map entry_row (r :: l)).
      { intros cur' ->. destruct (bool_decide (r_model r = ""%string)) eqn:Em.
        - apply bool_decide_eq_true in Em. cbn [map String.concat]. rewrite nil_app.
          pose proof (read_row valcols r "" (String.concat "" (map (write_line valcols) (table_lines (Some (r_model r)) true l))) "" es Hr clean_empty (fun _ => eq_sym Em)) as R. rewrite nil_app in R.
          rewrite R by (intros X; contradiction). exact IH'.
        - apply bool_decide_eq_false in Em. cbn [map String.concat write_line]. rewrite (read_row valcols r (r_model r)) by (auto; intros X; contradiction). exact IH'. }
      destruct started.
      * rewrite map_app, concat_app_s, !append_assoc_s. cbn [map String.concat write_line]. rewrite read_blank. apply G. auto.
      * cbn [app]. rewrite ?append_assoc_s. apply G. apply P2. auto.
Qed.
End Csv.

Lemma Forall2_perm {A B} (P : A -> B -> Prop) l1 l1' : Permutation l1 l1' -> forall l2, Forall2 P l1 l2 -> exists l2', Permutation l2 l2' /\ Forall2 P l1' l2'.
Proof.
  induction 1 as [|x l l' _ IH|x y l|l l' l'' _ IH1 _ IH2]; intros m F.
  - inversion F; subst. exists []. auto.
  - inversion F as [|? b ? m' Pb F']; subst. destruct (IH m' F') as (m'' & Pm & F''). exists (b :: m''). auto.
  - inversion F as [|? b ? m' Pb F']; subst. inversion F' as [|? b' ? m'' Pb' F'']; subst. exists (b' :: b :: m''). split; [apply perm_swap|auto].
  - destruct (IH1 m F) as (m1 & P1 & F1). destruct (IH2 m1 F1) as (m2 & P2 & F2). exists m2. split; [etransitivity; eauto|auto].
Qed.
Lemma insert_row_perm x l : Permutation (insert_row x l) (x :: l).
Proof. induction l as [|y l IH]; simpl; [auto|]. destruct (row_leb x y); [auto|]. rewrite IH. apply perm_swap. Qed.
Lemma sort_rows_perm l : Permutation (sort_rows l) l.
Proof. induction l as [|x l IH]; simpl; [auto|]. rewrite insert_row_perm. constructor. exact IH. Qed.
Lemma row_leb_total a b : row_leb a b = false -> row_leb b a = true.
Proof.
  unfold row_leb. rewrite (String.compare_antisym (r_model b)). destruct (String.compare (r_model a) (r_model b)); simpl; try congruence.
  rewrite (String.compare_antisym (r_name b)). destruct (r_array a), (r_array b), (String.compare (r_name a) (r_name b)); simpl; congruence.
Qed.
Lemma insert_row_sorted x l : Sorted (fun a b => row_leb a b = true) l -> Sorted (fun a b => row_leb a b = true) (insert_row x l).
Proof.
  induction 1 as [|y l Hs IH Hy]; simpl; [repeat constructor|]. destruct (row_leb x y) eqn:E; [repeat constructor; auto|].
  apply row_leb_total in E. constructor; [exact IH|]. destruct l as [|z l]; simpl in *; [constructor; auto|]. inversion Hy; subst. destruct (row_leb x z); constructor; auto.
Qed.
Lemma sort_rows_sorted l : Sorted (fun a b => row_leb a b = true) (sort_rows l).
Proof. induction l; simpl; [constructor|apply insert_row_sorted; auto]. Qed.

Lemma fold_max_ge l : forall d, d <= fold_left Nat.max l d.
Proof. induction l as [|x l IH]; intros d; simpl; [auto|]. specialize (IH (Nat.max d x)). lia. Qed.
Lemma columns_range {T} (vars : variables (T := T)) valcols : 1 <= valcols -> 1 <= columns vars valcols <= valcols.
Proof.
  intros V. unfold columns. pose proof (fold_max_ge (spans vars) 1). set (mx := fold_left Nat.max (spans vars) 1) in *.
  destruct (spans vars) as [|d ds]; [destruct (Nat.ltb_spec mx valcols); lia|]. destruct (Nat.ltb_spec valcols (fold_left Nat.min ds d)).
  - destruct (Nat.ltb_spec mx 1); lia.
  - destruct (Nat.ltb_spec mx valcols); lia.
Qed.
Lemma chunks_len {A} n fuel : forall (l : list A) c, In c (chunks fuel n l) -> List.length c <= n.
Proof.
  induction fuel as [|fuel IH]; intros [|x l] c Hc; cbn [chunks] in Hc; try (destruct Hc; fail). destruct Hc as [<-|Hc]; [rewrite firstn_length; lia|eauto].
Qed.
Lemma lines_len {A} mc shape (val : list nat -> A) l : shape <> [] -> 1 <= mc -> In l (lines mc shape val) -> List.length l <= mc.
Proof.
  intros Hs Hm Hl. unfold lines in Hl. apply chunks_len in Hl. destruct (layout mc shape) as [h n] eqn:E. destruct (layout_spec mc shape h n Hs E) as (_ & _ & [[_ ->]|[_ Hn]]); simpl in Hl; lia.
Qed.
Lemma lines_some {A} mc shape (val : list nat -> A) : shape <> [] -> (forall n, In n shape -> 1 <= n) -> lines mc shape val <> [].
Proof.
  intros Hs Hp E. destruct (C66_every_element A mc shape val Hs) as (printed & Ec & _ & Hi). rewrite E in Ec. destruct printed; [|discriminate Ec].
  apply (proj2 (Hi (map (fun _ => 0) shape))). clear - Hp. unfold index_of. induction shape as [|n shape IH]; simpl; constructor; [apply (Hp n); left; auto|apply IH; intros; apply Hp; right; auto].
Qed.
Lemma path_is l : path l = join "." (map numbered_model l).
Proof. unfold path. f_equal. apply map_ext. intros [m [|n]]; reflexivity. Qed.

Section Rows.
Context {T : Type} `{Num T}.
Variables (fmt : option T -> string) (unitstr : vkey -> string).
Hypothesis fmt_word : forall c, a_word (fmt c).
Variable vars : variables (T := T).
Hypothesis ok : csv_ok unitstr vars.

Lemma row_of_ok mc k v : 1 <= mc -> In (k, v) vars -> row_ok mc (row_of fmt unitstr mc k v).
Proof.
  intros Hm Hk. destruct v as [v label]. destruct (ok k v label Hk) as (Cm & Cn & Cu & Cl & Cv). unfold row_ok, row_of. cbn [r_model r_name r_units r_label r_lines fst snd].
  split; [unfold model_of in Cm; destruct (vk_lineage k); rewrite ?path_is; auto|]. split; [auto|]. split; [auto|]. split; [auto|].
  destruct v as [c|shape val].
  - split; [discriminate|]. intros l [<-|[]]. split; [repeat constructor; apply fmt_word|simpl; lia].
  - destruct Cv as [Hs Hp]. split.
    + intros E. apply map_eq_nil in E. apply (lines_some mc shape val Hs Hp E).
    + intros l Hl. apply in_map_iff in Hl as (l' & <- & Hl). rewrite map_length. split; [|apply (lines_len mc shape val l' Hs Hm Hl)].
      clear Hl. induction l'; simpl; constructor; auto.
Qed.
Lemma row_of_entry mc w k v : 1 <= mc <= w -> In (k, v) vars -> entry_of fmt unitstr w (entry_row (row_of fmt unitstr mc k v)) (k, v).
Proof.
  intros Hm Hk. destruct v as [v label]. destruct (ok k v label Hk) as (_ & _ & _ & _ & Cv). unfold entry_of, entry_row, row_of. cbn [r_model r_name r_units r_label r_lines fst snd e_model e_name e_lines e_units e_label].
  split; [unfold model_of; destruct (vk_lineage k); rewrite ?path_is; auto|]. split; [auto|]. split; [|auto].
  destruct v as [c|shape val]; cbn [shows]; [auto|]. destruct Cv as [Hs Hp]. split.
  - intros l Hl. apply in_map_iff in Hl as (l' & <- & Hl). rewrite map_length. etransitivity; [apply (lines_len mc shape val l' Hs (proj1 Hm) Hl)|lia].
  - destruct (C66_every_element _ mc shape val Hs) as (printed & Ec & Np & Hi). exists printed. split; [|auto].
    rewrite <- concat_map, Ec, map_map. auto.
Qed.
Lemma header valcols rest : 1 <= valcols ->
  exists h, split_at "010" ("Model Name,Variable Name,Value(s)" ++ commas valcols ++ "Units,Description" ++ newline ++ rest) = h :: split_at "010" rest /\ List.length (split_at "," h) - 4 = valcols.
Proof.
  intros V. exists ("Model Name,Variable Name,Value(s)" ++ commas valcols ++ "Units,Description")%string. split.
  - unfold newline. rewrite one_app, <- !append_assoc_s. rewrite split_cons; [rewrite !append_assoc_s; auto|].
    repeat apply free_app; [|apply free_commas|]; (unfold free; simpl; intros X; repeat (destruct X as [X|X]; [discriminate X|]); exact X).
  - destruct valcols as [|n]; [lia|]. cbn [commas].
    change ("Model Name,Variable Name,Value(s)" ++ String "," (commas n) ++ "Units,Description")%string with
      ("Model Name" ++ String "," ("Variable Name" ++ String "," ("Value(s)" ++ String "," (commas n ++ "Units,Description"))))%string.
    rewrite !split_cons by (unfold free; simpl; intros X; repeat (destruct X as [X|X]; [discriminate X|]); exact X). rewrite split_commas.
    change "Units,Description"%string with ("Units" ++ String "," "Description")%string. rewrite split_cons by (unfold free; simpl; intros X; repeat (destruct X as [X|X]; [discriminate X|]); exact X).
    cbn [List.length]. rewrite app_length, repeat_length. simpl. lia.
Qed.
Lemma read_written valcols : 1 <= valcols -> read_csv (savecsv fmt unitstr vars valcols) = map entry_row (sort_rows (rows fmt unitstr (columns vars valcols) vars)).
Proof.
  intros V. destruct (columns_range vars valcols V) as [V1 V2]. unfold savecsv. set (vc := columns vars valcols) in *. unfold read_csv.
  destruct (header vc (String.concat "" (map (write_line vc) (table_lines None false (sort_rows (rows fmt unitstr vc vars))))) V1) as (h & -> & ->).
  rewrite read_table; auto.
  - rewrite sort_rows_perm. unfold rows. apply List.Forall_forall. intros r Hr. apply in_flat_map in Hr as ([k v] & Hk & Hr). cbn [fst snd] in Hr.
    destruct (skipped (fst v)); [destruct Hr|]. destruct Hr as [<-|[]]. apply row_of_ok; auto.
  - intros m [=].
Qed.
End Rows.
Lemma skipped_iff (v : value (T := R)) : skipped v = false <-> some_value v.
Proof.
  assert (Z : forall x : R, nleb (nabs x) n0 = false <-> x <> 0%R).
  { intros x. change (nleb (nabs x) n0) with (Rleb (nabs x) 0%R). rewrite nabs_R. destruct (Rleb (Rabs x) 0%R) eqn:E.
    - split; [discriminate|]. intros N. exfalso. apply N. apply Rleb_true in E. pose proof (Rabs_pos x). destruct (Req_dec x 0) as [|D]; [auto|]. apply Rabs_pos_lt in D. lra.
    - split; [|auto]. intros _ ->. apply not_true_iff_false in E. apply E. apply Rleb_true. rewrite Rabs_R0. lra. }
  unfold skipped, some_value, cells. destruct v as [c|shape val].
  - simpl. destruct c as [x|]; rewrite ?andb_true_r.
    + rewrite Z. split; [eauto|]. intros (y & [= <-] & D). auto.
    + split; [discriminate|]. intros (y & [=] & _).
  - rewrite <- not_true_iff_false, forallb_forall. split.
    + intros N. destruct (existsb (fun i => match val i with Some x => negb (nleb (nabs x) n0) | None => false end) (indices shape)) eqn:E.
      * apply existsb_exists in E as (i & Hi & E). destruct (val i) as [x|] eqn:Ev; [|discriminate E]. apply negb_true_iff in E. exists i, x. split; [apply indices_In; auto|]. split; [auto|apply Z; auto].
      * exfalso. apply N. intros c Hc. apply in_map_iff in Hc as (i & <- & Hi). destruct (val i) as [x|] eqn:Ev; [|auto].
        destruct (nleb (nabs x) n0) eqn:Ex; [auto|]. assert (F : existsb (fun i => match val i with Some x => negb (nleb (nabs x) n0) | None => false end) (indices shape) = true); [|congruence].
        apply existsb_exists. exists i. split; [auto|]. rewrite Ev. cbv beta iota. rewrite Ex. auto.
    + intros (i & x & Hi & Ev & D) A. apply Z in D. specialize (A (val i)). rewrite Ev in A. rewrite A in D; [discriminate D|]. rewrite <- Ev. apply in_map, indices_In. auto.
Qed.

(** ** C92 *)

(** Read back, a CSV file has the solution's variables with a value, each once, with its model, name, values, units and label, in the order of models.
    What is missing: text with commas, and variables that are 0. *)
Theorem C92_read_partial : forall (fmt : option R -> string) unitstr (vars : variables (T := R)) valcols,
  (forall c, a_word (fmt c)) -> NoDup (map fst vars) -> csv_ok unitstr vars -> 1 <= valcols ->
  exists vs, Forall2 (entry_of fmt unitstr valcols) (read_csv (savecsv fmt unitstr vars valcols)) vs /\
    NoDup (map fst vs) /\ (forall k v, In (k, v) vs <-> In (k, v) vars /\ some_value (fst v)) /\
    Sorted (fun a b => String.compare (e_model a) (e_model b) <> Gt) (read_csv (savecsv fmt unitstr vars valcols)).
Proof.
  intros fmt unitstr vars valcols W N Ok V. rewrite read_written by auto. destruct (columns_range vars valcols V) as [V1 V2]. set (vc := columns vars valcols) in *.
  set (vs0 := List.filter (fun kv => negb (skipped (fst (snd kv)))) vars).
  assert (F : Forall2 (entry_of fmt unitstr valcols) (map entry_row (rows fmt unitstr vc vars)) vs0).
  { unfold rows, vs0. assert (G : forall l, (forall kv, In kv l -> In kv vars) ->
      Forall2 (entry_of fmt unitstr valcols) (map entry_row (flat_map (fun kv => if skipped (fst (snd kv)) then [] else [row_of fmt unitstr vc (fst kv) (snd kv)]) l)) (List.filter (fun kv => negb (skipped (fst (snd kv)))) l)).
    { induction l as [|[k v] l IH]; intros L; simpl; [constructor|]. destruct (skipped (fst v)); simpl; [apply IH; intros; apply L; right; auto|].
      constructor; [apply (row_of_entry fmt unitstr vars Ok); [lia|apply L; left; auto]|apply IH; intros; apply L; right; auto]. }
    apply G. auto. }
  assert (P : Permutation (map entry_row (rows fmt unitstr vc vars)) (map entry_row (sort_rows (rows fmt unitstr vc vars)))) by (apply Permutation_map; symmetry; apply sort_rows_perm).
  destruct (Forall2_perm _ _ _ P _ F) as (vs & Pv & Fv). exists vs. split; [exact Fv|]. split.
  - rewrite <- Pv. unfold vs0. clear - N. induction vars as [|[k v] vars IH]; simpl in *; [constructor|]. inversion N as [|? ? Nk Nv]; subst. destruct (skipped (fst v)); simpl; [auto|].
    constructor; [|auto]. rewrite elem_of_list_In in *. intros Hk. apply Nk. apply in_map_iff in Hk as (x & E & Hx). apply filter_In in Hx as [Hx _]. apply in_map_iff. eauto.
  - split.
    + intros k v. assert (Q : In (k, v) vs <-> In (k, v) vs0) by (split; apply Permutation_in; [symmetry|]; exact Pv). rewrite Q. unfold vs0. rewrite filter_In, negb_true_iff. cbn [snd]. rewrite skipped_iff. tauto.
    + pose proof (sort_rows_sorted (rows fmt unitstr vc vars)) as S. clear P F Fv. induction S as [|r l _ IH Hr]; simpl; [constructor|]. constructor; [exact IH|]. destruct Hr as [|r' l Hr]; simpl; constructor.
      unfold row_leb in Hr. cbn. intros E. rewrite E in Hr. discriminate Hr.
Qed.
Print Assumptions C92_read_partial.

(** A variable that is 0 is not in the file. *)
Definition word_R (c : option R) : string := "v"%string.
Lemma word_R_word c : a_word (word_R c).
Proof. split; [|discriminate]. split; unfold free; simpl; intros [X|[]]; discriminate X. Qed.
Definition only_x (c : R) (label : string) : variables (T := R) := [(VKey "x" None None "", (Scalar (Some c), label))].
Theorem C92_zero_refuted : exists vars : variables (T := R), vars <> [] /\ csv_ok (fun _ => ""%string) vars /\
  forall valcols, 1 <= valcols -> read_csv (savecsv word_R (fun _ => ""%string) vars valcols) = [].
Proof.
  exists (only_x 0%R ""). assert (Ok : csv_ok (fun _ => ""%string) (only_x 0%R "")).
  { intros k v l [[= <- <- <-]|[]]. repeat split; unfold free; simpl; auto; try (intros [X|[]]; discriminate X); discriminate. }
  split; [discriminate|]. split; [exact Ok|]. intros vc V. rewrite read_written; auto using word_R_word.
  unfold rows, only_x. cbn [flat_map fst snd]. assert (skipped (Scalar (Some 0%R)) = true) as ->; [|reflexivity].
  destruct (skipped (Scalar (Some 0%R))) eqn:E; [auto|]. apply skipped_iff in E as (x & [= <-] & D). contradiction.
Qed.
Print Assumptions C92_zero_refuted.
(** A comma in a label is not quoted: the label that is read ends there. *)
Definition word_Q (c : option Q) : string := match c with Some q => if Qeq_bool q 1 then "1" else "2" | None => "-" end%string.
Theorem C92_comma_refuted : exists (vars : variables (T := Q)), map (fun e => (e_name e, e_label e)) (read_csv (savecsv word_Q (fun _ => ""%string) vars 5)) = [("x"%string, "area"%string)] /\
  map (fun kv => (vk_name (fst kv), snd (snd kv))) vars = [("x"%string, "area, wetted"%string)].
Proof. exists [(VKey "x" None None "", (Scalar (Some 1%Q), "area, wetted"%string))]. vm_compute. auto. Qed.
Print Assumptions C92_comma_refuted.

(** A file: the text, and what is read *)
Definition wing_vars : variables (T := Q) :=
  [(VKey "c" (Some [("Wing"%string, 1)]) None "m", (Array [3] (fun i => Some (inject_Z (Z.of_nat (1 + nth 0 i 0)))), "chord"%string));
   (VKey "S" (Some [("Wing"%string, 1)]) None "m^2", (Scalar (Some 1%Q), "area"%string)); (VKey "W" None None "N", (Scalar (Some 2%Q), ""%string))].
Definition units_ (k : vkey) : string := vk_units k.
Definition nl := String "010" EmptyString.
Example C92_example : csv_ok units_ wing_vars /\ NoDup (map fst wing_vars) /\
  savecsv word_Q units_ wing_vars 5 = ("Model Name,Variable Name,Value(s),,,Units,Description" ++ nl ++ ",W,2,,,N," ++ nl ++ nl ++ "Wing1,S,1,,,m^2,area" ++ nl ++ ",c,1,2,2,m,chord" ++ nl)%string /\
  read_csv (savecsv word_Q units_ wing_vars 5) = [Entry "" "W" [["2"]] "N" ""; Entry "Wing1" "S" [["1"]] "m^2" "area"; Entry "Wing1" "c" [["1"; "2"; "2"]] "m" "chord"]%string /\
  read_csv (savecsv word_Q units_ wing_vars 2) = [Entry "" "W" [["2"]] "N" ""; Entry "Wing1" "S" [["1"]] "m^2" "area"; Entry "Wing1" "c" [["1"]; ["2"]; ["2"]] "m" "chord"]%string.
Proof.
  split; [|split; [apply (bool_decide_unpack _); vm_compute; exact I|split; [vm_compute; reflexivity|split; vm_compute; reflexivity]]].
  assert (C : forall s, forallb (fun c => negb (bool_decide (c = ","%char)) && negb (bool_decide (c = "010"%char))) (chars s) = true -> clean s).
  { intros s E. rewrite forallb_forall in E. split; intros X; specialize (E _ X); vm_compute in E; discriminate E. }
  intros k v l [[= <- <- <-]|[[= <- <- <-]|[[= <- <- <-]|[]]]]; (split; [apply C; reflexivity|split; [split; [apply C; reflexivity|discriminate]|split; [apply C; reflexivity|split; [apply C; reflexivity|]]]]); auto.
  split; [discriminate|]. intros n [<-|[]]. lia.
Qed.
