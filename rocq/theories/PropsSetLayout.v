(** C97: Printed sets of constraints. *)
From Coq Require Import NArith Ascii String.
From Verif Require Import Base ConTable ConTableProofs SetLayout SetLayoutSpec SetLayoutProofs.
Open Scope nat_scope.
Local Open Scope list_scope.

Lemma lineagestr_no_newline lineage : (forall name num, In (name, num) lineage -> plain name) -> ~ In newline (lineagestr lineage).
Proof.
  induction lineage as [|[name num] [|l ls] IH]; intros H.
  - intros [].
  - apply plain_name, (H name num). left. reflexivity.
  - cbn [lineagestr]. intros Hi. apply in_app_or in Hi as [Hi|[E|Hi]]; [|discriminate|].
    + revert Hi. apply plain_name, (H name num). left. reflexivity.
    + revert Hi. apply IH. intros n' m' Hi. apply (H n' m'). right. exact Hi.
Qed.
Lemma rootlines_no_newline lineage cost : (forall name num, In (name, num) lineage -> plain name) -> (forall t, cost = Some t -> ~ In newline t) ->
  forall l, In l (rootlines lineage cost) -> ~ In newline l.
Proof.
  intros Hl Hc. pose proof (lineagestr_no_newline lineage Hl) as Hn. assert (Hd : forall l, In l (rootlines [] cost) -> ~ In newline l).
  { destruct cost as [t|]; cbn [rootlines]; intros l Hi; repeat destruct Hi as [<-|Hi]; try contradiction; try (vm_compute; intuition discriminate).
    intros [E|Hi]; [discriminate|]. revert Hi. apply Hc. reflexivity. }
  destruct lineage as [|x ls]; [exact Hd|]. intros l [<-|[<-|Hi]]; [exact Hn| |apply Hd, Hi]. intros Hi. apply repeat_spec in Hi. discriminate.
Qed.
Lemma constraints_part_root lineage cost ls : constraints_part (rootlines lineage cost ++ ls) = ls.
Proof.
  assert (Hd : constraints_part (rootlines [] cost ++ ls) = ls).
  { destruct cost as [t|]; cbn [rootlines app constraints_part]; repeat (rewrite bool_decide_eq_false_2 by (intros [E1 E2]; discriminate)); rewrite bool_decide_eq_true_2 by (split; reflexivity); reflexivity. }
  destruct lineage as [|x l]; [exact Hd|].
  change (rootlines (x :: l) cost) with (lineagestr (x :: l) :: repeat 61%N (length (lineagestr (x :: l))) :: rootlines [] cost).
  generalize (lineagestr (x :: l)). intros u. rewrite <- Hd at 2. cbn [app constraints_part].
  rewrite bool_decide_eq_false_2 by (intros [_ E]; destruct u; discriminate). destruct cost; cbn [rootlines app];
  rewrite bool_decide_eq_false_2 by (intros [_ E]; discriminate); reflexivity.
Qed.

(** Of the full claim, sets are missing that have groups with a name and nothing in them, and texts of more than one line; names of groups that are models are
    not asked for. *)
Theorem C97_layout_partial (head : option (option text)) (shorten names : bool) (lineage : list (text * nat)) (els : list (option text * cset)) :
  (forall t, head = Some (Some t) -> ~ In newline t) ->
  readable names (CSet lineage els) ->
  read (bool_decide (head <> None)) (str_without head shorten names lineage els) = contents names (CSet lineage els).
Proof.
  intros Hh Hr. inversion Hr as [| | |l' els' Hl He]; subst. unfold read, str_without, lines_without.
  set (indent := lineage_indent lineage ++ (if shorten then [space] else [])).
  set (body := map (fun l => rstrip (indent ++ l)) (recursively_line names els [])).
  assert (Hind : forall x, read_line (rstrip (indent ++ x)) = option_map (shift (length indent)) (read_line x)).
  { intros x. rewrite read_line_rstrip. unfold indent. destruct lineage, shorten; cbn [lineage_indent app length];
    rewrite ?read_line_space; destruct (read_line x) as [[i t]|]; reflexivity. }
  assert (Hbody : read_block [] (omap read_line body) = contents names (CSet lineage els)).
  { unfold body. rewrite (omap_shift _ (length indent)) by exact Hind. rewrite recursively_enc; [|exact He|intros k c Hi; apply clines_enc; eapply readable_el; eauto].
    change (omap read_line []) with (@nil (nat * text)). cbn [app]. pose proof (reads_enc names (CSet lineage els) (length indent) Hr [] [] I) as H.
    rewrite !app_nil_r in H. rewrite under_nil in H. exact H. }
  assert (Hnl : forall l, In l body -> ~ In newline l).
  { intros l Hi. apply in_map_iff in Hi as (y & <- & Hy). apply no_newline_in_rstrip. intros Hi.
    assert (Hn : ~ In newline y). { revert y Hy Hi. intros y Hy _. revert y Hy. apply (els_no_newline names els He); [|intros ? []]. intros k c Hi Hrc. apply clines_no_newline. exact Hrc. }
    apply in_app_or in Hi as [Hi|Hi]; [|auto]. unfold indent in Hi. apply in_app_or in Hi as [Hi|Hi].
    - destruct lineage; [exact Hi|]. destruct Hi as [E|[]]. discriminate.
    - destruct shorten; [|exact Hi]. destruct Hi as [E|[]]. discriminate. }
  destruct head as [cost|].
  - rewrite bool_decide_eq_true_2 by discriminate. rewrite split_join.
    + rewrite constraints_part_root. exact Hbody.
    + destruct lineage, cost; discriminate.
    + intros l Hi. apply in_app_or in Hi as [Hi|Hi]; [|auto]. eapply rootlines_no_newline; [exact Hl| |exact Hi]. intros t ->. apply Hh. reflexivity.
  - rewrite bool_decide_eq_false_2 by (intros H; apply H; reflexivity). cbn [app]. destruct body as [|x b] eqn:Eb; [exact Hbody|].
    rewrite split_join; [exact Hbody|discriminate|exact Hnl].
Qed.
Print Assumptions C97_layout_partial.

(** A model of an aircraft with two wings, one of them empty, and a group with a name *)
Lemma plain_chars (s : string) : (negb (existsb (fun c => (c =? newline)%N) (chars s)) && match chars s with c :: _ => negb (is_space c) | [] => false end && match rev (chars s) with c :: _ => negb (is_space c) | [] => false end)%bool = true -> plain (chars s).
Proof.
  intros H. apply andb_true_iff in H as [H Hl]. apply andb_true_iff in H as [Hn Hf]. split; [|split].
  - intros Hi. apply negb_true_iff in Hn. assert (existsb (fun c => (c =? newline)%N) (chars s) = true); [|congruence]. apply existsb_exists. exists newline. split; [exact Hi|apply N.eqb_refl].
  - destruct (chars s) as [|c t]; [discriminate|]. exists c, t. split; [reflexivity|apply negb_true_iff, Hf].
  - destruct (rev (chars s)) as [|c t] eqn:E; [discriminate|]. exists (rev t), c. split; [|apply negb_true_iff, Hl]. apply (f_equal (@rev N)) in E. rewrite rev_involutive in E. exact E.
Qed.
Definition aircraft : list (option text * cset) :=
  [(None, Con (chars "W >= 1"));
   (None, CSet [(chars "Aircraft", 0); (chars "Wing", 0)] [(None, Con (chars "S >= W")); (Some (chars "drag"), Lst [(None, Con (chars "D >= S")); (None, Lst [(None, Con (chars "D >= 2"))])])]);
   (Some (chars "tail"), CSet [(chars "Aircraft", 0); (chars "Wing", 1)] []);
   (None, Con (chars "V >= 3"))].
Lemma aircraft_readable : readable true (CSet [(chars "Aircraft", 0)] aircraft).
Proof.
  constructor.
  - intros name num [E|[]]. injection E as <- <-. apply plain_chars. reflexivity.
  - intros k c Hi. repeat (destruct Hi as [E|Hi]; [injection E as <- <-|]); [| | | |contradiction].
    + constructor; [constructor; apply plain_chars; reflexivity|discriminate].
    + constructor; [|discriminate]. constructor.
      * intros name num [E|[E|[]]]; injection E as <- <-; apply plain_chars; reflexivity.
      * intros k c Hi. repeat (destruct Hi as [E|Hi]; [injection E as <- <-|]); [| |contradiction].
        -- constructor; [constructor; apply plain_chars; reflexivity|discriminate].
        -- constructor.
           ++ constructor. intros k c Hi. repeat (destruct Hi as [E|Hi]; [injection E as <- <-|]); [| |contradiction].
              ** constructor; [constructor; apply plain_chars; reflexivity|discriminate].
              ** constructor; [|discriminate]. constructor. intros k c [E|[]]. injection E as <- <-. constructor; [constructor; apply plain_chars; reflexivity|discriminate].
           ++ intros key E _ _. injection E as <-. split; [vm_compute; intuition discriminate|discriminate].
    + constructor; [|discriminate]. constructor; [|intros k c []]. intros name num [E|[E|[]]]; injection E as <- <-; apply plain_chars; reflexivity.
    + constructor; [constructor; apply plain_chars; reflexivity|discriminate].
Qed.
Example C97_nonvacuous :
  readable true (CSet [(chars "Aircraft", 0)] aircraft) /\
  lines_without (Some (Some (chars "W"))) true true [(chars "Aircraft", 0)] aircraft =
  map chars ["Aircraft"; "========"; ""; "Cost Function"; "-------------"; " W"; ""; "Constraints"; "-----------";
             "  W >= 1"; ""; "  Wing"; "   S >= W"; "   ""drag"":"; "     D >= S"; "     D >= 2"; ""; "  Wing1"; "   (no constraints)"; "  V >= 3"]%string /\
  read true (str_without (Some (Some (chars "W"))) true true [(chars "Aircraft", 0)] aircraft) =
  [([], chars "W >= 1"); ([chars "Wing"], chars "S >= W"); ([chars "Wing"; chars """drag"":"], chars "D >= S"); ([chars "Wing"; chars """drag"":"], chars "D >= 2");
   ([chars "Wing1"], chars "(no constraints)"); ([], chars "V >= 3")].
Proof. split; [apply aircraft_readable|]. split; vm_compute; reflexivity. Qed.

(** A group with a name and nothing in it looks like a constraint. *)
Theorem C97_empty_refuted :
  exists (els : list (option text * cset)),
  (forall k c, In (k, c) els -> readable true c) /\ contents true (CSet [] els) = [] /\ read false (str_without None false true [] els) <> [].
Proof.
  exists [(Some (chars "drag"), Lst [])]. split; [|split; [reflexivity|vm_compute; discriminate]].
  intros k c [E|[]]. injection E as <- <-. constructor. intros k c [].
Qed.
Print Assumptions C97_empty_refuted.
(** Constraints whose texts have several lines cannot be told from headings. *)
Theorem C97_lines_refuted :
  exists (s : text), read false (str_without None false true [] [(None, Con s)]) <> [([], s)] /\
  read false (str_without None false true [] [(None, Con s)]) = read false (str_without None false true [] [(None, CSet [(chars "x >= [1", 0)] [(None, Con (chars "2]"))])]).
Proof. exists (chars "x >= [1" ++ newline :: chars "      2]"). split; vm_compute; [discriminate|reflexivity]. Qed.
Print Assumptions C97_lines_refuted.
(** Names given to models by a dictionary are not printed: which is the left one cannot be seen. *)
Theorem C97_keys_refuted :
  exists (els els' : list (option text * cset)), els <> els' /\ map snd els = map snd els' /\ (forall k c, In (k, c) els -> k <> None) /\
  forall head shorten lineage, str_without head shorten true lineage els = str_without head shorten true lineage els'.
Proof.
  set (wing n := CSet [(chars "Wing", n)] [(None, Con (chars "S >= 1"))]).
  exists [(Some (chars "left"), wing 0); (Some (chars "right"), wing 1)], [(Some (chars "right"), wing 0); (Some (chars "left"), wing 1)].
  split; [intros E; apply (f_equal (map fst)) in E; discriminate|]. split; [reflexivity|]. split; [|reflexivity].
  intros k c [E|[E|[]]]; injection E as <- <-; discriminate.
Qed.
Print Assumptions C97_keys_refuted.

(** ** LaTeX *)

(** The constraints, in order *)
Fixpoint tex_of (c : lset) : list text :=
  match c with LCon tex => [tex] | LPlain _ els | LSet els => flat_map tex_of els end.
(** Texts of one line that do not look like rows; no plain lists, and no empty sets *)
Inductive proper : lset -> Prop :=
  | p_con tex : ~ In newline tex -> firstn 6 tex <> chars "    & " -> proper (LCon tex)
  | p_set els : els <> [] -> (forall c, In c els -> proper c) -> proper (LSet els).
(** A row of the array *)
Definition row (tex : text) : text := chars "    & " ++ tex ++ chars " \\".

Section lind.
Context (P : lset -> Prop) (Hcon : forall t, P (LCon t)) (Hpl : forall s els, (forall c, In c els -> P c) -> P (LPlain s els)) (Hset : forall els, (forall c, In c els -> P c) -> P (LSet els)).
Fixpoint lset_ind' (c : lset) : P c :=
  let all := fix all (els : list lset) : forall c, In c els -> P c :=
    match els with
    | [] => fun c H => match H with end
    | c0 :: els' => fun c H => match H with or_introl E => match E in _ = y return P y with eq_refl => lset_ind' c0 end | or_intror H' => all els' c H' end
    end in
  match c with LCon t => Hcon t | LPlain s els => Hpl s els (all els) | LSet els => Hset els (all els) end.
End lind.

Lemma tex_ne c : proper c -> tex_of c <> [].
Proof.
  induction c as [t|s els IH|els IH] using lset_ind'; intros H; inversion H; subst; [discriminate|]. cbn [tex_of]. destruct els as [|c els]; [contradiction|].
  cbn [flat_map]. intros E. apply app_eq_nil in E as [E _]. revert E. apply IH; [left; reflexivity|]. match goal with F : forall c, In c _ -> proper c |- _ => apply F; left; reflexivity end.
Qed.
Lemma join_app a b : a <> [] -> b <> [] -> join_lines (a ++ b) = join_lines a ++ newline :: join_lines b.
Proof.
  induction a as [|x a IH]; intros Ha Hb; [contradiction|]. destruct a as [|y a].
  - destruct b; [contradiction|reflexivity].
  - cbn [app join_lines]. cbn [app join_lines] in IH. rewrite IH by (auto; discriminate). rewrite <- app_assoc. reflexivity.
Qed.
Lemma join_concat (lss : list (list text)) : (forall ls, In ls lss -> ls <> []) -> join_lines (map join_lines lss) = join_lines (List.concat lss).
Proof.
  induction lss as [|ls lss IH]; intros H; [reflexivity|]. destruct lss as [|ls' lss]; [cbn [map join_lines List.concat]; rewrite app_nil_r; reflexivity|].
  cbn [map List.concat] in *. change (join_lines (join_lines ls :: join_lines ls' :: map join_lines lss)) with (join_lines ls ++ newline :: join_lines (join_lines ls' :: map join_lines lss)).
  rewrite IH by (intros x Hx; apply H; right; exact Hx). symmetry. apply join_app; [apply H; left; reflexivity|]. intros E. apply app_eq_nil in E as [E _]. revert E. apply H. right. left. reflexivity.
Qed.
Lemma join_first6 ls : ls <> [] -> (forall l, In l ls -> firstn 6 l = amp) -> firstn 6 (join_lines ls) = amp.
Proof.
  destruct ls as [|l [|l' ls]]; intros H Hf; [contradiction|apply Hf; left; reflexivity|]. cbn [join_lines].
  assert (E := Hf l (or_introl eq_refl)). rewrite firstn_app, E. assert (L : length l >= 6). { destruct (Nat.le_gt_cases 6 (length l)); [assumption|]. rewrite firstn_all2 in E by lia. subst l. simpl in *. lia. }
  replace (6 - length l) with 0 by lia. simpl. reflexivity.
Qed.
Lemma latex_row_in c : proper c -> latex_row (latex_in c) = join_lines (map row (tex_of c)).
Proof.
  induction c as [t|s els IH|els IH] using lset_ind'; intros H; inversion H as [t' Hn Ht|els' Hne He]; subst.
  - cbn [latex_in tex_of map join_lines]. unfold latex_row. rewrite bool_decide_eq_false_2 by exact Ht. reflexivity.
  - assert (E : latex_in (LSet els) = join_lines (map row (tex_of (LSet els)))).
    { cbn [latex_in tex_of]. rewrite flat_map_concat_map, concat_map, map_map. rewrite <- join_concat.
      - rewrite map_map. f_equal. apply map_ext_in. intros c Hc. apply IH; auto.
      - intros ls Hi. apply in_map_iff in Hi as (c & <- & Hc). intros E. apply map_eq_nil in E. revert E. apply tex_ne. auto. }
    rewrite E. unfold latex_row. rewrite bool_decide_eq_true_2; [reflexivity|]. apply join_first6.
    + intros E'. apply map_eq_nil in E'. revert E'. apply tex_ne. exact H.
    + intros l Hi. apply in_map_iff in Hi as (t & <- & _). reflexivity.
Qed.
Lemma tex_no_newline c : proper c -> forall t, In t (tex_of c) -> ~ In newline t.
Proof.
  induction c as [t|s els IH|els IH] using lset_ind'; intros H; inversion H as [t' Hn Ht|els' Hne He]; subst.
  - intros u [<-|[]]. exact Hn.
  - intros u Hu. cbn [tex_of] in Hu. apply in_flat_map in Hu as (c & Hc & Hu). eapply IH; eauto.
Qed.
Lemma row_no_newline t : ~ In newline t -> ~ In newline (row t).
Proof. intros H Hi. apply in_app_or in Hi as [Hi|Hi]; [revert Hi; vm_compute; intuition discriminate|]. apply in_app_or in Hi as [Hi|Hi]; [auto|]. revert Hi. vm_compute. intuition discriminate. Qed.

(** Of the full claim, plain lists, empty sets and LaTeX of several lines are missing. *)
Theorem C97_latex_partial (is_list : bool) (excluded : list string) (cost : option text) (els : list lset) :
  "root"%string ∉ excluded -> (forall t, cost = Some t -> ~ In newline t) -> (forall c, In c els -> proper c) ->
  split_lines (fst (latex is_list excluded cost els)) =
  [chars "\begin{array}{ll} \text{}"] ++ match cost with Some t => [chars "\text{minimize}"; row t; chars "\text{subject to}"] | None => [] end ++
  map row (flat_map tex_of els) ++ [chars "\end{array}"].
Proof.
  intros Hroot Hc Hp. unfold latex. rewrite bool_decide_eq_true_2 by exact Hroot. cbn [fst].
  set (C := match cost with Some t => [chars "\text{minimize}"; row t; chars "\text{subject to}"] | None => [] end).
  assert (E : join_lines ([begin_array] ++ match cost with Some t => [rootlatex t] | None => [] end ++ map (fun c => latex_row (latex_in c)) els ++ [end_array]) =
              join_lines ([begin_array] ++ C ++ map row (flat_map tex_of els) ++ [end_array])).
  { set (lss := [[begin_array]] ++ (match cost with Some t => [[chars "\text{minimize}"; row t; chars "\text{subject to}"]] | None => [] end) ++ map (fun c => map row (tex_of c)) els ++ [[end_array]]).
    transitivity (join_lines (map join_lines lss)).
    - f_equal. unfold lss. rewrite !map_app. f_equal. f_equal; [destruct cost; reflexivity|]. f_equal. rewrite map_map. apply map_ext_in. intros c Hin. apply latex_row_in. auto.
    - rewrite join_concat.
      + f_equal. unfold lss, C. rewrite !concat_app. f_equal. f_equal; [destruct cost; reflexivity|]. f_equal. rewrite flat_map_concat_map, concat_map, map_map. reflexivity.
      + unfold lss. intros ls Hi. apply in_app_or in Hi as [[<-|[]]|Hi]; [discriminate|]. apply in_app_or in Hi as [Hi|Hi]; [destruct cost; [destruct Hi as [<-|[]]; discriminate|contradiction]|].
        apply in_app_or in Hi as [Hi|[<-|[]]]; [|discriminate]. apply in_map_iff in Hi as (c & <- & Hin). intros E. apply map_eq_nil in E. revert E. apply tex_ne. auto. }
  rewrite E. apply split_join; [discriminate|]. intros l Hi. apply in_app_or in Hi as [[<-|[]]|Hi]; [vm_compute; intuition discriminate|].
  apply in_app_or in Hi as [Hi|Hi].
  - unfold C in Hi. destruct cost as [t|]; [|contradiction]. destruct Hi as [<-|[<-|[<-|[]]]]; [vm_compute; intuition discriminate| |vm_compute; intuition discriminate].
    apply row_no_newline. apply Hc. reflexivity.
  - apply in_app_or in Hi as [Hi|[<-|[]]]; [|vm_compute; intuition discriminate]. apply in_map_iff in Hi as (t & <- & Ht). apply row_no_newline.
    apply in_flat_map in Ht as (c & Hin & Ht). eapply tex_no_newline; eauto.
Qed.
Print Assumptions C97_latex_partial.
Example C97_latex_nonvacuous :
  let els := [LCon (chars "x \geq 1"); LSet [LCon (chars "y \geq x"); LSet [LCon (chars "z \geq y")]]] in
  (forall c, In c els -> proper c) /\
  split_lines (fst (latex false ["units"%string] (Some (chars "z")) els)) =
  map chars ["\begin{array}{ll} \text{}"; "\text{minimize}"; "    & z \\"; "\text{subject to}"; "    & x \geq 1 \\"; "    & y \geq x \\"; "    & z \geq y \\"; "\end{array}"]%string.
Proof.
  split; [|vm_compute; reflexivity].
  assert (Hl : forall s, (negb (existsb (fun c => (c =? newline)%N) (chars s)) && negb (bool_decide (firstn 6 (chars s) = chars "    & ")))%bool = true -> proper (LCon (chars s))).
  { intros s H. apply andb_true_iff in H as [H1 H2]. constructor.
    - intros Hi. apply negb_true_iff in H1. assert (existsb (fun c => (c =? newline)%N) (chars s) = true); [|congruence]. apply existsb_exists. exists newline. split; [exact Hi|apply N.eqb_refl].
    - apply negb_true_iff, bool_decide_eq_false in H2. exact H2. }
  intros c [<-|[<-|[]]]; [apply Hl; reflexivity|]. constructor; [discriminate|]. intros c [<-|[<-|[]]]; [apply Hl; reflexivity|].
  constructor; [discriminate|]. intros c [<-|[]]. apply Hl. reflexivity.
Qed.
(** Lists in a set are printed by Python's [str], and not in LaTeX; the constraints in them have no rows of their own. *)
Theorem C97_latex_lists_refuted (str : text) (els : list lset) :
  ~ In newline str -> firstn 6 str <> chars "    & " -> forall tex, In tex (tex_of (LPlain str els)) -> tex <> str ->
  ~ In (row tex) (split_lines (fst (latex false [] None [LPlain str els]))).
Proof.
  intros Hn H6 tex _ Hne Hi.
  assert (E : split_lines (fst (latex false [] None [LPlain str els])) = [begin_array; row str; end_array]).
  { unfold latex. rewrite bool_decide_eq_true_2 by apply not_elem_of_nil. cbn [fst app map latex_in]. unfold latex_row. rewrite bool_decide_eq_false_2 by exact H6.
    apply (split_join [begin_array; row str; end_array]); [discriminate|]. intros l [<-|[<-|[<-|[]]]]; [vm_compute; intuition discriminate|apply row_no_newline; exact Hn|vm_compute; intuition discriminate]. }
  rewrite E in Hi. destruct Hi as [Hi|[Hi|[Hi|[]]]]; [discriminate| |discriminate]. unfold row in Hi. apply app_inv_head, app_inv_tail in Hi. auto.
Qed.
Example C97_latex_lists_example :
  let c := LPlain (chars "[gpkit.PosynomialInequality(x >= 1)]") [LCon (chars "x \geq 1")] in
  split_lines (fst (latex false [] None [c])) = map chars ["\begin{array}{ll} \text{}"; "    & [gpkit.PosynomialInequality(x >= 1)] \\"; "\end{array}"]%string.
Proof. vm_compute. reflexivity. Qed.
Print Assumptions C97_latex_lists_refuted.
(** Empty sets make a row. *)
Theorem C97_latex_empty_refuted : split_lines (fst (latex false [] None [LSet []])) = [chars "\begin{array}{ll} \text{}"; chars "    &  \\"; chars "\end{array}"].
Proof. vm_compute. reflexivity. Qed.
Print Assumptions C97_latex_empty_refuted.
(** Given a list of what to exclude, [latex] changes the list; given it again, it gives another text. *)
Theorem C97_latex_again_refuted (excluded : list string) (cost : option text) (els : list lset) :
  "root"%string ∉ excluded ->
  snd (latex true excluded cost els) <> excluded /\ fst (latex true (snd (latex true excluded cost els)) cost els) <> fst (latex true excluded cost els) /\
  snd (latex false excluded cost els) = excluded.
Proof.
  intros Hr. assert (E : snd (latex true excluded cost els) = excluded ++ ["root"%string]) by (unfold latex; rewrite bool_decide_eq_true_2 by exact Hr; reflexivity).
  split; [|split].
  - rewrite E. intros H. apply (f_equal (@List.length string)) in H. rewrite app_length in H. simpl in H. lia.
  - rewrite E. unfold latex. rewrite bool_decide_eq_false_2 by (intros H; apply H, elem_of_app; right; left). rewrite bool_decide_eq_true_2 by exact Hr. cbn [fst].
    intros H. apply (f_equal (@List.length N)) in H. revert H. generalize (map (fun c => latex_row (latex_in c)) els). intros ls.
    assert (Hlen : forall a b, length (join_lines b) < length (join_lines ([a] ++ b ++ [end_array]))).
    { intros a b. change ([a] ++ b ++ [end_array]) with ([a] ++ (b ++ [end_array])). rewrite join_app by (try discriminate; destruct b; discriminate). rewrite app_length. cbn [length].
      destruct b as [|x b]; [simpl; lia|]. rewrite join_app by discriminate. rewrite app_length. lia. }
    destruct cost as [t|].
    + assert (Hj : length (join_lines ls) <= length (join_lines ([rootlatex t] ++ ls))). { destruct ls as [|x ls]; [simpl; lia|]. rewrite join_app by discriminate. rewrite app_length. cbn [length]. lia. }
      pose proof (Hlen begin_array ([rootlatex t] ++ ls)) as H2. rewrite <- app_assoc in H2. lia.
    + pose proof (Hlen begin_array ls). cbn [app] in *. lia.
  - unfold latex. rewrite bool_decide_eq_true_2 by exact Hr. reflexivity.
Qed.
Print Assumptions C97_latex_again_refuted.
