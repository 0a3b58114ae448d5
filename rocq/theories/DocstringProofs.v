(** Tables and docstrings, for C69. *)
From Verif Require Import Base Settings Docstring DocstringSpec DocstringStrings DocstringRows.
From Coq Require Import Strings.String Strings.Ascii.
Local Open Scope list_scope.
Open Scope nat_scope.

Definition rest_lines (blocks : list block) : list text := flat_map block_lines blocks.
Definition rest_text (blocks : list block) (last : text) : text := unlines (rest_lines blocks) ++ last.
Definition decls (rows : list row) : text := flat_map (fun r => declared Vars r ++ NL) rows.

Lemma rest_text_table k h u rows bs last : rest_text (Table k h u rows :: bs) last = h ++ NL ++ u ++ NL ++ unlines (map row_text rows) ++ rest_text bs last.
Proof. unfold rest_text, rest_lines. cbn [flat_map block_lines]. rewrite unlines_app, !unlines_cons, <- !app_assoc. auto. Qed.
Lemma rest_text_prose l bs last : rest_text (Prose l :: bs) last = (l ++ NL) ++ rest_text bs last.
Proof. unfold rest_text, rest_lines. cbn [flat_map block_lines app]. rewrite unlines_cons, <- !app_assoc. auto. Qed.

(** *** Tables *)
Lemma table_loop_rows original rows : forall is_ blank rest cs js,
  Forall2 (fun r i => row_ok r /\ line_index original (row_text r) = Ok i) rows is_ -> white blank ->
  table_loop original (map row_text rows ++ blank :: rest) cs js = Ok (cs ++ decls rows, js ++ is_).
Proof.
  induction rows as [|r rows IH]; intros is_ blank rest cs js H Hb.
  - inversion H; subst. cbn [map app table_loop]. rewrite strip_white by auto. simpl. rewrite !app_nil_r. auto.
  - inversion H as [|? i ? is' [Hok Hi] H']; subst. cbn [map app table_loop].
    pose proof (row_not_white r) as Hs. destruct (strip (row_text r)) as [|c s]; [contradiction|].
    rewrite line_declaration_row by auto. cbn [rbind]. rewrite Hi. cbn [rbind]. rewrite (IH is') by auto. unfold decls. cbn [flat_map]. rewrite <- !app_assoc. auto.
Qed.

Definition same (k k' : kind) : bool := match k, k' with Consts, Consts | Vars, Vars | Vecs _, Vecs _ => true | _, _ => false end.
Definition ntables (K : kind) (bs : list block) : nat := List.length (List.filter (fun b => match b with Table k _ _ _ => same K k | _ => false end) bs).
Definition rows_of (K : kind) (l : list (kind * row * nat)) : list (kind * row * nat) := List.filter (fun x => same K (fst (fst x))) l.
Definition placed_text (l : list (kind * row * nat)) : text := flat_map (fun x => declared (fst (fst x)) (snd (fst x)) ++ NL) l.

Lemma rows_of_app K a b : rows_of K (a ++ b) = rows_of K a ++ rows_of K b.
Proof. apply List.filter_app. Qed.
Lemma combine_kind_same K k rows : same K k = true -> forall n, rows_of K (combine (map (fun r => (k, r)) rows) (seq n (List.length rows))) = combine (map (fun r => (k, r)) rows) (seq n (List.length rows)).
Proof. intros H. induction rows as [|r rows IH]; intros n; auto. simpl. rewrite H. f_equal. apply IH. Qed.
Lemma combine_kind_other K k rows : same K k = false -> forall n, rows_of K (combine (map (fun r => (k, r)) rows) (seq n (List.length rows))) = [].
Proof. intros H. induction rows as [|r rows IH]; intros n; auto. simpl. rewrite H. apply IH. Qed.
Lemma placed_text_combine k rows : forall n, placed_text (combine (map (fun r => (k, r)) rows) (seq n (List.length rows))) = flat_map (fun r => declared k r ++ NL) rows.
Proof. induction rows as [|r rows IH]; intros n; auto. unfold placed_text in *. simpl. rewrite IH. auto. Qed.
Lemma snd_combine (k : kind) (rows : list row) : forall n, map snd (combine (map (fun r => (k, r)) rows) (seq n (List.length rows))) = seq n (List.length rows).
Proof. induction rows as [|r rows IH]; intros n; auto. simpl. rewrite IH. auto. Qed.
Lemma forall2_placed (P : row -> nat -> Prop) (k : kind) (rows : list row) : forall n, (forall r i, In (k, r, i) (combine (map (fun r => (k, r)) rows) (seq n (List.length rows))) -> P r i) ->
  Forall2 P rows (seq n (List.length rows)).
Proof. induction rows as [|r rows IH]; intros n H; simpl; constructor; [apply H; left; auto|]. apply IH. intros r' i Hi. apply H. right. auto. Qed.

Lemma closed_tl b bs last : closed_tables (b :: bs) last -> closed_tables bs last.
Proof. intros H b1 k h u rows b2 ->. apply (H (b :: b1) k h u rows b2). auto. Qed.
Lemma closed_hd k h u rows bs last : closed_tables (Table k h u rows :: bs) last -> exists blank rest, rest_lines bs ++ [last] = blank :: rest /\ white blank.
Proof.
  intros H. specialize (H [] k h u rows bs eq_refl). unfold rest_lines. destruct (flat_map block_lines bs) as [|l ls]; [exists last, []; auto|exists l, (ls ++ [last]); auto].
Qed.

Lemma block_lines_nonl b : block_ok b -> Forall (fun l => ~ In newline l) (block_lines b).
Proof.
  destruct b as [l|k h u rows]; intros H; simpl in *.
  - constructor; auto. apply H.
  - destruct H as ((Hh & _) & (Hu & _) & _ & Hr). constructor; auto. constructor; auto. apply List.Forall_forall. intros l Hl. apply in_map_iff in Hl as (r & <- & Hl).
    rewrite List.Forall_forall in Hr. apply (Hr r Hl).
Qed.
Lemma rest_lines_nonl bs : Forall block_ok bs -> Forall (fun l => ~ In newline l) (rest_lines bs).
Proof.
  intros H. apply List.Forall_forall. intros l Hl. unfold rest_lines in Hl. apply in_flat_map in Hl as (b & Hb & Hl). rewrite List.Forall_forall in H.
  pose proof (block_lines_nonl b (H b Hb)) as G. rewrite List.Forall_forall in G. auto.
Qed.
Lemma rows_plain k rows : Forall (fun r => row_ok r /\ row_fits k r /\ plain_line (row_text r)) rows -> Forall plain_line (map row_text rows).
Proof. intros H. apply List.Forall_forall. intros l Hl. apply in_map_iff in Hl as (r & <- & Hl). rewrite List.Forall_forall in H. apply (H r Hl). Qed.

(** *** Flags that are a word at the end of a line *)
Section WordFlag.
Variables (w : text) (K : kind) (declare : text -> text -> nat -> text -> text) (original last : text).
Hypothesis Hw : ~ In newline w.
Hypothesis Hlast : ~ In newline last.
(** What kinds of lines end in the word *)
Hypothesis Hplain : forall l, plain_line l -> ~ ends w l.
Hypothesis Hhead : forall k h, header_ok k h -> if same K k then ends w h else ~ ends w h.
Hypothesis Hdecl : forall k rows s f i, same K k = true -> Forall (fun r => row_ok r /\ row_fits k r) rows -> declare s f i (decls rows) = flat_map (fun r => declared k r ++ NL) rows.
Let flag := w ++ NL.

Lemma word_line l r : ~ In newline l -> ~ ends w l -> clean flag (l ++ NL) r.
Proof. intros. apply clean_word_line; auto. Qed.
Lemma word_plain ls r : Forall plain_line ls -> clean flag (unlines ls) r.
Proof. apply (clean_lines plain_line). intros l r' Hl. apply word_line; [apply Hl|auto]. Qed.
Lemma word_end : clean flag last [].
Proof. intros a1 c d -> Hc E. rewrite app_nil_r in E. apply Hlast. rewrite E. unfold flag. rewrite !in_app_iff. right. left. right. left. auto. Qed.
Lemma word_header pre r : ~ In newline (pre ++ w) -> clean flag pre (flag ++ r).
Proof.
  intros Hn a1 c d -> Hc E. unfold flag in E. rewrite app_assoc, <- !app_assoc in E. simpl in E. rewrite app_assoc in E. apply first_sep in E as [E _]; auto.
  - apply (f_equal (@List.length _)) in E. rewrite app_length in E. destruct c; [contradiction|simpl in E; lia].
  - intros Hx. apply Hn. rewrite <- app_assoc. apply in_or_app. auto.
Qed.

Lemma word_count : forall bs u, Forall block_ok bs -> clean flag u (rest_text bs last) -> List.length (split flag (u ++ rest_text bs last)) = S (ntables K bs).
Proof.
  induction bs as [|b bs IH]; intros u Hok Hu.
  - unfold rest_text in *. simpl in *. rewrite split_none; auto. apply clean_app; [rewrite app_nil_r; auto|apply word_end].
  - inversion Hok as [|? ? Hb Hbs]; subst. destruct b as [l|k h ul rows].
    + rewrite rest_text_prose in *. rewrite app_assoc. rewrite IH; auto. apply clean_app; auto. destruct Hb as (Hl & Hb). apply word_line; auto. apply Hplain. split; auto.
    + destruct Hb as (Hh & Hul & _ & Hr). pose proof (Hhead k h Hh) as HK. unfold ntables. cbn [List.filter]. rewrite rest_text_table in *.
      assert (Hcl : forall r, clean flag (unlines (ul :: map row_text rows)) r) by (intros r; apply word_plain; constructor; auto; eapply rows_plain; eauto).
      destruct (same K k) eqn:Es.
      * destruct HK as (pre & ->). replace (u ++ (pre ++ w) ++ NL ++ ul ++ NL ++ unlines (map row_text rows) ++ rest_text bs last)
          with ((u ++ pre) ++ flag ++ (unlines (ul :: map row_text rows) ++ rest_text bs last)) by (unfold flag; rewrite unlines_cons, <- !app_assoc; auto).
        rewrite split_at; [cbn [List.length]; f_equal; apply IH; auto|unfold flag; destruct w; discriminate|].
        apply clean_app; [|apply word_header; apply Hh]. unfold flag. rewrite unlines_cons, <- !app_assoc in *. auto.
      * replace (u ++ h ++ NL ++ ul ++ NL ++ unlines (map row_text rows) ++ rest_text bs last)
          with ((u ++ (h ++ NL) ++ unlines (ul :: map row_text rows)) ++ rest_text bs last) by (rewrite unlines_cons, <- !app_assoc; auto).
        apply IH; auto. apply clean_app; [rewrite unlines_cons, <- !app_assoc; auto|]. apply clean_app; auto. apply word_line; auto. apply Hh.
Qed.

Lemma word_loop : forall bs n0 u overall idxs, Forall block_ok bs -> closed_tables bs last -> clean flag u (rest_text bs last) ->
  (forall k r i, In (k, r, i) (placed n0 bs) -> line_index original (row_text r) = Ok i) ->
  flag_loop original flag declare (ntables K bs) (u ++ rest_text bs last) overall idxs =
  Ok (overall ++ placed_text (rows_of K (placed n0 bs)), idxs ++ map snd (rows_of K (placed n0 bs))).
Proof.
  induction bs as [|b bs IH]; intros n0 u overall idxs Hok Hcl Hu Hidx.
  - simpl. rewrite !app_nil_r. auto.
  - inversion Hok as [|? ? Hb Hbs]; subst. destruct b as [l|k h ul rows].
    + rewrite rest_text_prose in *. rewrite app_assoc. cbn [placed]. change (ntables K (Prose l :: bs)) with (ntables K bs).
      apply IH; auto; [eapply closed_tl; eauto|]. apply clean_app; auto. destruct Hb as (Hl & Hb). apply word_line; auto. apply Hplain. split; auto.
    + destruct Hb as (Hh & Hul & Hlen & Hr). pose proof (Hhead k h Hh) as HK. unfold ntables. cbn [List.filter placed]. rewrite rows_of_app, rest_text_table in *.
      assert (Hplains : Forall plain_line (ul :: map row_text rows)) by (constructor; auto; eapply rows_plain; eauto).
      assert (Hcln : forall r, clean flag (unlines (ul :: map row_text rows)) r) by (intros r; apply word_plain; auto).
      assert (Hidx2 : forall k r i, In (k, r, i) (placed (n0 + 2 + List.length rows) bs) -> line_index original (row_text r) = Ok i)
        by (intros; eapply Hidx; cbn [placed]; apply in_or_app; right; eauto).
      destruct (same K k) eqn:Es.
      * destruct HK as (pre & ->). rewrite combine_kind_same by auto.
        set (b := unlines (ul :: map row_text rows) ++ rest_text bs last).
        replace (u ++ (pre ++ w) ++ NL ++ ul ++ NL ++ unlines (map row_text rows) ++ rest_text bs last) with ((u ++ pre) ++ flag ++ b)
          by (unfold b, flag; rewrite unlines_cons, <- !app_assoc; auto).
        cbn [List.length flag_loop]. unfold index_of.
        assert (Hclean : clean flag (u ++ pre) (flag ++ b)).
        { apply clean_app; [|apply word_header; apply Hh]. unfold b, flag. rewrite unlines_cons, <- !app_assoc in *. auto. }
        rewrite find_at by auto. cbn [rbind]. rewrite bool_decide_true by (unfold flag; apply elem_of_app; right; apply elem_of_list_here). cbn [rbind].
        rewrite drop_app. rewrite drop_0. cbn [Nat.add]. rewrite drop_app.
        destruct (closed_hd _ _ _ _ _ _ Hcl) as (blank & rest & Erest & Hblank).
        assert (Esplit : split NL (flag ++ b) = w :: ul :: map row_text rows ++ blank :: rest).
        { replace (flag ++ b) with (unlines (w :: ul :: map row_text rows ++ rest_lines bs) ++ last).
          - rewrite split_unlines; auto.
            + rewrite <- !app_comm_cons, <- app_assoc. exact (f_equal (fun z => w :: ul :: map row_text rows ++ z) Erest).
            + constructor; auto. change (ul :: map row_text rows ++ rest_lines bs) with ((ul :: map row_text rows) ++ rest_lines bs).
              apply Forall_app. split; [|apply rest_lines_nonl; auto]. eapply Forall_impl; [exact Hplains|]. intros l Hl. apply Hl.
          - unfold flag, b, rest_text. rewrite !unlines_cons, unlines_app, <- !app_assoc. auto. }
        assert (Et : table_loop original (skipn 2 (split NL (flag ++ b))) [] idxs = Ok (decls rows, idxs ++ seq (n0 + 2) (List.length rows))).
        { rewrite Esplit. cbn [skipn]. apply (table_loop_rows original rows (seq (n0 + 2) (List.length rows))); auto.
          apply (forall2_placed _ k). intros r i Hi. split.
          - apply in_combine_l in Hi. apply in_map_iff in Hi as (r' & [= <-] & Hi). rewrite List.Forall_forall in Hr. apply (Hr r' Hi).
          - apply (Hidx k). cbn [placed]. apply in_or_app. auto. }
        rewrite Et.
        cbn [rbind fst snd]. rewrite (Hdecl k) by (auto; apply (Forall_impl _ _ _ Hr); simpl; intros r Hx; tauto).
        unfold b. change (List.length (List.filter _ bs)) with (ntables K bs). rewrite (IH (n0 + 2 + List.length rows)); auto; [|eapply closed_tl; eauto].
        unfold placed_text at 2. rewrite flat_map_app. fold (placed_text (combine (map (fun r => (k, r)) rows) (seq (n0 + 2) (List.length rows)))).
        rewrite placed_text_combine, map_app, snd_combine, <- !app_assoc. auto.
      * rewrite combine_kind_other by auto. cbn [app]. change (List.length (List.filter _ bs)) with (ntables K bs).
        replace (u ++ h ++ NL ++ ul ++ NL ++ unlines (map row_text rows) ++ rest_text bs last)
          with ((u ++ (h ++ NL) ++ unlines (ul :: map row_text rows)) ++ rest_text bs last) by (rewrite unlines_cons, <- !app_assoc; auto).
        apply IH; auto; [eapply closed_tl; eauto|]. apply clean_app; [rewrite unlines_cons, <- !app_assoc; auto|]. apply clean_app; auto. apply word_line; auto. apply Hh.
Qed.

Lemma word_flag bs : Forall block_ok bs -> closed_tables bs last ->
  (forall k r i, In (k, r, i) (placed 0 bs) -> line_index original (row_text r) = Ok i) -> original = rest_text bs last ->
  check_and_parse_flag original flag declare = Ok (placed_text (rows_of K (placed 0 bs)), map snd (rows_of K (placed 0 bs))).
Proof.
  intros Hok Hcl Hidx E. unfold check_and_parse_flag, count. pose proof (word_count bs [] Hok (clean_nil _ _)) as Hn. simpl app in Hn.
  replace (List.length (split flag original) - 1) with (ntables K bs) by (rewrite E; unfold flag in *; lia).
  pose proof (word_loop bs 0 [] [] [] Hok Hcl (clean_nil _ _) Hidx) as H. simpl app in H. rewrite <- E in H. exact H.
Qed.
End WordFlag.
