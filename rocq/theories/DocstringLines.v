(** Tables of vectors, the numbers of lines, and the lines that are replaced, for C69. *)
From Verif Require Import Base Settings Docstring DocstringSpec DocstringStrings DocstringRows DocstringProofs.
From Coq Require Import Strings.String Strings.Ascii.
Local Open Scope list_scope.
Open Scope nat_scope.

(** *** Tables of vectors *)
Local Notation F := vectors_flag.
Lemma F_nonl : ~ In newline F.
Proof. intros H. apply elem_of_list_In in H. revert H. apply (bool_decide_unpack (newline ∉ F)). vm_compute. exact I. Qed.
Lemma F_ne : F <> [].
Proof. discriminate. Qed.
Lemma F_first c l : F = c ++ l -> c <> [] -> l <> [] -> forall x d, F ++ x <> l ++ d.
Proof.
  intros E Hc Hl x d E2. destruct c as [|v c]; [contradiction|]. destruct l as [|v' l]; [contradiction|]. injection E2 as E2 _.
  assert (Hin : v' ∈ tl F) by (rewrite E; simpl; apply elem_of_app; right; apply elem_of_list_here).
  rewrite <- E2 in Hin. revert Hin. apply (bool_decide_unpack ("V"%char ∉ tl F)). vm_compute. exact I.
Qed.
Lemma vec_header pre r : ~ contains F pre -> clean F pre (F ++ r).
Proof.
  intros Hn a1 c d -> Hc E. apply app_eq_app in E as (l & [[E1 E2]|[E1 E2]]).
  - apply Hn. exists a1, l. rewrite E1. auto.
  - destruct l as [|v l].
    + apply Hn. exists a1, []. rewrite app_nil_r in E1. rewrite <- E1, app_nil_r. auto.
    + apply (F_first c (v :: l) E1 Hc ltac:(discriminate) r d E2).
Qed.
Lemma contains_skip p l n : contains p (skipn n l) -> contains p l.
Proof. intros (a & b & E). exists (firstn n l ++ a), b. rewrite <- app_assoc, <- E. symmetry. apply firstn_skipn. Qed.

Section Vectors.
Variables (original last : text).
Hypothesis Hlast : ~ In newline last.
Hypothesis Hlast' : ~ contains F last.

Lemma vec_line l r : ~ contains F l -> clean F (l ++ NL) r.
Proof. intros. apply clean_line; auto using F_nonl, F_ne. Qed.
Lemma vec_plain ls r : Forall plain_line ls -> clean F (unlines ls) r.
Proof. apply (clean_lines plain_line). intros l r' Hl. apply vec_line. apply Hl. Qed.
Lemma vec_end : clean F last [].
Proof. intros a1 c d -> Hc E. rewrite app_nil_r in E. apply Hlast'. exists a1, d. rewrite E. auto. Qed.
Lemma vec_other k h : same (Vecs []) k = false -> header_ok k h -> ~ contains F h.
Proof. destruct k; intros E H; [apply H|apply H|discriminate]. Qed.

Lemma vec_count : forall bs u, Forall block_ok bs -> clean F u (rest_text bs last) -> List.length (split F (u ++ rest_text bs last)) = S (ntables (Vecs []) bs).
Proof.
  induction bs as [|b bs IH]; intros u Hok Hu.
  - unfold rest_text in *. simpl in *. rewrite split_none; auto. apply clean_app; [rewrite app_nil_r; auto|apply vec_end].
  - inversion Hok as [|? ? Hb Hbs]; subst. destruct b as [l|k h ul rows].
    + rewrite rest_text_prose in *. rewrite app_assoc. rewrite IH; auto. apply clean_app; auto. apply vec_line. apply Hb.
    + destruct Hb as (Hh & Hul & _ & Hr). unfold ntables. cbn [List.filter]. rewrite rest_text_table in *.
      assert (Hcl : forall r, clean F (unlines (ul :: map row_text rows)) r) by (intros r; apply vec_plain; constructor; auto; eapply rows_plain; eauto).
      destruct (same (Vecs []) k) eqn:Es.
      * destruct k as [| |n]; try discriminate. destruct Hh as (Hnl & _ & _ & pre & gap & gap' & -> & Hg & Hg' & Hnn & Hpre & Htail).
        change (chars "Variables of length") with F in *. set (tail := gap ++ n ++ gap') in *.
        replace (u ++ (pre ++ F ++ tail) ++ NL ++ ul ++ NL ++ unlines (map row_text rows) ++ rest_text bs last)
          with ((u ++ pre) ++ F ++ ((tail ++ NL) ++ unlines (ul :: map row_text rows)) ++ rest_text bs last) by (rewrite unlines_cons, <- !app_assoc; auto).
        rewrite split_at; [cbn [List.length]; f_equal; apply IH; auto|exact F_ne|].
        -- apply clean_app; auto. apply vec_line. auto.
        -- apply clean_app; [|apply vec_header; auto]. rewrite unlines_cons, <- !app_assoc in *. auto.
      * replace (u ++ h ++ NL ++ ul ++ NL ++ unlines (map row_text rows) ++ rest_text bs last)
          with ((u ++ (h ++ NL) ++ unlines (ul :: map row_text rows)) ++ rest_text bs last) by (rewrite unlines_cons, <- !app_assoc; auto).
        apply IH; auto. apply clean_app; [rewrite unlines_cons, <- !app_assoc; auto|]. apply clean_app; auto. apply vec_line. eapply vec_other; eauto.
Qed.

Lemma vec_loop : forall bs n0 u overall idxs, Forall block_ok bs -> closed_tables bs last -> clean F u (rest_text bs last) ->
  (forall k r i, In (k, r, i) (placed n0 bs) -> line_index original (row_text r) = Ok i) ->
  flag_loop original F vv_declare (ntables (Vecs []) bs) (u ++ rest_text bs last) overall idxs =
  Ok (overall ++ placed_text (rows_of (Vecs []) (placed n0 bs)), idxs ++ map snd (rows_of (Vecs []) (placed n0 bs))).
Proof.
  induction bs as [|b bs IH]; intros n0 u overall idxs Hok Hcl Hu Hidx.
  - simpl. rewrite !app_nil_r. auto.
  - inversion Hok as [|? ? Hb Hbs]; subst. destruct b as [l|k h ul rows].
    + rewrite rest_text_prose in *. rewrite app_assoc. cbn [placed]. change (ntables (Vecs []) (Prose l :: bs)) with (ntables (Vecs []) bs).
      apply IH; auto; [eapply closed_tl; eauto|]. apply clean_app; auto. apply vec_line. apply Hb.
    + destruct Hb as (Hh & Hul & Hlen & Hr). unfold ntables. cbn [List.filter placed]. rewrite rows_of_app, rest_text_table in *.
      assert (Hplains : Forall plain_line (ul :: map row_text rows)) by (constructor; auto; eapply rows_plain; eauto).
      assert (Hidx2 : forall k r i, In (k, r, i) (placed (n0 + 2 + List.length rows) bs) -> line_index original (row_text r) = Ok i)
        by (intros; eapply Hidx; cbn [placed]; apply in_or_app; right; eauto).
      destruct (same (Vecs []) k) eqn:Es.
      * destruct k as [| |n]; try discriminate. rewrite combine_kind_same by auto.
        destruct Hh as (Hnl & _ & _ & pre & gap & gap' & -> & Hg & Hg' & Hnn & Hpre & Htail). change (chars "Variables of length") with F in *.
        set (tail := gap ++ n ++ gap') in *. set (b := NL ++ unlines (ul :: map row_text rows) ++ rest_text bs last).
        replace (u ++ (pre ++ F ++ tail) ++ NL ++ ul ++ NL ++ unlines (map row_text rows) ++ rest_text bs last) with ((u ++ pre) ++ F ++ (tail ++ b))
          by (unfold b; rewrite unlines_cons, <- !app_assoc; auto).
        cbn [List.length flag_loop]. unfold index_of at 1.
        assert (Hclean : clean F (u ++ pre) (F ++ (tail ++ b))).
        { apply clean_app; [|apply vec_header; auto]. unfold b. rewrite unlines_cons, <- !app_assoc in *. auto. }
        rewrite find_at by auto. cbn [rbind].
        rewrite bool_decide_false by (intros Hx; apply elem_of_list_In in Hx; exact (F_nonl Hx)). rewrite drop_app.
        assert (Htnl : ~ In newline (F ++ tail)) by (intros Hx; apply Hnl; apply in_or_app; auto).
        assert (Ei : index_of NL (F ++ tail ++ b) = Ok (List.length (F ++ tail))).
        { unfold index_of. unfold b. rewrite (app_assoc F tail). rewrite find_at; [auto|]. apply clean_nl. auto. }
        rewrite Ei. cbn [rbind].
        assert (Ed : skipn (List.length (F ++ tail)) (F ++ tail ++ b) = b) by (rewrite (app_assoc F tail); apply drop_app).
        rewrite Ed.
        destruct (closed_hd _ _ _ _ _ _ Hcl) as (blank & rest & Erest & Hblank).
        assert (Esplit : split NL b = [] :: ul :: map row_text rows ++ blank :: rest).
        { replace b with (unlines ([] :: ul :: map row_text rows ++ rest_lines bs) ++ last).
          - rewrite split_unlines; auto.
            + rewrite <- !app_comm_cons, <- app_assoc. exact (f_equal (fun z => [] :: ul :: map row_text rows ++ z) Erest).
            + constructor; [intros []|]. change (ul :: map row_text rows ++ rest_lines bs) with ((ul :: map row_text rows) ++ rest_lines bs).
              apply Forall_app. split; [|apply rest_lines_nonl; auto]. eapply Forall_impl; [exact Hplains|]. intros l Hl. apply Hl.
          - unfold b, rest_text. rewrite !unlines_cons, unlines_app, <- !app_assoc. auto. }
        assert (Et : table_loop original (skipn 2 (split NL b)) [] idxs = Ok (decls rows, idxs ++ seq (n0 + 2) (List.length rows))).
        { rewrite Esplit. cbn [skipn]. apply (table_loop_rows original rows (seq (n0 + 2) (List.length rows))); auto.
          apply (forall2_placed _ (Vecs n)). intros r i Hi. split.
          - apply in_combine_l in Hi. apply in_map_iff in Hi as (r' & [= <-] & Hi). rewrite List.Forall_forall in Hr. apply (Hr r' Hi).
          - apply (Hidx (Vecs n)). cbn [placed]. apply in_or_app. auto. }
        rewrite Et. cbn [rbind fst snd].
        assert (Ev : vv_declare (F ++ tail ++ b) F (List.length (F ++ tail)) (decls rows) = flat_map (fun r => declared (Vecs n) r ++ NL) rows).
        { unfold vv_declare. rewrite (app_assoc F tail), take_app, drop_app. unfold tail. rewrite strip_around by auto. apply replace_vectors.
          apply (Forall_impl _ _ _ Hr); simpl; intros r Hx; tauto. }
        rewrite Ev.
        assert (Es2 : skipn (List.length (F ++ tail) + List.length F) (F ++ tail ++ b) = (skipn 18 ul ++ NL ++ unlines (map row_text rows)) ++ rest_text bs last).
        { rewrite (app_assoc F tail), <- drop_drop, drop_app. unfold b. change (List.length F) with 19. cbn [NL app skipn].
          rewrite unlines_cons, <- !app_assoc. rewrite drop_app_le by auto. auto. }
        rewrite Es2. change (List.length (List.filter _ bs)) with (ntables (Vecs []) bs). rewrite (IH (n0 + 2 + List.length rows)); auto; [|eapply closed_tl; eauto|].
        -- unfold placed_text at 2. rewrite flat_map_app. fold (placed_text (combine (map (fun r => (Vecs n, r)) rows) (seq (n0 + 2) (List.length rows)))).
           rewrite placed_text_combine, map_app, snd_combine, <- !app_assoc. auto.
        -- rewrite app_assoc. inversion Hplains; subst. apply clean_app; [|apply vec_plain; auto]. apply vec_line. intros Hx. apply contains_skip in Hx. apply Hul. auto.
      * rewrite combine_kind_other by auto. cbn [app]. change (List.length (List.filter _ bs)) with (ntables (Vecs []) bs).
        replace (u ++ h ++ NL ++ ul ++ NL ++ unlines (map row_text rows) ++ rest_text bs last)
          with ((u ++ (h ++ NL) ++ unlines (ul :: map row_text rows)) ++ rest_text bs last) by (rewrite unlines_cons, <- !app_assoc; auto).
        apply IH; auto; [eapply closed_tl; eauto|]. apply clean_app; [rewrite unlines_cons, <- !app_assoc; auto|]. apply clean_app; [|apply vec_plain; auto].
        apply vec_line. eapply vec_other; eauto.
Qed.

Lemma vec_flag bs : Forall block_ok bs -> closed_tables bs last ->
  (forall k r i, In (k, r, i) (placed 0 bs) -> line_index original (row_text r) = Ok i) -> original = rest_text bs last ->
  check_and_parse_flag original F vv_declare = Ok (placed_text (rows_of (Vecs []) (placed 0 bs)), map snd (rows_of (Vecs []) (placed 0 bs))).
Proof.
  intros Hok Hcl Hidx E. unfold check_and_parse_flag, count. pose proof (vec_count bs [] Hok (clean_nil _ _)) as Hn. simpl app in Hn.
  replace (List.length (split F original) - 1) with (ntables (Vecs []) bs) by (rewrite E; lia).
  pose proof (vec_loop bs 0 [] [] [] Hok Hcl (clean_nil _ _) Hidx) as H. simpl app in H. rewrite <- E in H. exact H.
Qed.
End Vectors.

(** *** Numbers of lines *)
Lemma placed_where bs : forall n k r i, In (k, r, i) (placed n bs) ->
  exists b1 h u rs1 rs2 b2, bs = b1 ++ Table k h u (rs1 ++ r :: rs2) :: b2 /\ i = n + List.length (rest_lines b1) + 2 + List.length rs1.
Proof.
  induction bs as [|b bs IH]; intros n k r i Hi; [destruct Hi|]. destruct b as [l|k' h u rows]; cbn [placed] in Hi.
  - apply IH in Hi as (b1 & h & u & rs1 & rs2 & b2 & -> & ->). exists (Prose l :: b1), h, u, rs1, rs2, b2. split; auto. unfold rest_lines. simpl. lia.
  - apply in_app_or in Hi as [Hi|Hi].
    + clear IH. assert (G : forall rows m, In (k, r, i) (combine (map (fun r => (k', r)) rows) (seq m (List.length rows))) -> k = k' /\ exists rs1 rs2, rows = rs1 ++ r :: rs2 /\ i = m + List.length rs1).
      { clear. induction rows as [|r0 rows IH]; intros m H; [destruct H|]. simpl in H. destruct H as [[= <- <- <-]|H].
        - split; auto. exists [], rows. simpl. split; auto; lia.
        - apply IH in H as (-> & rs1 & rs2 & -> & ->). split; auto. exists (r0 :: rs1), rs2. simpl. split; auto; lia. }
      apply G in Hi as (-> & rs1 & rs2 & -> & ->). exists [], h, u, rs1, rs2, bs. split; auto; simpl; lia.
    + apply IH in Hi as (b1 & h' & u' & rs1 & rs2 & b2 & -> & ->). exists (Table k' h u rows :: b1), h', u', rs1, rs2, b2. split; auto.
      unfold rest_lines. simpl. rewrite app_length, map_length. lia.
Qed.
Lemma row_found bs last k r i : Forall block_ok bs -> distinct_rows bs -> In (k, r, i) (placed 0 bs) -> line_index (rest_text bs last) (row_text r) = Ok i.
Proof.
  intros Hok Hd Hi. apply placed_where in Hi as (b1 & h & u & rs1 & rs2 & b2 & -> & ->). specialize (Hd _ _ _ _ _ _ _ _ eq_refl).
  set (ls := flat_map block_lines b1 ++ h :: u :: map row_text rs1) in *.
  apply Forall_app in Hok as [Hok1 Hok]. inversion Hok as [|? ? Hb _]; subst. pose proof (block_lines_nonl _ Hb) as Hnl. cbn [block_lines] in Hnl.
  rewrite map_app in Hnl. simpl in Hnl. rewrite !Forall_cons, Forall_app, Forall_cons in Hnl. destruct Hnl as (Hh & Hu & H1 & Hr & _).
  assert (Els : rest_text (b1 ++ Table k h u (rs1 ++ r :: rs2) :: b2) last = unlines ls ++ row_text r ++ NL ++ unlines (map row_text rs2) ++ rest_text b2 last).
  { unfold rest_text, rest_lines, ls. rewrite flat_map_app. cbn [flat_map block_lines]. rewrite map_app. cbn [map]. rewrite !unlines_app, !unlines_cons, !unlines_app, !unlines_cons, <- !app_assoc. auto. }
  rewrite Els. unfold line_index, index_of. rewrite find_at.
  - cbn [rbind]. rewrite take_app, count_unlines.
    + unfold ls. rewrite app_length. simpl. rewrite map_length. f_equal. unfold rest_lines. lia.
    + unfold ls. apply Forall_app. split; [apply rest_lines_nonl; auto|]. constructor; auto.
  - apply (clean_lines (fun l => ~ contains (row_text r) l)).
    + intros l r' Hl. apply clean_line; auto. intros E. pose proof (row_not_white r) as Hw. rewrite E in Hw. apply Hw. auto.
    + apply List.Forall_forall. auto.
Qed.
Lemma placed_bounds bs : forall n k r i, In (k, r, i) (placed n bs) -> n + 2 <= i < n + List.length (rest_lines bs).
Proof.
  intros n k r i Hi. apply placed_where in Hi as (b1 & h & u & rs1 & rs2 & b2 & -> & ->). unfold rest_lines. rewrite flat_map_app, app_length. cbn [flat_map block_lines].
  rewrite app_length. simpl. rewrite map_app, app_length. simpl. rewrite map_length. lia.
Qed.
Lemma placed_nodup bs : forall n, NoDup (map snd (placed n bs)).
Proof.
  induction bs as [|b bs IH]; intros n; [constructor|]. destruct b as [l|k h u rows]; cbn [placed]; auto.
  rewrite map_app, snd_combine. apply NoDup_app. split; [apply NoDup_seq|]. split; auto.
  intros i Hi Hj. apply elem_of_seq in Hi. apply elem_of_list_In, in_map_iff in Hj as ([[k' r'] i'] & <- & Hj). apply placed_bounds in Hj. simpl in *. lia.
Qed.

(** *** Replacing lines *)
Lemma nth_error_lookup' {A} : forall (l : list A) i, l !! i = nth_error l i.
Proof. induction l as [|x l IH]; intros [|i]; auto. apply IH. Qed.
Lemma put_lines_app : forall a out b, put_lines out (a ++ b) = let! o := put_lines out a in put_lines o b.
Proof. induction a as [|x a IH]; intros out b; auto. cbn [app put_lines]. destruct (put_line out x); cbn [rbind]; auto. Qed.
Definition put_text (line old : text) : text := line ++ chars "  # from '" ++ strip (skipn 1 old) ++ chars "'".
Lemma put_lines_spec : forall lis out, NoDup (map snd lis) -> (forall l i, In (l, i) lis -> i < List.length out) ->
  exists out', put_lines out lis = Ok out' /\ List.length out' = List.length out /\
    (forall i, ~ In i (map snd lis) -> nth_error out' i = nth_error out i) /\
    (forall l i, In (l, i) lis -> nth_error out' i = option_map (put_text l) (nth_error out i)).
Proof.
  induction lis as [|[l i] lis IH]; intros out Hnd Hb; [exists out; simpl; repeat split; auto; intros ? ? []|].
  simpl in Hnd. apply NoDup_cons in Hnd as [Hni Hnd]. rewrite elem_of_list_In in Hni. cbn [put_lines put_line fst snd]. unfold put_line. cbn [fst snd].
  pose proof (Hb l i (or_introl eq_refl)) as Hi. destruct (nth_error out i) as [old|] eqn:E; [|apply nth_error_None in E; lia]. cbn [rbind].
  destruct (IH (<[i := put_text l old]> out)) as (out' & Eo & El & Hother & Hin); auto.
  { intros l' i' H. rewrite insert_length. eapply Hb. right. eauto. }
  exists out'. split; [exact Eo|]. rewrite insert_length in El. split; auto.
  assert (Hnth : forall j, nth_error (<[i := put_text l old]> out) j = if decide (j = i) then Some (put_text l old) else nth_error out j).
  { intros j. rewrite <- !nth_error_lookup'. destruct (decide (j = i)) as [-> |n]; [apply list_lookup_insert; auto|apply list_lookup_insert_ne; auto]. }
  split.
  - intros j Hj. simpl in Hj. rewrite Hother by tauto. rewrite Hnth. rewrite decide_False by (intros ->; tauto). auto.
  - intros l' j [[= <- <-]|Hj].
    + rewrite Hother by auto. rewrite Hnth, decide_True by auto. rewrite E. auto.
    + rewrite (Hin _ _ Hj), Hnth. rewrite decide_False; auto. intros ->. apply Hni. change i with (snd (l', i)). apply in_map. auto.
Qed.

(** *** The whole docstring *)
Lemma lstrip_in c s : In c (lstrip s) -> In c s.
Proof. induction s as [|x s IH]; auto. simpl. destruct (is_space x); auto. Qed.
Lemma strip_in c s : In c (strip s) -> In c s.
Proof. unfold strip. intros H. apply in_rev, lstrip_in, in_rev in H. apply lstrip_in. auto. Qed.
Lemma skipn_in {A} (c : A) n s : In c (skipn n s) -> In c s.
Proof. intros H. rewrite <- (firstn_skipn n s). apply in_or_app. auto. Qed.
Lemma esc_in s : In newline (esc s) -> In newline s.
Proof.
  unfold esc. intros H. apply in_flat_map in H as (c & Hc & H). destruct (Ascii.eqb c quote); [|destruct H as [<-|[]]; auto].
  vm_compute in H. destruct H as [H|[H|[]]]; discriminate H.
Qed.
Lemma lit_nonl s : bool_decide (newline ∉ s) = true -> ~ In newline s.
Proof. intros H. apply bool_decide_eq_true in H. rewrite <- elem_of_list_In. auto. Qed.
Lemma visible_nonl s : Forall (fun c => 33 <= nat_of_ascii c) s -> ~ In newline s.
Proof. intros H Hx. rewrite List.Forall_forall in H. specialize (H _ Hx). vm_compute in H. lia. Qed.
Lemma white_nonl s : white s -> ~ In newline s.
Proof. intros H. apply white_not; auto; discriminate. Qed.
Lemma declared_nonl k r : row_ok r -> match k with Vecs n => ~ In newline n | _ => True end -> ~ In newline (declared k r).
Proof.
  intros (_ & Hn & Hv & _ & Hu & _ & _ & _ & _ & Hl & _) Hk. assert (Hn' : ~ In newline (r_name r)) by (apply visible_nonl, ident_visible; auto).
  assert (Hl' : ~ In newline (esc (r_label r))) by (intros Hx; apply Hl, esc_in; auto).
  assert (Hv' : ~ In newline (call_value r)).
  { unfold call_value. destruct (r_value r) as [[gap v]|]; [|intros []]. destruct Hv as (_ & _ & _ & Hv). rewrite in_app_iff. intros [Hx|Hx]; [|revert Hx; apply lit_nonl; reflexivity].
    revert Hx. apply visible_nonl. eapply Forall_impl; [exact Hv|]. simpl. tauto. }
  unfold declared, declared_name, call_args, call_body. rewrite !in_app_iff.
  assert (Hlits : forall s, In s [chars " = self."; chars " = "; chars "("; chars "'"; chars "', "; chars "Variable"; chars "VectorVariable"; chars ", "; chars "')"; chars "', constant=True)"] -> ~ In newline s).
  { intros s Hs. apply lit_nonl. apply bool_decide_eq_true. revert s Hs. apply List.Forall_forall. apply (bool_decide_unpack _). vm_compute. exact I. }
  assert (Hf : ~ In newline (row_function k)) by (destruct k; apply Hlits; simpl; tauto).
  assert (Hp : ~ In newline match k with Vecs n => n ++ chars ", " | _ => [] end).
  { destruct k; [intros []|intros []|]. rewrite in_app_iff. intros [Hx|Hx]; [auto|revert Hx; apply Hlits; simpl; tauto]. }
  assert (Hs : ~ In newline match k with Consts => chars "', constant=True)" | _ => chars "')" end) by (destruct k; apply Hlits; simpl; tauto).
  assert (L1 := Hlits (chars " = self.") ltac:(simpl; tauto)). assert (L2 := Hlits (chars " = ") ltac:(simpl; tauto)). assert (L3 := Hlits (chars "(") ltac:(simpl; tauto)).
  assert (L4 := Hlits (chars "'") ltac:(simpl; tauto)). assert (L5 := Hlits (chars "', ") ltac:(simpl; tauto)). tauto.
Qed.

Definition decl_of (x : kind * row * nat) : text := declared (fst (fst x)) (snd (fst x)).
Lemma pairs_placed X : (forall x, In x X -> ~ In newline (decl_of x)) ->
  combine (split NL (placed_text X)) (map snd X) = map (fun x => (decl_of x, snd x)) X.
Proof.
  intros H. replace (placed_text X) with (unlines (map decl_of X) ++ []).
  - rewrite split_unlines; [|apply List.Forall_forall; intros l Hl; apply in_map_iff in Hl as (x & <- & Hl); auto|intros []].
    clear. induction X as [|x X IH]; auto. simpl. f_equal. auto.
  - rewrite app_nil_r. unfold placed_text, unlines. clear. induction X as [|x X IH]; auto. simpl. rewrite IH. auto.
Qed.
Lemma rows_perm P : Permutation (rows_of Consts P ++ rows_of Vars P ++ rows_of (Vecs []) P) P.
Proof.
  induction P as [|[[k r] i] P IH]; auto. unfold rows_of in *. destruct k; simpl; [constructor; auto| |].
  - rewrite <- Permutation_middle. constructor. auto.
  - rewrite app_assoc, <- Permutation_middle, <- app_assoc. constructor. auto.
Qed.
Lemma same_length_end {A} (a b w v : list A) : a ++ w = b ++ v -> List.length w = List.length v -> w = v.
Proof. intros E L. apply app_inj_2 in E as [_ E]; auto. Qed.

Definition comment_line (i : nat) (l : text) : text := (if i =? 0 then chars "from gpkit import Variable, VectorVariable  " else []) ++ chars "# " ++ l.
Lemma comment_lines ls : ls <> [] ->
  let out := match map (fun l => chars "# " ++ l) ls with l :: r => (chars "from gpkit import Variable, VectorVariable" ++ chars "  " ++ l) :: r | [] => [] end in
  List.length out = List.length ls /\ forall i, nth_error out i = option_map (comment_line i) (nth_error ls i).
Proof.
  destruct ls as [|l ls]; [contradiction|]. intros _. simpl. rewrite map_length. split; auto. intros [|i]; [reflexivity|]. simpl.
  rewrite nth_error_map. destruct (nth_error ls i); reflexivity.
Qed.
Lemma join_lines ls : join NL ls = lines_text ls.
Proof. induction ls as [|l [|l2 ls] IH]; auto. simpl in *. rewrite IH. auto. Qed.

Lemma parse_docstring blocks last : Forall block_ok blocks -> ~ In newline last -> ~ contains F last -> closed_tables blocks last -> distinct_rows blocks ->
  let lines := doc_lines blocks last in
  exists out, parse_varstring (lines_text lines) = Ok (lines_text out) /\ List.length out = List.length lines /\
    (forall k r i, In (k, r, i) (placed 0 blocks) -> exists comment, nth_error out i = Some (declared k r ++ chars "  # " ++ comment) /\ ~ In newline comment) /\
    (forall i, ~ In i (map snd (placed 0 blocks)) -> nth_error out i = option_map (comment_line i) (nth_error lines i)) /\
    Forall (fun l => ~ In newline l) out.
Proof.
  intros Hok Hl Hl' Hcl Hd lines. assert (Et : lines_text lines = rest_text blocks last) by apply lines_text_unlines. rewrite Et.
  set (T := rest_text blocks last). assert (Hidx : forall k r i, In (k, r, i) (placed 0 blocks) -> line_index T (row_text r) = Ok i) by (intros; eapply row_found; eauto).
  assert (Hends : forall h, ends (chars "Constants") h -> ends (chars "Variables") h -> False).
  { intros h (a & ->) (b & E). apply same_length_end in E; [discriminate E|reflexivity]. }
  assert (E1 : check_and_parse_flag T constants_flag constant_declare = Ok (placed_text (rows_of Consts (placed 0 blocks)), map snd (rows_of Consts (placed 0 blocks)))).
  { apply (word_flag (chars "Constants") Consts constant_declare T last); auto.
    - apply lit_nonl. reflexivity.
    - intros l Hp. apply Hp.
    - intros [| |n] h Hh; simpl; [apply Hh| |apply Hh]. intros Hx. destruct Hh as (_ & Hh & _). eauto.
    - intros [| |n] rows s f i Es Hr; try discriminate. apply replace_constants. auto. }
  assert (E2 : check_and_parse_flag T variables_flag plain_declare = Ok (placed_text (rows_of Vars (placed 0 blocks)), map snd (rows_of Vars (placed 0 blocks)))).
  { apply (word_flag (chars "Variables") Vars plain_declare T last); auto.
    - apply lit_nonl. reflexivity.
    - intros l Hp. apply Hp.
    - intros [| |n] h Hh; simpl; [|apply Hh|apply Hh]. intros Hx. destruct Hh as (_ & Hh & _). eauto.
    - intros [| |n] rows s f i Es Hr; try discriminate. reflexivity. }
  assert (E3 := vec_flag T last Hl Hl' blocks Hok Hcl Hidx eq_refl).
  unfold parse_varstring. rewrite E1, E2, E3. cbn [rbind fst snd].
  assert (Hlines : Forall (fun l => ~ In newline l) lines) by (apply Forall_app; split; [apply rest_lines_nonl; auto|constructor; auto]).
  assert (Es : split NL T = lines) by (apply split_unlines; [apply rest_lines_nonl|]; auto). rewrite Es.
  destruct (comment_lines lines) as [Lc Hc]; [unfold lines, doc_lines; destruct (flat_map block_lines blocks); discriminate|].
  set (out0 := match map (fun l => chars "# " ++ l) lines with l :: r => (chars "from gpkit import Variable, VectorVariable" ++ chars "  " ++ l) :: r | [] => [] end) in *.
  assert (Hrow : forall k r i, In (k, r, i) (placed 0 blocks) -> row_ok r /\ match k with Vecs n => ~ In newline n | _ => True end).
  { intros k r i Hi. apply placed_where in Hi as (b1 & h & u & rs1 & rs2 & b2 & -> & _). apply Forall_app in Hok as [_ Hok]. inversion Hok as [|? ? Hb _]; subst. destruct Hb as (Hh & _ & _ & Hr).
    apply Forall_app in Hr as [_ Hr]. inversion Hr as [|? ? (Hr1 & _) _]; subst. split; auto. destruct k as [| |n]; auto.
    destruct Hh as (Hh & _ & _ & pre & gap & gap' & -> & _). intros Hx. apply Hh. rewrite !in_app_iff. tauto. }
  assert (Hdn : forall K x, In x (rows_of K (placed 0 blocks)) -> ~ In newline (decl_of x)).
  { intros K [[k r] i] Hx. apply filter_In in Hx as [Hx _]. apply declared_nonl; eapply Hrow; eauto. }
  rewrite !pairs_placed by apply Hdn.
  set (X := rows_of Consts (placed 0 blocks) ++ rows_of Vars (placed 0 blocks) ++ rows_of (Vecs []) (placed 0 blocks)).
  assert (HX : Permutation X (placed 0 blocks)) by apply rows_perm.
  destruct (put_lines_spec (map (fun x => (decl_of x, snd x)) X) out0) as (out & Eo & Lo & Hother & Hin).
  { rewrite map_map. simpl. rewrite HX. apply placed_nodup. }
  { intros l i Hi. apply in_map_iff in Hi as ([[k r] i'] & [= <- <-] & Hi). rewrite HX in Hi. apply placed_bounds in Hi. eapply Nat.lt_le_trans; [|apply Nat.eq_le_incl; symmetry; exact Lc]. unfold lines, doc_lines. rewrite app_length. simpl.
    unfold rest_lines in Hi. lia. }
  unfold X in Eo. rewrite !map_app, !put_lines_app in Eo.
  exists out. split; [|split; [exact (eq_trans Lo Lc)|]].
  { destruct (put_lines out0 _) as [o1|] eqn:P1; [|discriminate]. cbn [rbind] in Eo |- *. rewrite put_lines_app in Eo.
    destruct (put_lines o1 _) as [o2|] eqn:P2; [|discriminate]. cbn [rbind] in Eo |- *. rewrite Eo. cbn [rbind]. rewrite join_lines. auto. }
  rewrite map_map in Hother. simpl in Hother. unfold text in *.
  assert (Hrows : forall k r i, In (k, r, i) (placed 0 blocks) -> exists comment, nth_error out i = Some (declared k r ++ chars "  # " ++ comment) /\ ~ In newline comment).
  { intros k r i Hi. assert (Hx : In (declared k r, i) (map (fun x => (decl_of x, snd x)) X)).
    { apply in_map_iff. exists (k, r, i). split; auto. rewrite HX. auto. }
    pose proof (placed_bounds _ _ _ _ _ Hi) as Hb. rewrite (Hin _ _ Hx), Hc. destruct (nth_error lines i) as [old|] eqn:En.
    2:{ apply nth_error_None in En. unfold lines, doc_lines in En. rewrite app_length in En. simpl in En. unfold rest_lines in Hb. lia. }
    simpl. destruct i as [|i]; [lia|]. unfold put_text. exists (chars "from '" ++ strip (skipn 1 (comment_line (S i) old)) ++ chars "'"). split; [reflexivity|].
    rewrite !in_app_iff. intros [Hq|[Hq|Hq]]; [revert Hq; apply lit_nonl; reflexivity| |revert Hq; apply lit_nonl; reflexivity].
    apply strip_in, skipn_in in Hq. unfold comment_line in Hq. cbn [Nat.eqb app] in Hq. apply in_app_iff in Hq as [Hq|Hq]; [revert Hq; apply lit_nonl; reflexivity|]. rewrite List.Forall_forall in Hlines.
    apply (Hlines old); auto. eapply nth_error_In; eauto. }
  assert (Hothers : forall i, ~ In i (map snd (placed 0 blocks)) -> nth_error out i = option_map (comment_line i) (nth_error lines i)).
  { intros i Hi. rewrite Hother, Hc; auto. rewrite HX. auto. }
  split; [auto|split; [auto|]].
  apply List.Forall_forall. intros l Hi. apply In_nth_error in Hi as (i & Hi). destruct (In_dec Nat.eq_dec i (map snd (placed 0 blocks))) as [Hp|Hp].
  - apply in_map_iff in Hp as ([[k r] i'] & E & Hp). simpl in E. subst i'. destruct (Hrows _ _ _ Hp) as (c & Ec & Hn). assert (l = declared k r ++ chars "  # " ++ c) as -> by congruence.
    rewrite !in_app_iff. intros [Hq|[Hq|Hq]]; [|revert Hq; apply lit_nonl; reflexivity|auto]. revert Hq. apply declared_nonl; eapply Hrow; eauto.
  - rewrite (Hothers i Hp) in Hi. destruct (nth_error lines i) as [old|] eqn:En; [|discriminate]. cbn [option_map] in Hi. assert (l = comment_line i old) as -> by congruence. unfold comment_line.
    rewrite !in_app_iff. rewrite List.Forall_forall in Hlines. specialize (Hlines old ltac:(eapply nth_error_In; eauto)).
    intros [Hq|[Hq|Hq]]; [|revert Hq; apply lit_nonl; reflexivity|auto]. destruct (i =? 0); [revert Hq; apply lit_nonl; reflexivity|destruct Hq].
Qed.
