(** C69: each row of a table in a docstring declares its variable. *)
From Verif Require Import Base Settings Docstring DocstringSpec DocstringStrings DocstringRows DocstringProofs DocstringLines.
From Coq Require Import Strings.String Strings.Ascii.
Local Open Scope list_scope.
Open Scope nat_scope.

(** What the tables of a docstring should be turned into: Python source with as many lines as the docstring has, where
    - the line of each row assigns to its name, and to that attribute of self, a call with the row's arguments, and the rest of that line is a comment;
    - the other lines are comments, after an import in the first. *)
Definition declares (blocks : list block) (last : text) : Prop :=
  let lines := doc_lines blocks last in
  exists out, parse_varstring (lines_text lines) = Ok (lines_text out) /\ Forall (fun l => ~ In newline l) out /\ List.length out = List.length lines /\
    (forall k r i, In (k, r, i) (placed 0 blocks) -> exists args comment,
       nth_error out i = Some (r_name r ++ chars " = self." ++ r_name r ++ chars " = " ++ row_function k ++ chars "(" ++ args) /\
       read_args args = Some (row_args k r, chars "  # " ++ comment)) /\
    (forall i l, nth_error lines i = Some l -> ~ In i (map snd (placed 0 blocks)) ->
       nth_error out i = Some ((if i =? 0 then chars "from gpkit import Variable, VectorVariable  " else []) ++ chars "# " ++ l)).

Theorem C69_declared_partial : forall blocks last, Forall block_ok blocks -> ~ In newline last -> ~ contains (chars "Variables of length") last ->
  closed_tables blocks last -> distinct_rows blocks -> declares blocks last.
Proof.
  intros blocks last Hok Hl Hl' Hc Hd. destruct (parse_docstring blocks last Hok Hl Hl' Hc Hd) as (out & E & Len & Hrows & Hothers & Hnl).
  exists out. split; [exact E|]. split; [exact Hnl|]. split; [exact Len|]. split.
  - intros k r i Hi. destruct (Hrows k r i Hi) as (comment & En & _). exists (call_args k r ++ chars "  # " ++ comment), comment. split.
    + rewrite En. unfold declared, declared_name. rewrite <- !app_assoc. reflexivity.
    + apply placed_where in Hi as (b1 & h & u & rs1 & rs2 & b2 & -> & _). apply Forall_app in Hok as [_ Hok]. inversion Hok as [|? ? Hb _]; subst.
      destruct Hb as (_ & _ & _ & Hr). apply Forall_app in Hr as [_ Hr]. inversion Hr as [|? ? (Hr1 & Hr2 & _) _]; subst. apply read_row; auto.
  - intros i l El Hi. rewrite Hothers by auto. unfold text in *. rewrite El. reflexivity.
Qed.
Print Assumptions C69_declared_partial.

(** *** Conditions that can be computed *)
Lemma not_ends p s : starts (rev p) (rev s) = false -> ~ ends p s.
Proof. intros H (a & ->). rewrite rev_app_distr, starts_app in H. discriminate. Qed.
Lemma not_in (c : ascii) s : bool_decide (c ∈ s) = false -> ~ In c s.
Proof. intros H Hx. apply bool_decide_eq_false in H. apply H, elem_of_list_In. auto. Qed.
Definition plainb (l : text) : bool :=
  negb (bool_decide (newline ∈ l) || starts (rev (chars "Constants")) (rev l) || starts (rev (chars "Variables")) (rev l) || containsb (chars "Variables of length") l).
Lemma plainb_ok l : plainb l = true -> plain_line l.
Proof.
  unfold plainb. rewrite negb_true_iff, !orb_false_iff. intros [[[H1 H2] H3] H4]. split; [apply not_in; auto|]. split; [apply not_ends; auto|]. split; [apply not_ends; auto|apply not_containsb; auto].
Qed.
Definition whiteb (s : text) : bool := forallb (fun c => Ascii.eqb c " "%char || Ascii.eqb c "009"%char) s.
Lemma whiteb_ok s : whiteb s = true -> white s.
Proof.
  unfold whiteb. intros H. apply List.Forall_forall. rewrite forallb_forall in H. intros c Hc. specialize (H c Hc). apply orb_true_iff in H. rewrite !Ascii.eqb_eq in H. auto.
Qed.
Fixpoint closed_check (bs : list block) (last : text) : bool :=
  match bs with
  | [] => true
  | Prose _ :: bs' => closed_check bs' last
  | Table _ _ _ _ :: bs' => whiteb (hd last (flat_map block_lines bs')) && closed_check bs' last
  end.
Lemma closed_check_ok last : forall bs, closed_check bs last = true -> closed_tables bs last.
Proof.
  induction bs as [|b bs IH]; intros H b1 k h u rows b2 E; [destruct b1; discriminate|]. destruct b1 as [|b1' b1]; injection E as -> ->.
  - apply andb_true_iff in H as [H _]. apply whiteb_ok. auto.
  - apply (IH ltac:(destruct b1' ; [exact H|apply andb_true_iff in H; apply H]) b1 k h u rows b2). auto.
Qed.
Fixpoint rows_check (seen : list text) (rows : list row) : bool :=
  match rows with [] => true | r :: rs => forallb (fun l => negb (containsb (row_text r) l)) seen && rows_check (row_text r :: seen) rs end.
Fixpoint distinct_check (seen : list text) (bs : list block) : bool :=
  match bs with
  | [] => true
  | Prose l :: bs' => distinct_check (l :: seen) bs'
  | Table k h u rows :: bs' => rows_check (u :: h :: seen) rows && distinct_check (map row_text rows ++ u :: h :: seen) bs'
  end.
Lemma rows_check_ok : forall rs1 seen r rs2, rows_check seen (rs1 ++ r :: rs2) = true -> forall l, In l (seen ++ map row_text rs1) -> ~ contains (row_text r) l.
Proof.
  induction rs1 as [|r1 rs1 IH]; intros seen r rs2 H l Hl; cbn [app rows_check] in H; apply andb_true_iff in H as [H1 H2].
  - simpl in Hl. rewrite app_nil_r in Hl. rewrite forallb_forall in H1. apply not_containsb. specialize (H1 l Hl). destruct (containsb _ _); auto.
  - apply (IH _ _ _ H2). apply in_app_or in Hl as [Hl|[<-|Hl]]; [right; apply in_or_app; auto|left; auto|right; apply in_or_app; auto].
Qed.
Lemma distinct_check_ok : forall bs seen, distinct_check seen bs = true -> forall b1 k h u rs1 r rs2 b2, bs = b1 ++ Table k h u (rs1 ++ r :: rs2) :: b2 ->
  forall l, In l (seen ++ flat_map block_lines b1 ++ h :: u :: map row_text rs1) -> ~ contains (row_text r) l.
Proof.
  induction bs as [|b bs IH]; intros seen H b1 k h u rs1 r rs2 b2 E l Hl; [destruct b1; discriminate|]. destruct b1 as [|b1' b1]; injection E as -> ->.
  - apply andb_true_iff in H as [H _]. apply (rows_check_ok _ _ _ _ H l). rewrite !in_app_iff in *. simpl in *. rewrite ?in_app_iff in *. simpl in *. tauto.
  - destruct b1' as [l'|k' h' u' rows']; cbn [distinct_check] in H.
    + apply (IH _ H b1 k h u rs1 r rs2 b2 eq_refl l). rewrite !in_app_iff in *. simpl in *. rewrite ?in_app_iff in *. simpl in *. tauto.
    + apply andb_true_iff in H as [_ H]. apply (IH _ H b1 k h u rs1 r rs2 b2 eq_refl l). simpl in *. rewrite !in_app_iff in *. simpl in *. rewrite ?in_app_iff in *. simpl in *. tauto.
Qed.

Ltac rows_ok := repeat match goal with
  | |- Forall _ _ => constructor
  | |- plain_line _ => apply plainb_ok; reflexivity
  | |- _ /\ _ => split
  | |- ~ In _ _ => apply not_in; reflexivity
  | |- ~ contains _ _ => apply not_containsb; reflexivity
  | |- ~ ends _ _ => apply not_ends; reflexivity
  | |- white _ => apply whiteb_ok; reflexivity
  | |- _ <> _ => discriminate
  | |- ends ?w ?h => exists (firstn (List.length h - List.length w) h); reflexivity
  | |- True => exact I
  | |- _ = true => reflexivity
  | |- (_ <= ?n <= _) \/ _ => let m := eval vm_compute in n in change n with m; lia
  | |- 33 <= ?n => let m := eval vm_compute in n in change n with m; lia
  end.
(** A docstring with all kinds of tables *)
Definition sp (n : nat) : text := repeat " "%char n.
Definition r_k : row := Row (sp 4) (chars "k") (Some (sp 1, chars "max(2,3)")) (sp 1) (chars "N/m") (sp 2) (chars "spring's constant").
Definition r_A : row := Row (sp 4) (chars "A") None (sp 6) (chars "m^2") (sp 2) (chars "surface area").
Definition r_V : row := Row (sp 4) (chars "V") (Some (sp 1, chars "100")) (sp 2) (chars "L") (sp 4) (chars "minimum volume").
Definition r_s : row := Row (sp 4) (chars "s") None (sp 6) (chars "m") [] [].
Ltac row_ok_tac := unfold row_ok, row_fits, identifier, code, spaces_only; lazy [r_indent r_name r_value r_gap r_units r_gap' r_label r_k r_A r_V r_s]; lazy beta iota; rows_ok;
  first [intros; discriminate | simpl; lia | reflexivity | idtac].
Definition cube : list block :=
  [Prose (chars "A cube"); Prose [];
   Table Consts (chars "    Constants") (chars "    ---------") [r_k]; Prose [];
   Table Vars (chars "    Variables") (chars "    ---------") [r_A; r_V]; Prose (sp 4);
   Table (Vecs (chars "3")) (chars "    Variables of length 3") (chars "    ---------------------") [r_s]].
Example C69_nonvacuous : Forall block_ok cube /\ closed_tables cube (sp 4) /\ distinct_rows cube /\ ~ In newline (sp 4) /\ ~ contains (chars "Variables of length") (sp 4) /\
  map snd (placed 0 cube) = [4; 8; 9; 13].
Proof.
  split; [|split; [apply closed_check_ok; reflexivity|split; [|split; [apply not_in; reflexivity|split; [apply not_containsb; reflexivity|reflexivity]]]]].
  - assert (forall r, In r [r_k; r_A; r_V; r_s] -> row_ok r) as Hrows.
    { intros r [<-|[<-|[<-|[<-|[]]]]]; row_ok_tac. }
    assert (row_fits Consts r_k) as Hk.
    { split; [|split; intros; discriminate]. intros s [<-|[<-|[<-|[]]]]; apply not_containsb; reflexivity. }
    assert (row_fits (Vecs (chars "3")) r_s) as Hs.
    { split; [unfold code; rows_ok|]. intros s [<-|[<-|[]]]; apply not_containsb; reflexivity. }
    assert (forall r, In r [r_k; r_A; r_V; r_s] -> plain_line (row_text r)) as Hplain.
    { intros r [<-|[<-|[<-|[<-|[]]]]]; apply plainb_ok; reflexivity. }
    assert (header_ok (Vecs (chars "3")) (chars "    Variables of length 3")) as Hv.
    { split; [apply not_in; reflexivity|]. split; [apply not_ends; reflexivity|]. split; [apply not_ends; reflexivity|].
      exists (sp 4), (sp 1), []. rows_ok; [reflexivity|]. intros c s [E|E]; [injection E as <- _|destruct s as [|? [|? ?]]; try discriminate; injection E as <-]; vm_compute; lia. }
    unfold cube. apply List.Forall_cons; [|apply List.Forall_cons; [|apply List.Forall_cons; [|apply List.Forall_cons; [|apply List.Forall_cons; [|apply List.Forall_cons; [|apply List.Forall_cons]]]]]]; [apply plainb_ok; reflexivity|apply plainb_ok; reflexivity| |apply plainb_ok; reflexivity| |apply plainb_ok; reflexivity| |constructor].
    + split; [split; [apply not_in; reflexivity|split; [exists (sp 4); reflexivity|apply not_containsb; reflexivity]]|]. split; [apply plainb_ok; reflexivity|]. split; [exact I|].
      apply List.Forall_cons; [|constructor]. split; [apply Hrows|split; [exact Hk|apply Hplain]]; simpl; auto.
    + split; [split; [apply not_in; reflexivity|split; [exists (sp 4); reflexivity|apply not_containsb; reflexivity]]|]. split; [apply plainb_ok; reflexivity|]. split; [exact I|].
      apply List.Forall_cons; [|apply List.Forall_cons; [|constructor]]; (split; [apply Hrows|split; [exact I|apply Hplain]]; simpl; auto).
    + split; [exact Hv|]. split; [apply plainb_ok; reflexivity|]. split; [simpl; lia|].
      apply List.Forall_cons; [|constructor]. split; [apply Hrows|split; [exact Hs|apply Hplain]]; simpl; auto 6.
  - intros b1 k h u rs1 r rs2 b2 E l Hl. apply (distinct_check_ok cube [] eq_refl _ _ _ _ _ _ _ _ E l Hl).
Qed.

(** *** Where it fails *)
Lemma split_lines out : Forall (fun l => ~ In newline l) out -> out <> [] -> split NL (lines_text out) = out.
Proof.
  intros H Hne. destruct (exists_last Hne) as (ls & l & ->). rewrite lines_text_unlines. apply Forall_app in H as [H1 H2]. inversion H2; subst. apply split_unlines; auto.
Qed.
(** Only the lines that follow can be the result *)
Lemma declares_lines blocks last s : parse_varstring (lines_text (doc_lines blocks last)) = Ok s -> declares blocks last ->
  forall k r i, In (k, r, i) (placed 0 blocks) -> exists args comment,
    nth_error (split NL s) i = Some (r_name r ++ chars " = self." ++ r_name r ++ chars " = " ++ row_function k ++ chars "(" ++ args) /\
    read_args args = Some (row_args k r, chars "  # " ++ comment).
Proof.
  intros Es (out & E & Hnl & Len & Hrows & _) k r i Hi. rewrite Es in E. injection E as ->. rewrite split_lines; auto. intros ->. simpl in Len.
  unfold doc_lines in Len. rewrite app_length in Len. simpl in Len. lia.
Qed.
(** Blocks with other conditions on rows and underlines *)
Definition block_with (fits : kind -> row -> Prop) (under : kind -> text -> Prop) (b : block) : Prop :=
  match b with
  | Prose l => plain_line l
  | Table k h u rows => header_ok k h /\ plain_line u /\ under k u /\ Forall (fun r => row_ok r /\ fits k r /\ plain_line (row_text r)) rows
  end.
Definition long_underline (k : kind) (u : text) : Prop := match k with Vecs _ => 18 <= List.length u | _ => True end.

(** Rows are looked up by their text: where a row's text is part of an earlier line, its declaration replaces that line. Here dV is never declared. *)
Definition r_dV : row := Row [] (chars "dV") None (sp 1) (chars "L") [] [].
Definition r_V0 : row := Row [] (chars "V") None (sp 1) (chars "L") [] [].
Definition similar : list block := [Table Vars (chars "Variables") (chars "---------") [r_dV; r_V0]].
Theorem C69_similar_rows_refuted : exists blocks last, Forall block_ok blocks /\ ~ In newline last /\ ~ contains (chars "Variables of length") last /\ closed_tables blocks last /\
  NoDup (map (fun x => r_name (snd (fst x))) (placed 0 blocks)) /\ ~ declares blocks last.
Proof.
  exists similar, []. split; [|split; [intros []|split; [apply not_containsb; reflexivity|split; [apply closed_check_ok; reflexivity|split]]]].
  - apply List.Forall_cons; [|constructor]. split; [split; [apply not_in; reflexivity|split; [exists []; reflexivity|apply not_containsb; reflexivity]]|].
    split; [apply plainb_ok; reflexivity|]. split; [exact I|].
    apply List.Forall_cons; [|apply List.Forall_cons; [|constructor]]; (split; [unfold r_dV, r_V0; row_ok_tac|split; [exact I|apply plainb_ok; reflexivity]]).
  - apply (bool_decide_unpack _). vm_compute. exact I.
  - intros H. eapply declares_lines in H; [|vm_compute; reflexivity|left; reflexivity]. destruct H as (args & comment & H & _). vm_compute in H. discriminate H.
Qed.
Print Assumptions C69_similar_rows_refuted.

(** After a line with "Variables of length" as many characters are skipped as these words have; where the line under it is short, the start of the next such line can be
    among them, and the docstring is refused. *)
Definition r_y : row := Row (sp 4) (chars "y") None (sp 1) (chars "-") [] [].
Definition short : list block := [Table (Vecs (chars "3")) (chars "Variables of length 3") (chars "---") []; Prose []; Table (Vecs (chars "2")) (chars "Variables of length 2") (chars "---") [r_y]].
Lemma vec_header_ok d : d = chars "3" \/ d = chars "2" -> header_ok (Vecs d) (chars "Variables of length " ++ d).
Proof.
  intros [-> | ->]; (split; [apply not_in; reflexivity|]; split; [apply not_ends; reflexivity|]; split; [apply not_ends; reflexivity|];
  exists [], (sp 1), []; rows_ok; [reflexivity|]; intros c s [E|E]; [injection E as <- _|destruct s as [|? [|? ?]]; try discriminate; injection E as <-]; vm_compute; lia).
Qed.
Theorem C69_short_underlines_refuted : exists blocks last, Forall (block_with row_fits (fun _ _ => True)) blocks /\ ~ In newline last /\ ~ contains (chars "Variables of length") last /\
  closed_tables blocks last /\ distinct_rows blocks /\ ~ declares blocks last.
Proof.
  exists short, []. split; [|split; [intros []|split; [apply not_containsb; reflexivity|split; [apply closed_check_ok; reflexivity|split]]]].
  - apply List.Forall_cons; [|apply List.Forall_cons; [apply plainb_ok; reflexivity|apply List.Forall_cons; [|constructor]]].
    + split; [apply (vec_header_ok (chars "3")); auto|]. split; [apply plainb_ok; reflexivity|]. split; [exact I|]. constructor.
    + split; [apply (vec_header_ok (chars "2")); auto|]. split; [apply plainb_ok; reflexivity|]. split; [exact I|]. apply List.Forall_cons; [|constructor].
      split; [unfold r_y; row_ok_tac|split; [split; [unfold code; rows_ok|]|apply plainb_ok; reflexivity]]. intros s [<-|[<-|[]]]; apply not_containsb; reflexivity.
  - intros b1 k h u rs1 r rs2 b2 E l Hl. apply (distinct_check_ok short [] eq_refl _ _ _ _ _ _ _ _ E l Hl).
  - intros (out & E & _). vm_compute in E. discriminate E.
Qed.
Print Assumptions C69_short_underlines_refuted.

(** In tables of constants, [constant=True] is inserted at each quote before a parenthesis, also in labels: the call is not valid. *)
Definition r_q : row := Row (sp 4) (chars "f") (Some (sp 1, chars "2")) (sp 1) (chars "-") (sp 1) (chars "friction (as in 'a')").
Definition quoted : list block := [Table Consts (chars "Constants") (chars "---------") [r_q]].
Theorem C69_quotes_in_labels_refuted : exists blocks last, Forall (block_with (fun _ _ => True) long_underline) blocks /\ ~ In newline last /\
  ~ contains (chars "Variables of length") last /\ closed_tables blocks last /\ distinct_rows blocks /\ ~ declares blocks last.
Proof.
  exists quoted, []. split; [|split; [intros []|split; [apply not_containsb; reflexivity|split; [apply closed_check_ok; reflexivity|split]]]].
  - apply List.Forall_cons; [|constructor]. split; [split; [apply not_in; reflexivity|split; [exists []; reflexivity|apply not_containsb; reflexivity]]|].
    split; [apply plainb_ok; reflexivity|]. split; [exact I|]. apply List.Forall_cons; [|constructor]. split; [unfold r_q; row_ok_tac|split; [exact I|apply plainb_ok; reflexivity]].
  - intros b1 k h u rs1 r rs2 b2 E l Hl. apply (distinct_check_ok quoted [] eq_refl _ _ _ _ _ _ _ _ E l Hl).
  - intros H. eapply declares_lines in H; [|vm_compute; reflexivity|left; reflexivity]. destruct H as (args & comment & H & Hr). vm_compute in H. injection H as <-. vm_compute in Hr. discriminate Hr.
Qed.
Print Assumptions C69_quotes_in_labels_refuted.

(** A space at the end of a row without a label: the docstring is refused. *)
Theorem C69_trailing_space_refuted : exists blocks r, row_ok r /\ r_label r = [] /\ r_gap' r = [] /\ blocks = [Table Vars (chars "Variables") (chars "---------") [r]] /\ declares blocks [] /\
  parse_varstring (lines_text (doc_lines [Table Vars (chars "Variables") (chars "---------") [Row (r_indent r) (r_name r) (r_value r) (r_gap r) (r_units r) (sp 1) []]] [])) = Err IndexErrorE.
Proof.
  eexists _, r_V0. assert (Hok : row_ok r_V0) by (unfold r_V0; row_ok_tac). split; [exact Hok|]. split; [reflexivity|]. split; [reflexivity|]. split; [reflexivity|]. split; [|reflexivity].
  apply C69_declared_partial; [|intros []|apply not_containsb; reflexivity|apply closed_check_ok; reflexivity|].
  - apply List.Forall_cons; [|constructor]. split; [split; [apply not_in; reflexivity|split; [exists []; reflexivity|apply not_containsb; reflexivity]]|].
    split; [apply plainb_ok; reflexivity|]. split; [exact I|]. apply List.Forall_cons; [|constructor]. split; [exact Hok|split; [exact I|apply plainb_ok; reflexivity]].
  - intros b1 k h u rs1 r rs2 b2 E l Hl. exact (distinct_check_ok [Table Vars (chars "Variables") (chars "---------") [r_V0]] [] eq_refl _ _ _ _ _ _ _ _ E l Hl).
Qed.
Print Assumptions C69_trailing_space_refuted.
