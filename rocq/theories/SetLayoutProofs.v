(** Proofs about printed constraint sets. *)
From Coq Require Import NArith Ascii String Decimal DecimalString DecimalNat.
From Verif Require Import Base ConTable ConTableProofs SetLayout SetLayoutSpec.
Open Scope nat_scope.
Local Open Scope list_scope.

(** ** Induction *)
Section ind.
Context (P : cset -> Prop).
Context (Hcon : forall s, P (Con s)) (Hits : P Itself)
        (Hlst : forall els, (forall k c, In (k, c) els -> P c) -> P (Lst els))
        (Hset : forall l els, (forall k c, In (k, c) els -> P c) -> P (CSet l els)).
Fixpoint cset_ind' (c : cset) : P c :=
  let all := fix all (els : list (option text * cset)) : forall k c, In (k, c) els -> P c :=
    match els with
    | [] => fun k c H => match H with end
    | (k0, c0) :: els' => fun k c H =>
        match H with
        | or_introl E => match f_equal snd E in _ = y return P y with eq_refl => cset_ind' c0 end
        | or_intror H' => all els' k c H'
        end
    end in
  match c with
  | Con s => Hcon s
  | Itself => Hits
  | Lst els => Hlst els (all els)
  | CSet l els => Hset l els (all els)
  end.
End ind.

Lemma clines_lst names els : clines names (Lst els) = recursively_line names els [].
Proof. cbn [clines]. generalize (@nil text). induction els as [|[k c] els IH]; intros ls; [reflexivity|]. cbn [recursively_line]. apply IH. Qed.
Lemma clines_cset names l els : clines names (CSet l els) = map (fun x => rstrip (lineage_indent l ++ x)) (recursively_line names els []).
Proof.
  cbn [clines]. f_equal. generalize (@nil text). induction els as [|[k c] els IH]; intros ls; [reflexivity|]. cbn [recursively_line]. apply IH.
Qed.

(** ** Stripping *)
Lemma rstrip_snoc s c : rstrip (s ++ [c]) = if is_space c then rstrip s else s ++ [c].
Proof. unfold rstrip. rewrite rev_app_distr. simpl. destruct (is_space c); [reflexivity|]. simpl. rewrite rev_involutive. reflexivity. Qed.
Lemma rstrip_idem s : rstrip (rstrip s) = rstrip s.
Proof. destruct (rstrip_spec s) as (sp & E & F & [H|(t & c & H & Hc)]); rewrite H; [reflexivity|]. rewrite rstrip_snoc, Hc. reflexivity. Qed.
Lemma rstrip_spaces s : Forall (fun c => is_space c = true) s -> rstrip s = [].
Proof.
  intros F. unfold rstrip. replace (lstrip (rev s)) with (@nil N); [reflexivity|]. symmetry. rewrite <- (app_nil_r (rev s)), lstrip_app; [reflexivity|].
  apply List.Forall_forall. rewrite List.Forall_forall in F. intros c Hc. apply F. rewrite in_rev. auto.
Qed.
Lemma rstrip_cons c s : rstrip (c :: s) = match rstrip s with [] => if is_space c then [] else [c] | t => c :: t end.
Proof.
  induction s as [|d s IH] using rev_ind.
  - cbn [rstrip rev app]. change (c :: []) with ([] ++ [c]). rewrite rstrip_snoc. reflexivity.
  - rewrite app_comm_cons, !rstrip_snoc. destruct (is_space d); [apply IH|]. destruct (s ++ [d]) eqn:E; [destruct s; discriminate|]. rewrite <- E. reflexivity.
Qed.
Lemma rstrip_not_space c s : is_space c = false -> rstrip (c :: s) = c :: rstrip s.
Proof. intros H. rewrite rstrip_cons, H. destruct (rstrip s); reflexivity. Qed.
Lemma lstrip_length s : length (lstrip s) <= length s.
Proof. induction s as [|c s IH]; simpl; [lia|]. destruct (is_space c); simpl; lia. Qed.
Lemma lstrip_rstrip s : lstrip (rstrip s) = rstrip (lstrip s).
Proof.
  induction s as [|c s IH]; [reflexivity|]. rewrite rstrip_cons. cbn [lstrip]. destruct (is_space c) eqn:E.
  - rewrite <- IH. destruct (rstrip s); [reflexivity|]. cbn [lstrip]. rewrite E. reflexivity.
  - rewrite rstrip_not_space by auto. destruct (rstrip s); cbn [lstrip]; rewrite E; reflexivity.
Qed.
(** Indentation is not changed by [rstrip]. *)
Lemma indent_rstrip s : rstrip s <> [] -> length (rstrip s) - length (lstrip (rstrip s)) = length s - length (lstrip s).
Proof.
  induction s as [|c s IH]; [reflexivity|]. rewrite rstrip_cons. intros H. cbn [lstrip]. destruct (is_space c) eqn:E.
  - destruct (rstrip s) as [|d t] eqn:Er; [contradiction|]. specialize (IH ltac:(discriminate)). revert IH. generalize (lstrip_length (d :: t)) (lstrip_length s).
    generalize (d :: t). intros u H1 H2 IH. cbn [lstrip]. rewrite E. cbn [length]. lia.
  - destruct (rstrip s); cbn [lstrip]; rewrite E; cbn [length]; lia.
Qed.

(** ** Reading lines *)
Definition shift (n : nat) (x : nat * text) : nat * text := (n + fst x, snd x).
Lemma read_line_nil : read_line [] = None.
Proof. reflexivity. Qed.
Lemma read_line_space l : read_line (space :: l) = option_map (shift 1) (read_line l).
Proof.
  unfold read_line. cbn [lstrip]. change (is_space space) with true. cbn match. destruct (rstrip (lstrip l)) as [|c t]; [reflexivity|].
  cbn [option_map shift fst snd]. f_equal. unfold shift. cbn [fst snd length]. f_equal. pose proof (lstrip_length l). lia.
Qed.
Lemma read_line_rstrip l : read_line (rstrip l) = read_line l.
Proof.
  unfold read_line. rewrite lstrip_rstrip, rstrip_idem. destruct (rstrip (lstrip l)) as [|c t] eqn:E; [reflexivity|]. f_equal. f_equal.
  rewrite <- (indent_rstrip l), lstrip_rstrip, E; [reflexivity|]. rewrite <- lstrip_rstrip in E. intros H. rewrite H in E. discriminate.
Qed.
Lemma read_line_blank l : read_line l = None <-> rstrip l = [].
Proof.
  unfold read_line. rewrite <- lstrip_rstrip. split.
  - destruct (lstrip (rstrip l)) eqn:E; [|discriminate]. intros _. destruct (rstrip_spec l) as (sp & _ & _ & [H|(t & c & H & Hc)]); [exact H|].
    exfalso. rewrite H in E. assert (Hin : In c (t ++ [c])) by (apply in_or_app; right; left; reflexivity). revert E Hin. generalize (t ++ [c]). intros u.
    induction u as [|d u IH]; intros E Hin; [contradiction|]. cbn [lstrip] in E. destruct (is_space d) eqn:Ed; [|discriminate].
    destruct Hin as [->|Hin]; [congruence|]. auto.
  - intros ->. reflexivity.
Qed.
Lemma read_line_plain s : plain s -> read_line s = Some (0, s).
Proof.
  intros (_ & (c & s' & E & Hc) & (s'' & d & E' & Hd)). unfold read_line.
  assert (L : lstrip s = s) by (rewrite E; cbn [lstrip]; rewrite Hc; reflexivity). rewrite L.
  assert (R : rstrip s = s) by (rewrite E', rstrip_snoc, Hd; reflexivity). rewrite R, Nat.sub_diag. rewrite E. reflexivity.
Qed.

(** ** Splitting and joining *)
Lemma split_lines_app a b : ~ In newline a -> split_lines (a ++ newline :: b) = a :: split_lines b.
Proof.
  induction a as [|c a IH]; intros H; [reflexivity|]. cbn [app split_lines]. destruct (N.eqb_spec c newline) as [->|]; [exfalso; apply H; left; reflexivity|].
  rewrite IH by (intros Hi; apply H; right; exact Hi). reflexivity.
Qed.
Lemma split_lines_one a : ~ In newline a -> split_lines a = [a].
Proof.
  induction a as [|c a IH]; intros H; [reflexivity|]. cbn [split_lines]. destruct (N.eqb_spec c newline) as [->|]; [exfalso; apply H; left; reflexivity|].
  rewrite IH by (intros Hi; apply H; right; exact Hi). reflexivity.
Qed.
Lemma split_join ls : ls <> [] -> (forall l, In l ls -> ~ In newline l) -> split_lines (join_lines ls) = ls.
Proof.
  induction ls as [|l ls IH]; intros H Hn; [contradiction|]. destruct ls as [|l' ls].
  - apply split_lines_one. apply Hn. left. reflexivity.
  - cbn [join_lines]. rewrite split_lines_app by (apply Hn; left; reflexivity). f_equal. apply IH; [discriminate|]. intros x Hx. apply Hn. right. exact Hx.
Qed.
Lemma split_lines_no s l : In l (split_lines s) -> ~ In newline l.
Proof.
  revert l. induction s as [|c s IH]; intros l; cbn [split_lines].
  - intros [<-|[]] [].
  - destruct (N.eqb_spec c newline) as [->|Hc].
    + intros [<-|H]; [intros []|apply IH, H].
    + destruct (split_lines s) as [|l0 ls].
      * intros [<-|[]]. intros [E|[]]. congruence.
      * intros [<-|H]; [|apply IH; right; exact H]. intros [E|Hi]; [congruence|]. revert Hi. apply IH. left. reflexivity.
Qed.

(** ** What lines say *)
(** The lines of what is in a set, before they are indented below its name *)
Fixpoint enc (names : bool) (c : cset) : list (nat * text) :=
  match c with
  | Con s => [(0, s)]
  | Itself => [(0, contained_itself)]
  | Lst els | CSet _ els =>
      flat_map (fun kc =>
        match heading (snd kc), fst kc with
        | Some name, _ => (0, name) :: map (shift 1) (match enc names (snd kc) with [] => [(0, no_constraints)] | e => e end)
        | None, Some key => if names then (0, key_line key) :: map (shift 2) (enc names (snd kc)) else enc names (snd kc)
        | None, None => enc names (snd kc)
        end) els
  end.
Definition enc_el (names : bool) (kc : option text * cset) : list (nat * text) :=
  match heading (snd kc), fst kc with
  | Some name, _ => (0, name) :: map (shift 1) (match enc names (snd kc) with [] => [(0, no_constraints)] | e => e end)
  | None, Some key => if names then (0, key_line key) :: map (shift 2) (enc names (snd kc)) else enc names (snd kc)
  | None, None => enc names (snd kc)
  end.
Definition indented (c : cset) : nat := match heading c with Some _ => 1 | None => 0 end.

Lemma last_cons {A} (x : A) l : exists y, last (x :: l) = Some y /\ In y (x :: l).
Proof.
  revert x. induction l as [|z l IH]; intros x; [exists x; split; [reflexivity|left; reflexivity]|].
  destruct (IH z) as (y & E & H). exists y. split; [exact E|right; exact H].
Qed.
Lemma heading_cset l els : indented (CSet l els) = length (lineage_indent l).
Proof. destruct l as [|x l]; [reflexivity|]. unfold indented, heading. destruct (last_cons x l) as (y & -> & _). reflexivity. Qed.
Lemma omap_cons' {A B} (f : A -> option B) x l : omap f (x :: l) = match f x with Some y => y :: omap f l | None => omap f l end.
Proof. reflexivity. Qed.
Lemma omap_shift (g : text -> text) n l : (forall x, read_line (g x) = option_map (shift n) (read_line x)) -> omap read_line (map g l) = map (shift n) (omap read_line l).
Proof.
  intros H. induction l as [|x l IH]; [reflexivity|]. cbn [map]. rewrite !omap_cons', H, IH. destruct (read_line x); reflexivity.
Qed.
Lemma shift_0 l : map (shift 0) l = l.
Proof. induction l as [|[i t] l IH]; [reflexivity|]. simpl. rewrite IH. reflexivity. Qed.
Lemma shift_shift m n l : map (shift m) (map (shift n) l) = map (shift (m + n)) l.
Proof. rewrite map_map. apply map_ext. intros [i t]. unfold shift. simpl. f_equal. lia. Qed.
Lemma option_map_shift0 (o : option (nat * text)) : option_map (shift 0) o = o.
Proof. destruct o as [[i t]|]; reflexivity. Qed.
Lemma read_line_indent l x : read_line (rstrip (lineage_indent l ++ x)) = option_map (shift (length (lineage_indent l))) (read_line x).
Proof. rewrite read_line_rstrip. destruct l; cbn [lineage_indent app length]; [symmetry; apply option_map_shift0|apply read_line_space]. Qed.

Lemma digit_char u c : In c (chars (NilEmpty.string_of_uint u)) -> is_space c = false.
Proof. unfold chars. induction u; simpl; [intros []| | | | | | | | | |]; (intros [<-|H]; [reflexivity|auto]). Qed.
Lemma digits_ne n : n <> 0 -> digits n <> [].
Proof.
  intros Hn H. unfold digits in H. assert (E : Nat.to_uint n = Nil).
  { destruct (Nat.to_uint n); [reflexivity|discriminate..]. }
  apply (f_equal Nat.of_uint) in E. rewrite DecimalNat.Unsigned.of_to in E. simpl in E. auto.
Qed.
Lemma plain_app s t : plain s -> t <> [] -> (forall c, In c t -> is_space c = false) -> plain (s ++ t).
Proof.
  intros (Hn & (c & s' & -> & Hc) & _) Ht Hs. split; [|split].
  - intros Hi. apply in_app_or in Hi as [Hi|Hi]; [auto|]. apply Hs in Hi. discriminate.
  - exists c, (s' ++ t). split; auto.
  - destruct (exists_last Ht) as (t' & d & E). rewrite E. exists ((c :: s') ++ t'), d. split; [rewrite app_assoc; reflexivity|]. apply Hs. rewrite E. apply in_or_app. right. left. reflexivity.
Qed.
Lemma plain_name name num : plain name -> plain (model_name (name, num)).
Proof. intros H. unfold model_name. cbn [fst snd]. destruct num; [exact H|]. apply plain_app; auto; [apply digits_ne; lia|]. intros c. apply digit_char. Qed.
Lemma plain_heading names c name : readable names c -> heading c = Some name -> plain name.
Proof.
  intros H E. destruct H as [| |els H|l els Hn H]; try discriminate. cbn [heading] in E. destruct l as [|x l]; [discriminate|].
  destruct (last_cons x l) as ((nm & num) & El & Hin). rewrite El in E. injection E as <-. apply plain_name. eapply Hn, Hin.
Qed.
Lemma plain_key key : ~ In newline key -> plain (key_line key).
Proof.
  intros H. unfold key_line. split; [|split].
  - intros [E|Hi]; [discriminate|]. apply in_app_or in Hi as [Hi|[E|[E|[]]]]; [auto|discriminate|discriminate].
  - eexists _, _. split; reflexivity.
  - exists (quote :: key ++ [quote]), 58%N. split; [cbn [app]; rewrite <- app_assoc|]; reflexivity.
Qed.

Lemma any_line_enc (f : text -> text) (ls : list text) : any_line (map (fun l => rstrip (f l)) ls) = true <-> omap read_line (map (fun l => rstrip (f l)) ls) <> [].
Proof.
  induction ls as [|l ls IH]; [split; [discriminate|intros H; contradiction]|]. cbn [map any_line existsb]. rewrite omap_cons'. destruct (read_line (rstrip (f l))) eqn:E.
  - split; [discriminate|]. intros _. apply orb_true_iff. left. apply negb_true_iff, bool_decide_eq_false. intros H. rewrite H in E. discriminate.
  - rewrite read_line_blank, rstrip_idem in E. rewrite E. rewrite bool_decide_eq_true_2 by reflexivity. exact IH.
Qed.
Lemma readable_el names k c els : (forall k c, In (k, c) els -> element names k c) -> In (k, c) els -> readable names c.
Proof. intros H Hi. destruct (H _ _ Hi). assumption. Qed.

Lemma add_lines_enc names lines k c :
  element names k c -> omap read_line (clines names c) = map (shift (indented c)) (enc names c) ->
  omap read_line (add_lines names lines k c (clines names c)) = omap read_line lines ++ enc_el names (k, c).
Proof.
  intros [k' c' Hr Hk] IH. clear k c. rename k' into k. rename c' into c. unfold add_lines, enc_el, indented in *. cbn [fst snd].
  destruct (heading c) as [name|] eqn:Eh.
  - assert (Hb : omap read_line (blank_before lines) = omap read_line lines).
    { destruct lines; [reflexivity|]. unfold blank_before. rewrite omap_app. simpl. apply app_nil_r. }
    rewrite !omap_app, Hb. f_equal. change (omap read_line [name]) with (match read_line name with Some y => [y] | None => [] end).
    rewrite (read_line_plain name) by (eapply plain_heading; eauto). cbn [app]. f_equal.
    destruct c as [| | |l els]; try discriminate. destruct (any_line (clines names (CSet l els))) eqn:Ea.
    + rewrite IH. destruct (enc names (CSet l els)) eqn:Ee; [|reflexivity]. exfalso. clear Eh. rewrite clines_cset in *. apply any_line_enc in Ea. apply Ea. etransitivity; [exact IH|]. reflexivity.
    + destruct (enc names (CSet l els)) eqn:Ee; [reflexivity|]. exfalso. rewrite clines_cset in *.
      assert (any_line (map (fun x => rstrip (lineage_indent l ++ x)) (recursively_line names els [])) = true); [|congruence]. apply any_line_enc. intros En. assert (Em := eq_trans (eq_sym IH) En). discriminate Em.
  - rewrite shift_0 in IH. destruct k as [key|]; [|rewrite omap_app, IH; reflexivity]. destruct names; [|rewrite omap_app, IH; reflexivity].
    rewrite !omap_app. f_equal. change (omap read_line [key_line key]) with (match read_line (key_line key) with Some y => [y] | None => [] end).
    rewrite read_line_plain by (apply plain_key; apply (Hk key); auto). cbn [app]. f_equal. rewrite <- IH. apply omap_shift.
    intros x. rewrite !read_line_space. destruct (read_line x) as [[i t]|]; reflexivity.
Qed.
Lemma recursively_enc names els : (forall k c, In (k, c) els -> element names k c) ->
  (forall k c, In (k, c) els -> omap read_line (clines names c) = map (shift (indented c)) (enc names c)) ->
  forall lines, omap read_line (recursively_line names els lines) = omap read_line lines ++ flat_map (enc_el names) els.
Proof.
  induction els as [|[k c] els IH]; intros Hr H lines; cbn [recursively_line flat_map]; [symmetry; apply app_nil_r|].
  rewrite IH, add_lines_enc, app_assoc; auto.
  - apply Hr. left. reflexivity.
  - apply (H k). left. reflexivity.
  - intros k' c' Hi. apply Hr. right. exact Hi.
  - intros k' c' Hi. apply (H k'). right. exact Hi.
Qed.
Lemma clines_enc names c : readable names c -> omap read_line (clines names c) = map (shift (indented c)) (enc names c).
Proof.
  induction c as [s| |els IH|l els IH] using cset_ind'; intros Hr; inversion Hr as [s' Hp| |els' He|l' els' Hl He]; subst.
  - cbn [clines]. rewrite split_lines_one by apply Hp. simpl. rewrite (read_line_plain s Hp). reflexivity.
  - reflexivity.
  - rewrite clines_lst, recursively_enc; auto; [symmetry; apply shift_0|]. intros k c Hi. eapply IH; eauto. eapply readable_el; eauto.
  - rewrite clines_cset, heading_cset. rewrite (omap_shift _ (length (lineage_indent l))) by (apply read_line_indent).
    rewrite recursively_enc; auto. intros k c Hi. eapply IH; eauto. eapply readable_el; eauto.
Qed.

(** ** Reading blocks *)
Lemma above_above i j hs : i <= j -> above i (above j hs) = above i hs.
Proof.
  intros H. induction hs as [|[m h] hs IH]; [reflexivity|]. cbn [above]. destruct (m <? j) eqn:E; [reflexivity|].
  rewrite IH. apply Nat.ltb_ge in E. destruct (m <? i) eqn:E'; [apply Nat.ltb_lt in E'; lia|reflexivity].
Qed.
Definition starts_below (n : nat) (ls : list (nat * text)) : Prop := match ls with (j, _) :: _ => j <= n | [] => True end.
Lemma read_block_above n hs rest : starts_below n rest -> read_block hs rest = read_block (above n hs) rest.
Proof. destruct rest as [|[j t] rest]; [reflexivity|]. cbn [starts_below read_block]. intros H. rewrite above_above by exact H. reflexivity. Qed.
Definition starts_from (n : nat) (ls : list (nat * text)) : Prop := match ls with (j, _) :: _ => n <= j | [] => True end.
Lemma shift_from n l : starts_from n (map (shift n) l).
Proof. destruct l as [|[i t] l]; simpl; [exact I|lia]. Qed.

Definition reads (n : nat) (e : list (nat * text)) (l : list (list text * text)) : Prop :=
  forall hs rest, starts_below n rest ->
  read_block hs (map (shift n) e ++ rest) = under (rev (map snd (above n hs))) l ++ read_block (above n hs) rest.
Lemma reads_nil n : reads n [] [].
Proof. intros hs rest H. simpl. apply read_block_above. exact H. Qed.
Lemma under_app p a b : under p (a ++ b) = under p a ++ under p b.
Proof. apply map_app. Qed.
Lemma under_under p q l : under p (under q l) = under (p ++ q) l.
Proof. unfold under. rewrite map_map. apply map_ext. intros [x t]. simpl. rewrite app_assoc. reflexivity. Qed.
Lemma above_idem n hs : above n (above n hs) = above n hs.
Proof. apply above_above. lia. Qed.
Lemma reads_app n e1 e2 l1 l2 : Forall (fun x => fst x = 0) (firstn 1 e2) -> reads n e1 l1 -> reads n e2 l2 -> reads n (e1 ++ e2) (l1 ++ l2).
Proof.
  intros F H1 H2 hs rest Hs. rewrite map_app, <- app_assoc, H1.
  - rewrite H2 by exact Hs. rewrite above_idem, under_app, app_assoc. reflexivity.
  - destruct e2 as [|[i t] e2]; [exact Hs|]. simpl in *. inversion F as [|? ? F1 _]; subst. simpl in F1. lia.
Qed.
Lemma reads_leaf n t : reads n [(0, t)] [([], t)].
Proof.
  intros hs rest Hs. change (map (shift n) [(0, t)] ++ rest) with ((n + 0, t) :: rest). rewrite Nat.add_0_r. cbn [read_block]. replace (is_heading n rest) with false.
  - unfold under. cbn [map fst snd app]. rewrite app_nil_r. reflexivity.
  - destruct rest as [|[j u] rest]; [reflexivity|]. simpl in *. symmetry. apply Nat.ltb_ge. exact Hs.
Qed.
Lemma reads_head n d h e l : 0 < d -> e <> [] -> reads (n + d) e l -> reads n ((0, h) :: map (shift d) e) (under [h] l).
Proof.
  intros Hd He H hs rest Hs. change (map (shift n) ((0, h) :: map (shift d) e) ++ rest) with ((n + 0, h) :: map (shift n) (map (shift d) e) ++ rest). rewrite Nat.add_0_r. cbn [read_block]. rewrite shift_shift. replace (is_heading n _) with true.
  - rewrite H.
    + assert (Ea : forall hs', above (n + d) ((n, h) :: hs') = (n, h) :: hs'). { intros hs'. cbn [above]. replace (n <? n + d) with true; [reflexivity|]. symmetry. apply Nat.ltb_lt. lia. }
      rewrite Ea, under_under. cbn [map snd rev]. f_equal. rewrite (read_block_above n) by exact Hs. cbn [above]. rewrite Nat.ltb_irrefl, above_idem. reflexivity.
    + destruct rest as [|[j u] rest]; [exact I|]. simpl in *. lia.
  - destruct e as [|[i u] e]; [contradiction|]. simpl. symmetry. apply Nat.ltb_lt. lia.
Qed.

(** The first line of each block is not indented. *)
Lemma enc_first names c : Forall (fun x => fst x = 0) (firstn 1 (enc names c)).
Proof.
  induction c as [s| |els IH|l els IH] using cset_ind'; try (repeat constructor).
  1,2: cbn [enc]; induction els as [|[k c] els IHe]; [constructor|]; cbn [flat_map fst snd];
    assert (Hc : Forall (fun x => fst x = 0) (firstn 1 (enc names c))) by (apply (IH k); left; reflexivity);
    assert (He := IHe (fun k' c' Hi => IH k' c' (or_intror Hi)));
    (destruct (heading c); [repeat constructor|]);
    (destruct k; [destruct names; [repeat constructor|]|]); (destruct (enc _ c) eqn:Ec; [exact He|exact Hc]).
Qed.
Lemma enc_el_first names kc : Forall (fun x => fst x = 0) (firstn 1 (enc_el names kc)).
Proof.
  unfold enc_el. destruct (heading (snd kc)); [repeat constructor|]. destruct (fst kc); [destruct names; [repeat constructor|]|]; apply enc_first.
Qed.
Lemma enc_flat_first names els : Forall (fun x => fst x = 0) (firstn 1 (flat_map (enc_el names) els)).
Proof.
  induction els as [|kc els IH]; [constructor|]. cbn [flat_map]. pose proof (enc_el_first names kc) as H. destruct (enc_el names kc); [exact IH|exact H].
Qed.
(** There is a line exactly if there is a constraint, or a model. *)
Definition cont_el (names : bool) (kc : option text * cset) : list (list text * text) := under (label names (fst kc) (snd kc)) (or_none (snd kc) (contents names (snd kc))).
Lemma under_eq_nil p l : under p l = [] <-> l = [].
Proof. unfold under. destruct l; split; intros H; [reflexivity|reflexivity|discriminate H|discriminate H]. Qed.
Lemma enc_el_nil names k c : element names k c -> (enc names c = [] <-> contents names c = []) -> (enc_el names (k, c) = [] <-> cont_el names (k, c) = []).
Proof.
  intros [k' c' Hr Hk] Hc. clear k c. rename k' into k. rename c' into c. unfold cont_el. rewrite under_eq_nil. unfold enc_el, or_none. cbn [fst snd].
  destruct (heading c) as [name|] eqn:Eh; [destruct (contents names c); split; discriminate|].
  destruct k as [key|]; [|exact Hc]. destruct names; [|exact Hc]. destruct (Hk key eq_refl eq_refl eq_refl) as [_ Hne]. split; [discriminate|contradiction].
Qed.
Lemma flat_nil names els : (forall k c, In (k, c) els -> element names k c) -> (forall k c, In (k, c) els -> (enc names c = [] <-> contents names c = [])) ->
  (flat_map (enc_el names) els = [] <-> flat_map (cont_el names) els = []).
Proof.
  induction els as [|[k c] els IH]; intros He H; [split; reflexivity|]. cbn [flat_map].
  assert (Hk := enc_el_nil names k c (He k c (or_introl eq_refl)) (H k c (or_introl eq_refl))).
  assert (Ht := IH (fun k' c' Hi => He k' c' (or_intror Hi)) (fun k' c' Hi => H k' c' (or_intror Hi))).
  split; intros E; apply app_eq_nil in E as [E1 E2]; apply Hk in E1; apply Ht in E2; rewrite E1, E2; reflexivity.
Qed.
Lemma enc_nil names c : readable names c -> (enc names c = [] <-> contents names c = []).
Proof.
  induction c as [s| |els IH|l els IH] using cset_ind'; intros Hr; try (split; discriminate);
    inversion Hr as [s' Hp| |els' He|l' els' Hl He]; subst; (apply flat_nil; [exact He|]); intros k c Hi; (eapply IH; [exact Hi|]); eapply readable_el; eauto.
Qed.

Lemma under_nil l : under [] l = l.
Proof. unfold under. rewrite <- (map_id l) at 2. apply map_ext. intros [p t]. reflexivity. Qed.
Lemma reads_el names n k c : element names k c -> (forall m, reads m (enc names c) (contents names c)) ->
  reads n (enc_el names (k, c)) (under (label names k c) (or_none c (contents names c))).
Proof.
  intros [k' c' Hr Hk] H. clear k c. rename k' into k. rename c' into c. unfold enc_el, label, or_none. cbn [fst snd].
  destruct (heading c) as [name|] eqn:Eh.
  - destruct (enc names c) as [|x e] eqn:Ee.
    + destruct (enc_nil names c Hr) as [E _]. rewrite (E Ee). apply (reads_head n 1 name [(0, no_constraints)]); [lia|discriminate|]. apply reads_leaf.
    + destruct (contents names c) eqn:Ec; [destruct (enc_nil names c Hr) as [_ E]; rewrite (E Ec) in Ee; discriminate|]. rewrite <- Ec in *. apply reads_head; [lia|discriminate|]. rewrite <- Ee in *. rewrite Ec in H. rewrite Ec. apply H.
  - destruct k as [key|]; [|rewrite under_nil; apply H]. destruct names; [|rewrite under_nil; apply H]. destruct (Hk key eq_refl eq_refl eq_refl) as [_ Hne].
    apply reads_head; [lia| |apply H]. intros E. apply Hne, (enc_nil true c Hr), E.
Qed.
Lemma reads_els names n els : (forall k c, In (k, c) els -> element names k c) ->
  (forall k c, In (k, c) els -> forall m, reads m (enc names c) (contents names c)) ->
  reads n (flat_map (enc_el names) els) (flat_map (cont_el names) els).
Proof.
  induction els as [|[k c] els IH]; intros He H; [apply reads_nil|]. cbn [flat_map fst snd]. apply reads_app.
  - apply enc_flat_first.
  - apply reads_el; [apply He; left; reflexivity|]. apply (H k). left. reflexivity.
  - apply IH; intros; [apply He; right; assumption|eapply H; right; eassumption].
Qed.
Lemma reads_enc names c n : readable names c -> reads n (enc names c) (contents names c).
Proof.
  revert n. induction c as [s| |els IH|l els IH] using cset_ind'; intros n Hr; try apply reads_leaf.
  1,2: inversion Hr as [s' Hp| |els' He|l' els' Hl He]; subst; apply reads_els; auto; intros k c Hi m; eapply IH; eauto; eapply readable_el; eauto.
Qed.

(** ** No line holds a line break *)
Lemma no_newline_in_rstrip l : ~ In newline l -> ~ In newline (rstrip l).
Proof. intros H Hi. apply H. destruct (rstrip_spec l) as (sp & E & _). rewrite E. apply in_or_app. left. exact Hi. Qed.
Lemma els_no_newline names els : (forall k c, In (k, c) els -> element names k c) -> (forall k c, In (k, c) els -> readable names c -> forall l, In l (clines names c) -> ~ In newline l) ->
    forall lines, (forall l, In l lines -> ~ In newline l) -> forall l, In l (recursively_line names els lines) -> ~ In newline l.
Proof.
  induction els as [|[k c] els IHe]; intros He IH lines Hl; [exact Hl|]. cbn [recursively_line]. apply IHe.
    - intros k' c' Hi. apply He. right. exact Hi.
    - intros k' c' Hi. apply (IH k'). right. exact Hi.
    - assert (Hk := He k c (or_introl eq_refl)). inversion Hk as [k' c' Hrc Hkk]; subst. specialize (IH k c (or_introl eq_refl) Hrc). unfold add_lines. intros l.
      destruct (heading c) as [name|] eqn:Eh.
      + intros Hi. rewrite !in_app_iff in Hi. destruct Hi as [Hi|[[<-|[]]|Hi]].
        * destruct lines; [contradiction|]. unfold blank_before in Hi. apply in_app_or in Hi as [Hi|[<-|[]]]; [apply Hl, Hi|intros []].
        * eapply plain_heading; eauto.
        * destruct (any_line _); [apply IH, Hi|]. destruct Hi as [<-|[]]. vm_compute. intuition discriminate.
      + destruct k as [key|]; [|intros Hi; apply in_app_or in Hi as [Hi|Hi]; auto]. destruct names; [|intros Hi; apply in_app_or in Hi as [Hi|Hi]; auto].
        intros Hi. rewrite !in_app_iff in Hi. destruct Hi as [Hi|[[<-|[]]|Hi]]; [auto| |].
        * apply plain_key. apply (Hkk key); auto.
        * apply in_map_iff in Hi as (x & <- & Hx). intros [E|[E|Hi]]; [discriminate|discriminate|]. revert Hi. apply IH, Hx.
Qed.
Lemma clines_no_newline names c : readable names c -> forall l, In l (clines names c) -> ~ In newline l.
Proof.
  induction c as [s| |els IH|l els IH] using cset_ind'; intros Hr.
  - intros l. apply split_lines_no.
  - intros l [<-|[]]. vm_compute. intuition discriminate.
  - inversion Hr; subst. rewrite clines_lst. apply els_no_newline; [assumption|intros; eapply IH; eauto|intros ? []].
  - inversion Hr; subst. rewrite clines_cset. intros x Hx. apply in_map_iff in Hx as (y & <- & Hy). apply no_newline_in_rstrip.
    intros Hi. assert (Hn : ~ In newline y). { revert Hy. apply els_no_newline; [assumption|intros; eapply IH; eauto|intros ? []]. }
    apply Hn. destruct l; cbn [lineage_indent app] in Hi; [exact Hi|]. destruct Hi as [E|Hi]; [discriminate|exact Hi].
Qed.
