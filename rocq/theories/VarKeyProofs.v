(** What the string that identifies a variable determines (Globals.v). *)
From Verif Require Import Base Globals.
From Coq Require Import Strings.String Strings.Ascii DecimalNat.
Local Open Scope list_scope.
Notation chars := list_ascii_of_string.

Lemma chars_app a b : chars (String.append a b) = chars a ++ chars b.
Proof. induction a as [|c a IH]; [reflexivity|]. change (c :: chars (String.append a b) = c :: chars a ++ chars b). f_equal. exact IH. Qed.
Lemma chars_inj a b : chars a = chars b -> a = b.
Proof. intros H. rewrite <- (string_of_list_ascii_of_string a), <- (string_of_list_ascii_of_string b), H. auto. Qed.

(** A string without some character *)
Definition free (c : ascii) (s : string) : Prop := ~ In c (chars s).

Lemma split_first (c : ascii) x1 : forall x2 y1 y2, ~ In c x1 -> ~ In c x2 -> x1 ++ c :: y1 = x2 ++ c :: y2 -> x1 = x2 /\ y1 = y2.
Proof.
  induction x1 as [|a x1 IH]; intros [|b x2] y1 y2 H1 H2 E; simpl in *.
  - injection E as ->. auto.
  - injection E as -> _. exfalso. apply H2. auto.
  - injection E as -> _. exfalso. apply H1. auto.
  - injection E as -> E. destruct (IH x2 y1 y2) as [-> ->]; auto.
Qed.

(** ** Numbers *)

Definition is_digit (c : ascii) : Prop := In c (chars "0123456789").
Lemma digits_digits u c : In c (chars (digits u)) -> is_digit c.
Proof.
  induction u; simpl; try (intros []; fail); (intros [<-|H]; [unfold is_digit; simpl; tauto|auto]).
Qed.
Lemma digits_inj u : forall v, digits u = digits v -> u = v.
Proof. induction u; intros [] E; simpl in E; try discriminate E; auto; injection E as E; f_equal; auto. Qed.
Lemma show_nat_inj a b : show_nat a = show_nat b -> a = b.
Proof. intros H. apply digits_inj in H. apply Unsigned.to_uint_inj. auto. Qed.
Lemma show_nat_free c n : ~ is_digit c -> ~ In c (chars (show_nat n)).
Proof. intros Hc Hin. apply Hc. eapply digits_digits; eauto. Qed.
Lemma show_nat_chars_inj a b : chars (show_nat a) = chars (show_nat b) -> a = b.
Proof. intros H. apply show_nat_inj, chars_inj. auto. Qed.
Ltac not_digit := let H := fresh in unfold is_digit; simpl; intros H; repeat (destruct H as [H|H]; [discriminate H|]); exact H.

(** ** Indices: numbers between commas up to a bracket *)

Lemma show_idx_inj l1 : forall l2 r1 r2, l1 <> [] -> l2 <> [] ->
  chars (join "," (map show_nat l1)) ++ chars "]" ++ r1 = chars (join "," (map show_nat l2)) ++ chars "]" ++ r2 -> l1 = l2 /\ r1 = r2.
Proof.
  assert (Hstep : forall n (l : list nat), l <> [] -> chars (join "," (map show_nat (n :: l))) = chars (show_nat n) ++ chars "," ++ chars (join "," (map show_nat l))).
  { intros n [|m l] Hl; [contradiction|]. change (join "," (map show_nat (n :: m :: l))) with (String.append (show_nat n) (String.append "," (join "," (map show_nat (m :: l))))).
    rewrite !chars_app. auto. }
  assert (Hc : forall n, ~ In ","%char (chars (show_nat n))) by (intros n; apply show_nat_free; not_digit).
  assert (Hb : forall n, ~ In "]"%char (chars (show_nat n))) by (intros n; apply show_nat_free; not_digit).
  assert (Hmix : forall n1 n2 x y, chars (show_nat n1) ++ "]"%char :: x = chars (show_nat n2) ++ ","%char :: y -> False).
  { intros n1 n2. generalize (Hc n1) (Hb n2). generalize (chars (show_nat n2)). generalize (chars (show_nat n1)).
    induction l as [|a l IH]; intros [|b m] Ha Hb' x y E; simpl in *; try discriminate.
    - injection E as E _. apply Hb'. auto.
    - injection E as E _. apply Ha. auto.
    - injection E as _ E. eapply (IH m); eauto. }
  induction l1 as [|n1 l1 IH]; intros l2 r1 r2 H1 H2 E; [contradiction|]. destruct l2 as [|n2 l2]; [contradiction|].
  destruct (decide (l1 = [])) as [->|D1], (decide (l2 = [])) as [->|D2].
  - simpl in E. apply split_first in E as [E ->]; auto. apply show_nat_chars_inj in E as ->. auto.
  - rewrite (Hstep n2 l2 D2) in E. simpl in E. rewrite <- !app_assoc in E. exfalso. eapply Hmix. exact E.
  - rewrite (Hstep n1 l1 D1) in E. simpl in E. rewrite <- !app_assoc in E. exfalso. symmetry in E. eapply Hmix. exact E.
  - rewrite (Hstep n1 l1 D1), (Hstep n2 l2 D2), <- !app_assoc in E. simpl in E.
    apply split_first in E as [E1 E]; auto. apply show_nat_chars_inj in E1 as ->. destruct (IH l2 r1 r2) as [-> ->]; auto.
Qed.

(** ** Lineages *)

Definition quote : ascii := "'"%char.
Definition paren : ascii := "("%char.
Definition bracket : ascii := "["%char.

Lemma show_pair_inj p1 p2 r1 r2 : free quote (fst p1) -> free quote (fst p2) ->
  chars (show_pair p1) ++ r1 = chars (show_pair p2) ++ r2 -> p1 = p2 /\ r1 = r2.
Proof.
  destruct p1 as [n1 k1], p2 as [n2 k2]. unfold free, quote, show_pair. simpl fst. simpl snd. intros H1 H2 E.
  rewrite !chars_app, <- !app_assoc in E. simpl in E. injection E as E. apply split_first in E as [En E]; auto.
  injection E as E. apply split_first in E as [Ek E]; [|apply show_nat_free; not_digit..].
  apply chars_inj in En as ->. apply show_nat_chars_inj in Ek as ->. auto.
Qed.

(** What follows the first pair. *)
Fixpoint more (l : lineage) : string :=
  match l with [] => ")" | p :: l' => String.append ", " (String.append (show_pair p) (more l')) end.
Lemma show_lineage_more p l : chars (show_lineage (p :: l)) =
  chars "(" ++ chars (show_pair p) ++ match l with [] => chars ",)" | _ => chars (more l) end.
Proof.
  destruct l as [|q l].
  - unfold show_lineage. rewrite !chars_app. auto.
  - unfold show_lineage. rewrite !chars_app. f_equal. revert p q.
    induction l as [|x l IH]; intros p q.
    + change (join ", " (map show_pair [p; q])) with (String.append (show_pair p) (String.append ", " (show_pair q))).
      rewrite !chars_app, <- !app_assoc. simpl more. rewrite !chars_app, <- ?app_assoc. auto.
    + change (join ", " (map show_pair (p :: q :: x :: l))) with (String.append (show_pair p) (String.append ", " (join ", " (map show_pair (q :: x :: l))))).
      rewrite !chars_app, <- !app_assoc. f_equal. change (more (q :: x :: l)) with (String.append ", " (String.append (show_pair q) (more (x :: l)))).
      rewrite !chars_app. f_equal. apply IH.
Qed.
Definition names_free (c : ascii) (l : lineage) : Prop := Forall (fun p => free c (fst p)) l.
Lemma more_inj l1 : forall l2 r1 r2, names_free quote l1 -> names_free quote l2 ->
  chars (more l1) ++ r1 = chars (more l2) ++ r2 -> l1 = l2 /\ r1 = r2.
Proof.
  induction l1 as [|p1 l1 IH]; intros [|p2 l2] r1 r2 H1 H2 E; simpl more in E.
  - injection E as ->. auto.
  - rewrite chars_app in E. discriminate E.
  - rewrite chars_app in E. discriminate E.
  - rewrite !chars_app, <- !app_assoc in E. apply app_inv_head in E. inversion H1; inversion H2; subst.
    apply show_pair_inj in E as [-> E]; auto. apply IH in E as [-> ->]; auto.
Qed.
Lemma show_lineage_inj l1 l2 r1 r2 : l1 <> [] -> l2 <> [] -> names_free quote l1 -> names_free quote l2 ->
  chars (show_lineage l1) ++ r1 = chars (show_lineage l2) ++ r2 -> l1 = l2 /\ r1 = r2.
Proof.
  destruct l1 as [|p1 l1]; [contradiction|]. destruct l2 as [|p2 l2]; [contradiction|]. intros _ _ H1 H2 E.
  rewrite !show_lineage_more, <- !app_assoc in E. apply app_inv_head in E. inversion H1; inversion H2; subst.
  apply show_pair_inj in E as [-> E]; auto.
  destruct l1 as [|q1 l1], l2 as [|q2 l2].
  - simpl in E. injection E as ->. auto.
  - simpl more in E. rewrite chars_app in E. discriminate E.
  - simpl more in E. rewrite chars_app in E. discriminate E.
  - apply more_inj in E as [E ->]; auto. rewrite E. auto.
Qed.

(** ** Whole keys *)

(** A text that does not contain "None". *)
Definition no_none (s : string) : Prop := forall a b, chars s <> a ++ chars "None" ++ b.

Lemma split_none x1 x2 u1 u2 : no_none u1 -> no_none u2 ->
  x1 ++ chars "None" ++ chars u1 = x2 ++ chars "None" ++ chars u2 -> x1 = x2 /\ chars u1 = chars u2.
Proof.
  assert (Hz : forall z u1 u2, no_none u1 -> chars "None" ++ chars u1 = z ++ chars "None" ++ chars u2 -> z = [] /\ chars u1 = chars u2).
  { intros z v1 v2 Hn E. destruct z as [|a [|b [|c [|d z]]]]; simpl in E; injection E; intros; subst; try discriminate; auto.
    exfalso. apply (Hn z (chars v2)). auto. }
  intros H1 H2 E. apply app_eq_app in E as (z & [[-> E]|[-> E]]).
  - apply Hz in E as [-> E]; auto. rewrite app_nil_r. auto.
  - apply Hz in E as [-> E]; auto. rewrite app_nil_r. auto.
Qed.

(** Variables whose names and units have none of the characters that Python's representation of indices and
    lineages uses: no [ ( or quote in the name, no ( or quote in the names of models, no quote or "None" in the units. *)
Definition plain (k : vkey) : Prop :=
  free bracket (vk_name k) /\ free paren (vk_name k) /\ free quote (vk_name k) /\
  (forall l, vk_lineage k = Some l -> l <> [] /\ names_free paren l /\ names_free quote l) /\
  vk_idx k <> Some [] /\
  free quote (vk_units k) /\ no_none (vk_units k).

Definition idx_str (k : vkey) : string :=
  match vk_idx k with
  | Some ((_ :: _) as idx) => String.append "[" (String.append (join "," (map show_nat idx)) "]")
  | _ => ""
  end.
Definition lin_str (k : vkey) : string :=
  match vk_lineage k with Some ((_ :: _) as l) => String.append (lineage_names l) "." | _ => "" end.
Lemma full_name_parts k : chars (full_name k) = chars (lin_str k) ++ chars (vk_name k) ++ chars (idx_str k).
Proof.
  unfold full_name, lin_str, idx_str. destruct (vk_lineage k) as [[|p l]|], (vk_idx k) as [[|i idx]|];
    rewrite ?chars_app; simpl; rewrite ?app_nil_r, <- ?app_assoc; auto.
Qed.
Lemma join_In c sep l : In c (chars (join sep l)) -> In c (chars sep) \/ exists s, In s l /\ In c (chars s).
Proof.
  induction l as [|s [|t l] IH]; simpl; [tauto|intros; right; eauto|]. rewrite !chars_app, !in_app_iff.
  intros [H|[H|H]]; [right; eauto|auto|]. destruct (IH H) as [H'|(x & Hx & Hc)]; auto. right. exists x. split; auto.
Qed.
Lemma idx_str_free c k : ~ In c (chars "[],0123456789") -> ~ In c (chars (idx_str k)).
Proof.
  intros Hc. unfold idx_str. destruct (vk_idx k) as [[|i idx]|]; [intros []| |intros []].
  rewrite !chars_app, !in_app_iff. intros [[H|[]]|[H|[H|[]]]]; try (apply Hc; simpl; tauto).
  apply join_In in H as [[H|[]]|(s & Hs & H)]; [apply Hc; simpl; tauto|].
  apply in_map_iff in Hs as (n & <- & _). apply digits_digits in H. apply Hc. unfold is_digit in H. simpl in *. tauto.
Qed.
Lemma lin_str_free c k : c <> "."%char -> (forall l, vk_lineage k = Some l -> names_free c l) -> ~ In c (chars (lin_str k)).
Proof.
  intros Hc Hl. unfold lin_str. destruct (vk_lineage k) as [[|p l]|] eqn:E; simpl; auto. rewrite chars_app, in_app_iff. intros [H|[H|[]]]; [|auto].
  unfold lineage_names in H. apply join_In in H as [[H|[]]|(s & Hs & H)]; [auto|]. apply in_map_iff in Hs as (q & <- & Hq).
  specialize (Hl _ eq_refl). unfold names_free in Hl. rewrite List.Forall_forall in Hl. apply (Hl q Hq). auto.
Qed.

Lemma name_idx_inj a b : plain a -> plain b ->
  chars (vk_name a) ++ chars (idx_str a) = chars (vk_name b) ++ chars (idx_str b) -> vk_name a = vk_name b /\ vk_idx a = vk_idx b.
Proof.
  intros (A1 & _ & _ & _ & A2 & _) (B1 & _ & _ & _ & B2 & _) E. unfold idx_str in E. unfold free, bracket in A1, B1.
  destruct (vk_idx a) as [[|i idx]|], (vk_idx b) as [[|j jdx]|]; try congruence; rewrite ?chars_app in E.
  - apply split_first in E as [E1 E]; auto.
    destruct (show_idx_inj (i :: idx) (j :: jdx) [] []) as [-> _]; try discriminate; [rewrite !app_nil_r; exact E|].
    apply chars_inj in E1. auto.
  - rewrite app_nil_r in E. exfalso. apply B1. rewrite <- E. apply in_app_iff. right. left. auto.
  - rewrite app_nil_r in E. exfalso. apply A1. rewrite E. apply in_app_iff. right. left. auto.
  - rewrite !app_nil_r in E. apply chars_inj in E. auto.
Qed.

(** The text determines name, lineage, index and units. *)
Lemma eqstr_inj a b : plain a -> plain b -> eqstr a = eqstr b ->
  vk_name a = vk_name b /\ vk_lineage a = vk_lineage b /\ vk_idx a = vk_idx b /\ unitrepr a = unitrepr b.
Proof.
  intros Ha Hb E. pose proof Ha as (A1 & A2 & A3 & A4 & A5 & A6 & A7). pose proof Hb as (B1 & B2 & B3 & B4 & B5 & B6 & B7).
  assert (Hu : forall k c, free c (vk_units k) -> c <> "-"%char -> free c (unitrepr k)).
  { intros k c Hk Hc. unfold unitrepr. case_bool_decide; auto. unfold free. simpl. intros [H'|[]]; auto. }
  assert (Hn : forall k, no_none (vk_units k) -> no_none (unitrepr k)).
  { intros k Hk. unfold unitrepr. case_bool_decide; auto. intros x y Hxy. apply (f_equal List.length) in Hxy. rewrite !app_length in Hxy. simpl in Hxy. lia. }
  apply (f_equal chars) in E. unfold eqstr in E. rewrite !chars_app in E.
  assert (Hfp : forall k, plain k -> forall c, (c = paren \/ c = quote) -> ~ In c (chars (full_name k))).
  { intros k (K1 & K2 & K3 & K4 & _) c Hc. rewrite full_name_parts, !in_app_iff. intros [H'|[H'|H']].
    - revert H'. apply lin_str_free; [destruct Hc as [->| ->]; discriminate|]. intros l Hl. destruct (K4 l Hl) as (_ & ? & ?). destruct Hc as [->| ->]; auto.
    - destruct Hc as [->| ->]; auto.
    - revert H'. apply idx_str_free. destruct Hc as [->| ->]; simpl; intuition discriminate. }
  assert (Hfinish : chars (full_name a) = chars (full_name b) -> vk_lineage a = vk_lineage b -> chars (unitrepr a) = chars (unitrepr b) ->
    vk_name a = vk_name b /\ vk_lineage a = vk_lineage b /\ vk_idx a = vk_idx b /\ unitrepr a = unitrepr b).
  { intros E1 E2 E3. rewrite !full_name_parts in E1. unfold lin_str in E1. rewrite E2 in E1. apply app_inv_head in E1.
    apply name_idx_inj in E1 as [? ?]; auto. apply chars_inj in E3. auto. }
  assert (Hquote : forall l, l <> [] -> In quote (chars (show_lineage l))).
  { intros [|p l] Hl; [contradiction|]. rewrite show_lineage_more. apply in_app_iff. right. apply in_app_iff. left. unfold show_pair. rewrite chars_app. apply in_app_iff. left. simpl. auto. }
  destruct (vk_lineage a) as [la|] eqn:La, (vk_lineage b) as [lb|] eqn:Lb.
  - destruct (A4 la eq_refl) as (Na & _ & Qa). destruct (B4 lb eq_refl) as (Nb & _ & Qb).
    assert (Hp : forall l, l <> [] -> exists r, chars (show_lineage l) = paren :: r).
    { intros [|p l] Hl; [contradiction|]. rewrite show_lineage_more. simpl. eexists. reflexivity. }
    destruct (Hp la Na) as (ra & Ra). destruct (Hp lb Nb) as (rb & Rb). pose proof E as E'. rewrite Ra, Rb in E'. simpl in E'.
    apply split_first in E' as [Ef _]; [|apply (Hfp a Ha); auto|apply (Hfp b Hb); auto].
    rewrite Ef in E. apply app_inv_head in E. apply show_lineage_inj in E as [-> E3]; auto.
  - exfalso. assert (Hin : In quote (chars (full_name a) ++ chars (show_lineage la) ++ chars (unitrepr a))).
    { apply in_app_iff. right. apply in_app_iff. left. apply Hquote. apply A4. auto. }
    rewrite E in Hin. apply in_app_iff in Hin as [Hin|Hin]; [revert Hin; apply (Hfp b Hb); auto|].
    apply in_app_iff in Hin as [Hin|Hin]; [simpl in Hin; repeat (destruct Hin as [Hin|Hin]; [discriminate Hin|]); auto|].
    revert Hin. apply Hu; [auto|discriminate].
  - exfalso. assert (Hin : In quote (chars (full_name b) ++ chars (show_lineage lb) ++ chars (unitrepr b))).
    { apply in_app_iff. right. apply in_app_iff. left. apply Hquote. apply B4. auto. }
    rewrite <- E in Hin. apply in_app_iff in Hin as [Hin|Hin]; [revert Hin; apply (Hfp a Ha); auto|].
    apply in_app_iff in Hin as [Hin|Hin]; [simpl in Hin; repeat (destruct Hin as [Hin|Hin]; [discriminate Hin|]); auto|].
    revert Hin. apply Hu; [auto|discriminate].
  - apply split_none in E as [E1 E3]; auto.
Qed.
