(** Proofs for C72 and C73. *)
From Verif Require Import Base Settings Docstring DocstringSpec DocstringStrings GPGen MosekCli MosekCliSpec.
From Coq Require Import Strings.String Strings.Ascii DecimalString DecimalNat.
Local Open Scope list_scope.
Open Scope nat_scope.

(** ** Words *)

Lemma uint_chars d : Forall (fun c => 48 <= nat_of_ascii c <= 57) (chars (NilEmpty.string_of_uint d)).
Proof. induction d; cbn [NilEmpty.string_of_uint list_ascii_of_string]; constructor; auto; vm_compute; lia. Qed.
Lemma uint_ne n : Nat.to_uint n <> Decimal.Nil.
Proof. intros H. destruct n as [|n]; [discriminate H|]. pose proof (Unsigned.of_to (S n)) as E. rewrite H in E. discriminate E. Qed.
Lemma dec_visible n : visible (dec n) /\ Forall (fun c => c <> "*"%char) (dec n).
Proof.
  unfold dec. split; [split|].
  - pose proof (uint_ne n). destruct (Nat.to_uint n); try discriminate. contradiction.
  - eapply List.Forall_impl; [|apply uint_chars]. simpl. intros. lia.
  - eapply List.Forall_impl; [|apply uint_chars]. simpl. intros a H ->. vm_compute in H. lia.
Qed.
Lemma nat_of_dec n : nat_of (dec n) = Some n.
Proof. unfold nat_of, dec. rewrite string_of_list_ascii_of_string, NilEmpty.usu. simpl. rewrite Unsigned.of_to. auto. Qed.

Lemma dec_good n : good (dec n).
Proof. destruct (dec_visible n) as [V F]. split; auto. destruct (dec n) as [|c l]; [discriminate|]. inversion F; subst. simpl. congruence. Qed.

Lemma vis_ne c (d : ascii) : 33 <= nat_of_ascii c -> nat_of_ascii d < 33 -> Ascii.eqb c d = false.
Proof. intros H1 H2. apply Ascii.eqb_neq. intros ->. lia. Qed.
Lemma scan_rest w r : Forall (fun c => 33 <= nat_of_ascii c) w -> forall cur, scan (w ++ r) false false cur = scan r false false (cur ++ w).
Proof.
  induction w as [|c w IH]; intros F cur; [rewrite app_nil_r; auto|]. inversion F; subst. simpl app. cbn [scan].
  rewrite !vis_ne by (auto; vm_compute; lia). simpl andb. rewrite IH by auto. rewrite <- app_assoc. auto.
Qed.
Lemma scan_word w r b : good w -> scan (w ++ r) b false [] = scan r false false w.
Proof.
  intros [[N F] H]. destruct w as [|c w]; [contradiction|]. inversion F; subst. simpl app. cbn [scan].
  rewrite !vis_ne by (auto; vm_compute; lia). simpl in H.
  assert (E : Ascii.eqb c "*"%char = false) by (apply Ascii.eqb_neq; congruence). rewrite E, andb_false_r. simpl. rewrite scan_rest by auto. auto.
Qed.
Lemma flush_ne w : w <> [] -> flush w = [w].
Proof. destruct w; [contradiction|auto]. Qed.
Lemma scan_line w r b : good w -> scan (w ++ NL ++ r) b false [] = w :: scan r true false [].
Proof. intros H. rewrite scan_word by exact H. unfold NL. simpl. rewrite flush_ne; [auto|apply H]. Qed.
Lemma scan_space w r b : good w -> scan (w ++ chars " " ++ r) b false [] = w :: scan r false false [].
Proof. intros H. rewrite scan_word by exact H. simpl. rewrite flush_ne; [auto|apply H]. Qed.
Lemma scan_comment l r : ~ In newline l -> forall b, scan (l ++ NL ++ r) b true [] = scan r true false [].
Proof.
  induction l as [|c l IH]; intros H b; [unfold NL; simpl; auto|]. simpl app. cbn [scan].
  assert (E : Ascii.eqb c newline = false) by (apply Ascii.eqb_neq; intros ->; apply H; left; auto). rewrite E. apply IH. intros I. apply H. right. exact I.
Qed.
Lemma scan_header l r : ~ In newline l -> scan (NL ++ (("*"%char :: l) ++ NL ++ r)) true false [] = scan r true false [].
Proof. intros H. unfold NL at 1. simpl app. cbn [scan]. simpl. apply scan_comment. exact H. Qed.
Lemma scan_lines {X} (f : X -> text) l r : Forall (fun x => good (f x)) l ->
  scan (List.concat (map (fun x => f x ++ NL) l) ++ r) true false [] = map f l ++ scan r true false [].
Proof.
  induction l as [|x l IH]; intros F; [auto|]. inversion F; subst. simpl map. simpl List.concat. rewrite <- !app_assoc.
  rewrite scan_line by auto. simpl. f_equal. apply IH. auto.
Qed.
Lemma scan_triples {T} (fmt : T -> text) (A : list (nat * nat * T)) r : Forall (fun x => good (fmt (snd x))) A ->
  scan (List.concat (map (fun x => dec (fst (fst x)) ++ chars " " ++ dec (snd (fst x)) ++ chars " " ++ fmt (snd x) ++ NL) A) ++ r) true false [] =
  flat_map (fun x => [dec (fst (fst x)); dec (snd (fst x)); fmt (snd x)]) A ++ scan r true false [].
Proof.
  induction A as [|x A IH]; intros F; [auto|]. inversion F; subst. cbn [map List.concat flat_map]. rewrite <- !app_assoc.
  rewrite (scan_space (dec (fst (fst x)))) by apply dec_good. rewrite (scan_space (dec (snd (fst x)))) by apply dec_good. rewrite scan_line by auto.
  simpl. do 3 f_equal. apply IH. auto.
Qed.

Lemma ok_inj {X} (a b : X) : Ok a = Ok b -> a = b.
Proof. congruence. Qed.

Lemma skipn_at {X} (a b : list X) n : List.length a = n -> skipn n (a ++ b) = b.
Proof. intros <-. rewrite skipn_app, Nat.sub_diag, skipn_all. auto. Qed.

Section File.
Context {T : Type} (fmt : T -> text) (parse : text -> option T).

Lemma file_words_write c A p_idxs file numcon numter numvar :
  last p_idxs = Some numcon -> coo_shape A = (numter, numvar) ->
  Forall (fun x => good (fmt x)) c -> Forall (fun x => good (fmt (snd x))) A ->
  write_output_file fmt c A p_idxs = Ok file ->
  file_words file = dec numcon :: dec numvar :: dec numter :: map fmt c ++ map dec p_idxs ++ flat_map (fun x => [dec (fst (fst x)); dec (snd (fst x)); fmt (snd x)]) A.
Proof.
  intros E1 E2 F1 F2. unfold write_output_file. rewrite E1, E2. intros E. apply ok_inj in E. subst file. unfold file_words.
  rewrite (scan_lines dec) by (repeat constructor; apply dec_good). cbn [map app]. do 3 f_equal.
  change (chars "*c") with ("*"%char :: chars "c"). rewrite scan_header by (intros [[=]|[]]).
  rewrite (scan_lines fmt) by exact F1. f_equal.
  change (chars "*p_idxs") with ("*"%char :: chars "p_idxs"). rewrite scan_header by (vm_compute; intuition congruence).
  rewrite (scan_lines dec) by (apply List.Forall_forall; intros; apply dec_good). f_equal.
  change (chars "*t j A_tj") with ("*"%char :: chars "t j A_tj"). rewrite scan_header by (vm_compute; intuition congruence).
  rewrite <- (app_nil_r (List.concat _)), scan_triples by exact F2. simpl. rewrite app_nil_r. auto.
Qed.

Lemma numbers_map {X} (f : text -> option X) (g : X -> text) l n r : (forall x, In x l -> f (g x) = Some x) -> List.length l = n ->
  numbers f n (map g l ++ r) = Some l.
Proof.
  intros H <-. unfold numbers. rewrite app_length, map_length.
  replace (_ <? _) with false by (symmetry; apply Nat.ltb_ge; lia).
  rewrite <- (map_length g l), firstn_app, Nat.sub_diag, firstn_all. simpl. rewrite app_nil_r.
  apply mapM_Some. apply Forall2_fmap_l. apply Forall_Forall2_diag. apply Forall_forall. intros x Hx. apply H. apply elem_of_list_In. exact Hx.
Qed.
Lemma triples_map (A : list (nat * nat * T)) : Forall (fun x => parse (fmt (snd x)) = Some (snd x)) A ->
  triples parse (flat_map (fun x => [dec (fst (fst x)); dec (snd (fst x)); fmt (snd x)]) A) = Some A.
Proof.
  induction A as [|[[t j] a] A IH]; intros F; [auto|]. inversion F as [|? ? Ha FA]; subst. simpl in *. rewrite !nat_of_dec, Ha, IH by auto. auto.
Qed.

Lemma read_write c A p_idxs numcon numter numvar :
  last p_idxs = Some numcon -> coo_shape A = (numter, numvar) -> List.length c = numter -> List.length p_idxs = numter ->
  Forall (round_trip fmt parse) c -> Forall (fun x => round_trip fmt parse (snd x)) A ->
  exists file, write_output_file fmt c A p_idxs = Ok file /\ read_problem parse file = Some (Problem numcon numvar numter c p_idxs A).
Proof.
  intros E1 E2 L1 L2 F1 F2.
  destruct (write_output_file fmt c A p_idxs) as [file|e] eqn:E; [|unfold write_output_file in E; rewrite E1, E2 in E; discriminate E].
  exists file. split; [auto|]. unfold read_problem.
  rewrite (file_words_write c A p_idxs file numcon numter numvar); auto.
  2: eapply List.Forall_impl; [|exact F1]; intros a [H _]; exact H.
  2: eapply List.Forall_impl; [|exact F2]; intros a [H _]; exact H.
  rewrite !nat_of_dec.
  rewrite numbers_map; [|intros x Hx; apply (proj1 (List.Forall_forall _ _) F1 x Hx)|auto].
  rewrite (skipn_at (map fmt c)) by (rewrite map_length; auto).
  rewrite numbers_map; [|intros x _; apply nat_of_dec|auto].
  rewrite app_assoc, (skipn_at (map fmt c ++ map dec p_idxs)) by (rewrite app_length, !map_length; lia).
  rewrite triples_map; [|eapply List.Forall_impl; [|exact F2]; intros a [_ H]; exact H]. auto.
Qed.
End File.

(** ** Lines *)

Lemma readline_line l r : ~ In newline l -> readline (line l ++ r) = (line l, r).
Proof.
  unfold line. intros H. rewrite <- app_assoc. simpl. induction l as [|c l IH]; simpl; [auto|].
  assert (E : Ascii.eqb c newline = false) by (apply Ascii.eqb_neq; intros ->; apply H; left; auto). rewrite E, IH; [auto|]. intros I. apply H. right. exact I.
Qed.
Lemma readline_end l : ~ In newline l -> readline l = (l, []).
Proof.
  induction l as [|c l IH]; intros H; simpl; [auto|].
  assert (E : Ascii.eqb c newline = false) by (apply Ascii.eqb_neq; intros ->; apply H; left; auto). rewrite E, IH; [auto|]. intros I. apply H. right. exact I.
Qed.
(** A file that was cut off *)
Lemma cut_line p l t r : ~ In newline l -> line l ++ t = p ++ r -> readline p = (p, []) \/ exists p', p = line l ++ p' /\ t = p' ++ r.
Proof.
  intros H E. apply app_eq_app in E as (x & [(E1 & E2)|(E1 & E2)]).
  - destruct (decide (x = [])) as [->|N].
    + rewrite app_nil_r in E1. subst p. right. exists []. rewrite app_nil_r. split; [auto|]. simpl in E2. auto.
    + left. apply readline_end. unfold line in E1. destruct (exists_last N) as (y & c & ->). rewrite app_assoc in E1. apply app_inj_tail in E1 as [-> _].
      intros I. apply H. apply in_or_app. auto.
  - right. exists x. auto.
Qed.

Lemma words_spaces s r : Forall (fun c => is_space c = true) s -> words_go (s ++ r) [] = words_go r [].
Proof. induction s as [|c s IH]; intros F; [auto|]. inversion F as [|? ? E F']; subst. simpl. rewrite E. auto. Qed.
Lemma words_stop s r cur : Forall (fun c => is_space c = true) s -> s <> [] -> cur <> [] -> words_go (s ++ r) cur = rev cur :: words_go r [].
Proof.
  destruct s as [|c s]; [contradiction|]. intros F _ Hc. inversion F as [|? ? E F']; subst. simpl. rewrite E. destruct cur as [|d cur]; [contradiction|].
  f_equal. apply words_spaces. auto.
Qed.
Lemma words_line w s r : visible w -> Forall (fun c => is_space c = true) s -> s <> [] -> words_go (w ++ s ++ r) [] = w :: words_go r [].
Proof.
  intros [N F] Fs Ns. rewrite words_word by exact F. rewrite app_nil_r, words_stop; auto; [rewrite rev_involutive; auto|].
  intros E. apply N. apply (f_equal (@rev _)) in E. rewrite rev_involutive in E. exact E.
Qed.
Lemma blanks_space n : Forall (fun c => is_space c = true) (blanks n).
Proof. unfold blanks. induction n; simpl; constructor; auto. Qed.
Lemma value_words v : value_ok v -> words (value_line v) = [v_index v; v_number v].
Proof.
  intros [H1 H2]. unfold value_line, line, words. rewrite <- !app_assoc. rewrite words_line; [|exact H1|apply blanks_space|discriminate]. f_equal.
  rewrite <- (app_nil_r (blanks (v_end v) ++ _)), words_line; [auto|exact H2| |].
  - apply Forall_app. split; [apply blanks_space|repeat constructor].
  - intros E. apply app_eq_nil in E as [_ E]. discriminate E.
Qed.
Lemma visible_nl w : visible w -> ~ In newline w.
Proof. intros [_ F] I. apply (proj1 (List.Forall_forall _ _) F) in I. vm_compute in I. lia. Qed.
Lemma blanks_nl n : ~ In newline (blanks n).
Proof. unfold blanks. intros I. apply repeat_spec in I. discriminate I. Qed.
Lemma value_nl v : value_ok v -> ~ In newline (v_index v ++ blanks (S (v_gap v)) ++ v_number v ++ blanks (v_end v)).
Proof.
  intros [H1 H2] I. apply in_app_or in I as [I|I]; [apply visible_nl in I; auto|]. apply in_app_or in I as [I|I]; [apply blanks_nl in I; auto|].
  apply in_app_or in I as [I|I]; [apply visible_nl in I; auto|apply blanks_nl in I; auto].
Qed.
Lemma value_not_blank v : value_ok v -> value_line v <> [] /\ value_line v <> NL.
Proof.
  intros [[N F] _]. unfold value_line, line, NL. destruct (v_index v) as [|c l]; [contradiction|]. inversion F; subst. split; [discriminate|].
  simpl. intros [= -> _]. vm_compute in H1. lia.
Qed.

Lemma split_two sep x : sep <> [] -> In " "%char sep -> ~ In " "%char x -> split sep (sep ++ x) = [[]; x].
Proof.
  intros N I H. rewrite <- (app_nil_l (sep ++ x)), split_at; [|exact N|apply clean_nil]. f_equal. apply split_none.
  intros a1 c d E Hc E'. rewrite app_nil_r in E'. apply H. rewrite E, E'. apply in_or_app. right. apply in_or_app. left. exact I.
Qed.
Lemma visible_space w : visible w -> ~ In " "%char w.
Proof. intros [_ F] I. apply (proj1 (List.Forall_forall _ _) F) in I. vm_compute in I. lia. Qed.

Lemma lstrip_length s : List.length (lstrip s) <= List.length s.
Proof. induction s as [|c s IH]; simpl; [lia|]. destruct (is_space c); simpl; lia. Qed.
Lemma rstrip_length s : List.length (rstrip s) <= List.length s.
Proof. unfold rstrip. rewrite rev_length. rewrite <- (rev_length s). apply lstrip_length. Qed.

Section Solution.
Context {T : Type} (parse : text -> option T).
Notation read_vals := (read_vals parse).
Notation reads := (fun v x => value_ok v /\ parse (v_number v) = Some x).

Lemma read_vals_ok vs xs r : Forall2 reads vs xs -> forall fuel, List.length vs < fuel ->
  r = [] \/ hd_error r = Some newline -> read_vals fuel (List.concat (map value_line vs) ++ r) = Ok (xs, tl r).
Proof.
  induction 1 as [|v x vs xs [Hv Hx] F IH]; intros fuel Hf Hr.
  - destruct fuel as [|fuel]; [simpl in Hf; lia|]. simpl List.concat. rewrite app_nil_l. cbn [MosekCli.read_vals].
    destruct Hr as [->|Hr]; [auto|]. destruct r as [|c r]; [discriminate Hr|]. simpl in Hr. injection Hr as ->. auto.
  - destruct fuel as [|fuel]; [simpl in Hf; lia|]. cbn [map List.concat MosekCli.read_vals]. rewrite <- app_assoc. unfold value_line at 1.
    rewrite readline_line by (apply value_nl; exact Hv). destruct (value_not_blank v Hv) as [N1 N2]. unfold value_line in N1, N2.
    rewrite !bool_decide_false by assumption. simpl orb. cbv iota. fold (value_line v). unfold float_word. rewrite value_words by exact Hv. simpl nth_error. cbv iota.
    rewrite Hx. simpl rbind. rewrite IH; [auto|simpl in Hf; lia|exact Hr].
Qed.
Lemma values_length vs : List.length vs <= List.length (List.concat (map value_line vs)).
Proof. induction vs as [|v vs IH]; simpl; [lia|]. rewrite app_length. unfold value_line at 1, line at 1. rewrite !app_length. simpl. lia. Qed.

Lemma read_ok status objective primal dual more obj xs nus :
  visible status -> visible objective -> parse objective = Some obj -> Forall2 reads primal xs -> Forall2 reads dual nus ->
  more = [] \/ hd_error more = Some newline ->
  read_solution parse (solution_file status objective primal dual more) = Ok (Answer status obj xs nus).
Proof.
  intros Hs Ho Eo Fp Fd Hm. unfold solution_file, head_text, duals_text, read_solution. rewrite <- !app_assoc.
  rewrite readline_line by (vm_compute; intuition congruence).
  match goal with |- context [second_of_two ?a ?b] => replace (second_of_two a b) with (Ok (chars "PRIMAL_AND_DUAL_FEASIBLE")) by reflexivity end.
  cbn [rbind]. rewrite !bool_decide_false by (intros E; discriminate E). rewrite bool_decide_true by auto. cbn [negb].
  rewrite readline_line.
  2:{ intros I. apply in_app_or in I as [I|I]; [revert I; vm_compute; intuition congruence|]. apply visible_nl in I; auto. }
  unfold second_of_two, line at 1. rewrite <- app_assoc. rewrite split_two; [|discriminate|vm_compute; tauto|].
  2:{ intros I. apply in_app_or in I as [I|I]; [apply visible_space in I; auto|]. destruct I as [I|[]]. discriminate I. }
  cbn [rbind]. rewrite readline_line.
  2:{ intros I. apply in_app_or in I as [I|I]; [revert I; vm_compute; intuition congruence|]. apply visible_nl in I; auto. }
  assert (EO : float_word parse 2 (line (chars "OBJECTIVE           : " ++ objective)) = Ok obj).
  { unfold float_word, words, line. rewrite <- app_assoc. change (chars "OBJECTIVE           : ") with (chars "OBJECTIVE" ++ chars "           " ++ chars ":" ++ chars " ").
    rewrite <- !app_assoc. rewrite words_line; [|split; [discriminate|repeat (constructor; [vm_compute; lia|])]|repeat constructor|discriminate]; [|constructor].
    rewrite words_line; [|split; [discriminate|repeat (constructor; [vm_compute; lia|])]|repeat constructor|discriminate]; [|constructor].
    rewrite <- (app_nil_r [newline]), words_line; [|exact Ho|repeat constructor|discriminate]. simpl. rewrite Eo. auto. }
  rewrite EO. cbn [rbind]. clear EO.
  rewrite readline_line by auto. replace (assert_equal (line []) []) with (Ok tt) by reflexivity. cbn [rbind].
  rewrite readline_line by (vm_compute; intuition congruence). replace (assert_equal _ _) with (Ok tt) by reflexivity. cbn [rbind].
  rewrite readline_line by (vm_compute; intuition congruence). replace (assert_equal _ _) with (Ok tt) by reflexivity. cbn [rbind].
  rewrite (read_vals_ok primal xs); [|exact Fp|rewrite app_length; pose proof (values_length primal); lia|right; reflexivity].
  cbn [rbind snd fst]. unfold line at 1. cbn [app tl].
  rewrite readline_line by (vm_compute; intuition congruence). replace (assert_equal _ _) with (Ok tt) by reflexivity. cbn [rbind].
  rewrite (app_assoc (chars "INDEX   ACTIVITY")). change (chars "INDEX   ACTIVITY" ++ line []) with (line (chars "INDEX   ACTIVITY")).
  rewrite readline_line by (vm_compute; intuition congruence). replace (assert_equal _ _) with (Ok tt) by reflexivity. cbn [rbind].
  rewrite (read_vals_ok dual nus); [|exact Fd|rewrite app_length; pose proof (values_length dual); lia|exact Hm].
  cbn [rbind fst]. rewrite removelast_last. auto.
Qed.
End Solution.

(** ** Files that were cut off *)
Section Cut.
Context {T : Type} (parse : text -> option T).
Definition fails {X} (r : res X) : Prop := exists e, r = Err e.
Lemma fails_bind {X Y} (r : res X) (f : X -> res Y) : (forall x, fails (f x)) -> fails (let! x := r in f x).
Proof. destruct r as [x|e]; simpl; [auto|]. intros _. exists e. auto. Qed.

(** The parts of [read_solution] *)
Definition k9 (st : text) (o : T) (ps : list T) (s : text) : res (answer T) :=
  let '(l, s) := readline s in
  let! _ := assert_equal l (chars "INDEX   ACTIVITY") in
  let! ds := read_vals parse (S (List.length s)) s in
  Ok (Answer (removelast st) o ps (fst ds)).
Definition k8 (st : text) (o : T) (ps : list T) (s : text) : res (answer T) :=
  let '(l, s) := readline s in
  let! _ := assert_equal l (chars "DUAL VARIABLES") in k9 st o ps s.
Definition k7 (st : text) (o : T) (s : text) : res (answer T) :=
  let! ps := read_vals parse (S (List.length s)) s in k8 st o (fst ps) (snd ps).
Definition k6 (st : text) (o : T) (s : text) : res (answer T) :=
  let '(l, s) := readline s in
  let! _ := assert_equal l (chars "INDEX   ACTIVITY") in k7 st o s.
Definition k5 (st : text) (o : T) (s : text) : res (answer T) :=
  let '(l, s) := readline s in
  let! _ := assert_equal l (chars "PRIMAL VARIABLES") in k6 st o s.
Definition k4 (st : text) (o : T) (s : text) : res (answer T) :=
  let '(l, s) := readline s in let! _ := assert_equal l [] in k5 st o s.
Definition k3 (st : text) (s : text) : res (answer T) :=
  let '(l, s) := readline s in let! o := float_word parse 2 l in k4 st o s.
Definition k2 (s : text) : res (answer T) :=
  let '(l, s) := readline s in let! st := second_of_two (chars "SOLUTION STATUS     : ") l in k3 st s.
Definition k1 (s : text) : res (answer T) :=
  let '(l, s) := readline s in
  let! probsta := second_of_two (chars "PROBLEM STATUS      : ") (removelast l) in
  if bool_decide (probsta = chars "PRIMAL_INFEASIBLE") then Err PrimalInfeasibleE else
  if bool_decide (probsta = chars "DUAL_INFEASIBLE") then Err DualInfeasibleE else
  if negb (bool_decide (probsta = chars "PRIMAL_AND_DUAL_FEASIBLE")) then Err UnknownInfeasibleE else k2 s.
Lemma read_solution_parts s : read_solution parse s = k1 s.
Proof. reflexivity. Qed.

Lemma k9_nil st o ps : fails (k9 st o ps []).
Proof. exists RuntimeWarningE. reflexivity. Qed.
Lemma k8_nil st o ps : fails (k8 st o ps []).
Proof. exists RuntimeWarningE. reflexivity. Qed.
Lemma k7_nil st o : fails (k7 st o []).
Proof. exists RuntimeWarningE. reflexivity. Qed.
Lemma k6_nil st o : fails (k6 st o []).
Proof. exists RuntimeWarningE. reflexivity. Qed.
Lemma k5_nil st o : fails (k5 st o []).
Proof. exists RuntimeWarningE. reflexivity. Qed.
Lemma k4_nil st o : fails (k4 st o []).
Proof. exists RuntimeWarningE. reflexivity. Qed.
Lemma k3_nil st : fails (k3 st []).
Proof. exists IndexErrorE. reflexivity. Qed.
Lemma k2_nil : fails (k2 []).
Proof. exists ValueErrorE. reflexivity. Qed.

(** [p] is less than all of [t] *)
Definition less (p t : text) : Prop := exists r, t = p ++ r /\ r <> [].
Lemma cut_step p l t : ~ In newline l -> less p (line l ++ t) -> readline p = (p, []) \/ exists p', p = line l ++ p' /\ less p' t.
Proof. intros H (r & E & N). destruct (cut_line p l t r H E) as [C|(p' & E1 & E2)]; [auto|]. right. exists p'. split; [auto|]. exists r. auto. Qed.

Lemma k9_cut st o ps p : less p (chars "INDEX   ACTIVITY") -> fails (k9 st o ps p).
Proof.
  intros (r & E & N). unfold k9. rewrite readline_end.
  2:{ intros I. assert (I' : In newline (chars "INDEX   ACTIVITY")) by (rewrite E; apply in_or_app; auto). revert I'. vm_compute. intuition congruence. }
  assert (A : fails (assert_equal p (chars "INDEX   ACTIVITY"))).
  { unfold assert_equal. rewrite bool_decide_false; [eexists; reflexivity|]. intros E'. apply (f_equal (@List.length _)) in E'.
    pose proof (rstrip_length p) as L. change (rstrip (chars "INDEX   ACTIVITY")) with (chars "INDEX   ACTIVITY") in E'.
    rewrite E in E'. rewrite app_length in E'. destruct r; [contradiction|]. simpl in E'. lia. }
  destruct A as (e & ->). exists e. auto.
Qed.
Lemma k8_cut st o ps p : less p (line (chars "DUAL VARIABLES") ++ chars "INDEX   ACTIVITY") -> fails (k8 st o ps p).
Proof.
  intros H. apply cut_step in H as [R|(p' & -> & H)]; [| |vm_compute; intuition congruence].
  - unfold k8. rewrite R. apply fails_bind. intros _. apply k9_nil.
  - unfold k8. rewrite readline_line by (vm_compute; intuition congruence). apply fails_bind. intros _. apply k9_cut. exact H.
Qed.
(** What is left after reading values from a file that was cut off *)
Lemma vals_cut t : forall vs fuel p, Forall value_ok vs -> List.length p < fuel -> less p (List.concat (map value_line vs) ++ line [] ++ t) ->
  match read_vals parse fuel p with Err _ => True | Ok (_, rest) => rest = [] \/ less rest t end.
Proof.
  induction vs as [|v vs IH]; intros fuel p Fv Hf H; (destruct fuel as [|fuel]; [lia|]); cbn [map List.concat] in H; cbn [read_vals].
  - rewrite app_nil_l in H. apply cut_step in H as [R|(p' & -> & H)]; [| |auto].
    + rewrite R. destruct (_ || _); [auto|]. destruct (float_word parse 1 p) as [x|e]; [|exact I]. cbn [rbind]. destruct fuel; simpl; auto.
    + rewrite readline_line by auto. change (line []) with NL. rewrite (bool_decide_true (NL = NL)), orb_true_r by auto. auto.
  - rewrite <- app_assoc in H. inversion Fv as [|? ? Hv Fvs]; subst. unfold value_line in H at 1. apply cut_step in H as [R|(p' & -> & H)]; [| |apply value_nl; exact Hv].
    + rewrite R. destruct (_ || _); [auto|]. destruct (float_word parse 1 p) as [x|e]; [|exact I]. cbn [rbind]. destruct fuel; simpl; auto.
    + rewrite readline_line by (apply value_nl; exact Hv). destruct (value_not_blank v Hv) as [N1 N2]. unfold value_line in N1, N2.
      rewrite !bool_decide_false by assumption. simpl orb. cbv iota. destruct (float_word parse 1 _) as [x|e]; [|exact I]. cbn [rbind].
      assert (L : List.length p' < fuel) by (rewrite app_length in Hf; unfold line in Hf; rewrite app_length in Hf; simpl in Hf; lia).
      specialize (IH fuel p' Fvs L H). destruct (read_vals parse fuel p') as [[xs rest]|e]; cbn [rbind]; auto.
Qed.
Lemma k7_cut st o vs p : Forall value_ok vs ->
  less p (List.concat (map value_line vs) ++ line [] ++ line (chars "DUAL VARIABLES") ++ chars "INDEX   ACTIVITY") -> fails (k7 st o p).
Proof.
  intros Fv H. unfold k7. pose proof (vals_cut _ vs (S (List.length p)) p Fv (Nat.lt_succ_diag_r _) H) as V.
  destruct (read_vals parse (S (List.length p)) p) as [[xs rest]|e]; cbn [rbind]; [|eexists; reflexivity].
  destruct V as [->|V]; [apply k8_nil|apply k8_cut; exact V].
Qed.
Lemma read_cut status objective primal p : visible status -> visible objective -> Forall value_ok primal ->
  less p (head_text status objective primal) -> fails (read_solution parse p).
Proof.
  intros Hs Ho Fp H. rewrite read_solution_parts. unfold head_text in H.
  apply cut_step in H as [R|(p1 & -> & H)]; [| |vm_compute; intuition congruence].
  { unfold k1. rewrite R. apply fails_bind. intros sta. repeat (case_match; [eexists; reflexivity|]). apply k2_nil. }
  unfold k1. rewrite readline_line by (vm_compute; intuition congruence). apply fails_bind. intros sta. repeat (case_match; [eexists; reflexivity|]).
  apply cut_step in H as [R|(p2 & -> & H)];
    [unfold k2; rewrite R; apply fails_bind; intros; apply k3_nil| |
     intros I; apply in_app_or in I as [I|I]; [revert I; vm_compute; intuition congruence|]; apply visible_nl in I; auto].
  unfold k2. rewrite readline_line.
  2:{ intros I. apply in_app_or in I as [I|I]; [revert I; vm_compute; intuition congruence|]. apply visible_nl in I; auto. }
  apply fails_bind. intros st. apply cut_step in H as [R|(p3 & -> & H)];
    [unfold k3; rewrite R; apply fails_bind; intros; apply k4_nil| |
     intros I; apply in_app_or in I as [I|I]; [revert I; vm_compute; intuition congruence|]; apply visible_nl in I; auto].
  unfold k3. rewrite readline_line.
  2:{ intros I. apply in_app_or in I as [I|I]; [revert I; vm_compute; intuition congruence|]. apply visible_nl in I; auto. }
  apply fails_bind. intros o. apply cut_step in H as [R|(p4 & -> & H)]; [| |auto].
  { unfold k4. rewrite R. apply fails_bind. intros. apply k5_nil. }
  unfold k4. rewrite readline_line by auto. apply fails_bind. intros _.
  apply cut_step in H as [R|(p5 & -> & H)]; [| |vm_compute; intuition congruence].
  { unfold k5. rewrite R. apply fails_bind. intros. apply k6_nil. }
  unfold k5. rewrite readline_line by (vm_compute; intuition congruence). apply fails_bind. intros _.
  apply cut_step in H as [R|(p6 & -> & H)]; [| |vm_compute; intuition congruence].
  { unfold k6. rewrite R. apply fails_bind. intros. apply k7_nil. }
  unfold k6. rewrite readline_line by (vm_compute; intuition congruence). apply fails_bind. intros _.
  apply (k7_cut _ _ primal); assumption.
Qed.
End Cut.
