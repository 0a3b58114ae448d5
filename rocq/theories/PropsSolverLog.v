(** C119: what solvers print is kept and shown. *)
From Coq Require Import Strings.String Strings.Ascii.
From Verif Require Import Base Globals SolverLog.
Local Open Scope string_scope.
Local Arguments String.append !s1 s2 /.

Definition text (writs : list string) : string := fold_right String.append "" writs.
(** A text without its line ends *)
Fixpoint letters (s : string) : list ascii :=
  match s with "" => [] | String c s' => if ascii_dec c newline then letters s' else c :: letters s' end.
Definition ends_line (s : string) : Prop := exists s', s = s' ++ nl.

Lemma append_assoc a b c : (a ++ b) ++ c = a ++ (b ++ c).
Proof. induction a as [|x a IH]; simpl; congruence. Qed.
Lemma append_nil a : a ++ "" = a.
Proof. induction a as [|x a IH]; simpl; congruence. Qed.
Lemma length_append a b : String.length (a ++ b) = (String.length a + String.length b)%nat.
Proof. induction a as [|x a IH]; simpl; congruence. Qed.
Lemma letters_app a b : letters (a ++ b) = (letters a ++ letters b)%list.
Proof. induction a as [|c a IH]; simpl; [auto|]. destruct (ascii_dec c newline); simpl; congruence. Qed.
Lemma letters_rstrip s : letters (rstrip s) = letters s.
Proof.
  induction s as [|c s IH]; [auto|]. cbn [rstrip letters]. destruct (rstrip s) as [|d r]; rewrite <- IH.
  - destruct (ascii_dec c newline); simpl; [auto|]. destruct (ascii_dec c newline); [contradiction|auto].
  - reflexivity.
Qed.
Lemma rstrip_short s : (String.length (rstrip s) <= String.length s)%nat.
Proof. induction s as [|c s IH]; [auto|]. cbn [rstrip]. destruct (rstrip s); [destruct (ascii_dec c newline)|]; simpl in *; lia. Qed.
Lemma rstrip_same s : rstrip s = s <-> ~ ends_line s.
Proof.
  induction s as [|c s IH].
  - split; [|auto]. intros _ [[|? ?] E]; discriminate.
  - cbn [rstrip]. split.
    + intros E [s' Es]. destruct s' as [|d s']; simpl in Es; injection Es as -> ->.
      * discriminate.
      * assert (Hs : rstrip (s' ++ nl) = s' ++ nl).
        { destruct (rstrip (s' ++ nl)); [destruct (ascii_dec d newline); [discriminate|]|]; injection E; auto. }
        apply IH in Hs. apply Hs. exists s'. auto.
    + intros Hn. assert (Hs : rstrip s = s). { apply IH. intros [s' ->]. apply Hn. exists (String c s'). auto. }
      rewrite Hs. destruct s as [|d s]; [|auto]. destruct (ascii_dec c newline) as [->|]; [|auto]. destruct Hn. exists "". auto.
Qed.

(** What one write adds to the output, and the entries *)
Definition shown1 (w : string) : string := if string_dec w nl then w else rstrip w.
Definition kept1 (w : string) : list string := if string_dec w nl then [] else [rstrip w].
Lemma run_from v ws : forall l, fold_left (log_write v) ws l =
  SLog (sl_entries l ++ flat_map kept1 ws)%list (if (0 <? v)%Z then sl_output l ++ text (map shown1 ws) else sl_output l).
Proof.
  induction ws as [|w ws IH]; intros [en ou]; simpl.
  - rewrite app_nil_r, append_nil. destruct (0 <? v)%Z; auto.
  - rewrite IH. unfold log_write, kept1, shown1. simpl. destruct (string_dec w nl); simpl; destruct (0 <? v)%Z; rewrite ?append_assoc, <- ?app_assoc; auto.
Qed.
Lemma run_is v ws : run_solver v ws = SLog (flat_map kept1 ws) (if (0 <? v - 2)%Z then text (map shown1 ws) else "").
Proof. unfold run_solver. rewrite run_from. destruct (0 <? v - 2)%Z; auto. Qed.

Lemma letters_join l : letters (join nl l) = flat_map letters l.
Proof.
  induction l as [|a l IH]; [auto|]. destruct l as [|b l]; [simpl; rewrite app_nil_r; auto|].
  change (join nl (a :: b :: l)) with (a ++ nl ++ join nl (b :: l)). rewrite letters_app. cbn [flat_map]. f_equal. exact IH.
Qed.

(** Nothing that a solver writes is lost from the log, whatever the verbosity, but for line ends. *)
Theorem C119_kept : forall verbosity writs, letters (solve_log (run_solver verbosity writs)) = letters (text writs).
Proof.
  intros v ws. unfold solve_log. rewrite run_is. cbn [sl_entries]. rewrite letters_join. induction ws as [|w ws IH]; [auto|].
  cbn [flat_map text fold_right]. rewrite flat_map_app, letters_app, IH. f_equal. unfold kept1. destruct (string_dec w nl) as [->|]; [reflexivity|].
  simpl. rewrite app_nil_r. apply letters_rstrip.
Qed.
Print Assumptions C119_kept.

(** Lines that are printed whole are the lines of the log. *)
Theorem C119_lines_partial : forall verbosity lines, Forall (fun s => ~ ends_line s) lines ->
  solve_log (run_solver verbosity (flat_map (fun s => print_writes [s]) lines)) = join nl lines.
Proof.
  intros v ls Hl. unfold solve_log. rewrite run_is. cbn [sl_entries]. f_equal. induction Hl as [|s ls Hs _ IH]; [auto|].
  change (flat_map (fun s => print_writes [s]) (s :: ls)) with (s :: nl :: flat_map (fun s => print_writes [s]) ls). cbn [flat_map]. rewrite IH.
  replace (kept1 nl) with (@nil string) by reflexivity. unfold kept1. destruct (string_dec s nl) as [->|]; [destruct Hs; exists ""; auto|].
  cbn [app]. f_equal. apply rstrip_same. auto.
Qed.
Print Assumptions C119_lines_partial.

(** At verbosities up to 2 nothing is shown; over that, what was written, if and only if no write ends a line other than by itself. *)
Theorem C119_shown_partial : forall verbosity writs,
  ((verbosity <= 2)%Z -> sl_output (run_solver verbosity writs) = "") /\
  ((2 < verbosity)%Z -> sl_output (run_solver verbosity writs) = text writs <-> Forall (fun w => w = nl \/ ~ ends_line w) writs).
Proof.
  intros v ws. rewrite run_is. cbn [sl_output]. split; intros Hv; destruct (Z.ltb_spec 0 (v - 2)); try lia; [auto|].
  assert (H1 : forall w, (String.length (shown1 w) <= String.length w)%nat).
  { intros w. unfold shown1. destruct (string_dec w nl); [auto|apply rstrip_short]. }
  assert (Hs : forall ws, (String.length (text (map shown1 ws)) <= String.length (text ws))%nat).
  { induction ws0 as [|w ws0 IH]; [auto|]. simpl. rewrite !length_append. specialize (H1 w). lia. }
  assert (Hi : forall a b c d, a ++ b = c ++ d -> (String.length a <= String.length c)%nat -> (String.length b <= String.length d)%nat -> a = c /\ b = d).
  { induction a as [|x a IHa]; intros b [|y c] d E La Lb; simpl in *; auto; try lia.
    - apply (f_equal String.length) in E. simpl in E. rewrite length_append in E. lia.
    - injection E as -> E. destruct (IHa b c d E) as [-> ->]; auto. lia. }
  assert (Hw : forall w, shown1 w = w <-> w = nl \/ ~ ends_line w).
  { intros w. unfold shown1. destruct (string_dec w nl) as [->|Hn]; [tauto|]. rewrite rstrip_same. tauto. }
  induction ws as [|w ws IH]; [split; auto|]. cbn [map text fold_right]. fold (text (map shown1 ws)). fold (text ws). split.
  - intros E. apply Hi in E as [E1 E2]; [|apply H1|apply Hs]. constructor; [apply Hw; auto|apply IH; auto].
  - intros Hf. inversion Hf as [|? ? Ha Hb]; subst. apply Hw in Ha. apply IH in Hb. congruence.
Qed.
Print Assumptions C119_shown_partial.

(** A solver that writes lines with their ends has them shown on one line; print() adds no empty line to the log; and the arguments of one print
    are on lines of their own in it, as are the spaces between them. *)
Theorem C119_lines_refuted : forall verbosity a b, (2 < verbosity)%Z -> ~ ends_line a -> ~ ends_line b ->
  (a <> "" -> b <> "" -> sl_output (run_solver verbosity [a ++ nl; b ++ nl]) = a ++ b) /\
  solve_log (run_solver verbosity (print_writes [a] ++ print_writes [] ++ print_writes [b])%list) = a ++ nl ++ b /\
  solve_log (run_solver verbosity (print_writes [a; b])) = a ++ nl ++ " " ++ nl ++ b.
Proof.
  intros v a b Hv Ha Hb.
  assert (Hn : forall s, ~ ends_line s -> kept1 s = [s]).
  { intros s Hs. unfold kept1. destruct (string_dec s nl) as [->|]; [destruct Hs; exists ""; auto|]. f_equal. apply rstrip_same. auto. }
  split; [|split].
  - intros Ea Eb. rewrite run_is. cbn [sl_output]. destruct (Z.ltb_spec 0 (v - 2)); [|lia].
    assert (Hx : forall s, s <> "" -> ~ ends_line s -> shown1 (s ++ nl) = s).
    { intros s Hs He. unfold shown1. destruct (string_dec (s ++ nl) nl) as [E|_].
      - apply (f_equal String.length) in E. rewrite length_append in E. destruct s; [congruence|]. simpl in E. lia.
      - clear Hs. apply rstrip_same in He. induction s as [|c s IH]; [reflexivity|].
        assert (Hs' : rstrip s = s). { cbn [rstrip] in He. destruct (rstrip s); [destruct (ascii_dec c newline); [discriminate|]|]; injection He; auto. }
        change (String c s ++ nl) with (String c (s ++ nl)). cbn [rstrip]. rewrite (IH Hs'). cbn [rstrip] in He. rewrite Hs' in He. exact He. }
    cbn [map text fold_right]. rewrite !Hx, append_nil by auto. auto.
  - unfold solve_log. rewrite run_is. cbn [sl_entries print_writes app flat_map]. rewrite (Hn a), (Hn b) by auto. reflexivity.
  - unfold solve_log. rewrite run_is. cbn [sl_entries print_writes app flat_map]. rewrite (Hn a), (Hn b) by auto. reflexivity.
Qed.
Print Assumptions C119_lines_refuted.

Example C119_met : Forall (fun s => ~ ends_line s) ["Optimal"; ""; "cost 1"] /\
  solve_log (run_solver 3 (flat_map (fun s => print_writes [s]) ["Optimal"; ""; "cost 1"])) = "Optimal" ++ nl ++ nl ++ "cost 1" /\
  sl_output (run_solver 3 (flat_map (fun s => print_writes [s]) ["Optimal"; ""; "cost 1"])) = "Optimal" ++ nl ++ nl ++ "cost 1" ++ nl.
Proof. split; [|split; reflexivity]. repeat constructor; apply rstrip_same; reflexivity. Qed.
