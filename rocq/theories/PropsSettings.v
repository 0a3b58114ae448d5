(** C55: the settings file. *)
From Verif Require Import Base Settings.
From Coq Require Import Strings.String Strings.Ascii.
Local Open Scope list_scope.

(** ** Specification *)

Definition contains (p s : text) : Prop := exists a b, s = a ++ p ++ b.
Definition one_line (s : text) : Prop := ~ In newline s /\ ~ In return_ s.

(** A name does not contain " : " or end in " :"; a value's parts do not contain ", ",
    the value does not contain " : "; both are on one line. *)
Definition well_formed (kv : text * list text) : Prop :=
  one_line (fst kv) /\ one_line (join comma (snd kv)) /\
  ~ contains colon (fst kv) /\ ~ (exists a, fst kv = a ++ chars " :") /\
  snd kv <> [] /\ Forall (fun p => ~ contains comma p) (snd kv) /\ ~ contains colon (join comma (snd kv)).

(** ** Splitting *)

Lemma starts_spec p s : starts p s = true <-> exists b, s = p ++ b.
Proof.
  revert s. induction p as [|a p IH]; intros s; simpl; [split; eauto|].
  destruct s as [|b s]; [split; [discriminate|intros (c & [=])]|]. rewrite andb_true_iff, Ascii.eqb_eq, IH. split.
  - intros [-> (c & ->)]. eauto.
  - intros (c & [= -> ->]). eauto.
Qed.

Lemma skip_all sep r : forall k x cur, List.length x = k -> split_go sep (x ++ r) k cur = split_go sep r 0 cur.
Proof. induction k as [|k IH]; intros [|a x] cur Hl; simpl in *; try discriminate; auto. Qed.

(** Nothing to split at before a separator. *)
Lemma split_step sep x y : sep <> [] -> (forall a c b, x = a ++ c -> c <> [] -> c ++ sep ++ y <> sep ++ b) ->
  split sep (x ++ sep ++ y) = x :: split sep y.
Proof.
  intros Hs. unfold split. assert (G : forall cur, (forall a c b, x = a ++ c -> c <> [] -> c ++ sep ++ y <> sep ++ b) ->
    split_go sep (x ++ sep ++ y) 0 cur = (rev cur ++ x) :: split_go sep y 0 []).
  { induction x as [|c x IH]; intros cur Hno.
    - destruct sep as [|d sep]; [contradiction|]. rewrite app_nil_r. simpl app. cbn [split_go].
      replace (starts (d :: sep) (d :: sep ++ y)) with true by (symmetry; apply starts_spec; exists y; auto).
      f_equal. apply skip_all. simpl. lia.
    - simpl app. cbn [split_go]. destruct (starts sep (c :: x ++ sep ++ y)) eqn:E.
      + exfalso. apply starts_spec in E as (b & E). eapply (Hno [] (c :: x) b); [reflexivity|discriminate|exact E].
      + rewrite IH; [simpl; rewrite <- app_assoc; auto|]. intros a d b -> Hd. apply (Hno (c :: a) d b); auto. }
  intros Hno. rewrite G; auto.
Qed.
Lemma split_last sep x : ~ contains sep x -> split sep x = [x].
Proof.
  unfold split. assert (G : forall cur, ~ contains sep x -> split_go sep x 0 cur = [rev cur ++ x]).
  { induction x as [|c x IH]; intros cur Hno; simpl; [rewrite app_nil_r; auto|].
    destruct (starts sep (c :: x)) eqn:E.
    - exfalso. apply starts_spec in E as (b & E). apply Hno. exists [], b. auto.
    - rewrite IH; [simpl; rewrite <- app_assoc; auto|]. intros (a & b & ->). apply Hno. exists (c :: a), b. auto. }
  intros Hno. rewrite G; auto.
Qed.

Lemma split_comma parts : parts <> [] -> Forall (fun p => ~ contains comma p) parts -> split comma (join comma parts) = parts.
Proof.
  induction parts as [|p parts IH]; intros Hne Hp; [contradiction|]. inversion Hp as [|? ? H1 H2]; subst.
  destruct parts as [|q parts]; [apply split_last; auto|].
  change (join comma (p :: q :: parts)) with (p ++ comma ++ join comma (q :: parts)).
  rewrite split_step, IH; auto; try discriminate. intros a c b -> Hc E. apply H1.
  destruct c as [|c1 [|c2 c]]; [contradiction|simpl in E; discriminate|]. simpl in E. injection E as -> -> _. exists a, c. auto.
Qed.
Lemma split_colon n v : ~ contains colon n -> ~ (exists a, n = a ++ chars " :") -> ~ contains colon v -> split colon (n ++ colon ++ v) = [n; v].
Proof.
  intros Hn He Hv. rewrite split_step, (split_last colon v); auto; try discriminate. intros a c b -> Hc E.
  destruct c as [|c1 [|c2 [|c3 c]]]; [contradiction| | |].
  - simpl in E. discriminate.
  - simpl in E. injection E as -> -> _. apply He. exists a. auto.
  - simpl in E. injection E as -> -> -> _. apply Hn. exists a, c. auto.
Qed.

(** ** Lines *)

Lemma newlines_id s : ~ In return_ s -> newlines s = s.
Proof.
  induction s as [|c s IH]; intros Hn; simpl; auto. destruct (Ascii.eqb c return_) eqn:E.
  - apply Ascii.eqb_eq in E. exfalso. apply Hn. left. auto.
  - rewrite IH; auto. intros H. apply Hn. right. auto.
Qed.
Lemma lines_go_line l s : ~ In newline l -> forall cur, lines_go (l ++ newline :: s) cur = (rev cur ++ l ++ [newline]) :: lines_go s [].
Proof.
  induction l as [|c l IH]; intros Hn cur; simpl; auto. destruct (Ascii.eqb c newline) eqn:E.
  - apply Ascii.eqb_eq in E. exfalso. apply Hn. left. auto.
  - rewrite IH; [simpl; rewrite <- app_assoc; auto|]. intros H. apply Hn. right. auto.
Qed.

Definition written (l : list (text * list text)) : text := write_settings (map (fun kv => (fst kv, join comma (snd kv))) l).
Lemma written_no_return l : Forall well_formed l -> ~ In return_ (written l).
Proof.
  induction 1 as [|kv l Hw Hl IH]; simpl; [tauto|]. destruct Hw as ((_ & H1) & (_ & H2) & _).
  unfold written, write_settings in *. cbn [map flat_map fst snd]. rewrite !in_app_iff. intros [[H|[H|[H|H]]]|H]; auto.
  - cbv in H. repeat (destruct H as [H|H]; [discriminate H|]). auto.
  - simpl in H. destruct H as [H|[]]. discriminate.
Qed.
Lemma written_lines l : Forall well_formed l -> lines (written l) = map (fun kv => (fst kv ++ colon ++ join comma (snd kv)) ++ [newline]) l.
Proof.
  intros Hw. unfold lines. rewrite newlines_id by (apply written_no_return; auto).
  induction Hw as [|kv l H Hl IH]; auto. unfold written, write_settings in *. cbn [map flat_map fst snd].
  replace ((fst kv ++ colon ++ join comma (snd kv) ++ [newline]) ++ flat_map _ _)
    with ((fst kv ++ colon ++ join comma (snd kv)) ++ newline :: flat_map (fun kv => fst kv ++ colon ++ snd kv ++ [newline]) (map (fun kv => (fst kv, join comma (snd kv))) l))
    by (rewrite <- !app_assoc; auto).
  destruct H as ((H1 & _) & (H2 & _) & _).
  rewrite lines_go_line.
  - rewrite IH. auto.
  - rewrite !in_app_iff. intros [H|[H|H]]; auto. cbv in H. repeat (destruct H as [H|H]; [discriminate H|]). auto.
Qed.
Lemma contains_snoc v : ~ contains colon v -> ~ contains colon (v ++ [newline]).
Proof.
  intros Hv (a & b & E). apply Hv. destruct b as [|y b _] using rev_ind.
  - exfalso. replace (a ++ colon ++ []) with ((a ++ chars " :") ++ chars " ") in E by (rewrite <- app_assoc; auto).
    apply app_inj_tail in E as [_ E]. discriminate.
  - rewrite !app_assoc in E. apply app_inj_tail in E as [-> _]. exists a, b. rewrite app_assoc. auto.
Qed.

Lemma read_written l : Forall well_formed l -> forall d,
  read_lines (map (fun kv => (fst kv ++ colon ++ join comma (snd kv)) ++ [newline]) l) d = Ok (fold_left (fun d kv => dset d (fst kv) (snd kv)) l d).
Proof.
  induction 1 as [|[n parts] l Hw Hl IH]; intros d; auto. destruct Hw as (_ & _ & H1 & H2 & H3 & H4 & H5). simpl fst in *. simpl snd in *.
  cbn [map read_lines fst snd fold_left].
  replace ((n ++ colon ++ join comma parts) ++ [newline]) with (n ++ colon ++ (join comma parts ++ [newline])) at 1 by (rewrite <- !app_assoc; auto).
  rewrite split_colon by (auto using contains_snoc). rewrite removelast_last, split_colon by auto. simpl Nat.eqb. cbn iota.
  rewrite split_comma by auto. apply IH.
Qed.

Lemma fold_dset_get {V} (l : list (text * V)) : NoDup (map fst l) -> forall d k,
  dget (fold_left (fun d kv => dset d (fst kv) (snd kv)) l d) k = match dget l k with Some v => Some v | None => dget d k end.
Proof.
  induction l as [|[n v] l IH]; intros Hnd d k; auto. inversion Hnd as [|? ? Hn Hnd']; subst. cbn [fold_left fst snd].
  rewrite IH by auto. simpl. destruct (decide (k = n)) as [->|Hk].
  - assert (Hnone : dget l n = None). { destruct (dget l n) eqn:E; auto. apply dget_In_keys in E. exfalso. apply Hn. apply elem_of_list_In. exact E. }
    rewrite Hnone, dget_dset_eq. auto.
  - rewrite dget_dset_ne by auto. auto.
Qed.
Lemma dget_map_snd {V W} (f : text -> V -> W) (d : list (text * V)) k :
  dget (map (fun kv => (fst kv, f (fst kv) (snd kv))) d) k = match dget d k with Some v => Some (f k v) | None => None end.
Proof. induction d as [|[n v] d IH]; simpl; auto. destruct (decide (k = n)) as [->|]; auto. Qed.

(** ** C55 *)

(** Reading what was written yields, for every setting other than the default solver (which is the first of those installed),
    its value if it has one part, the list of its parts if it has more or is the list of solvers, and no other settings. *)
Theorem C55_round_trip : forall (l : list (text * list text)) (solver : text) (solvers : list text),
  NoDup (map fst l) -> Forall well_formed l -> In (installed, solver :: solvers) l ->
  exists d, load_settings (write_settings (map (fun kv => (fst kv, join comma (snd kv))) l)) = Ok d /\
    (forall name value, name <> default_solver -> name <> installed -> In (name, [value]) l -> dget d name = Some (One value)) /\
    (forall name parts, name <> default_solver -> (2 <= List.length parts)%nat -> In (name, parts) l -> dget d name = Some (Many parts)) /\
    dget d installed = Some (Many (solver :: solvers)) /\
    dget d default_solver = Some (One solver) /\
    (forall name, name <> default_solver -> ~ In name (map fst l) -> dget d name = None).
Proof.
  intros l solver solvers Hnd Hw Hin. unfold load_settings. change (write_settings _) with (written l).
  rewrite written_lines, read_written by auto. simpl rbind.
  set (d := fold_left _ l []).
  assert (Hd : forall k, dget d k = dget l k). { intros k. unfold d. rewrite fold_dset_get by auto. destruct (dget l k); auto. }
  assert (Hget : forall k v, In (k, v) l -> dget l k = Some v) by (intros k v H; apply In_dget; auto).
  rewrite dget_map_snd, Hd, (Hget _ _ Hin).
  assert (Hf : flatten_setting installed (solver :: solvers) = Many (solver :: solvers)).
  { unfold flatten_setting. destruct solvers; auto. }
  rewrite Hf. eexists. split; [reflexivity|].
  assert (Hne : installed <> default_solver) by discriminate. split_and!.
  - intros name value H1 H2 Hi. rewrite dget_dset_ne, dget_map_snd, Hd, (Hget _ _ Hi) by auto. simpl. destruct (decide (name = installed)); auto. contradiction.
  - intros name parts H1 H2 Hi. rewrite dget_dset_ne, dget_map_snd, Hd, (Hget _ _ Hi) by auto. destruct parts as [|a [|b parts]]; simpl in *; auto; lia.
  - rewrite dget_dset_ne, dget_map_snd, Hd, (Hget _ _ Hin), Hf by auto. auto.
  - apply dget_dset_eq.
  - intros name H1 H2. rewrite dget_dset_ne, dget_map_snd, Hd by auto. destruct (dget l name) eqn:E; auto. exfalso. apply H2. apply dget_In_keys in E. exact E.
Qed.
Print Assumptions C55_round_trip.

(** Lines that do not have exactly one " : " are ignored. *)
Lemma lines_written_app l s : Forall well_formed l -> lines_go (written l ++ s) [] = map (fun kv => (fst kv ++ colon ++ join comma (snd kv)) ++ [newline]) l ++ lines_go s [].
Proof.
  induction 1 as [|kv l H Hl IH]; auto. unfold written, write_settings in *. cbn [map flat_map fst snd].
  replace (((fst kv ++ colon ++ join comma (snd kv) ++ [newline]) ++ flat_map _ _) ++ s)
    with ((fst kv ++ colon ++ join comma (snd kv)) ++ newline :: (flat_map (fun kv => fst kv ++ colon ++ snd kv ++ [newline]) (map (fun kv => (fst kv, join comma (snd kv))) l) ++ s))
    by (rewrite <- !app_assoc; auto).
  destruct H as ((H1 & _) & (H2 & _) & _).
  rewrite lines_go_line.
  - rewrite IH. auto.
  - rewrite !in_app_iff. intros [H|[H|H]]; auto. cbv in H. repeat (destruct H as [H|H]; [discriminate H|]). auto.
Qed.
Lemma read_written_app l : Forall well_formed l -> forall ls d,
  read_lines (map (fun kv => (fst kv ++ colon ++ join comma (snd kv)) ++ [newline]) l ++ ls) d = read_lines ls (fold_left (fun d kv => dset d (fst kv) (snd kv)) l d).
Proof.
  induction 1 as [|[n parts] l Hw Hl IH]; intros ls d; auto. destruct Hw as (_ & _ & H1 & H2 & H3 & H4 & H5). simpl fst in *. simpl snd in *.
  cbn [map read_lines fst snd fold_left app].
  replace ((n ++ colon ++ join comma parts) ++ [newline]) with (n ++ colon ++ (join comma parts ++ [newline])) at 1 by (rewrite <- !app_assoc; auto).
  rewrite split_colon by (auto using contains_snoc). rewrite removelast_last, split_colon by auto. simpl Nat.eqb. cbn iota.
  rewrite split_comma by auto. apply IH.
Qed.
Definition plain_part (p : text) : Prop := ~ contains colon p /\ ~ (exists a, p = a ++ chars " :").
Lemma split_parts parts : parts <> [] -> Forall plain_part parts -> List.length (split colon (join colon parts ++ [newline])) = List.length parts.
Proof.
  induction parts as [|p parts IH]; intros Hne Hp; [contradiction|]. inversion Hp as [|? ? [H1 H2] Hp']; subst.
  destruct parts as [|q parts]; [simpl join; rewrite split_last by (apply contains_snoc; auto); auto|].
  change (join colon (p :: q :: parts)) with (p ++ colon ++ join colon (q :: parts)). rewrite <- !app_assoc.
  rewrite split_step; [cbn [List.length]; rewrite IH; auto; discriminate|discriminate|].
  intros a c b -> Hc E. destruct c as [|c1 [|c2 [|c3 c]]]; [contradiction| | |].
  - simpl in E. discriminate.
  - simpl in E. injection E as -> -> _. apply H2. exists a. auto.
  - simpl in E. injection E as -> -> -> _. apply H1. exists a, c. auto.
Qed.
Theorem C55_other_lines : forall (l1 l2 : list (text * list text)) (parts : list text), Forall well_formed l1 -> Forall well_formed l2 ->
  parts <> [] -> List.length parts <> 2%nat -> Forall plain_part parts -> one_line (join colon parts) ->
  let file l := write_settings (map (fun kv => (fst kv, join comma (snd kv))) l) in
  load_settings (file l1 ++ join colon parts ++ [newline] ++ file l2) = load_settings (file (l1 ++ l2)).
Proof.
  intros l1 l2 parts H1 H2 Hne Hlen Hp [Hnl Hcr] file. change (file l1) with (written l1). change (file l2) with (written l2). change (file (l1 ++ l2)) with (written (l1 ++ l2)).
  unfold load_settings. rewrite written_lines by (apply Forall_app; auto). unfold lines.
  rewrite newlines_id.
  2:{ rewrite !in_app_iff. intros [H|[H|[H|H]]]; auto; [eapply written_no_return; [exact H1|exact H]| |eapply written_no_return; [exact H2|exact H]].
      simpl in H. destruct H as [H|[]]. discriminate. }
  rewrite lines_written_app by auto. change (join colon parts ++ [newline] ++ written l2) with (join colon parts ++ newline :: written l2). rewrite lines_go_line by auto. cbn [rev app].
  rewrite <- (app_nil_r (written l2)), lines_written_app by auto. cbn [lines_go]. rewrite app_nil_r.
  rewrite <- (app_nil_r (map _ (l1 ++ l2))). rewrite !read_written_app by (try apply Forall_app; auto). cbn [read_lines].
  rewrite split_parts by auto. apply Nat.eqb_neq in Hlen. rewrite Hlen. rewrite <- (app_nil_r (map _ l2)), read_written_app by auto. cbn [read_lines]. rewrite fold_left_app. auto.
Qed.
Print Assumptions C55_other_lines.

(** Files whose lines end in "\r" or "\r\n" read like those whose lines end in "\n". *)
Inductive line_end : text -> Prop := le_n : line_end [newline] | le_r : line_end [return_] | le_rn : line_end [return_; newline].
Lemma newlines_line (l r : text) : ~ In return_ l -> newlines (l ++ r) = l ++ newlines r.
Proof.
  induction l as [|c l IH]; intros Hr; auto. simpl in Hr. cbn [app newlines]. destruct (Ascii.eqb_spec c return_) as [->|]; [exfalso; apply Hr; auto|].
  rewrite IH by (intros H; apply Hr; auto). auto.
Qed.
Theorem C55_line_ends : forall (ls : list (text * text)),
  Forall (fun le => fst le <> [] /\ one_line (fst le) /\ line_end (snd le)) ls ->
  load_settings (flat_map (fun le => fst le ++ snd le) ls) = load_settings (flat_map (fun le => fst le ++ [newline]) ls).
Proof.
  intros ls H. unfold load_settings, lines. f_equal. f_equal. f_equal.
  rewrite newlines_id with (s := flat_map (fun le => fst le ++ [newline]) ls).
  2:{ rewrite in_flat_map. intros ([l e] & Hin & Hr). rewrite List.Forall_forall in H. destruct (H _ Hin) as (_ & (_ & Hn) & _). cbn [fst] in *.
      apply in_app_iff in Hr as [Hr|[Hr|[]]]; [auto|discriminate]. }
  induction H as [|[l e] ls (Hne & (_ & Hr) & He) Hls IH]; auto. cbn [flat_map fst snd] in *.
  rewrite <- !app_assoc, newlines_line by auto. f_equal. destruct He; cbn [app newlines].
  - change (Ascii.eqb newline return_) with false. cbn iota. rewrite IH. auto.
  - change (Ascii.eqb return_ return_) with true. cbn iota.
    destruct ls as [|[l2 e2] ls]; [reflexivity|]. inversion Hls as [|? ? (Hne2 & (Hn2 & _) & _) _]; subst. cbn [fst snd] in *.
    destruct l2 as [|c l2]; [contradiction|]. cbn [flat_map fst snd app] in *. destruct (Ascii.eqb_spec c newline) as [->|]; [exfalso; apply Hn2; left; auto|].
    rewrite IH. reflexivity.
  - change (Ascii.eqb return_ return_) with true. change (Ascii.eqb newline newline) with true. change (Ascii.eqb newline return_) with false. cbn iota. rewrite IH. auto.
Qed.
Print Assumptions C55_line_ends.
Example C55_line_ends_example : load_settings (chars "installed_solvers : cvxopt" ++ [return_; newline] ++ chars "default_units : x" ++ [return_]) =
  Ok [(installed, Many [chars "cvxopt"]); (chars "default_units", One (chars "x")); (default_solver, One (chars "cvxopt"))].
Proof. vm_compute. reflexivity. Qed.

(** A file written by hand whose last line is not terminated. *)
Definition C55_unterminated : Prop :=
  forall file, load_settings file = load_settings (file ++ [newline]).
(** The last character is lost. *)
Theorem C55_unterminated_refuted : ~ C55_unterminated.
Proof. intros H. specialize (H (chars "installed_solvers : cvxopt")). vm_compute in H. discriminate H. Qed.
Print Assumptions C55_unterminated_refuted.

(** ** Non-vacuity *)
Example round_trip_ex :
  load_settings (written [(chars "installed_solvers", [chars "mosek_cli"; chars "cvxopt"]); (chars "mosek_bin_dir", [chars "/opt/mosek: 9"])]) =
  Ok [(chars "installed_solvers", Many [chars "mosek_cli"; chars "cvxopt"]); (chars "mosek_bin_dir", One (chars "/opt/mosek: 9"));
      (chars "default_solver", One (chars "mosek_cli"))].
Proof. vm_compute. reflexivity. Qed.
(** A boolean test of [contains], to show that the example is well formed. *)
Fixpoint containsb (p s : text) : bool := starts p s || match s with [] => false | _ :: s' => containsb p s' end.
Lemma containsb_spec p s : contains p s -> containsb p s = true.
Proof.
  intros (a & b & ->). induction a as [|c a IH]; simpl.
  - destruct (p ++ b) eqn:E; simpl; apply orb_true_iff; left; apply starts_spec; exists b; auto.
  - rewrite IH. apply orb_true_r.
Qed.
Example well_formed_ex : well_formed (chars "mosek_bin_dir", [chars "/opt/mosek: 9"]).
Proof.
  assert (Hc : forall p s, containsb p s = false -> ~ contains p s) by (intros p s E H; apply containsb_spec in H; congruence).
  unfold well_formed, one_line. simpl fst. simpl snd. split_and!; try (simpl; intros H; repeat (destruct H as [H|H]; [discriminate H|]); exact H); try (apply Hc; reflexivity).
  - intros (a & E). assert (H : contains (chars " :") (chars "mosek_bin_dir")) by (exists a, []; rewrite app_nil_r; auto). revert H. apply Hc. reflexivity.
  - discriminate.
  - repeat constructor. apply Hc. reflexivity.
Qed.

(** A comment and a line with two " : " *)
Example other_lines_ex : load_settings (chars "# settings" ++ [newline] ++ chars "installed_solvers : cvxopt" ++ [newline] ++ chars "a : b : c" ++ [newline]) =
  Ok [(chars "installed_solvers", Many [chars "cvxopt"]); (chars "default_solver", One (chars "cvxopt"))] /\
  plain_part (chars "b") /\ chars "a : b : c" = join colon [chars "a"; chars "b"; chars "c"].
Proof.
  split; [vm_compute; reflexivity|]. split; [|reflexivity].
  assert (Hc : forall p s, containsb p s = false -> ~ contains p s) by (intros p s E H; apply containsb_spec in H; congruence). split; [apply Hc; reflexivity|].
  intros (a & E). assert (H : contains (chars " :") (chars "b")) by (exists a, []; rewrite app_nil_r; auto). revert H. apply Hc. reflexivity.
Qed.
