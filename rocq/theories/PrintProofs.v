(** Reading what is printed. *)
From Verif Require Import Base HashVec Nomial NomialSem NomialProofs CanonProofs Print PrintSpec.
Open Scope R_scope.

(** ** Depth and splitting *)
Fixpoint dep (d : nat) (l : list tok) : option nat :=
  match l with
  | [] => Some d
  | t :: l' => match t with
               | C c => if N.eqb c LP then dep (S d) l' else if N.eqb c RP then (match d with O => None | S d' => dep d' l' end) else dep d l'
               | _ => dep d l'
               end
  end.
Lemma dep_deeper t d e l : dep d (t :: l) = Some e -> dep (deeper t d) l = Some e.
Proof. destruct t as [| |c]; simpl; auto. destruct (N.eqb c LP); auto. destruct (N.eqb c RP); auto. destruct d; [discriminate|auto]. Qed.
Lemma dep_app a b d : dep d (a ++ b) = match dep d a with Some e => dep e b | None => None end.
Proof.
  revert d. induction a as [|t a IH]; intros d; [reflexivity|]. simpl. destruct t as [| |c]; auto.
  destruct (N.eqb c LP); auto. destruct (N.eqb c RP); auto. destruct d; auto.
Qed.
Lemma deeper_S t d l e : dep d (t :: l) = Some e -> deeper t (S d) = S (deeper t d).
Proof. destruct t as [| |c]; simpl; auto. destruct (N.eqb c LP); auto. destruct (N.eqb c RP); auto. destruct d; [discriminate|auto]. Qed.
Lemma dep_S l : forall d e, dep d l = Some e -> dep (S d) l = Some (S e).
Proof.
  induction l as [|t l IH]; intros d e H; [injection H as <-; reflexivity|].
  simpl in *. destruct t as [| |c]; auto. destruct (N.eqb c LP); auto. destruct (N.eqb c RP); auto. destruct d; [discriminate|auto].
Qed.
Definition balanced (l : list tok) : Prop := dep 0 l = Some 0%nat.
Lemma balanced_app a b : balanced a -> balanced b -> balanced (a ++ b).
Proof. unfold balanced. intros H1 H2. rewrite dep_app, H1. exact H2. Qed.
Lemma balanced_wrap l : balanced l -> balanced (C LP :: l ++ [C RP]).
Proof. intros H. unfold balanced. simpl. rewrite dep_app, (dep_S l _ _ H). reflexivity. Qed.

Section Split.
Context {A : Type} (op : tok -> option A).
Lemma split_flat l d : snd (split op d l) = [] -> split op d l = (l, []).
Proof.
  revert d. induction l as [|t l IH]; intros d; [reflexivity|]. simpl.
  destruct (match d with O => op t | S _ => None end).
  - destruct (split op 0 l). discriminate.
  - specialize (IH (deeper t d)). destruct (split op (deeper t d) l) as [p ps]. simpl in *. intros E. apply IH in E. congruence.
Qed.
Lemma split_app l : forall d e M, dep d l = Some e -> split op d l = (l, []) ->
  split op d (l ++ M) = (l ++ fst (split op e M), snd (split op e M)).
Proof.
  induction l as [|t l IH]; intros d e M Hd Hs.
  - injection Hd as <-. simpl. destruct (split op d M). reflexivity.
  - simpl in Hs |- *. destruct (match d with O => op t | S _ => None end).
    + destruct (split op 0 l). discriminate.
    + pose proof (split_flat l (deeper t d)) as F. destruct (split op (deeper t d) l) as [p ps] eqn:E.
      injection Hs as -> ->. specialize (F eq_refl). rewrite (IH (deeper t d) e M); [reflexivity|exact (dep_deeper _ _ _ _ Hd)|exact E].
Qed.
Hypothesis op_l : op (C LP) = None.
Hypothesis op_r : op (C RP) = None.
Lemma op_deeper t a d : op t = Some a -> deeper t d = d.
Proof.
  intros H. destruct t as [| |c]; auto. simpl. destruct (N.eqb_spec c LP); [congruence|]. destruct (N.eqb_spec c RP); [congruence|reflexivity].
Qed.
Lemma split_op l : forall d t a M, dep d l = Some 0%nat -> op t = Some a ->
  split op d (l ++ t :: M) = (fst (split op d l), snd (split op d l) ++ (a, fst (split op 0 M)) :: snd (split op 0 M)).
Proof.
  induction l as [|u l IH]; intros d t a M Hd Ht.
  - injection Hd as ->. simpl. rewrite Ht. destruct (split op 0 M). reflexivity.
  - simpl. pose proof (dep_deeper _ _ _ _ Hd) as Hd'. destruct (match d with O => op u | S _ => None end) eqn:Eu.
    + destruct d; [|discriminate]. rewrite (op_deeper u a0 0 Eu) in Hd'. rewrite (IH 0%nat t a M Hd' Ht). destruct (split op 0 l). reflexivity.
    + rewrite (IH _ t a M Hd' Ht). destruct (split op (deeper u d) l). reflexivity.
Qed.
Lemma split_deep l : forall d e M, dep d l = Some e ->
  split op (S d) (l ++ M) = (l ++ fst (split op (S e) M), snd (split op (S e) M)).
Proof.
  induction l as [|t l IH]; intros d e M Hd.
  - injection Hd as <-. simpl app. destruct (split op (S d) M). reflexivity.
  - simpl app. cbn [split]. rewrite (deeper_S _ _ _ _ Hd), (IH _ e M (dep_deeper _ _ _ _ Hd)). reflexivity.
Qed.
Lemma split_wrap l : balanced l -> split op 0 (C LP :: l ++ [C RP]) = (C LP :: l ++ [C RP], []).
Proof.
  intros H. cbn [split]. rewrite op_l. change (deeper (C LP) 0) with 1%nat. rewrite (split_deep l 0 0 _ H).
  cbn [split]. simpl. reflexivity.
Qed.
End Split.

(** ** Texts *)
Definition clean (s : text) : Prop := forall s', lex (s ++ s') = lex s ++ lex s'.
Lemma lex_cons c s : c <> SP -> lex (c :: s) = C c :: lex s.
Proof.
  intros H. apply N.eqb_neq in H. cbn [lex]. destruct s as [|b [|c' s]]; auto. rewrite H. reflexivity.
Qed.
Lemma clean_nil : clean [].
Proof. intros s'. reflexivity. Qed.
Lemma clean_app a b : clean a -> clean b -> clean (a ++ b).
Proof. intros Ha Hb s'. rewrite <- app_assoc, Ha, Hb, Ha, app_assoc. reflexivity. Qed.
Lemma clean_cons c s : c <> SP -> clean s -> clean (c :: s).
Proof. intros Hc Hs s'. change ((c :: s) ++ s') with (c :: (s ++ s')). rewrite (lex_cons c (s ++ s')), (lex_cons c s), Hs by exact Hc. reflexivity. Qed.
Lemma clean_chars s : Forall (fun c => c <> SP) s -> clean s /\ lex s = map C s.
Proof.
  induction 1 as [|c s Hc Hs [IH1 IH2]]; [split; [exact clean_nil|reflexivity]|].
  split; [apply clean_cons; assumption|]. rewrite lex_cons, IH2 by exact Hc. reflexivity.
Qed.
Lemma lex_plus s : lex ([SP; PLUS; SP] ++ s) = Plus :: lex s.
Proof. reflexivity. Qed.
Lemma lex_minus s : lex ([SP; MINUS; SP] ++ s) = Minus :: lex s.
Proof. reflexivity. Qed.

Lemma chars_map s : chars (map C s) = s.
Proof. unfold chars. induction s as [|c s IH]; [reflexivity|]. simpl. congruence. Qed.

(** characters that are in no operator *)
Definition inert (c : N) : Prop := special c = false.
Lemma inert_ne c : inert c -> c <> SP /\ c <> LP /\ c <> RP /\ c <> SLASH /\ c <> CARET /\ c <> DOT /\
  List.find (fun zc => N.eqb (snd zc) c) superscripts = None.
Proof.
  unfold inert, special. rewrite existsb_app. intros H. apply orb_false_iff in H as [H1 H2]. simpl in H1.
  repeat match type of H1 with _ || _ = false => apply orb_false_iff in H1; destruct H1 as [? H1] end.
  repeat match goal with E : N.eqb _ _ = false |- _ => apply N.eqb_neq in E end. repeat (split; [assumption|]).
  clear -H2. revert H2. generalize superscripts as l. induction l as [|zc l IH]; [reflexivity|]. cbn [map existsb List.find].
  rewrite (N.eqb_sym (snd zc) c). destruct (N.eqb c (snd zc)); [discriminate|exact IH].
Qed.
Lemma inert_text s : Forall inert s -> clean s /\ lex s = map C s /\ balanced (map C s) /\
  snd (split addi_op 0 (map C s)) = [] /\ snd (split mult_op 0 (map C s)) = [] /\ snd (split pow_op 0 (map C s)) = [].
Proof.
  intros F. assert (F' : Forall (fun c => c <> SP) s) by (eapply Forall_impl; [exact F|]; intros c Hc; apply inert_ne in Hc; tauto).
  destruct (clean_chars s F') as [H1 H2]. split; [exact H1|]. split; [exact H2|]. clear H1 H2 F'. unfold balanced.
  induction F as [|c s Hc F (IH1 & IH2 & IH3 & IH4)]; [repeat split|]. apply inert_ne in Hc as (N1 & N2 & N3 & N4 & N5 & N6 & N7).
  apply N.eqb_neq in N1, N2, N3, N4, N5, N6. cbn [map dep split deeper addi_op mult_op pow_op]. rewrite N2, N3, N4, N5, N6, N7.
  destruct (split addi_op 0 (map C s)), (split mult_op 0 (map C s)), (split pow_op 0 (map C s)). simpl in *. auto.
Qed.
Lemma num_char_inert c : num_char c = true -> inert c.
Proof.
  unfold num_char, inert, special, is_digit. intros H. apply orb_true_iff in H as [H|H].
  - apply andb_true_iff in H as [H1 H2]. apply N.leb_le in H1, H2.
    assert (forall x, In x ([SP; LP; RP; SLASH; CARET; DOT] ++ map snd superscripts) -> (x < 48 \/ 57 < x)%N).
    { intros x Hx. simpl in Hx. repeat (destruct Hx as [<-|Hx]; [unfold SP, LP, RP, SLASH, CARET, DOT; lia|]). destruct Hx. }
    apply not_true_is_false. intros E. apply existsb_exists in E as (x & Hx & E). apply N.eqb_eq in E. subst x. apply H in Hx. lia.
  - simpl in H. rewrite !orb_true_iff, !N.eqb_eq in H. destruct H as [->|[->|[->|[->|H]]]]; try reflexivity. discriminate.
Qed.

(** ** What can be read at each level *)
Section Levels.
Variable num : text -> R.
Variable rho : text -> R.
Notation G := (read_toks num rho).
Definition at_level (f : (list tok -> option R) -> list tok -> option R) (n : nat) (s : text) (v : R) : Prop :=
  s <> [] /\ clean s /\ balanced (lex s) /\ forall n', (n <= n')%nat -> f (G n') (lex s) = Some v.
Definition Sum := at_level (sum num rho).
Definition Term n s v := at_level (term num rho) n s v /\ no_top addi_op s.
Definition Un n s v := at_level (unary num rho) n s v /\ no_top addi_op s /\ no_top mult_op s.
Definition Pw n s v := at_level (power num rho) n s v /\ no_top addi_op s /\ no_top mult_op s /\ hd 0%N s <> MINUS.

Lemma chain_flat f l : chain f (l, []) = f l.
Proof. reflexivity. Qed.
Lemma sum_term n s v : Sum n s v -> no_top addi_op s -> Term n s v.
Proof.
  intros (H1 & H2 & H3 & H4) Hn. split; [|exact Hn]. split; [exact H1|]. split; [exact H2|]. split; [exact H3|].
  intros n' Hn'. rewrite <- (H4 n' Hn'). unfold sum. rewrite (split_flat _ _ _ Hn), chain_flat. reflexivity.
Qed.
Lemma term_sum n s v : Term n s v -> Sum n s v.
Proof.
  intros [(H1 & H2 & H3 & H4) Hn]. split; [exact H1|]. split; [exact H2|]. split; [exact H3|].
  intros n' Hn'. rewrite <- (H4 n' Hn'). unfold sum. rewrite (split_flat _ _ _ Hn), chain_flat. reflexivity.
Qed.
Lemma term_un n s v : Term n s v -> no_top mult_op s -> Un n s v.
Proof.
  intros [(H1 & H2 & H3 & H4) Hn] Hm. split; [|split; assumption]. split; [exact H1|]. split; [exact H2|]. split; [exact H3|].
  intros n' Hn'. rewrite <- (H4 n' Hn'). unfold term. rewrite (split_flat _ _ _ Hm), chain_flat. reflexivity.
Qed.
Lemma un_term n s v : Un n s v -> Term n s v.
Proof.
  intros [(H1 & H2 & H3 & H4) [Hn Hm]]. split; [|exact Hn]. split; [exact H1|]. split; [exact H2|]. split; [exact H3|].
  intros n' Hn'. rewrite <- (H4 n' Hn'). unfold term. rewrite (split_flat _ _ _ Hm), chain_flat. reflexivity.
Qed.
Lemma unary_power g l c l' : l = C c :: l' -> c <> MINUS -> unary num rho g l = power num rho g l.
Proof. intros -> H. apply N.eqb_neq in H. cbn [unary]. rewrite H. reflexivity. Qed.
Lemma lex_hd s : s <> [] -> hd 0%N s <> MINUS -> forall g, unary num rho g (lex s) = power num rho g (lex s).
Proof.
  destruct s as [|a [|b [|c s]]]; intros Hs Hh g; [congruence| | |]; try (apply (unary_power g _ a _ eq_refl Hh)).
  cbn [lex]. destruct (N.eqb a SP && N.eqb c SP && N.eqb b PLUS); [reflexivity|].
  destruct (N.eqb a SP && N.eqb c SP && N.eqb b MINUS); [reflexivity|]. apply (unary_power g _ a _ eq_refl Hh).
Qed.
Lemma un_pw n s v : Un n s v -> hd 0%N s <> MINUS -> Pw n s v.
Proof.
  intros [(H1 & H2 & H3 & H4) [Hn Hm]] Hh. split; [|split; [exact Hn|split; [exact Hm|exact Hh]]]. split; [exact H1|]. split; [exact H2|]. split; [exact H3|].
  intros n' Hn'. rewrite <- (H4 n' Hn'). symmetry. apply lex_hd; assumption.
Qed.
Lemma pw_un n s v : Pw n s v -> Un n s v.
Proof.
  intros [(H1 & H2 & H3 & H4) [Hn [Hm Hh]]]. split; [|split; assumption]. split; [exact H1|]. split; [exact H2|]. split; [exact H3|].
  intros n' Hn'. rewrite <- (H4 n' Hn'). apply lex_hd; assumption.
Qed.

Lemma wrap n s v : Sum n s v -> Pw (S n) (LP :: s ++ [RP]) v.
Proof.
  intros (H1 & H2 & H3 & H4).
  assert (E : lex (LP :: s ++ [RP]) = C LP :: lex s ++ [C RP]) by (rewrite lex_cons by discriminate; rewrite H2; reflexivity).
  assert (Nt : forall A (op : tok -> option A), op (C LP) = None -> op (C RP) = None -> no_top op (LP :: s ++ [RP])).
  { intros A op Hl Hr. unfold no_top. rewrite E, split_wrap by assumption. reflexivity. }
  split; [|split; [|split; [|discriminate]]].
  - split; [discriminate|]. split; [apply clean_cons; [discriminate|apply clean_app; [exact H2|apply clean_cons; [discriminate|exact clean_nil]]]|].
    split; [rewrite E; apply balanced_wrap; exact H3|]. intros n' Hn'. unfold power. rewrite E, split_wrap by (try reflexivity; assumption).
    cbn [fold_left atom]. change (N.eqb LP LP) with true. cbv iota. rewrite rev_app_distr. cbn [rev app]. change (N.eqb RP RP) with true. cbv iota.
    rewrite rev_involutive. destruct n' as [|n']; [lia|]. cbn [read_toks]. apply H4. lia.
  - apply Nt; reflexivity.
  - apply Nt; reflexivity.
Qed.

(** An atom: a name or a numeral *)
Lemma plain_pw s v : s <> [] -> Forall inert s -> hd 0%N s <> MINUS -> (forall g, atom num rho g (map C s) = Some v) -> Pw 0 s v.
Proof.
  intros Hs F Hh Ha. destruct (inert_text s F) as (H1 & H2 & H3 & H4 & H5 & H6).
  split; [|unfold no_top; rewrite H2; auto]. split; [exact Hs|]. split; [exact H1|]. split; [rewrite H2; exact H3|].
  intros n' _. unfold power. rewrite H2, (split_flat _ _ _ H6). apply Ha.
Qed.
Lemma name_pw s : fine_name s -> Pw 0 s (rho s).
Proof.
  intros [F Hh]. destruct s as [|c s]; [destruct Hh|]. destruct Hh as [Hd Hm].
  assert (Fi : Forall inert (c :: s)) by (apply List.Forall_forall; intros x Hx; rewrite forallb_forall in F; specialize (F x Hx); unfold inert; destruct (special x); [discriminate|reflexivity]).
  apply plain_pw; [discriminate|exact Fi|exact Hm|]. intros g. inversion Fi as [|? ? Hc _]; subst. apply inert_ne in Hc as (_ & N2 & _).
  apply N.eqb_neq in N2. cbn [map atom]. rewrite N2, Hd. change (C c :: map C s) with (map C (c :: s)). rewrite chars_map. reflexivity.
Qed.
Lemma numeral_pw s : numeral s -> Pw 0 s (num s).
Proof.
  intros [F Hh]. destruct s as [|c s]; [destruct Hh|].
  assert (Fi : Forall inert (c :: s)) by (apply List.Forall_forall; intros x Hx; rewrite forallb_forall in F; apply num_char_inert; auto).
  assert (Hm : c <> MINUS) by (intros ->; discriminate).
  apply plain_pw; [discriminate|exact Fi|exact Hm|]. intros g. inversion Fi as [|? ? Hc _]; subst. apply inert_ne in Hc as (_ & N2 & _).
  apply N.eqb_neq in N2. cbn [map atom]. rewrite N2, Hh. change (C c :: map C s) with (map C (c :: s)). rewrite chars_map. reflexivity.
Qed.

(** Sums *)
Lemma fold_none f l : fold_left (fun acc aq => match acc, f (snd aq) with Some v, Some w => Some (fst aq v w) | _, _ => None end : option R)
  (l : list ((R -> R -> R) * list tok)) None = None.
Proof. induction l; auto. Qed.
Lemma chain_app f p ps a q qs : chain f (p, ps ++ (a, q) :: qs) =
  fold_left (fun acc aq => match acc, f (snd aq) with Some v, Some w => Some (fst aq v w) | _, _ => None end) qs
    (match chain f (p, ps), f q with Some v, Some w => Some (a v w) | _, _ => None end).
Proof. unfold chain. cbn [fst snd]. rewrite fold_left_app. reflexivity. Qed.
(** a chain of operators that commute with [g] *)
Lemma chain_shift f (g : R -> R) qs : Forall (fun aq => forall v w, fst aq (g v) w = g (fst aq v w)) qs -> forall acc,
  fold_left (fun acc aq => match acc, f (snd aq) with Some v, Some w => Some (fst aq v w) | _, _ => None end : option R)
    (qs : list ((R -> R -> R) * list tok)) (option_map g acc) =
  option_map g (fold_left (fun acc aq => match acc, f (snd aq) with Some v, Some w => Some (fst aq v w) | _, _ => None end) qs acc).
Proof.
  induction 1 as [|aq qs Ha F IH]; intros acc; [reflexivity|]. cbn [fold_left]. rewrite <- IH. f_equal.
  destruct acc as [v|]; [|reflexivity]. cbn [option_map]. destruct (f (snd aq)); [|reflexivity]. simpl. rewrite Ha. reflexivity.
Qed.
Lemma ops_of {A} (op : tok -> option A) (P : A -> Prop) l : (forall t a, op t = Some a -> P a) -> forall d, Forall (fun aq => P (fst aq)) (snd (split op d l)).
Proof.
  intros H. induction l as [|t l IH]; intros d; [constructor|]. simpl.
  destruct (match d with O => op t | S _ => None end) eqn:E.
  - specialize (IH 0%nat). destruct (split op 0 l). constructor; [|exact IH]. destruct d; [|discriminate]. exact (H _ _ E).
  - specialize (IH (deeper t d)). destruct (split op (deeper t d) l). exact IH.
Qed.
Lemma addi_shift l d u : Forall (fun aq => forall v w, fst aq (u + v) w = u + fst aq v w) (snd (split addi_op d l)).
Proof.
  apply (ops_of addi_op (fun a => forall v w, a (u + v) w = u + a v w)). intros [| |c] a [= <-]; intros v w; lra.
Qed.
Lemma mult_shift l d u : Forall (fun aq => forall v w, fst aq (u * v) w = u * fst aq v w) (snd (split mult_op d l)).
Proof.
  apply (ops_of mult_op (fun a => forall v w, a (u * v) w = u * a v w)). intros [| |c] a; try discriminate. simpl.
  destruct (N.eqb c DOT); [intros [= <-]; intros v w; lra|]. destruct (N.eqb c SLASH); [|discriminate].
  intros [= <-]; intros v w. unfold Rdiv. lra.
Qed.

(** "-" and a term is the opposite term *)
Lemma term_neg g l : term num rho g (C MINUS :: l) = option_map Ropp (term num rho g l).
Proof.
  unfold term. cbn [split mult_op deeper]. simpl (N.eqb MINUS _). cbv iota.
  pose proof (mult_shift l 0 (-1)) as F. destruct (split mult_op 0 l) as [p ps]. unfold chain. cbn [fst snd unary]. cbn [snd] in F.
  change (N.eqb MINUS MINUS) with true. cbv iota. rewrite (chain_shift (unary num rho g) Ropp); [reflexivity|].
  eapply Forall_impl; [exact F|]. intros aq H v w. cbv beta in H. replace (- v) with (-1 * v) by ring. rewrite H. ring.
Qed.

Lemma sum_add n1 n2 a b va vb : Sum n1 a va -> Sum n2 b vb -> Sum (Nat.max n1 n2) (a ++ [SP; PLUS; SP] ++ b) (va + vb).
Proof.
  intros (A1 & A2 & A3 & A4) (B1 & B2 & B3 & B4).
  assert (E : lex (a ++ [SP; PLUS; SP] ++ b) = lex a ++ Plus :: lex b) by (rewrite A2, lex_plus; reflexivity).
  split; [destruct a; discriminate|]. split; [|split].
  - apply clean_app; [exact A2|]. intros s'. rewrite <- app_assoc, !lex_plus, B2. reflexivity.
  - rewrite E. apply balanced_app; [exact A3|exact B3].
  - intros n' Hn'. unfold sum. rewrite E, (split_op addi_op eq_refl eq_refl (lex a) 0 Plus Rplus) by (try reflexivity; exact A3).
    rewrite chain_app, <- surjective_pairing. fold (sum num rho (G n') (lex a)). rewrite A4 by lia.
    specialize (B4 n' ltac:(lia)). unfold sum in B4. pose proof (addi_shift (lex b) 0 va) as F.
    destruct (split addi_op 0 (lex b)) as [q qs]. unfold chain in B4. cbn [fst snd] in *.
    change (Some (va + vb)) with (option_map (Rplus va) (Some vb)). rewrite <- B4, <- chain_shift by exact F.
    reflexivity.
Qed.
Lemma sum_sub n1 n2 a r va vb : Sum n1 a va -> Sum n2 (MINUS :: r) vb -> Sum (Nat.max n1 n2) (a ++ [SP; MINUS; SP] ++ r) (va + vb).
Proof.
  intros (A1 & A2 & A3 & A4) (B1 & B2 & B3 & B4).
  assert (E : lex (a ++ [SP; MINUS; SP] ++ r) = lex a ++ Minus :: lex r) by (rewrite A2, lex_minus; reflexivity).
  assert (Er : lex (MINUS :: r) = C MINUS :: lex r) by (apply lex_cons; discriminate).
  split; [destruct a; discriminate|]. split; [|split].
  - apply clean_app; [exact A2|]. intros s'. rewrite <- app_assoc, !lex_minus. specialize (B2 s'). change ((MINUS :: r) ++ s') with (MINUS :: (r ++ s')) in B2.
    rewrite (lex_cons MINUS (r ++ s')), (lex_cons MINUS r) in B2 by discriminate. injection B2 as B2. rewrite B2. reflexivity.
  - rewrite E. apply balanced_app; [exact A3|]. rewrite Er in B3. exact B3.
  - intros n' Hn'. unfold sum. rewrite E, (split_op addi_op eq_refl eq_refl (lex a) 0 Minus Rminus) by (try reflexivity; exact A3).
    rewrite chain_app, <- surjective_pairing. fold (sum num rho (G n') (lex a)). rewrite A4 by lia.
    specialize (B4 n' ltac:(lia)). unfold sum in B4. rewrite Er in B4. cbn [split addi_op] in B4. change (deeper (C MINUS) 0) with 0%nat in B4.
    pose proof (addi_shift (lex r) 0 va) as F.
    destruct (split addi_op 0 (lex r)) as [q qs]. unfold chain in B4. cbn [fst snd] in *. rewrite term_neg in B4.
    change (Some (va + vb)) with (option_map (Rplus va) (Some vb)). rewrite <- B4, <- chain_shift by exact F.
    f_equal. destruct (term num rho (G n') q); reflexivity.
Qed.

(** Products and quotients *)
Lemma no_top_app {A} (op : tok -> option A) a c b : op (C LP) = None -> op (C RP) = None -> clean a -> balanced (lex a) ->
  no_top op a -> c <> SP -> c <> LP -> c <> RP -> op (C c) = None -> no_top op b -> no_top op (a ++ c :: b).
Proof.
  intros Hl Hr Ca Ba Na C1 C2 C3 Hc Nb. unfold no_top in *. rewrite Ca, (split_app op (lex a) 0 0 _ Ba (split_flat _ _ _ Na)). cbn [snd].
  rewrite lex_cons by exact C1. cbn [split]. rewrite Hc. apply N.eqb_neq in C2, C3. cbn [deeper]. rewrite C2, C3.
  destruct (split op 0 (lex b)). exact Nb.
Qed.
Lemma clean_mid a c b : c <> SP -> clean a -> clean b -> clean (a ++ c :: b).
Proof. intros Hc Ha Hb. apply clean_app; [exact Ha|]. apply clean_cons; assumption. Qed.
Lemma balanced_mid a c b : c <> SP -> c <> LP -> c <> RP -> clean a -> balanced (lex a) -> balanced (lex b) -> balanced (lex (a ++ c :: b)).
Proof.
  intros C1 C2 C3 Ca Ba Bb. rewrite Ca, lex_cons by exact C1. apply balanced_app; [exact Ba|]. unfold balanced. cbn [dep].
  apply N.eqb_neq in C2, C3. rewrite C2, C3. exact Bb.
Qed.
Lemma term_mul n1 n2 a b va vb : Term n1 a va -> Term n2 b vb -> Term (Nat.max n1 n2) (a ++ DOT :: b) (va * vb).
Proof.
  intros [(A1 & A2 & A3 & A4) An] [(B1 & B2 & B3 & B4) Bn].
  split; [|apply no_top_app; try assumption; try reflexivity; discriminate].
  split; [destruct a; discriminate|]. split; [apply clean_mid; [discriminate|assumption|assumption]|].
  split; [apply balanced_mid; try assumption; discriminate|]. intros n' Hn'. unfold term.
  rewrite A2, lex_cons by discriminate. rewrite (split_op mult_op eq_refl eq_refl (lex a) 0 (C DOT) Rmult) by (try reflexivity; exact A3).
  rewrite chain_app, <- surjective_pairing. fold (term num rho (G n') (lex a)). rewrite A4 by lia.
  specialize (B4 n' ltac:(lia)). unfold term in B4. pose proof (mult_shift (lex b) 0 va) as F.
  destruct (split mult_op 0 (lex b)) as [q qs]. unfold chain in B4. cbn [fst snd] in *.
  change (Some (va * vb)) with (option_map (Rmult va) (Some vb)). rewrite <- B4, <- chain_shift by exact F.
  reflexivity.
Qed.
Lemma term_div n1 n2 a b va vb : Term n1 a va -> Un n2 b vb -> Term (Nat.max n1 n2) (a ++ SLASH :: b) (va / vb).
Proof.
  intros [(A1 & A2 & A3 & A4) An] [(B1 & B2 & B3 & B4) [Bn Bm]].
  split; [|apply no_top_app; try assumption; try reflexivity; discriminate].
  split; [destruct a; discriminate|]. split; [apply clean_mid; [discriminate|assumption|assumption]|].
  split; [apply balanced_mid; try assumption; discriminate|]. intros n' Hn'. unfold term.
  rewrite A2, lex_cons by discriminate. rewrite (split_op mult_op eq_refl eq_refl (lex a) 0 (C SLASH) Rdiv) by (try reflexivity; exact A3).
  rewrite chain_app, <- surjective_pairing. fold (term num rho (G n') (lex a)). rewrite A4 by lia.
  rewrite (split_flat _ _ _ Bm). cbn [fst snd fold_left]. rewrite B4 by lia. reflexivity.
Qed.
Lemma term_opp n a va : Term n a va -> Term n (MINUS :: a) (- va).
Proof.
  intros [(A1 & A2 & A3 & A4) An]. assert (E : lex (MINUS :: a) = C MINUS :: lex a) by (apply lex_cons; discriminate).
  split.
  - split; [discriminate|]. split; [apply clean_cons; [discriminate|exact A2]|]. split; [rewrite E; exact A3|].
    intros n' Hn'. rewrite E, term_neg, A4 by exact Hn'. reflexivity.
  - unfold no_top in *. rewrite E. cbn [split addi_op]. change (deeper (C MINUS) 0) with 0%nat. destruct (split addi_op 0 (lex a)). exact An.
Qed.

(** Powers *)
Lemma no_top_suffix {A} (op : tok -> option A) a t : clean a -> balanced (lex a) -> no_top op a -> snd (split op 0 (lex t)) = [] -> no_top op (a ++ t).
Proof. intros Ca Ba Na Nt. unfold no_top in *. rewrite Ca, (split_app op (lex a) 0 0 _ Ba (split_flat _ _ _ Na)). exact Nt. Qed.
Lemma pw_sup n a va z c : Pw n a va -> In (z, c) superscripts -> Pw n (a ++ [c]) (powerRZ va z).
Proof.
  intros [(A1 & A2 & A3 & A4) [An [Am Ah]]] Hin.
  assert (Hc : c <> SP /\ clean [c] /\ balanced (lex [c]) /\ snd (split addi_op 0 (lex [c])) = [] /\ snd (split mult_op 0 (lex [c])) = [] /\
               pow_op (C c) = Some (Some z) /\ lex [c] = [C c]).
  { simpl in Hin. repeat (destruct Hin as [[= <- <-]|Hin]; [split; [discriminate|]; split; [apply clean_cons; [discriminate|exact clean_nil]|]; vm_compute; auto|]). destruct Hin. }
  destruct Hc as (C1 & C2 & C3 & C4 & C5 & C6 & C7).
  split; [|split; [|split]].
  - split; [destruct a; discriminate|]. split; [apply clean_app; assumption|]. split; [rewrite A2; apply balanced_app; assumption|].
    intros n' Hn'. specialize (A4 n' Hn'). unfold power in *. rewrite A2, C7.
    rewrite (split_op pow_op eq_refl eq_refl (lex a) 0 (C c) (Some z) [] A3 C6). destruct (split pow_op 0 (lex a)) as [p ps]. cbn [fst snd split].
    rewrite fold_left_app, A4. reflexivity.
  - apply no_top_suffix; assumption.
  - apply no_top_suffix; assumption.
  - destruct a; [congruence|exact Ah].
Qed.
Lemma pw_caret n a va t x : Pw n a va -> exact num t x -> Pw n (a ++ CARET :: t) (Rpower va x).
Proof.
  intros [(A1 & A2 & A3 & A4) [An [Am Ah]]] Hx.
  assert (Ht : Forall inert t /\ t <> [] /\ signed num t = x).
  { destruct Hx as [[Hn <-]|(t' & -> & Hn & E)].
    - destruct Hn as [F Hh]. destruct t as [|c t]; [destruct Hh|]. split; [|split; [discriminate|]].
      + apply List.Forall_forall. intros y Hy. rewrite forallb_forall in F. apply num_char_inert; auto.
      + unfold signed. destruct (N.eqb_spec c MINUS) as [-> |]; [discriminate|reflexivity].
    - destruct Hn as [F Hh]. split; [|split; [discriminate|]].
      + constructor; [reflexivity|]. apply List.Forall_forall. intros y Hy. rewrite forallb_forall in F. apply num_char_inert; auto.
      + unfold signed. change (N.eqb MINUS MINUS) with true. cbv iota. lra. }
  destruct Ht as (F & Hne & <-). destruct (inert_text t F) as (H1 & H2 & H3 & H4 & H5 & H6).
  split; [|split; [|split]].
  - split; [destruct a; discriminate|]. split; [apply clean_mid; [discriminate|assumption|assumption]|].
    split; [apply balanced_mid; try assumption; try discriminate; rewrite H2; exact H3|].
    intros n' Hn'. specialize (A4 n' Hn'). unfold power in *. rewrite A2, lex_cons, H2 by discriminate.
    rewrite (split_op pow_op eq_refl eq_refl (lex a) 0 (C CARET) None (map C t) A3 eq_refl). destruct (split pow_op 0 (lex a)) as [p ps]. cbn [fst snd].
    rewrite fold_left_app, A4, (split_flat _ _ _ H6). cbn [fst snd fold_left]. rewrite chars_map. reflexivity.
  - apply no_top_app; try assumption; try reflexivity; try discriminate. unfold no_top. rewrite H2. exact H4.
  - apply no_top_app; try assumption; try reflexivity; try discriminate. unfold no_top. rewrite H2. exact H5.
  - destruct a; [congruence|exact Ah].
Qed.
End Levels.

(** ** Objects *)
Lemma with_ast_value (tree : hmap R -> obj R) r : (forall h, obj_value (tree h) = VNom h) -> rmap obj_value (with_ast tree r) = r.
Proof. intros H. destruct r as [[c|h]|e]; simpl; [reflexivity|rewrite H; reflexivity|reflexivity]. Qed.
Lemma o_add_value se (a b : obj R) : rmap obj_value (o_add se a b) = py_add se (obj_value a) (obj_value b).
Proof. apply with_ast_value. intros h. destruct (_ || _); reflexivity. Qed.
Lemma obj_num (a : obj R) c : obj_value a = VNum c -> a = ONum c.
Proof. destruct a; simpl; congruence. Qed.
Lemma o_sub_value se (a b : obj R) : rmap obj_value (o_sub se a b) = py_sub se (obj_value a) (obj_value b).
Proof.
  assert (H : rmap obj_value (if se then let! nb := o_neg se b in o_add se a nb else Err TypeErrorE) =
              (if se then let! nb := py_neg se (obj_value b) in py_add se (obj_value a) nb else Err TypeErrorE)).
  { destruct se; [|reflexivity]. pose proof (with_ast_value (fun h => ONeg h b) (py_neg true (obj_value b)) (fun _ => eq_refl)) as E.
    unfold o_neg. rewrite <- E at 2. destruct (with_ast _ _) as [nb|]; [|reflexivity]. cbn [rmap rbind]. apply o_add_value. }
  destruct a, b; exact H || reflexivity.
Qed.
Lemma run_obj_value se (e : expr R) : rmap obj_value (run_obj se e) = run se e.
Proof.
  assert (B : forall ra rb (fo : obj R -> obj R -> res (obj R)) fv, (forall a b, rmap obj_value (fo a b) = fv (obj_value a) (obj_value b)) ->
    rmap obj_value (let! a := ra in let! b := rb in fo a b) = (let! a := rmap obj_value ra in let! b := rmap obj_value rb in fv a b)).
  { intros [a|] [b|] fo fv H; simpl; auto. }
  assert (U : forall ra (fo : obj R -> res (obj R)) fv, (forall a, rmap obj_value (fo a) = fv (obj_value a)) ->
    rmap obj_value (let! a := ra in fo a) = (let! a := rmap obj_value ra in fv a)).
  { intros [a|] fo fv H; simpl; auto. }
  induction e as [c|x|a IHa b IHb|a IHa b IHb|a IHa b IHb|a IHa b IHb|a IHa|a IHa z|a IHa r]; cbn [run_obj run]; try reflexivity;
    rewrite <- ?IHa, <- ?IHb.
  - apply B, o_add_value.
  - apply B, o_sub_value.
  - apply B. intros; apply with_ast_value; reflexivity.
  - apply B. intros; apply with_ast_value; reflexivity.
  - apply U. intros; apply with_ast_value; reflexivity.
  - apply (U _ (fun a => o_powz se a z) (fun v => py_powz se v z)). intros; apply with_ast_value; reflexivity.
  - apply (U _ (fun a => o_powr se a r) (fun v => py_powr se v r)). intros; apply with_ast_value; reflexivity.
Qed.

Section Main.
Variable P : printer.
Hypothesis HP : sane P.
Variable rho : text -> R.
Hypothesis Hrho : forall t, 0 < rho t.
Variable se : bool.
Notation env := (fun x => rho (p_name P x)).
Notation all := (Demands true true true true).
Notation Sm := (Sum (p_num P) rho).
Notation Tm := (Term (p_num P) rho).
Notation Unn := (Un (p_num P) rho).
Notation Pww := (Pw (p_num P) rho).

Lemma henv : positive_point env.
Proof. intros x. apply Hrho. Qed.
Definition Q (o : obj R) : Prop := good P all o -> exists n, Sm n (str P o) (val env (obj_value o)).

Lemma paren_cases s a m : parenthesize s a m = s \/ parenthesize s a m = LP :: s ++ [RP].
Proof. unfold parenthesize. destruct (_ || _); auto. Qed.
Lemma paren_term n s v : Sm n s v -> trusted s true false -> exists n', Tm n' (parenthesize s true false) v.
Proof.
  intros H Ht. destruct (paren_cases s true false) as [E|E].
  - exists n. destruct (Ht E) as [Ha _]. rewrite E. apply sum_term; auto.
  - exists (S n). rewrite E. apply un_term, pw_un, wrap. exact H.
Qed.
Lemma paren_un n s v : Sm n s v -> trusted s true true -> exists n', Unn n' (parenthesize s true true) v.
Proof.
  intros H Ht. destruct (paren_cases s true true) as [E|E].
  - exists n. destruct (Ht E) as [Ha Hm]. rewrite E. apply term_un; [apply sum_term|]; auto.
  - exists (S n). rewrite E. apply pw_un, wrap. exact H.
Qed.
Lemma pw_sum n s v : Pww n s v -> Sm n s v.
Proof. intros H. apply term_sum, un_term, pw_un. exact H. Qed.
Lemma sum_unique n n' s v v' : Sm n s v -> Sm n' s v' -> v = v'.
Proof.
  intros (_ & _ & _ & H1) (_ & _ & _ & H2). specialize (H1 (Nat.max n n') ltac:(lia)). specialize (H2 (Nat.max n n') ltac:(lia)). congruence.
Qed.
Lemma one_value n v : Sm n [ONE] v -> v = 1.
Proof.
  intros H. destruct HP as (_ & _ & H1). rewrite <- H1. apply (sum_unique n 0 [ONE]); [exact H|]. apply pw_sum, numeral_pw. split; reflexivity.
Qed.

Lemma Q_num c : Q (ONum c).
Proof.
  intros Hg. specialize (Hg eq_refl). exists 0%nat. cbn [obj_value val]. unfold str. cbn [strify]. destruct Hg as [[Hn Ec]|(t' & -> & Hn & E)].
  - pose proof (numeral_pw (p_num P) rho _ Hn) as H. rewrite Ec in H. apply pw_sum. exact H.
  - pose proof (numeral_pw (p_num P) rho _ Hn) as H. apply pw_un, un_term, term_opp, term_sum in H. rewrite E in H.
    replace c with (- - c) by ring. exact H.
Qed.
Lemma Q_var x : Q (OVar x).
Proof.
  intros _. exists 0%nat. cbn [obj_value val]. unfold str. cbn [strify]. replace (eval env (var_hmap x)) with (rho (p_name P x)).
  - apply pw_sum, name_pw. apply HP.
  - unfold var_hmap. cbn [eval]. cbn [n1 R_num]. rewrite mono_val_singleton by apply Hrho. ring.
Qed.
Lemma with_ast_cases (tree : hmap R -> obj R) r o : with_ast tree r = Ok o ->
  (exists c, r = Ok (VNum c) /\ o = ONum c) \/ (exists h, r = Ok (VNom h) /\ o = tree h).
Proof. destruct r as [[c|h]|e]; simpl; intros [= <-]; eauto. Qed.

Lemma Q_add a b o : Q a -> Q b -> o_add se a b = Ok o -> Q o.
Proof.
  intros Ha Hb Ho. apply with_ast_cases in Ho as [(c & _ & -> )|(h & Hv & -> )]; [apply Q_num|].
  destruct (is_zero _ || is_zero _); [intros []|]. intros [Ga Gb]. destruct (Ha Ga) as [n1 Sa]. destruct (Hb Gb) as [n2 Sb].
  exists (Nat.max n1 n2). apply (val_py_add se env) in Hv. cbn [obj_value]. rewrite Hv. unfold str in *. cbn [strify].
  destruct (strify _ _ _ _ b) as [|c r]; [destruct Sb; congruence|]. destruct (N.eqb_spec c MINUS) as [-> |Hc].
  - apply sum_sub; assumption.
  - apply sum_add; assumption.
Qed.
Lemma Q_mul a b o : Q a -> Q b -> o_mul se a b = Ok o -> Q o.
Proof.
  intros Ha Hb Ho. apply with_ast_cases in Ho as [(c & _ & -> )|(h & Hv & -> )]; [apply Q_num|].
  intros (Ga & Gb & Gt). destruct (Gt eq_refl) as [Ta Tb]. destruct (Ha Ga) as [n1 Sa]. destruct (Hb Gb) as [n2 Sb].
  apply (val_py_mul se env) in Hv. cbn [obj_value]. rewrite Hv. unfold str in *. cbn [strify].
  destruct (paren_term _ _ _ Sa Ta) as [m1 La]. destruct (paren_term _ _ _ Sb Tb) as [m2 Lb].
  destruct (decide (parenthesize (strify (p_name P) (p_fmt P) (p_xfmt P) (p_plain P) a) true false = [ONE])) as [E1|_].
  - rewrite E1 in La. rewrite (one_value m1 _ (term_sum _ _ _ _ _ La)). exists m2. rewrite Rmult_1_l. apply term_sum. exact Lb.
  - destruct (decide (parenthesize (strify (p_name P) (p_fmt P) (p_xfmt P) (p_plain P) b) true false = [ONE])) as [E2|_].
    + rewrite E2 in Lb. rewrite (one_value m2 _ (term_sum _ _ _ _ _ Lb)). exists m1. rewrite Rmult_1_r. apply term_sum. exact La.
    + exists (Nat.max m1 m2). apply term_sum, term_mul; assumption.
Qed.
Lemma Q_div a b o : Q a -> Q b -> o_div se a b = Ok o -> Q o.
Proof.
  intros Ha Hb Ho. apply with_ast_cases in Ho as [(c & _ & -> )|(h & Hv & -> )]; [apply Q_num|].
  intros (Ga & Gb & Gt). destruct (Gt eq_refl) as [Ta Tb]. destruct (Ha Ga) as [n1 Sa]. destruct (Hb Gb) as [n2 Sb].
  apply (val_py_div se env) in Hv. cbn [obj_value]. rewrite Hv. unfold str in *. cbn [strify].
  destruct (paren_term _ _ _ Sa Ta) as [m1 La]. destruct (paren_un _ _ _ Sb Tb) as [m2 Lb].
  destruct (decide (parenthesize (strify (p_name P) (p_fmt P) (p_xfmt P) (p_plain P) b) true true = [ONE])) as [E2|_].
  - rewrite E2 in Lb. rewrite (one_value m2 _ (term_sum _ _ _ _ _ (un_term _ _ _ _ _ Lb))). exists m1. unfold Rdiv. rewrite Rinv_1, Rmult_1_r. apply term_sum. exact La.
  - exists (Nat.max m1 m2). apply term_sum, term_div; assumption.
Qed.
Lemma Q_neg a o : Q a -> o_neg se a = Ok o -> Q o.
Proof.
  intros Ha Ho. apply with_ast_cases in Ho as [(c & _ & -> )|(h & Hv & -> )]; [apply Q_num|].
  intros (Ga & Gt). destruct (Ha Ga) as [n1 Sa]. destruct (paren_term _ _ _ Sa (Gt eq_refl)) as [m1 La].
  apply (val_py_neg se env) in Hv. cbn [obj_value]. rewrite Hv. exists m1. unfold str. cbn [strify]. apply term_sum, term_opp. exact La.
Qed.
Lemma Q_sub a b o : Q a -> Q b -> o_sub se a b = Ok o -> Q o.
Proof.
  intros Ha Hb Ho.
  assert (H : (if se then let! nb := o_neg se b in o_add se a nb else Err TypeErrorE) = Ok o -> Q o).
  { destruct se eqn:Es; [|discriminate]. intros H. apply rbind_ok in H as (nb & Hn & Ho'). rewrite <- Es in *.
    eapply Q_add; [exact Ha| |exact Ho']. eapply Q_neg; [exact Hb|exact Hn]. }
  unfold o_sub in Ho. destruct a, b; try (apply H; exact Ho). injection Ho as <-. apply Q_num.
Qed.
Lemma mono_val_positive a : is_mono a = true -> 0 < val env (obj_value a).
Proof.
  unfold is_mono. destruct (obj_value a) as [c|h]; [discriminate|]. intros H. apply bool_decide_eq_true in H.
  apply classify_CMonomial in H as (e & c & -> & Hc). cbn [val eval]. pose proof (mono_val_pos env e). nra.
Qed.
Lemma superscript_in (x : R) c : superscript x = Some c -> exists z, In (z, c) superscripts /\ x = IZR z.
Proof.
  unfold superscript. destruct (List.find _ superscripts) as [[z c']|] eqn:E; [|discriminate]. intros [= <-].
  apply List.find_some in E as [Hin E]. apply bool_decide_eq_true in E. exists z. auto.
Qed.
Lemma pow_ok h a x : Q a -> val env (VNom h) = Rpower (val env (obj_value a)) x -> Q (OPow h a x).
Proof.
  intros Ha Hv (Ga & Gt & Gm & Gs & Gx). destruct (Ha Ga) as [n1 Sa]. destruct (paren_un _ _ _ Sa (Gt eq_refl)) as [m1 La].
  pose proof (mono_val_positive a (Gm eq_refl)) as Hpos. specialize (Gs eq_refl). specialize (Gx eq_refl).
  pose proof (un_pw _ _ _ _ _ La Gs) as Pa. cbn [obj_value]. rewrite Hv. exists m1. unfold str. cbn [strify].
  change (strify (p_name P) (p_fmt P) (p_xfmt P) (p_plain P) a) with (str P a).
  destruct (decide (parenthesize (str P a) true true = [ONE])) as [E|_].
  - rewrite E in Pa. pose proof (pw_sum _ _ _ Pa) as S1. pose proof (one_value _ _ S1) as E1. rewrite E1 in *.
    replace (Rpower 1 x) with 1; [exact S1|]. unfold Rpower. rewrite ln_1, Rmult_0_r, exp_0. reflexivity.
  - destruct (superscript x) as [c|] eqn:Ex.
    + apply superscript_in in Ex as (z & Hin & ->). apply pw_sum. rewrite <- powerRZ_Rpower by exact Hpos. apply pw_sup; assumption.
    + apply pw_sum, pw_caret; [exact Pa|]. apply Gx. reflexivity.
Qed.
Lemma Q_powz a z o : Q a -> o_powz se a z = Ok o -> Q o.
Proof.
  intros Ha Ho. apply with_ast_cases in Ho as [(c & _ & -> )|(h & Hv & -> )]; [apply Q_num|].
  destruct (is_mono a) eqn:Em.
  - apply pow_ok; [exact Ha|]. apply (val_py_powz se env) in Hv. rewrite Hv. apply powerRZ_Rpower. apply mono_val_positive. exact Em.
  - intros (_ & _ & Gm & _). specialize (Gm eq_refl). congruence.
Qed.
Lemma Q_powr a r o : Q a -> o_powr se a r = Ok o -> Q o.
Proof.
  intros Ha Ho. apply with_ast_cases in Ho as [(c & _ & -> )|(h & Hv & -> )]; [apply Q_num|].
  apply pow_ok; [exact Ha|]. apply (val_py_powr se env) in Hv. exact Hv.
Qed.
Lemma Q_run e o : run_obj se e = Ok o -> Q o.
Proof.
  revert o. induction e as [c|x|a IHa b IHb|a IHa b IHb|a IHa b IHb|a IHa b IHb|a IHa|a IHa z|a IHa r]; cbn [run_obj]; intros o Ho.
  - injection Ho as <-. apply Q_num.
  - injection Ho as <-. apply Q_var.
  - apply rbind_ok in Ho as (oa & Ea & Ho). apply rbind_ok in Ho as (ob & Eb & Ho). exact (Q_add _ _ _ (IHa _ Ea) (IHb _ Eb) Ho).
  - apply rbind_ok in Ho as (oa & Ea & Ho). apply rbind_ok in Ho as (ob & Eb & Ho). exact (Q_sub _ _ _ (IHa _ Ea) (IHb _ Eb) Ho).
  - apply rbind_ok in Ho as (oa & Ea & Ho). apply rbind_ok in Ho as (ob & Eb & Ho). exact (Q_mul _ _ _ (IHa _ Ea) (IHb _ Eb) Ho).
  - apply rbind_ok in Ho as (oa & Ea & Ho). apply rbind_ok in Ho as (ob & Eb & Ho). exact (Q_div _ _ _ (IHa _ Ea) (IHb _ Eb) Ho).
  - apply rbind_ok in Ho as (oa & Ea & Ho). exact (Q_neg _ _ (IHa _ Ea) Ho).
  - apply rbind_ok in Ho as (oa & Ea & Ho). exact (Q_powz _ _ _ (IHa _ Ea) Ho).
  - apply rbind_ok in Ho as (oa & Ea & Ho). exact (Q_powr _ _ _ (IHa _ Ea) Ho).
Qed.
Lemma reads_run e o : run_obj se e = Ok o -> good P all o -> reads (p_num P) rho (str P o) (denote env e).
Proof.
  intros Ho Hg. destruct (Q_run e o Ho Hg) as [n (_ & _ & _ & H)].
  rewrite <- (run_denote se env henv e (obj_value o)).
  - exists (S n). intros [|n'] Hn'; [lia|]. cbn [read_toks]. apply H. lia.
  - rewrite <- run_obj_value, Ho. reflexivity.
Qed.
End Main.
