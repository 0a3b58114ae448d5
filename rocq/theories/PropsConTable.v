(** C89: Tables of constraints. *)
From Coq Require Import NArith Sorting.Sorted Ascii String.
From Verif Require Import Base ConTable ConTableProofs.
Open Scope nat_scope.
Local Open Scope list_scope.

(** ** Specification *)

(** Lines have at most 80 characters; a text that has no more is in one line; of a longer one, later lines are indented. *)
Definition in_lines (s : text) (ls : list text) : Prop :=
  exists p ps, s = p ++ List.concat ps /\ ls = p :: map (fun q => [space; space] ++ q) ps /\ Forall (fun l => length l <= 80) ls /\ (length s <= 80 -> ls = [s]).
(** A row: what opens it and a colon, then the lines of the text *)
Definition row_shown (opening s : text) (ls : list tline) : Prop :=
  exists r rs, in_lines s (r :: rs) /\ ls = Text (opening ++ [32; 58; 32]%N) r :: map (Text []) rs.
(** Rows one after another; of the constraint, the text is [s e] *)
Inductive rows_shown {K} (s : entry K -> text) : list (entry K) -> list tline -> Prop :=
  | rows_nil : rows_shown s [] []
  | rows_cons e es l ls : row_shown (e_opening e) (s e) l -> rows_shown s es ls -> rows_shown s (e :: es) (l ++ ls).
(** Groups, each below the name of its model; one without a name has a title only when it does not come first *)
Inductive groups_shown {K} (s : entry K -> text) : bool -> list (text * list (entry K)) -> list tline -> Prop :=
  | groups_nil first : groups_shown s first [] []
  | groups_first m es gs l ls : rows_shown s es l -> groups_shown s false gs ls ->
      groups_shown s true ((m, es) :: gs) ((if bool_decide (m = []) then [] else [Title m]) ++ l ++ ls)
  | groups_next m es gs l ls : rows_shown s es l -> groups_shown s false gs ls ->
      groups_shown s false ((m, es) :: gs) ([Text [] []; Title m] ++ l ++ ls).
(** A line is printed with its right side starting in column [w], and without the spaces at its end. *)
Definition stripped (x t : text) : Prop :=
  exists sp, x = t ++ sp /\ Forall (fun c => is_space c = true) sp /\ (t = [] \/ exists t' c, t = t' ++ [c] /\ is_space c = false).
Definition printed (w : nat) (l : tline) (t : text) : Prop :=
  match l with
  | Title m => stripped (repeat space (w - 3) ++ [32; 124; 32]%N ++ m) t
  | Text a b => length a <= w /\ stripped (repeat space (w - length a) ++ a ++ b) t
  end.
(** The table lists these constraints, each once, with its text, below its model; of each model they are sorted, and models are sorted by the first of each. *)
Definition lists {K} (kleb : K -> K -> bool) (sortbymodel showmodels : bool) (data : list (entry K)) (title : text) (table : list text) : Prop :=
  exists (groups : list (text * list (entry K))) lines w ts,
  Permutation (List.concat (map snd groups)) data /\ NoDup (map fst groups) /\
  (forall m es, In (m, es) groups -> es <> [] /\ (forall e, In e es -> m = if sortbymodel then c_model (e_con e) else []) /\ StronglySorted (fun a b => kleb (e_sortby a) (e_sortby b) = true) es) /\
  StronglySorted (fun g h => exists e, In e (snd g) /\ forall e', In e' (snd h) -> kleb (e_sortby e) (e_sortby e') = true) groups /\
  (data <> [] -> groups_shown (fun e => c_print (e_con e) showmodels) true groups lines) /\ (data = [] -> lines = [Text [] none_text]) /\
  Forall2 (printed w) lines ts /\ table = [title; repeat 45%N (length title)] ++ ts ++ [[]].
(** A total order *)
Definition total_order {K} (le : K -> K -> bool) : Prop :=
  (forall x y, le x y = true \/ le y x = true) /\ (forall x y z, le x y = true -> le y z = true -> le x z = true) /\ (forall x y, le x y = true -> le y x = true -> x = y).
(** The name of a constraint's model is not in its text, nor is a memory address *)
Definition plain (sortbymodel showmodels : bool) (c : con) : Prop :=
  ((if sortbymodel then c_model c else []) = [] \/ ~ occurs (if sortbymodel then c_model c else []) (c_print c showmodels)) /\ ~ occurs at0x (c_print c showmodels).

(** ** Proofs *)

Lemma indent_false ps : indent false ps = map (fun q => [space; space] ++ q) ps.
Proof. induction ps as [|p ps IH]; simpl; [reflexivity|]. f_equal. exact IH. Qed.
Lemma lines_ok s : in_lines s (constraintlines s).
Proof.
  destruct (constraintlines_spec s) as (ps & E1 & E2 & N & F & H). destruct ps as [|p ps]; [congruence|]. exists p, ps. simpl in *. rewrite indent_false in *.
  split; [auto|]. split; [auto|]. rewrite E2. split; [exact F|]. intros L. rewrite <- E2. auto.
Qed.
Lemma rows_ok {K} sortbymodel showmodels (es : list (entry K)) : Forall (fun e => plain sortbymodel showmodels (e_con e)) es ->
  rows_shown (fun e => c_print (e_con e) showmodels) es (List.concat (map (row_lines sortbymodel showmodels) es)).
Proof.
  induction 1 as [|e es [H1 H2] _ IH]; [constructor|]. cbn [map List.concat]. constructor; auto.
  assert (E : remove (model_of sortbymodel e) (text_of showmodels e) = c_print (e_con e) showmodels).
  { unfold text_of. rewrite no_address_id by exact H2. apply remove_id. exact H1. }
  unfold row_lines. rewrite E. pose proof (lines_ok (c_print (e_con e) showmodels)) as L. destruct (constraintlines (c_print (e_con e) showmodels)) as [|r rs].
  - destruct L as (p & ps & _ & ? & _). discriminate.
  - exists r, rs. split; auto.
Qed.
Lemma groups_ok {K} sortbymodel showmodels (gs : list (text * list (entry K))) : Forall (fun g => Forall (fun e => plain sortbymodel showmodels (e_con e)) (snd g)) gs ->
  forall first, groups_shown (fun e => c_print (e_con e) showmodels) first gs (groups_lines sortbymodel showmodels first gs).
Proof.
  induction 1 as [|[m es] gs He _ IH]; intros first; [constructor|]. cbn [groups_lines]. unfold head_lines. destruct first.
  - replace (match m with [] => [] | _ => [Title m] end) with (if bool_decide (m = []) then [] else [Title m]) by (destruct m; reflexivity).
    constructor; auto using rows_ok.
  - constructor; auto using rows_ok.
Qed.
Lemma render_ok ls : Forall2 (printed (fst (widths ls))) ls (map (render (widths ls)) ls).
Proof.
  assert (G : forall ls', (forall l, In l ls' -> In l ls) -> Forall2 (printed (fst (widths ls))) ls' (map (render (widths ls)) ls')).
  { induction ls' as [|l ls' IH]; intros H; simpl; constructor; [|apply IH; intros; apply H; right; auto]. destruct l as [m|a b]; cbn [printed render].
    - unfold pad. rewrite <- app_assoc. apply rstrip_spec.
    - split; [eapply widths_left; apply H; left; eauto|]. unfold pad, padr. rewrite !app_assoc, rstrip_padr, <- !app_assoc. apply rstrip_spec. }
  apply G. auto.
Qed.

(** ** Theorems *)

(** Missing: constraints whose text has their model's name in it. *)
Theorem C89_table_partial : forall (K : Type) (kleb : K -> K -> bool) sortbymodel showmodels (data : list (entry K)) title,
  total_order kleb -> Forall (fun e => plain sortbymodel showmodels (e_con e)) data ->
  lists kleb sortbymodel showmodels data title (constraint_table kleb sortbymodel showmodels data title).
Proof.
  intros K kleb sm shm data title (H1 & H2 & _) Hp. assert (Hk : order_ok kleb) by (constructor; auto).
  destruct (table_groups kleb Hk sm shm data) as (gs & P & Nd & Hg & Hs & Hb).
  unfold constraint_table. rewrite Hb. set (lines := match groups_lines sm shm true gs with [] => [Text [] none_text] | _ => groups_lines sm shm true gs end).
  replace (match groups_lines sm shm true gs with [] => _ | _ => _ end) with lines by (destruct (groups_lines sm shm true gs); reflexivity).
  exists gs, lines, (fst (widths lines)), (map (render (widths lines)) lines). split; [auto|]. split; [auto|]. split.
  { intros m es He. destruct (Hg m es He) as (A & B & C). split; [auto|]. split; [|auto]. intros e Hin. rewrite <- (B e Hin). reflexivity. }
  split; [auto|]. split; [|split; [|split; [apply render_ok|reflexivity]]].
  - intros Hd. assert (E : lines = groups_lines sm shm true gs).
    { unfold lines. destruct gs as [|[m es] gs]; [simpl in P; apply Permutation_nil in P; congruence|]. destruct (Hg m es (or_introl eq_refl)) as (N & _).
      destruct es as [|e es]; [congruence|]. cbn [groups_lines map List.concat]. unfold row_lines at 1. destruct (head_lines true m); reflexivity. }
    rewrite E. apply groups_ok. apply List.Forall_forall. intros g Hin. apply List.Forall_forall. intros e He. rewrite List.Forall_forall in Hp. apply Hp.
    eapply Permutation_in; [exact P|]. apply in_concat. exists (snd g). split; auto. apply in_map. auto.
  - intros ->. symmetry in P. apply Permutation_nil in P. unfold lines. destruct gs as [|[m es] gs]; [reflexivity|].
    destruct (Hg m es (or_introl eq_refl)) as (N & _). simpl in P. destruct es; [congruence|discriminate].
Qed.
Print Assumptions C89_table_partial.

Lemma lex_total {A B} (la : A -> A -> bool) (lb : B -> B -> bool) : total_order la -> total_order lb -> total_order (lex la lb).
Proof.
  intros (A1 & A2 & A3) (B1 & B2 & B3). destruct (lex_ok la lb) as [L1 L2]; [constructor; auto|constructor; auto|]. split; [auto|]. split; [auto|].
  intros [a b] [a' b'] H H'. pose proof (lex_fst _ _ _ _ H) as E1. pose proof (lex_fst _ _ _ _ H') as E2. simpl in *.
  rewrite (A3 _ _ E1 E2). f_equal. apply B3; [eapply (lex_snd la lb (a, b) (a', b'))|eapply (lex_snd la lb (a', b') (a, b))]; eauto.
Qed.
Lemma text_total : total_order text_leb.
Proof. destruct text_leb_ok as [A B]. split; [auto|]. split; [eauto|]. apply text_leb_antisym. Qed.
Lemma tight_total {T} (leb : T -> T -> bool) : total_order leb -> total_order (tight_leb leb).
Proof. intros (A & B & C). apply lex_total; [|apply text_total]. split; [auto|]. split; eauto. Qed.

(** The table of the tightest constraints: those are listed, at most [n], of which the sensitivity is at least [tight_senss], and no constraint that is left out
    has a larger sensitivity (as printed) than one that is listed. Each row opens with the sensitivity, and rows are sorted by it, the largest first. *)
Definition by_sens {T} (rnd : T -> T) (fmt : T -> text) (cs : list (con * T)) : list (entry (T * text)) :=
  map (fun x => Entry (rnd (snd x), c_str (fst x)) (fmt (snd x)) (fst x)) cs.
Theorem C89_tight_partial : forall (T : Type) (leb : T -> T -> bool) (rnd : T -> T) (fmt : T -> text) sortbymodel showmodels n tight_senss (cs : list (con * T)) title,
  total_order leb -> Forall (fun x => plain sortbymodel showmodels (fst x)) cs ->
  exists shown out, Permutation (shown ++ out) (List.filter (fun x => leb tight_senss (snd x)) cs) /\ length shown = min n (length (shown ++ out)) /\
  (forall a b, In a shown -> In b out -> leb (rnd (snd b)) (rnd (snd a)) = true) /\
  lists (tight_leb leb) sortbymodel showmodels (by_sens rnd fmt shown) title (tight_table leb rnd fmt sortbymodel showmodels n tight_senss cs title).
Proof.
  intros T leb rnd fmt sm shm n ts cs title Ht Hp. pose proof (tight_total leb Ht) as Hk. assert (Ok : order_ok (tight_leb leb)) by (destruct Hk as (A & B & _); constructor; auto).
  set (el := List.filter (fun x => leb ts (snd x)) cs). set (f := fun x : con * T => Entry (rnd (snd x), c_str (fst x)) (fmt (snd x)) (fst x)).
  unfold tight_table, tight_data. fold el f. rewrite sort_map. set (le := fun a b => entry_leb (tight_leb leb) (f a) (f b)).
  assert (Ole : order_ok le) by (apply (order_on (entry_leb (tight_leb leb)) f); apply entry_leb_ok; auto).
  exists (firstn n (sort le el)), (skipn n (sort le el)). rewrite firstn_skipn.
  assert (P : Permutation (sort le el) el) by apply sort_perm.
  assert (S : StronglySorted (fun a b => le a b = true) (sort le el)) by (apply sort_sorted; apply Ole).
  split; [exact P|]. split; [apply firstn_length|]. split.
  - intros a b Ha Hb. rewrite <- (firstn_skipn n (sort le el)) in S. apply SS_app in S as (_ & _ & S). specialize (S a b Ha Hb). apply lex_fst in S. simpl in S. unfold tight_leb in S. apply lex_fst in S. exact S.
  - rewrite firstn_map. apply C89_table_partial; auto. unfold by_sens. fold f. apply List.Forall_forall. intros e He. apply in_map_iff in He as (x & <- & Hx). simpl.
    rewrite List.Forall_forall in Hp. apply Hp. assert (In x (sort le el)) by (rewrite <- (firstn_skipn n); apply in_app_iff; auto).
    apply (Permutation_in _ P) in H. apply filter_In in H. apply H.
Qed.
Print Assumptions C89_tight_partial.

(** The table of insensitive constraints lists exactly those whose sensitivity is at most [min_senss]. *)
Theorem C89_loose_partial : forall (T : Type) (leb : T -> T -> bool) sortbymodel showmodels min_senss (cs : list (con * T)) title,
  Forall (fun x => plain sortbymodel showmodels (fst x)) cs ->
  lists (fun _ _ => true) sortbymodel showmodels (map (fun x => Entry tt [] (fst x)) (List.filter (fun x => leb (snd x) min_senss) cs)) title
    (loose_table leb sortbymodel showmodels min_senss cs title).
Proof.
  intros T leb sm shm ms cs title Hp. apply C89_table_partial; [split; [auto|split; [auto|intros [] []; auto]]|].
  apply List.Forall_forall. intros e He. apply in_map_iff in He as (x & <- & Hx). simpl. rewrite List.Forall_forall in Hp. apply Hp. apply filter_In in Hx. apply Hx.
Qed.
Print Assumptions C89_loose_partial.

(** The table of the tightest constraints does not depend on where they are in memory, if their texts are different. *)
Definition moved {T} (move : con -> nat) (cs : list (con * T)) : list (con * T) :=
  map (fun x => (Con (move (fst x)) (c_model (fst x)) (c_str (fst x)) (c_print (fst x)), snd x)) cs.
Definition move_entry {K} (move : con -> nat) (e : entry K) : entry K := Entry (e_sortby e) (e_opening e) (Con (move (e_con e)) (c_model (e_con e)) (c_str (e_con e)) (c_print (e_con e))).
Lemma decorate_moved {K} sm shm move (l : list (entry K)) : forall models, decorate sm shm models (map (move_entry move) l) = decorate sm shm models l.
Proof. induction l as [|e l IH]; intros models; simpl; auto. rewrite IH. reflexivity. Qed.
Lemma sort_moved {K} (kleb : K -> K -> bool) move l : total_order kleb -> (forall a b : entry K, In a l -> In b l -> e_sortby a = e_sortby b -> a = b) ->
  sort (entry_leb kleb) (map (move_entry move) l) = map (move_entry move) (sort (entry_leb kleb) l).
Proof.
  intros (H1 & H2 & H3) Hd. rewrite sort_map. f_equal. assert (Ok : order_ok kleb) by (constructor; auto).
  set (le := fun a b => entry_leb kleb (move_entry move a) (move_entry move b)).
  assert (Ole : order_ok le) by (apply (order_on (entry_leb kleb) (move_entry move)); apply entry_leb_ok; auto).
  apply (sorted_unique le (entry_leb kleb)).
  - transitivity l; [apply sort_perm|symmetry; apply sort_perm].
  - apply sort_sorted; apply Ole.
  - apply sort_sorted; apply (entry_leb_ok kleb Ok).
  - intros a b Ha Hb E1 E2. pose proof (sort_perm le l) as P. apply (Permutation_in _ P) in Ha. apply (Permutation_in _ P) in Hb.
    apply Hd; auto. apply lex_fst in E1. apply lex_fst in E2. simpl in *. auto.
Qed.
Theorem C89_memory_partial : forall (T : Type) (leb : T -> T -> bool) (rnd : T -> T) (fmt : T -> text) sortbymodel showmodels n tight_senss (cs : list (con * T)) title move,
  total_order leb -> NoDup (map (fun x => c_str (fst x)) cs) ->
  tight_table leb rnd fmt sortbymodel showmodels n tight_senss (moved move cs) title = tight_table leb rnd fmt sortbymodel showmodels n tight_senss cs title.
Proof.
  intros T leb rnd fmt sm shm n ts cs title move Ht Hnd. pose proof (tight_total leb Ht) as Hk.
  assert (Ok : order_ok (tight_leb leb)) by (destruct Hk as (A & B & _); constructor; auto).
  unfold tight_table.
  set (f := fun x : con * T => Entry (rnd (snd x), c_str (fst x)) (fmt (snd x)) (fst x)).
  assert (Hd : forall a b, In a (map f (List.filter (fun x => leb ts (snd x)) cs)) -> In b (map f (List.filter (fun x => leb ts (snd x)) cs)) -> e_sortby a = e_sortby b -> a = b).
  { intros a b Ha Hb. apply in_map_iff in Ha as (x & <- & Hx). apply in_map_iff in Hb as (y & <- & Hy). apply filter_In in Hx as [Hx _]. apply filter_In in Hy as [Hy _].
    simpl. intros [= _ E]. f_equal. clear -Hnd Hx Hy E. induction cs as [|z cs IH]; [destruct Hx|]. simpl in Hnd. apply NoDup_cons in Hnd as [Hn Hnd].
    destruct Hx as [<-|Hx], Hy as [<-|Hy]; auto; exfalso; apply Hn, elem_of_list_In, in_map_iff; eauto. }
  assert (Ed : tight_data leb rnd fmt n ts (moved move cs) = map (move_entry move) (tight_data leb rnd fmt n ts cs)).
  { unfold tight_data. fold f. rewrite <- firstn_map, <- sort_moved by auto. f_equal. f_equal. unfold moved. clear. induction cs as [|x cs IH]; simpl; auto. destruct (leb ts (snd x)); simpl; rewrite IH; reflexivity. }
  rewrite Ed. unfold constraint_table. rewrite sort_moved; [|auto|].
  - rewrite decorate_moved. reflexivity.
  - intros a b Ha Hb. apply Hd.
    + unfold tight_data in Ha. eapply (Permutation_in _ (sort_perm _ _)). rewrite <- (firstn_skipn n). apply in_app_iff. left. exact Ha.
    + unfold tight_data in Hb. eapply (Permutation_in _ (sort_perm _ _)). rewrite <- (firstn_skipn n). apply in_app_iff. left. exact Hb.
Qed.
Print Assumptions C89_memory_partial.

(** ** Examples and refutations *)
Definition txt (s : string) : text := map N_of_ascii (list_ascii_of_string s).
Definition ex_con (id : nat) (model s : string) : con := Con id (txt model) (txt s) (fun _ => txt s).
Definition ex_cons : list (con * nat) :=
  [(ex_con 3 "Wing" "c >= 1", 12); (ex_con 1 "" "x >= y", 30); (ex_con 2 "Wing" "S <= b", 45); (ex_con 4 "" "z >= 1", 3); (ex_con 5 "Wing" "b >= 0.5", 2)].
Definition ex_fmt (n : nat) : text := txt (if n =? 12 then "+12" else if n =? 30 then "+30" else "+45").
Example C89_example : tight_table Nat.leb (fun n => n) ex_fmt true true 5 10 ex_cons (txt "Most") =
  map txt ["Most"; "----"; "    | Wing"; "+45 : S <= b"; "+12 : c >= 1"; ""; "    |"; "+30 : x >= y"; ""]%string.
Proof. vm_compute. reflexivity. Qed.
Example C89_example_hypotheses : total_order Nat.leb /\ Forall (fun x => plain true true (fst x)) ex_cons /\ NoDup (map (fun x => c_str (fst x)) ex_cons).
Proof.
  split; [split; [|split]; intros *; rewrite ?Nat.leb_le; lia|]. split; [|apply (bool_decide_unpack _); vm_compute; exact I].
  assert (Hno : forall p s, (let fix go s := starts p s || match s with [] => false | _ :: s' => go s' end in go s) = false -> ~ occurs p s).
  { intros p s H (a & b & E). revert s E H. induction a as [|c a IH]; intros s E H.
    - simpl in E. destruct s as [|c s]; simpl in H; apply orb_false_iff in H as [H _]; assert (starts p (match b with _ => p ++ b end) = true) by (destruct b; apply starts_spec; eauto); destruct b; congruence.
    - subst s. simpl in H. apply orb_false_iff in H as [_ H]. eapply IH; [reflexivity|exact H]. }
  repeat (constructor; [split; [first [left; reflexivity | right; apply Hno; vm_compute; reflexivity]|apply Hno; vm_compute; reflexivity]|]). constructor.
Qed.
(** A text of more than 80 characters is broken at an operator. *)
Definition ex_long : text := txt "aaaaaaaaaaaaaaaaaaaaaaaaaaaaaa >= bbbbbbbbbbbbbbbbbbbbbbbbbbbbbb + cccccccccccccccccccccccccccccc + d".
Example C89_long : constraintlines ex_long =
  map txt ["aaaaaaaaaaaaaaaaaaaaaaaaaaaaaa >= bbbbbbbbbbbbbbbbbbbbbbbbbbbbbb "; "  + cccccccccccccccccccccccccccccc + d"]%string.
Proof. vm_compute. reflexivity. Qed.

(** The name of the model is taken out of the text wherever it is, in the names of variables too: different constraints of a model are printed alike. *)
Theorem C89_text_refuted : exists c1 c2 : con, c_model c1 = c_model c2 /\ c_print c1 true <> c_print c2 true /\
  loose_table Nat.leb true true 1 [(c1, 0)] [] = loose_table Nat.leb true true 1 [(c2, 0)] [].
Proof. exists (ex_con 1 "W" "W_0 >= x"), (ex_con 2 "W" "_0 >= x"). split; [reflexivity|]. split; [discriminate|]. vm_compute. reflexivity. Qed.
Print Assumptions C89_text_refuted.

(** The order of the models in the table of insensitive constraints is that of the memory addresses of their constraints: the same solution is printed
    differently from run to run. *)
Theorem C89_memory_refuted : exists (cs : list (con * nat)) move, NoDup (map (fun x => c_str (fst x)) cs) /\ NoDup (map (fun x => c_id (fst x)) cs) /\
  NoDup (map (fun x => move (fst x)) cs) /\ Forall (fun x => plain true true (fst x)) cs /\
  loose_table Nat.leb true true 1 (moved move cs) [] <> loose_table Nat.leb true true 1 cs [].
Proof.
  exists [(ex_con 1 "" "x >= y", 0); (ex_con 2 "Wing" "S <= b", 0)], (fun c => 5 - c_id c).
  split; [apply (bool_decide_unpack _); vm_compute; exact I|]. split; [apply (bool_decide_unpack _); vm_compute; exact I|]. split; [apply (bool_decide_unpack _); vm_compute; exact I|].
  split; [|vm_compute; discriminate]. destruct C89_example_hypotheses as (_ & H & _). inversion H as [|? ? _ H1]; subst. inversion H1 as [|? ? A H2]; subst. inversion H2 as [|? ? B _]; subst.
  constructor; [exact A|]. constructor; [exact B|constructor].
Qed.
Print Assumptions C89_memory_refuted.

(** ** Where texts are broken *)

(** An operator as texts are split at: a star between characters that are no stars, or another operator between spaces *)
Definition operator (m : text) : Prop :=
  (exists a c, a <> 42%N /\ c <> 42%N /\ m = [a; 42%N; c]) \/ In m [[32; 43; 32]; [32; 62; 61; 32]; [32; 60; 61; 32]; [32; 61; 32]]%N.
(** A place that is after the first character of an operator, or after all of it *)
Definition at_operator (s before : text) : Prop :=
  exists u m v, operator m /\ s = u ++ m ++ v /\ (before = u ++ firstn 1 m \/ before = u ++ m).
(** Of the lines of a text, all but the last end at an operator or have 77 characters at least. *)
Definition broken_at_operators (s : text) (ls : list text) : Prop :=
  exists ps, s = List.concat ps /\ ls = indent true ps /\
  forall n, S n < length ps -> 77 <= length (nth n ls []) \/ at_operator s (List.concat (firstn (S n) ps)).

Lemma operator_match m : operator m -> match_len m = Some (length m) /\ length m <= 4 /\ exists a rest, m = a :: rest /\ rest <> [] /\ forall s, match_len (rest ++ s) = None.
Proof.
  intros [(a & c & Ha & Hc & ->)|H].
  - split; [|split; [simpl; lia|]].
    + unfold match_len, star. rewrite bool_decide_eq_true_2 by auto. reflexivity.
    + exists a, [42%N; c]. split; [reflexivity|]. split; [discriminate|]. intros [|d s]; [reflexivity|]. unfold match_len, star, space. simpl app.
      repeat (rewrite bool_decide_eq_false_2 by (intros H; first [destruct H as [H _]; congruence|injection H; intros; discriminate])). reflexivity.
  - destruct H as [<-|[<-|[<-|[<-|[]]]]]; (split; [reflexivity|]; split; [simpl; lia|]; eexists _, _; split; [reflexivity|]; split; [discriminate|]);
      intros [|d s]; try reflexivity; unfold match_len, star, space; simpl app;
      repeat (rewrite bool_decide_eq_false_2 by (intros H; first [destruct H as (_ & H & _); discriminate|destruct H as [H _]; discriminate|discriminate])); reflexivity.
Qed.
Lemma match_operator s n : match_len s = Some n -> operator (firstn n s) /\ length (firstn n s) = n.
Proof.
  intros E. pose proof (match_len_bound _ _ E) as B. split; [|rewrite firstn_length; lia]. revert E. unfold match_len, star. destruct s as [|a [|b [|c s]]]; try discriminate.
  case_bool_decide as H0; [destruct H0 as (H1 & -> & H3); intros [= <-]; left; exists a, c; auto|].
  case_bool_decide as H1; [intros [= <-]; injection H1 as -> -> ->; right; simpl; auto|].
  case_bool_decide as H2; [intros [= <-]; destruct H2 as [H2 H2']; injection H2 as -> -> ->; destruct s; [discriminate|]; injection H2' as ->; right; simpl; auto|].
  case_bool_decide as H4; [intros [= <-]; destruct H4 as [H4 H4']; injection H4 as -> -> ->; destruct s; [discriminate|]; injection H4' as ->; right; simpl; auto|].
  case_bool_decide as H5; [intros [= <-]; injection H5 as -> -> ->; right; simpl; auto|]. discriminate.
Qed.
Lemma match_len_app s t : match_len (s ++ t) = None -> match_len s = None.
Proof.
  destruct s as [|a [|b [|c s]]]; try reflexivity. simpl app. unfold match_len.
  case_bool_decide; [discriminate|]. case_bool_decide; [discriminate|]. case_bool_decide as H2; [discriminate|]. case_bool_decide as H4; [discriminate|]. case_bool_decide; [discriminate|]. intros _.
  rewrite bool_decide_eq_false_2; [rewrite bool_decide_eq_false_2; [reflexivity|]|].
  - intros [A B]. apply H4. split; [exact A|]. destruct s; [discriminate|]. exact B.
  - intros [A B]. apply H2. split; [exact A|]. destruct s; [discriminate|]. exact B.
Qed.
(** Segments are operators with at most one text between two of them. [P]: the next may be a text *)
Fixpoint alternate (P : Prop) (segs : list text) : Prop :=
  match segs with
  | [] => True
  | s :: segs' => (operator s /\ alternate True segs') \/ (match_len s = None /\ P /\ alternate False segs')
  end.
Lemma alternate_mono (P Q : Prop) segs : (P -> Q) -> alternate P segs -> alternate Q segs.
Proof. intros H. destruct segs as [|s segs]; [auto|]. cbn. intros [A|(A & B & C)]; [left; exact A|right]. auto. Qed.
Lemma split_alternate s : forall skip cur, (cur <> [] -> match_len (cur ++ s) = None) -> (skip <> 0 -> cur = []) ->
  alternate True (List.filter (fun s => negb (bool_decide (s = []))) (split_go s skip cur)).
Proof.
  induction s as [|c s IH]; intros skip cur Hm Hk.
  - cbn [split_go List.filter]. destruct cur as [|a cur]; [exact I|]. cbn [negb bool_decide]. rewrite bool_decide_eq_false_2 by discriminate. cbn [negb alternate]. right.
    split; [|split; exact I]. rewrite <- (app_nil_r (a :: cur)). apply Hm. discriminate.
  - destruct skip as [|k]; [|cbn [split_go]; apply IH; [rewrite (Hk ltac:(discriminate)); congruence|intros _; apply Hk; discriminate]]. cbn [split_go].
    destruct (match_len (c :: s)) as [n|] eqn:E.
    + destruct (match_operator _ _ E) as [Ho Ln]. pose proof (match_len_bound _ _ E) as B.
      assert (R : alternate True (List.filter (fun s => negb (bool_decide (s = []))) (split_go s (n - 1) []))) by (apply IH; [congruence|auto]).
      assert (R2 : forall P, alternate P (List.filter (fun s => negb (bool_decide (s = []))) (firstn n (c :: s) :: split_go s (n - 1) []))).
      { intros P. cbn [List.filter]. rewrite bool_decide_eq_false_2 by (intros H; rewrite H in Ln; simpl in Ln; lia). cbn [negb alternate]. left. auto. }
      destruct cur as [|a cur]; [exact (R2 True)|].
      change (alternate True ((a :: cur) :: List.filter (fun s => negb (bool_decide (s = []))) (firstn n (c :: s) :: split_go s (n - 1) []))).
      cbn [alternate]. right. split; [apply (match_len_app _ (c :: s)), Hm; discriminate|]. split; [exact I|]. apply R2.
    + apply IH; [|congruence]. intros _. rewrite <- app_assoc. cbn [app]. destruct cur as [|a cur]; [exact E|]. apply Hm. discriminate.
Qed.
Lemma cut_full fuel : forall line full rest, cut fuel line = (full, rest) -> Forall (fun l => length l = maxlen) full.
Proof.
  induction fuel as [|fuel IH]; intros line full rest E; cbn [cut] in E; [injection E as <- _; constructor|].
  destruct (maxlen <? length line) eqn:El; [|injection E as <- _; constructor]. apply Nat.ltb_lt in El.
  destruct (cut fuel _) as [f r] eqn:E'. injection E as <- _. constructor; [rewrite firstn_length; lia|]. eapply IH. exact E'.
Qed.
Fixpoint good_breaks (s done : text) (first : bool) (ps : list text) : Prop :=
  match ps with
  | p :: ((_ :: _) as ps') => (77 <= length (unfinished first p) \/ at_operator s (done ++ p)) /\ good_breaks s (done ++ p) false ps'
  | _ => True
  end.
Lemma good_breaks_app s ps' : ps' <> [] -> forall ps done first, Forall (fun l => length l = maxlen) (indent first ps) ->
  good_breaks s (done ++ List.concat ps) (first && bool_decide (ps = [])) ps' -> good_breaks s done first (ps ++ ps').
Proof.
  intros N. induction ps as [|p ps IH]; intros done first F H; [simpl in H; rewrite app_nil_r, andb_true_r in H; exact H|].
  cbn [indent] in F. inversion F as [|? ? F1 F2]; subst. cbn [app good_breaks].
  assert (G : good_breaks s (done ++ p) false (ps ++ ps')).
  { apply IH; [exact F2|]. cbn [List.concat] in H. rewrite andb_false_r in H. rewrite <- app_assoc. exact H. }
  destruct (ps ++ ps') as [|x l] eqn:E; [apply app_eq_nil in E as [_ E]; congruence|]. split; [|exact G]. left. unfold unfinished, maxlen in *. destruct first; lia.
Qed.
Definition after_operator (before : text) : Prop := exists u m, operator m /\ before = u ++ m.
Definition in_place (carry : text) (segs : list text) (before : text) : Prop :=
  (carry = [] /\ alternate (before = [] \/ after_operator before) segs) \/
  (exists u a, before = u ++ [a] /\ operator (a :: carry) /\ segs <> [] /\ alternate True segs).
Lemma wrap_breaks segs : forall carry first p done s, length (unfinished first p) <= maxlen -> s = done ++ p ++ carry ++ List.concat segs ->
  in_place carry segs (done ++ p) -> (done ++ p = [] -> first = true) ->
  exists ps, wrap segs carry (unfinished first p) = indent first ps /\ p ++ carry ++ List.concat segs = List.concat ps /\ ps <> [] /\ good_breaks s done first ps.
Proof.
  induction segs as [|sg segs IH]; intros carry first p done s Hl Hs Hi Hf.
  - assert (carry = []) as -> by (destruct Hi as [[-> _]|(u & a & _ & _ & N & _)]; [reflexivity|destruct (N eq_refl)]).
    exists [p]. cbn. rewrite !app_nil_r. destruct first; repeat split; discriminate.
  - cbn [wrap List.concat].
    (* putting [x] on the line *)
    assert (Hstep : forall first p done x carry' full line, length (unfinished first p) <= maxlen -> s = done ++ p ++ x ++ carry' ++ List.concat segs ->
      in_place carry' segs (done ++ p ++ x) -> x <> [] -> cut (length (unfinished first p ++ x)) (unfinished first p ++ x) = (full, line) ->
      exists ps, full ++ wrap segs carry' line = indent first ps /\ p ++ x ++ carry' ++ List.concat segs = List.concat ps /\ ps <> [] /\ good_breaks s done first ps).
    { clear first p done Hl Hs Hi Hf. intros first p done x carry' full line Hl Hs Hi Hx Ec.
      pose proof (cut_full _ _ _ _ Ec) as Hfull.
      replace (unfinished first p ++ x) with (unfinished first (p ++ x)) in Ec by (destruct first; reflexivity).
      destruct (cut_spec _ _ _ _ _ (le_n _) Ec) as (ps & q & E1 & -> & -> & H1 & H2 & H3).
      destruct (IH carry' (first && bool_decide (ps = [])) q (done ++ List.concat ps) s H1) as (ps' & E4 & E5 & N & G).
      - rewrite Hs, <- app_assoc. f_equal. rewrite (app_assoc p x), E1, <- app_assoc. reflexivity.
      - rewrite <- app_assoc, <- E1. exact Hi.
      - intros Z. rewrite <- app_assoc, <- E1 in Z. apply app_eq_nil in Z as [_ Z]. apply app_eq_nil in Z as [_ Z]. congruence.
      - exists (ps ++ ps'). split; [|split; [|split]].
        + rewrite E4. destruct ps as [|p0 ps]; [rewrite andb_true_r; reflexivity|]. rewrite indent_app by discriminate. rewrite andb_false_r. reflexivity.
        + rewrite concat_app, <- E5, (app_assoc p x), E1, <- !app_assoc. reflexivity.
        + destruct ps'; [congruence|]. destruct ps; discriminate.
        + apply good_breaks_app; assumption. }
    (* the other branch, if breaking is right *)
    assert (Hother : forall segment, segment = carry ++ sg -> segment <> [] -> in_place [] segs (done ++ p ++ segment) ->
      (maxlen < length (unfinished first p) + length segment -> minlen < length (unfinished first p) -> 77 <= length (unfinished first p) \/ at_operator s (done ++ p)) ->
      exists ps, (let '(before, line) := if (maxlen <? length (unfinished first p) + length segment) && (minlen <? length (unfinished first p)) then ([unfinished first p], [space; space]) else ([], unfinished first p) in
       let '(full, line) := cut (length (line ++ segment)) (line ++ segment) in before ++ full ++ wrap segs [] line) = indent first ps /\
       p ++ carry ++ sg ++ List.concat segs = List.concat ps /\ ps <> [] /\ good_breaks s done first ps).
    { intros segment Eg Ng Hi' Hb. cbn [List.concat] in Hs.
      destruct ((maxlen <? length (unfinished first p) + length segment) && (minlen <? length (unfinished first p))) eqn:Eb.
      - apply andb_true_iff in Eb as [B1 B2]. apply Nat.ltb_lt in B1, B2. change [space; space] with (unfinished false []).
        destruct (cut (length (unfinished false [] ++ segment)) (unfinished false [] ++ segment)) as [full line] eqn:Ec.
        destruct (Hstep false [] (done ++ p) segment [] full line) as (ps & E1 & E2 & N & G); auto.
        + simpl. unfold maxlen. lia.
        + rewrite Hs, Eg. simpl. rewrite <- !app_assoc. reflexivity.
        + simpl. rewrite <- app_assoc. exact Hi'.
        + exists (p :: ps). split; [cbn [app indent]; f_equal; exact E1|]. split; [|split; [discriminate|]].
          * cbn [List.concat]. rewrite <- E2, Eg. simpl. rewrite <- app_assoc. reflexivity.
          * destruct ps as [|p1 ps]; [congruence|]. cbn [good_breaks]. split; [apply Hb; assumption|exact G].
      - destruct (cut (length (unfinished first p ++ segment)) (unfinished first p ++ segment)) as [full line] eqn:Ec. cbn [app].
        destruct (Hstep first p done segment [] full line) as (ps & E1 & E2 & N & G); auto.
        + rewrite Hs, Eg. simpl. rewrite <- !app_assoc. reflexivity.
        + exists ps. split; [exact E1|]. split; [|auto]. rewrite <- E2, Eg. simpl. rewrite <- app_assoc. reflexivity. }
    cbn [List.concat] in Hs. destruct Hi as [[-> Ha]|(u & a & Eu & Ho & _ & Ha)].
    + cbn [app] in *. cbn [alternate] in Ha. destruct Ha as [[Ho Ha]|(Hn & HP & Ha)].
      * destruct (operator_match sg Ho) as (Em & L4 & a & rest & Ea & Nr & _). rewrite Em. rewrite Ea in *. destruct segs as [|s2 segs].
        -- apply (Hother (a :: rest)); [reflexivity|discriminate|left; split; [reflexivity|exact I]|]. intros B _. left. unfold maxlen in *. lia.
        -- destruct (cut (length (unfinished first p ++ [a])) (unfinished first p ++ [a])) as [full line] eqn:Ec.
           destruct (Hstep first p done [a] rest full line) as (ps & E1 & E2 & N & G); auto.
           ++ right. exists (done ++ p), a. split; [rewrite <- app_assoc; reflexivity|]. split; [exact Ho|]. split; [discriminate|exact Ha].
           ++ exists ps. split; [exact E1|]. split; [|auto]. rewrite <- E2. reflexivity.
      * rewrite Hn. destruct sg as [|c0 sg0] eqn:Esg.
        { (* an empty segment *)
          assert (Hw : exists ps, wrap segs [] (unfinished first p) = indent first ps /\ p ++ List.concat segs = List.concat ps /\ ps <> [] /\ good_breaks s done first ps).
          { apply (IH [] first p done s Hl Hs); [|exact Hf]. left. split; [reflexivity|]. eapply alternate_mono; [|exact Ha]. intros []. }
          cbn [length]. rewrite Nat.add_0_r. rewrite (proj2 (Nat.ltb_ge maxlen (length (unfinished first p))) Hl). cbn [andb]. rewrite app_nil_r.
          assert (Ec : cut (length (unfinished first p)) (unfinished first p) = ([], unfinished first p)).
          { destruct (length (unfinished first p)) eqn:En; cbn [cut]; [reflexivity|]. rewrite En. rewrite (proj2 (Nat.ltb_ge maxlen (S n))) by lia. reflexivity. }
          rewrite Ec. cbn [app]. exact Hw. }
        apply (Hother (c0 :: sg0)); [reflexivity|discriminate|left; split; [reflexivity|eapply alternate_mono; [|exact Ha]; intros []]|].
        intros _ B. destruct HP as [HP|(u & m & Hm & HP)].
        -- rewrite (Hf HP) in B. apply app_eq_nil in HP as [_ ->]. simpl in B. lia.
        -- right. exists u, m, ((c0 :: sg0) ++ List.concat segs). split; [exact Hm|]. split; [|right; exact HP]. rewrite Hs, app_assoc, HP, <- app_assoc. reflexivity.
    + destruct (operator_match _ Ho) as (_ & _ & a' & rest & [= <- <-] & Nr & Hnm). rewrite Hnm.
      assert (G : in_place [] segs (done ++ p ++ carry ++ sg)).
      { left. split; [reflexivity|]. cbn [alternate] in Ha. destruct Ha as [[Hos Ha]|(_ & _ & Ha)].
        - eapply alternate_mono; [|exact Ha]. intros _. right. exists (done ++ p ++ carry), sg. split; [exact Hos|]. rewrite <- !app_assoc. reflexivity.
        - eapply alternate_mono; [|exact Ha]. intros []. }
      assert (N : carry ++ sg <> []) by (intros Z; apply app_eq_nil in Z as [Z _]; congruence).
      apply (Hother (carry ++ sg) eq_refl N G). intros _ _. right. exists u, (a :: carry), (sg ++ List.concat segs). split; [exact Ho|]. split; [|left; exact Eu].
      rewrite Hs, app_assoc, Eu, <- app_assoc. reflexivity.
Qed.
Lemma good_breaks_nth s ps : forall done first n, good_breaks s done first ps -> S n < length ps ->
  77 <= length (nth n (indent first ps) []) \/ at_operator s (done ++ List.concat (firstn (S n) ps)).
Proof.
  induction ps as [|p ps IH]; intros done first n G L; [simpl in L; lia|]. destruct ps as [|p1 ps]; [simpl in L; lia|]. destruct G as [G1 G2].
  destruct n as [|n].
  - cbn [indent nth firstn List.concat]. rewrite app_nil_r. exact G1.
  - change (firstn (S (S n)) (p :: p1 :: ps)) with (p :: firstn (S n) (p1 :: ps)). change (nth (S n) (indent first (p :: p1 :: ps)) []) with (nth n (indent false (p1 :: ps)) []).
    cbn [List.concat]. rewrite app_assoc. apply IH; [exact G2|]. simpl in *. lia.
Qed.
(** Texts are broken at operators, or where a line is full (or nearly, at the end of the text); powers are not operators. *)
Theorem C89_breaks_partial : forall s, broken_at_operators s (constraintlines s).
Proof.
  intros s. destruct (wrap_breaks (segments s) [] true [] [] s) as (ps & E1 & E2 & N & G).
  - simpl. unfold maxlen. lia.
  - simpl. symmetry. apply segments_concat.
  - left. split; [reflexivity|]. eapply alternate_mono; [|apply (split_alternate s 0 []); congruence]. auto.
  - auto.
  - exists ps. split; [rewrite <- E2; simpl; symmetry; apply segments_concat|]. split; [exact E1|]. intros n L. change (constraintlines s) with (wrap (segments s) [] (unfinished true [])). rewrite E1.
    apply (good_breaks_nth s ps [] true n G L).
Qed.
Print Assumptions C89_breaks_partial.
(** So they can be broken within names: "after a star" is after one character of what comes next. *)
Theorem C89_breaks_refuted : constraintlines (txt "aaaaaaaaaaaaaaaaaaaaaaaaaaaaaa >= x*speed_of_the_fastest_unladen_swallow_of_all_the_europeans") =
  map txt ["aaaaaaaaaaaaaaaaaaaaaaaaaaaaaa >= x*s"; "  peed_of_the_fastest_unladen_swallow_of_all_the_europeans"]%string.
Proof. vm_compute. reflexivity. Qed.
Print Assumptions C89_breaks_refuted.
