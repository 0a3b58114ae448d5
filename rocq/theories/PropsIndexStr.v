(** C111: printed indices. *)
From Coq Require Import Lia.
From Verif Require Import Base IndexStr.
Local Open Scope list_scope.
Open Scope Z_scope.

(** *** Specification *)
(** Python's reading of what is between the brackets: parts between commas, and between colons *)
Definition is_comma (t : token) : bool := match t with Comma => true | _ => false end.
Definition is_colon (t : token) : bool := match t with Colon => true | _ => false end.
Fixpoint split (sep : token -> bool) (l : list token) : list (list token) :=
  match l with
  | [] => [[]]
  | t :: l' => if sep t then [] :: split sep l' else match split sep l' with s :: ss => (t :: s) :: ss | [] => [[t]] end
  end.
Definition number (l : list token) : option (option Z) := match l with [] => Some None | [Num z] => Some (Some z) | _ => None end.
Definition read_one (l : list token) : option index :=
  match split is_colon l with
  | [[Num z]] => Some (Int z)
  | [[EllipsisName]] => Some Dots
  | [[NoneName]] => Some NewAxis
  | [a; b] => match number a, number b with Some a, Some b => Some (Slice a b None) | _, _ => None end
  | [a; b; c] => match number a, number b, number c with Some a, Some b, Some c => Some (Slice a b c) | _, _, _ => None end
  | _ => None
  end.
Fixpoint all_some {A} (l : list (option A)) : option (list A) :=
  match l with [] => Some [] | None :: _ => None | Some x :: l' => match all_some l' with Some r => Some (x :: r) | None => None end end.
Definition read (l : list token) : option (list index) := all_some (map read_one (split is_comma l)).

(** Python's slices, of something of length [n]: which element is the [j]-th *)
Definition clamp (lo hi x : Z) : Z := Z.max lo (Z.min hi x).
Definition from_end (n x : Z) : Z := if x <? 0 then x + n else x.
Definition item (n : Z) (start stop step : option Z) (j : Z) : option Z :=
  let step := match step with Some s => s | None => 1 end in
  let '(lo, hi) := if step <? 0 then (-1, n - 1) else (0, n) in
  let first := match start with Some x => clamp lo hi (from_end n x) | None => if step <? 0 then hi else lo end in
  let last := match stop with Some x => clamp lo hi (from_end n x) | None => if step <? 0 then lo else hi end in
  let i := first + j * step in
  if (if step <? 0 then last <? i else i <? last) then Some i else None.
(** Indices mean the same for a dimension *)
Definition same_for (n : Z) (a b : index) : Prop :=
  match a, b with
  | Int i, Int j => i = j
  | Slice a b c, Slice a' b' c' => (c = Some 0 <-> c' = Some 0) /\ forall j, 0 <= j -> item n a b c j = item n a' b' c' j
  | NewAxis, NewAxis => True
  | _, _ => False
  end.
(** Which dimensions indices are for: an ellipsis stands for as many whole dimensions as there are left, at the end if there is none. *)
Definition whole : index := Slice None None None.
Definition takes (i : index) : nat := match i with Int _ | Slice _ _ _ => 1 | Dots | NewAxis => 0 end.
Definition taken (l : list index) : nat := list_sum (map takes l).
Fixpoint spread (fill : nat) (l : list index) : list index :=
  match l with [] => repeat whole fill | Dots :: l' => repeat whole fill ++ l' | i :: l' => i :: spread fill l' end.
Definition whole_index (dims : list Z) (l : list index) : list index := spread (length dims - taken l) l.
(** Same indices for each dimension *)
Fixpoint same_on (dims : list Z) (a b : list index) : Prop :=
  match a, b with
  | [], [] => True
  | NewAxis :: a', NewAxis :: b' => same_on dims a' b'
  | x :: a', y :: b' => match dims with n :: dims' => same_for n x y /\ same_on dims' a' b' | [] => False end
  | _, _ => False
  end.
Definition given (i : idxs) : list index := match i with One i => [i] | Tuple l => l end.
Definition means_same (dims : list Z) (a b : list index) : Prop := same_on dims (whole_index dims a) (whole_index dims b).
(** An index of an array: not too many, one ellipsis *)
Definition fits (dims : list Z) (l : list index) : Prop := (taken l <= length dims)%nat /\ (length (List.filter (fun i => match i with Dots => true | _ => false end) l) <= 1)%nat.

(** *** Slices *)
Lemma fields limit a b c : split is_colon (slice_str limit a b c) = or_empty a :: below limit b :: match c with Some z => [[Num z]] | None => [] end.
Proof.
  unfold slice_str, or_empty, below, step_str. destruct a as [a|]; [destruct (a =? 0)|]; (destruct b as [b|]; [destruct ((b =? 0) || (limit <=? b))|]); destruct c; reflexivity.
Qed.
Definition nonzero (x : option Z) : option Z := match x with Some z => if z =? 0 then None else Some z | None => None end.
Definition limited (limit : Z) (x : option Z) : option Z := match x with Some z => if (z =? 0) || (limit <=? z) then None else Some z | None => None end.
Lemma read_slice limit a b c : read_one (slice_str limit a b c) = Some (Slice (nonzero a) (limited limit b) c).
Proof.
  unfold read_one. rewrite fields. unfold or_empty, below, nonzero, limited.
  destruct a as [a|]; [destruct (a =? 0)|]; (destruct b as [b|]; [destruct ((b =? 0) || (limit <=? b))|]); destruct c; reflexivity.
Qed.
(** Slices that are printed as they are read: counting up, not to 0, and nothing past the limit *)
Definition printable (limit n : Z) (i : index) : Prop :=
  match i with
  | Int _ => True
  | Slice a b c => (match c with Some s => 0 < s | None => True end) /\ b <> Some 0 /\ (match b with Some z => limit <= z -> n <= z | None => True end)
  | Dots | NewAxis => False
  end.
Lemma slice_same limit n a b c : 0 <= n -> 0 < limit -> printable limit n (Slice a b c) -> same_for n (Slice a b c) (Slice (nonzero a) (limited limit b) c).
Proof.
  intros Hn Hlim (Hc & Hb & Hl). split; [tauto|]. intros j Hj. unfold item.
  assert (Hs : (match c with Some s => s | None => 1 end <? 0) = false) by (apply Z.ltb_ge; destruct c; lia). rewrite Hs.
  assert (E1 : match a with Some x => clamp 0 n (from_end n x) | None => 0 end = match nonzero a with Some x => clamp 0 n (from_end n x) | None => 0 end).
  { destruct a as [a|]; auto. simpl. destruct (Z.eqb_spec a 0); auto. subst. unfold clamp, from_end. simpl. lia. }
  assert (E2 : match b with Some x => clamp 0 n (from_end n x) | None => n end = match limited limit b with Some x => clamp 0 n (from_end n x) | None => n end).
  { destruct b as [b|]; auto. simpl. destruct (Z.eqb_spec b 0); [subst; congruence|]. simpl. destruct (Z.leb_spec limit b) as [L|L]; auto.
    specialize (Hl L). unfold clamp, from_end. destruct (Z.ltb_spec b 0); lia. }
  rewrite E1, E2. auto.
Qed.

(** *** Texts *)
Definition no_comma (l : list token) : Prop := forall t, In t l -> is_comma t = false.
Lemma split_none l : no_comma l -> split is_comma l = [l].
Proof. induction l as [|t l IH]; intros H; auto. cbn [split]. rewrite (H t) by (left; auto). rewrite IH; auto. intros u Hu. apply H. right. auto. Qed.
Lemma split_app l r : no_comma l -> split is_comma (l ++ Comma :: r) = l :: split is_comma r.
Proof. induction l as [|t l IH]; intros H; auto. cbn [split app]. rewrite (H t) by (left; auto). rewrite IH; auto. intros u Hu. apply H. right. auto. Qed.
Lemma split_joined l : l <> [] -> Forall no_comma l -> split is_comma (joined l) = l.
Proof.
  induction l as [|s l IH]; intros Hl Hc; [congruence|]. inversion Hc; subst. destruct l as [|s' l]; [apply split_none; auto|].
  change (joined (s :: s' :: l)) with (s ++ Comma :: joined (s' :: l)). rewrite split_app by auto. f_equal. apply IH; auto; discriminate.
Qed.
Lemma slice_no_comma limit a b c : no_comma (slice_str limit a b c).
Proof.
  unfold slice_str, or_empty, below, step_str. intros t Ht. destruct a as [a|]; [destruct (a =? 0)|]; (destruct b as [b|]; [destruct ((b =? 0) || (limit <=? b))|]); destruct c; simpl in Ht;
  repeat (destruct Ht as [<-|Ht]; [reflexivity|]); destruct Ht.
Qed.
Definition back (limit : Z) (i : index) : index := match i with Slice a b c => Slice (nonzero a) (limited limit b) c | _ => i end.
Fixpoint printable_all (limit : Z) (dims : list Z) (l : list index) : Prop :=
  match l with [] => True | i :: l' => match dims with n :: dims' => printable limit n i /\ printable_all limit dims' l' | [] => False end end.
Lemma elements_read l : forall dims, printable_all maxsize dims l ->
  Forall no_comma (flat_map element l) /\ all_some (map read_one (flat_map element l)) = Some (map (back maxsize) l) /\ length (flat_map element l) = length l.
Proof.
  induction l as [|i l IH]; intros dims H; [repeat constructor|]. destruct dims as [|n dims]; [destruct H|]. destruct H as [Hi Hl]. destruct (IH dims Hl) as (A & B & C).
  destruct i as [z|a b c| |]; try destruct Hi.
  - cbn [flat_map element app map all_some length]. split; [constructor; auto; intros t [<-|[]]; auto|]. split; [|congruence].
    change (read_one [Num z]) with (Some (Int z)). cbn [all_some]. rewrite B. auto.
  - cbn [flat_map element app map all_some length]. split; [constructor; auto; apply slice_no_comma|]. split; [|congruence].
    rewrite read_slice. cbn [all_some]. rewrite B. auto.
Qed.
Lemma same_whole k : forall dims, (k <= length dims)%nat -> same_on dims (repeat whole k) (repeat whole k).
Proof. induction k as [|k IH]; intros dims H; simpl; auto. destruct dims as [|n dims]; simpl in *; [lia|]. split; [split; auto; tauto|apply IH; lia]. Qed.
Lemma taken_back limit l : taken (map (back limit) l) = taken l.
Proof. unfold taken. rewrite map_map. f_equal. apply map_ext. intros []; auto. Qed.
Lemma same_back limit l : 0 < limit -> forall dims fill, Forall (fun n => 0 <= n) dims -> printable_all limit dims l -> (length l + fill <= length dims)%nat ->
  same_on dims (spread fill l) (spread fill (map (back limit) l)).
Proof.
  intros Hlim. induction l as [|i l IH]; intros dims fill Hd Hp Hf; [apply same_whole; simpl in *; lia|]. destruct dims as [|n dims]; [destruct Hp|]. destruct Hp as [Hi Hl]. inversion Hd; subst.
  assert (R : same_on dims (spread fill l) (spread fill (map (back limit) l))) by (apply IH; auto; simpl in *; lia).
  destruct i as [z|a b c| |]; try destruct Hi; cbn [map back spread same_on]; [split; [reflexivity|auto]|]. split; auto. apply slice_same; auto. split; auto.
Qed.
Lemma taken_printable limit l : forall dims, printable_all limit dims l -> taken l = length l.
Proof. induction l as [|i l IH]; intros dims H; auto. destruct dims as [|n dims]; [destruct H|]. destruct H as [Hi Hl]. unfold taken in *. cbn [map list_sum fold_right length]. change (fold_right Nat.add 0%nat (map takes l)) with (list_sum (map takes l)). rewrite (IH dims Hl). destruct i; try destruct Hi; auto. Qed.

(** *** The text of an index means the index. *)
Definition C111_index_for (cond : list Z -> idxs -> Prop) : Prop :=
  forall dims i, Forall (fun n => 0 <= n) dims -> fits dims (given i) -> cond dims i ->
    exists l, read (index_str i) = Some l /\ means_same dims (given i) l.
Definition plain (dims : list Z) (i : idxs) : Prop :=
  match i with
  | One Dots | One NewAxis => True
  | One i => printable_all 1000000 dims [i]
  | Tuple l => l <> [] /\ printable_all maxsize dims l
  end.
Theorem C111_index_partial : C111_index_for plain.
Proof.
  intros dims i Hd [Ht _] Hp. destruct i as [i|l].
  - assert (G : forall limit, 0 < limit -> printable_all limit dims [i] -> means_same dims [i] [back limit i]).
    { intros limit Hlim H. unfold means_same, whole_index. change [back limit i] with (map (back limit) [i]). rewrite taken_back, (taken_printable limit [i] dims H).
      apply same_back; auto. cbn [given] in Ht. rewrite (taken_printable limit [i] dims H) in Ht. simpl in *. lia. }
    destruct i as [z|a b c| |].
    + exists [Int z]. split; [reflexivity|]. apply (G 1000000); [lia|auto].
    + exists [Slice (nonzero a) (limited 1000000 b) c]. split; [|apply (G 1000000); [lia|auto]]. unfold read. cbn [index_str].
      rewrite split_none by apply slice_no_comma. cbn [map]. rewrite read_slice. reflexivity.
    + exists [Dots]. split; [reflexivity|]. unfold means_same, whole_index. cbn [spread taken map takes list_sum fold_right given]. rewrite app_nil_r. apply same_whole. lia.
    + exists [NewAxis]. split; [reflexivity|]. unfold means_same, whole_index. cbn [spread taken map takes list_sum fold_right given same_on]. apply same_whole. lia.
  - destruct Hp as [Hne Hp]. destruct (elements_read l dims Hp) as (A & B & C). exists (map (back maxsize) l). split.
    + unfold read. cbn [index_str]. rewrite split_joined; auto. intros E. rewrite E in C. destruct l; [congruence|discriminate].
    + unfold means_same, whole_index. cbn [given] in *. rewrite taken_back. apply same_back; auto; [reflexivity|]. rewrite (taken_printable _ l dims Hp) in *. lia.
Qed.
Print Assumptions C111_index_partial.

(** *** Refutations *)
Lemma refute dims i (cond : list Z -> idxs -> Prop) : Forall (fun n => 0 <= n) dims -> fits dims (given i) -> cond dims i ->
  match read (index_str i) with Some l => ~ means_same dims (given i) l | None => True end -> ~ C111_index_for cond.
Proof. intros Hd Hf Hc H C. destruct (C dims i Hd Hf Hc) as (l & E & M). rewrite E in H. auto. Qed.
(** [x[:0]] is empty; its text [x[:]] is all of [x]. *)
Theorem C111_to_zero_refuted : ~ C111_index_for (fun dims i => exists a b, i = One (Slice a b None)).
Proof.
  apply (refute [3] (One (Slice None (Some 0) None))); [repeat (apply Forall_cons; split; [lia|]); apply Forall_nil; exact I|split; apply Nat.leb_le; reflexivity|eauto|].
  cbn. intros [[_ H] _]. specialize (H 0 ltac:(lia)). discriminate.
Qed.
Print Assumptions C111_to_zero_refuted.
(** [x[0::-1]] is the first element; its text [x[::-1]] is all of [x], backwards. *)
Theorem C111_backwards_refuted : ~ C111_index_for (fun dims i => exists a c, i = One (Slice a None c)).
Proof.
  apply (refute [3] (One (Slice (Some 0) None (Some (-1))))); [repeat (apply Forall_cons; split; [lia|]); apply Forall_nil; exact I|split; apply Nat.leb_le; reflexivity|eauto|].
  cbn. intros [[_ H] _]. specialize (H 0 ltac:(lia)). discriminate.
Qed.
Print Assumptions C111_backwards_refuted.
(** The first million elements of two million *)
Theorem C111_long_refuted : ~ C111_index_for (fun dims i => exists z, 0 < z /\ i = One (Slice None (Some z) None)).
Proof.
  apply (refute [2000000] (One (Slice None (Some 1000000) None))); [repeat (apply Forall_cons; split; [lia|]); apply Forall_nil; exact I|split; apply Nat.leb_le; reflexivity|exists 1000000; split; [lia|auto]|].
  cbn. intros [[_ H] _]. specialize (H 1000000 ltac:(lia)). discriminate.
Qed.
Print Assumptions C111_long_refuted.
(** [A[..., 1]] is a column; its text [A[1]] is a row. *)
Theorem C111_ellipsis_refuted : ~ C111_index_for (fun dims i => exists l, i = Tuple l /\ Forall (fun i => match i with Slice _ _ _ => False | _ => True end) l).
Proof.
  apply (refute [2; 2] (Tuple [Dots; Int 1])); [repeat (apply Forall_cons; split; [lia|]); apply Forall_nil; exact I|split; apply Nat.leb_le; reflexivity|eexists; split; [reflexivity|repeat constructor]|].
  cbn. tauto.
Qed.
Print Assumptions C111_ellipsis_refuted.
(** The text of [A[()]] is no Python. *)
Theorem C111_empty_refuted : ~ C111_index_for (fun dims i => i = Tuple []).
Proof. apply (refute [2] (Tuple [])); [repeat (apply Forall_cons; split; [lia|]); apply Forall_nil; exact I|split; apply Nat.leb_le; reflexivity|reflexivity|]. reflexivity. Qed.
Print Assumptions C111_empty_refuted.

(** *** Cases *)
Example C111_nonvacuous : let i := Tuple [Slice (Some 0) (Some (-1)) (Some 2); Int 3; Slice (Some 1) None None] in
  Forall (fun n => 0 <= n) [4; 5; 6; 7] /\ fits [4; 5; 6; 7] (given i) /\ plain [4; 5; 6; 7] i /\
  index_str i = [Colon; Num (-1); Colon; Num 2; Comma; Num 3; Comma; Num 1; Colon] /\
  read (index_str i) = Some [Slice None (Some (-1)) (Some 2); Int 3; Slice (Some 1) None None] /\
  map (item 4 (Some 0) (Some (-1)) (Some 2)) [0; 1; 2] = [Some 0; Some 2; None].
Proof.
  cbn zeta. split; [repeat (apply Forall_cons; split; [lia|]); apply Forall_nil; exact I|]. split; [split; apply Nat.leb_le; reflexivity|].
  split; [|split; [reflexivity|split; reflexivity]]. split; [discriminate|]. cbn. repeat split; try discriminate; unfold maxsize; lia.
Qed.
