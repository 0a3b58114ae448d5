(** C101: warnings are shown with the solutions they are about. *)
From Coq Require Import NArith ZArith Sorting.Sorted Permutation Ascii String.
From Verif Require Import Base ConTable ConTableProofs PropsConTable SetLayout SetLayoutProofs Warnings.
Open Scope nat_scope.
Local Open Scope list_scope.

(** ** Specification *)
Section Spec.
Context {V : Type}.
Variables (sortkey : text -> V -> Z) (shown : text -> V -> text) (sortbymodel showmodels : bool) (points : list (list (event V))).
(** The warnings of a kind *)
Definition of_kind (k : text) (evs : list (event V)) : list (event V) := List.filter (fun e => bool_decide (ev_kind e = k)) evs.
(** Every solution has warnings of the same kinds. *)
Definition same_kinds : Prop := forall p q k, In p points -> In q points -> of_kind k p <> [] -> of_kind k q <> [].
(** The last value that a check of this kind of warnings gave for a constraint, at any point *)
Definition latest (k : text) (c : nat) : option V :=
  last (map ev_value (List.filter (fun e => bool_decide (ev_kind e = k /\ c_id (a_con (ev_about e)) = c)) (List.concat points))).
(** All messages, sorted *)
Definition messages_shown (title k : text) (mine : list (event V)) (ls : list text) : Prop :=
  exists msgs, Permutation msgs (map ev_msg mine) /\ StronglySorted (fun a b => text_leb a b = true) msgs /\ ls = [title; repeat 45%N (length k)] ++ msgs ++ [[]].
(** A table of all the constraints with values (C89) *)
Definition constraints_shown (value : nat -> V -> Prop) (title k : text) (mine : list (event V)) (ls : list text) : Prop :=
  exists mine' data, Permutation mine' mine /\
  Forall2 (fun ev e => e_con e = a_con (ev_about ev) /\ exists v, value (c_id (a_con (ev_about ev))) v /\ e_sortby e = sortkey k v /\ e_opening e = shown k v) mine' data /\
  lists Z.leb sortbymodel showmodels data title ls.
Definition special (k : text) : Prop := k = chars "Unexpectedly Tight Constraints" \/ k = chars "Unexpectedly Loose Constraints".
(** A part of the table: the warnings of kind [k] at point [i] *)
Definition part_shows (value : text -> nat -> V -> Prop) (k : text) (i : nat) (ls : list text) : Prop :=
  let title := if 1 <? length points then k ++ chars " in sweep " ++ digits i else k in
  let mine := of_kind k (nth i points []) in
  messages_shown title k mine ls \/ special k /\ constraints_shown (value k) title k mine ls.
(** The table has such a part for each kind of warnings and each point, and nothing else. *)
Definition table_shows (value : text -> nat -> V -> Prop) (kinds : list text) (body : list text) : Prop :=
  exists parts, StronglySorted (fun a b => text_leb a b = true) kinds /\ NoDup kinds /\
  (forall k, In k kinds <-> exists evs ev, In evs points /\ In ev evs /\ ev_kind ev = k) /\
  Forall2 (fun ki ls => part_shows value (fst ki) (snd ki) ls) (list_prod kinds (seq 0 (length points))) parts /\
  List.concat parts = body ++ [[]].
(** Constraints in tables are printed with neither their model's name nor memory addresses in their texts (C89). *)
Definition all_plain : Prop := forall evs ev, In evs points -> In ev evs -> special (ev_kind ev) -> plain sortbymodel showmodels (a_con (ev_about ev)).
End Spec.

(** ** Proofs *)
Section Proofs.
Context {V : Type}.
Notation ev_warning := (fun e : event V => (ev_msg e, ev_about e)).

Lemma of_kind_app k (a b : list (event V)) : of_kind k (a ++ b) = of_kind k a ++ of_kind k b.
Proof. apply List.filter_app. Qed.
Lemma of_kind_in k (evs : list (event V)) : of_kind k evs <> [] <-> exists ev, In ev evs /\ ev_kind ev = k.
Proof.
  split.
  - intros H. destruct (of_kind k evs) as [|ev l] eqn:E; [contradiction|]. exists ev. assert (Hi : In ev (of_kind k evs)) by (rewrite E; left; reflexivity).
    apply filter_In in Hi as [Hi Hk]. apply bool_decide_eq_true in Hk. auto.
  - intros (ev & Hi & Hk) E. assert (Hf : In ev (of_kind k evs)) by (apply filter_In; split; [exact Hi|apply bool_decide_eq_true; exact Hk]). rewrite E in Hf. destruct Hf.
Qed.
(** The warnings of one solution *)
Definition made_by (evs : list (event V)) (r : wresult) : Prop :=
  match r with
  | None => evs = []
  | Some ws => evs <> [] /\ NoDup (dkeys ws) /\ forall k, dget ws k = match of_kind k evs with [] => None | l => Some (map ev_warning l) end
  end.
Lemma made_append evs (r : wresult) ev : made_by evs r -> made_by (evs ++ [ev]) (appendsolwarning (ev_msg ev) (ev_about ev) r (ev_kind ev)).
Proof.
  intros M. unfold appendsolwarning. cbn [made_by]. split; [destruct evs; discriminate|].
  set (ws := match r with Some ws => ws | None => [] end).
  assert (Hn : NoDup (dkeys ws)) by (destruct r; [apply M|constructor]).
  assert (Hg : forall k, dget ws k = match of_kind k evs with [] => None | l => Some (map ev_warning l) end) by (destruct r as [ws'|]; [apply M|cbn in M; rewrite M; reflexivity]).
  clearbody ws. set (ws' := if dmem ws (ev_kind ev) then ws else dset ws (ev_kind ev) []).
  assert (Hn' : NoDup (dkeys ws')) by (unfold ws'; destruct (dmem ws (ev_kind ev)); [exact Hn|apply NoDup_dset; exact Hn]).
  split; [apply NoDup_dset; exact Hn'|]. intros k. rewrite dget_dset, of_kind_app.
  assert (Hsame : default [] (dget ws' (ev_kind ev)) = map ev_warning (of_kind (ev_kind ev) evs)).
  { unfold ws', dmem. destruct (dget ws (ev_kind ev)) as [l|] eqn:E.
    - rewrite E. cbn. rewrite Hg in E. destruct (of_kind (ev_kind ev) evs); [discriminate|]. injection E as <-. reflexivity.
    - rewrite dget_dset_eq. cbn. rewrite Hg in E. destruct (of_kind (ev_kind ev) evs); [reflexivity|discriminate]. }
  cbn [of_kind List.filter]. destruct (decide (k = ev_kind ev)) as [->|Hk].
  - rewrite bool_decide_eq_true_2 by reflexivity. rewrite Hsame. destruct (of_kind (ev_kind ev) evs) as [|x l]; cbn [app]; [reflexivity|]. f_equal. cbn [map]. rewrite map_app. reflexivity.
  - rewrite bool_decide_eq_false_2 by congruence. rewrite app_nil_r. rewrite <- Hg. unfold ws'. destruct (dmem ws (ev_kind ev)); [reflexivity|]. apply dget_dset_ne. exact Hk.
Qed.
(** The values on constraints *)
Definition at_key (k : text) (c : nat) (e : event V) : bool := bool_decide (ev_kind e = k /\ c_id (a_con (ev_about e)) = c).
Definition noted (evs : list (event V)) (attrs : attributes V) : Prop :=
  forall k c, dget attrs (k, c) = last (map ev_value (List.filter (at_key k c) evs)).
Lemma noted_check before attrs ev : noted before attrs -> noted (before ++ [ev]) (dset attrs (ev_kind ev, c_id (a_con (ev_about ev))) (ev_value ev)).
Proof.
  intros N k c. rewrite List.filter_app, map_app, dget_dset. cbn [List.filter]. unfold at_key at 2.
  destruct (decide ((k, c) = (ev_kind ev, c_id (a_con (ev_about ev))))) as [E|E].
  - injection E as -> ->. rewrite bool_decide_eq_true_2 by auto. cbn [map]. symmetry. apply last_snoc.
  - rewrite bool_decide_eq_false_2 by (intros [<- <-]; apply E; reflexivity). cbn [map]. rewrite app_nil_r. apply N.
Qed.
Lemma checks before attrs : noted before attrs -> forall evs, let st := fold_left check evs (attrs, None) in noted (before ++ evs) (fst st) /\ made_by evs (snd st).
Proof.
  intros N evs. induction evs as [|ev evs IH] using rev_ind; cbv zeta; [cbn; rewrite app_nil_r; auto|].
  rewrite fold_left_app. cbn [fold_left]. destruct IH as [I1 I2]. unfold check at 1 3. cbn [fst snd]. split; [|apply made_append; exact I2].
  rewrite app_assoc. apply noted_check. exact I1.
Qed.

(** Solutions put together *)
Lemma append_dict_ok ws : forall d, NoDup (dkeys ws) -> (forall k, In k (dkeys ws) -> In k (dkeys d)) ->
  exists d', append_dict ws d = Ok d' /\ dkeys d' = dkeys d /\ forall k, dget d' k = match dget ws k with Some v => option_map (fun vs => vs ++ [v]) (dget d k) | None => dget d k end.
Proof.
  induction ws as [|[k v] ws IH]; intros d Hn Hi; [exists d; auto|]. cbn [append_dict]. cbn [dkeys map fst] in Hn. inversion Hn as [|? ? Hk Hn']; subst.
  assert (Hd : In k (dkeys d)) by (apply Hi; left; reflexivity). destruct (dget d k) as [vs|] eqn:E; [|apply dget_None in E; contradiction].
  destruct (IH (dset d k (vs ++ [v]))) as (d' & Ea & Ek & Eg); [exact Hn'|intros x Hx; apply dkeys_dset_In; right; apply Hi; right; exact Hx|].
  exists d'. split; [exact Ea|]. split; [rewrite Ek; apply dkeys_dset_present; exact Hd|]. intros k'. rewrite Eg, dget_dset. cbn [dget].
  destruct (decide (k' = k)) as [->|Hne].
  - assert (Ew : dget ws k = None) by (apply dget_None; rewrite <- elem_of_list_In; exact Hk). rewrite Ew, E. reflexivity.
  - reflexivity.
Qed.
(** What the solution has after some points *)
Definition kept (pts : list (list (event V))) (sol : wsolution) : Prop :=
  match pts, sol with
  | [], None => True
  | evs :: _, Some None => evs = []
  | evs :: _, Some (Some d) => evs <> [] /\ NoDup (dkeys d) /\
      forall k, dget d k = match of_kind k evs with [] => None | _ => Some (map (fun evs => map ev_warning (of_kind k evs)) pts) end
  | _, _ => False
  end.
Lemma kinds_nil (evs : list (event V)) : evs = [] <-> forall k, of_kind k evs = [].
Proof.
  split; [intros ->; reflexivity|]. intros H. destruct evs as [|ev evs]; [reflexivity|]. specialize (H (ev_kind ev)). cbn in H. rewrite bool_decide_eq_true_2 in H by reflexivity. discriminate.
Qed.
Lemma keep pts sol evs r : same_kinds (pts ++ [evs]) -> kept pts sol -> made_by evs r -> exists sol', append sol r = Ok sol' /\ kept (pts ++ [evs]) sol'.
Proof.
  intros Hs K M. destruct pts as [|p pts].
  - destruct sol as [|]; [destruct K|]. destruct r as [ws|]; cbn [append app].
    + eexists. split; [reflexivity|]. destruct M as (M1 & M2 & M3). cbn [kept]. split; [exact M1|].
      assert (Hk : dkeys (map (fun kv : text * list warning => (fst kv, [snd kv])) ws) = dkeys ws) by (unfold dkeys; rewrite map_map; reflexivity).
      split; [rewrite Hk; exact M2|]. intros k. assert (Hg : dget (map (fun kv : text * list warning => (fst kv, [snd kv])) ws) k = option_map (fun v => [v]) (dget ws k)).
      { clear. induction ws as [|[k' v] ws IH]; [reflexivity|]. cbn [map fst snd dget]. destruct (decide (k = k')); [reflexivity|exact IH]. }
      rewrite Hg, M3. cbn [map]. destruct (of_kind k evs); reflexivity.
    + eexists. split; [reflexivity|]. exact M.
  - assert (Hpe : forall k, of_kind k p = [] <-> of_kind k evs = []).
    { intros k. destruct (decide (of_kind k p = [])) as [E|E], (decide (of_kind k evs = [])) as [E'|E']; try tauto; exfalso.
      - apply (Hs evs p k); [apply in_or_app; right; left; reflexivity|left; reflexivity|exact E'|exact E].
      - apply (Hs p evs k); [left; reflexivity|apply in_or_app; right; left; reflexivity|exact E|exact E']. }
    destruct sol as [[d|]|]; cbn [kept app] in K |- *; [| |destruct K].
    + destruct K as (K1 & K2 & K3). destruct r as [ws|].
      * destruct M as (M1 & M2 & M3). cbn [append]. destruct (append_dict_ok ws d) as (d' & Ea & Ek & Eg); [exact M2| |].
        { intros k Hk. destruct (dget d k) as [vs|] eqn:E; [eapply dget_In_keys; exact E|]. exfalso. rewrite K3 in E. destruct (of_kind k p) as [|] eqn:Ep; [|discriminate].
          assert (Hw : dget ws k = None) by (rewrite M3, (proj1 (Hpe k) Ep); reflexivity). apply dget_None in Hw. contradiction. }
        rewrite Ea. cbn [rbind]. eexists. split; [reflexivity|]. cbn [kept app]. split; [exact K1|]. split; [rewrite Ek; exact K2|]. intros k. rewrite Eg, M3, K3.
        destruct (of_kind k p) as [|x l] eqn:Ep; [rewrite (proj1 (Hpe k) Ep); reflexivity|]. destruct (of_kind k evs) as [|y l'] eqn:Ee; [apply Hpe in Ee; congruence|].
        cbn [option_map]. f_equal. cbn [map app]. rewrite map_app. cbn [map]. rewrite Ee. reflexivity.
      * exfalso. apply K1. apply kinds_nil. intros k. apply Hpe. cbn in M. subst evs. reflexivity.
    + destruct r as [ws|].
      * exfalso. destruct M as (M1 & _). apply M1. apply kinds_nil. intros k. apply Hpe. subst p. reflexivity.
      * cbn [append]. eexists. split; [reflexivity|]. cbn [kept app]. exact K.
Qed.
Lemma same_prefix (a b : list (list (event V))) : same_kinds (a ++ b) -> same_kinds a.
Proof. intros H p q k Hp Hq. apply H; apply in_or_app; left; assumption. Qed.
Lemma sweep_ok rest : forall pts attrs sol, same_kinds (pts ++ rest) -> kept pts sol -> noted (List.concat pts) attrs ->
  exists attrs' sol', sweep rest attrs sol = Ok (attrs', sol') /\ kept (pts ++ rest) sol' /\ noted (List.concat (pts ++ rest)) attrs'.
Proof.
  induction rest as [|evs rest IH]; intros pts attrs sol Hs K N; [exists attrs, sol; rewrite app_nil_r; auto|]. cbn [sweep].
  destruct (checks _ _ N evs) as [C1 C2]. destruct (fold_left check evs (attrs, None)) as [attrs1 r]. cbn [fst snd] in C1, C2.
  destruct (keep pts sol evs r) as (sol1 & Ea & K1); [apply (same_prefix _ rest); rewrite <- app_assoc; exact Hs|exact K|exact C2|]. rewrite Ea. cbn [rbind].
  destruct (IH (pts ++ [evs]) attrs1 sol1) as (attrs' & sol' & E & K' & N'); [rewrite <- app_assoc; exact Hs|exact K1| |].
  - rewrite concat_app. cbn [List.concat]. rewrite app_nil_r. exact C1.
  - exists attrs', sol'. rewrite <- app_assoc in K', N'. auto.
Qed.

(** ** The table *)
Variables (sortkey : text -> V -> Z) (shown : text -> V -> text) (sortbymodel showmodels : bool).
Variable points : list (list (event V)).
Variable attrs : attributes V.
Hypothesis Hattrs : noted (List.concat points) attrs.
Hypothesis Hplain : all_plain sortbymodel showmodels points.
Notation latest_is := (fun k c v => latest points k c = Some v).
Lemma rows_ok' k (mine : list (event V)) : (forall e, In e mine -> ev_kind e = k /\ exists evs, In evs points /\ In e evs) ->
  exists data, rows sortkey shown attrs k (map ev_warning mine) = Ok data /\
  Forall2 (fun ev e => e_con e = a_con (ev_about ev) /\ exists v, latest points k (c_id (a_con (ev_about ev))) = Some v /\ e_sortby e = sortkey k v /\ e_opening e = shown k v) mine data.
Proof.
  induction mine as [|ev mine IH]; intros H; [exists []; split; [reflexivity|constructor]|]. cbn [map rows]. unfold value_on. cbn [snd].
  destruct (H ev (or_introl eq_refl)) as (Hk & evs & Hi & He).
  assert (Hv : exists v, latest points k (c_id (a_con (ev_about ev))) = Some v).
  { unfold latest. match goal with |- exists v, last ?l = _ => destruct (last l) as [v|] eqn:E; [eauto|apply last_None in E] end. apply map_eq_nil in E. exfalso.
    assert (Hf : In ev (List.filter (fun e => bool_decide (ev_kind e = k /\ c_id (a_con (ev_about e)) = c_id (a_con (ev_about ev)))) (List.concat points))).
    { apply filter_In. split; [apply in_concat; eauto|]. apply bool_decide_eq_true. auto. }
    rewrite E in Hf. destruct Hf. }
  destruct Hv as [v Hv]. rewrite Hattrs. unfold at_key. fold (latest points k (c_id (a_con (ev_about ev)))). rewrite Hv. cbn [rbind].
  destruct IH as (data & -> & F); [intros e He'; apply H; right; exact He'|]. cbn [rbind]. eexists. split; [reflexivity|]. constructor; [|exact F]. cbn. eauto.
Qed.
Lemma by_message_map (mine : list (event V)) : exists mine', Permutation mine' mine /\ by_message (map ev_warning mine) = map ev_warning mine' /\
  StronglySorted (fun a b => text_leb a b = true) (map ev_msg mine').
Proof.
  unfold by_message. rewrite sort_map. set (le := fun a b : event V => _). exists (sort le mine). split; [apply sort_perm|]. split; [reflexivity|].
  apply SS_map. assert (O : order_ok le) by (apply (order_on text_leb (@ev_msg V)), text_leb_ok). destruct O as [O1 O2].
  exact (sort_sorted le O1 O2 mine).
Qed.
Lemma zleb_total : total_order Z.leb.
Proof. split; [|split]; intros *; rewrite ?Z.leb_le; [lia|lia|lia]. Qed.
Lemma block_ok k i : nth_error points i <> None -> of_kind k (nth i points []) <> [] ->
  exists ls, warnings_block sortkey shown sortbymodel showmodels attrs k (1 <? length points) i (map ev_warning (of_kind k (nth i points []))) = Ok ls /\
  part_shows sortkey shown sortbymodel showmodels points latest_is k i ls /\ exists ls', ls = ls' ++ [[]] /\ ls' <> [].
Proof.
  intros Hi Hne. set (mine := of_kind k (nth i points [])) in *.
  assert (Hin : forall e, In e mine -> ev_kind e = k /\ exists evs, In evs points /\ In e evs).
  { intros e He. apply filter_In in He as [He Hk]. apply bool_decide_eq_true in Hk. split; [exact Hk|]. exists (nth i points []). split; [|exact He].
    apply nth_In. apply nth_error_Some. exact Hi. }
  destruct (by_message_map mine) as (mine' & P & Eb & Ss). unfold warnings_block, part_shows. rewrite Eb. fold mine. change (sweep_title k (1 <? length points) i) with (if 1 <? length points then k ++ chars " in sweep " ++ digits i else k).
  set (title := if 1 <? length points then _ else _).
  assert (Em : forall ls, ls = [title; repeat 45%N (length k)] ++ map fst (map ev_warning mine') ++ [[]] -> messages_shown title k mine ls /\ exists ls', ls = ls' ++ [[]] /\ ls' <> []).
  { intros ls ->. split.
    - exists (map ev_msg mine'). split; [apply Permutation_map; exact P|]. split; [exact Ss|]. rewrite map_map. reflexivity.
    - exists ([title; repeat 45%N (length k)] ++ map fst (map ev_warning mine')). split; [rewrite <- app_assoc; reflexivity|discriminate]. }
  destruct (decide (k = tight_kind \/ k = loose_kind)) as [Hsp|Hsp].
  - destruct mine' as [|e0 m0] eqn:Em'; [apply Permutation_nil in P; contradiction|]. cbn [map]. rewrite <- Em' in *. destruct (a_true (ev_about e0)).
    + destruct (rows_ok' k mine') as (data & Er & F). { intros e He. apply Hin. eapply Permutation_in; [exact P|exact He]. }
      assert (Er' : rows sortkey shown attrs k ((ev_msg e0, ev_about e0) :: map ev_warning m0) = Ok data) by (rewrite <- Er; rewrite Em'; reflexivity).
      rewrite Er'. cbn [rbind]. eexists. split; [reflexivity|]. split.
      * right. split; [exact Hsp|]. exists mine', data. split; [exact P|]. split; [exact F|]. apply C89_table_partial; [apply zleb_total|]. apply List.Forall_forall. intros e He.
        apply elem_of_list_In, elem_of_list_lookup in He as [j Hj]. destruct (Forall2_lookup_r _ _ _ _ _ F Hj) as (ev & Hev & -> & _).
        assert (Hm : In ev mine). { eapply Permutation_in; [exact P|]. apply elem_of_list_In. eapply elem_of_list_lookup_2. exact Hev. }
        destruct (Hin ev Hm) as (Hk & evs & H1 & H2). apply (Hplain evs ev H1 H2). rewrite Hk. exact Hsp.
      * unfold constraint_table. eexists. split; [rewrite app_assoc; reflexivity|discriminate].
    + eexists. split; [reflexivity|]. destruct (Em _ eq_refl) as [E1 E2]. rewrite Em' in E1, E2. auto.
  - eexists. split; [reflexivity|]. destruct (Em _ eq_refl) as [E1 E2]. auto.
Qed.
Lemma blocks_ok k : (forall p, In p points -> of_kind k p <> []) -> forall rest i, drop i points = rest ->
  exists ls parts, blocks sortkey shown sortbymodel showmodels attrs k (1 <? length points) i (map (fun evs => map ev_warning (of_kind k evs)) rest) = Ok ls /\
  Forall2 (fun ki l => part_shows sortkey shown sortbymodel showmodels points latest_is (fst ki) (snd ki) l) (map (pair k) (seq i (length rest))) parts /\
  ls = List.concat parts /\ Forall (fun l => exists l', l = l' ++ [[]] /\ l' <> []) parts.
Proof.
  intros Hk. induction rest as [|evs rest IH]; intros i Hd; [exists [], []; repeat split; constructor|]. cbn [map blocks length seq].
  assert (Hi : points !! i = Some evs) by (rewrite <- (Nat.add_0_r i), <- lookup_drop, Hd; reflexivity).
  assert (En : nth i points [] = evs) by (apply nth_lookup_Some; exact Hi).
  destruct (block_ok k i) as (ls & Eb & Hp & He).
  { apply nth_error_Some. eapply lookup_lt_Some. exact Hi. }
  { rewrite En. apply Hk. apply elem_of_list_In. eapply elem_of_list_lookup_2. exact Hi. }
  rewrite En in Eb. rewrite Eb. cbn [rbind]. destruct (IH (S i)) as (ls' & parts & Er & F & -> & Fe).
  { rewrite <- Nat.add_1_r, <- drop_drop, Hd. reflexivity. }
  rewrite Er. cbn [rbind]. exists (ls ++ List.concat parts), (ls :: parts). split; [reflexivity|]. split; [constructor; [exact Hp|exact F]|]. split; [reflexivity|constructor; assumption].
Qed.
Lemma all_ok (d : list (text * list (list warning))) kinds : points <> [] -> (forall k, In k kinds -> dget d k = Some (map (fun evs => map ev_warning (of_kind k evs)) points) /\ forall p, In p points -> of_kind k p <> []) ->
  exists ls parts, all_kinds sortkey shown sortbymodel showmodels attrs d kinds = Ok ls /\
  Forall2 (fun ki l => part_shows sortkey shown sortbymodel showmodels points latest_is (fst ki) (snd ki) l) (list_prod kinds (seq 0 (length points))) parts /\
  ls = List.concat parts /\ Forall (fun l => exists l', l = l' ++ [[]] /\ l' <> []) parts.
Proof.
  intros Hne. induction kinds as [|k kinds IH]; intros H; [exists [], []; repeat split; constructor|]. cbn [all_kinds list_prod].
  destruct (H k (or_introl eq_refl)) as [Eg Hk]. 
  assert (Ed : match enray (default [] (dget d k)) with Lone data => [data] | Several vs => vs end = map (fun evs => map ev_warning (of_kind k evs)) points).
  { rewrite Eg. cbn. unfold enray. destruct (map _ points) as [|x [|y l]]; reflexivity. }
  rewrite Ed. rewrite map_length.
  destruct (blocks_ok k Hk points 0 eq_refl) as (ls & parts & -> & F & -> & Fe). cbn [rbind].
  destruct IH as (ls' & parts' & -> & F' & -> & Fe'); [intros k' Hk'; apply H; right; exact Hk'|]. cbn [rbind].
  exists (List.concat parts ++ List.concat parts'), (parts ++ parts'). split; [reflexivity|]. split; [apply Forall2_app; assumption|]. split; [rewrite concat_app; reflexivity|apply Forall_app; auto].
Qed.
Lemma parts_end (parts : list (list text)) : parts <> [] -> Forall (fun l => exists l', l = l' ++ [[]] /\ l' <> []) parts -> exists body, List.concat parts = body ++ [[]] /\ body <> [].
Proof.
  intros Hne F. destruct parts as [|p parts _] using rev_ind; [contradiction|]. apply Forall_app in F as [_ F]. inversion F as [|? ? (l' & -> & Hl) _]; subst.
  exists (List.concat parts ++ l'). rewrite concat_app. cbn [List.concat]. rewrite app_nil_r, app_assoc. split; [reflexivity|]. destruct (List.concat parts); [exact Hl|discriminate].
Qed.
Lemma table_ok sol : points <> [] -> same_kinds points -> kept points sol ->
  (List.concat points = [] /\ warnings_table sortkey shown sortbymodel showmodels attrs sol = Ok []) \/
  exists kinds body, List.concat points <> [] /\ table_shows sortkey shown sortbymodel showmodels points latest_is kinds body /\ body <> [] /\
  warnings_table sortkey shown sortbymodel showmodels attrs sol = Ok ([tildes; chars "WARNINGS"; tildes] ++ body ++ [tildes; []]).
Proof.
  intros Hne Hs K. destruct points as [|p pts] eqn:Ep; [contradiction|]. rewrite <- Ep in *.
  assert (Hp : In p points) by (rewrite Ep; left; reflexivity).
  destruct sol as [[d|]|]; rewrite Ep in K; cbn [kept] in K; [| |destruct K].
  - right. destruct K as (K1 & K2 & K3). rewrite <- Ep in K3.
    assert (Hkeys : forall k, In k (dkeys d) <-> of_kind k p <> []).
    { intros k. split; intros Hk.
      - intros E. assert (Hg : dget d k = None) by (rewrite K3, E; reflexivity). apply dget_None in Hg. contradiction.
      - destruct (dget d k) as [vs|] eqn:E; [eapply dget_In_keys; exact E|]. rewrite K3 in E. destruct (of_kind k p); [contradiction|discriminate]. }
    assert (Hd : d <> []). { intros ->. apply K1. apply kinds_nil. intros k. destruct (decide (of_kind k p = [])) as [E|E]; [exact E|]. apply Hkeys in E. destruct E. }
    set (kinds := sort text_leb (dkeys d)).
    assert (Hks : forall k, In k kinds <-> In k (dkeys d)). { intros k. split; apply Permutation_in; [|symmetry]; apply sort_perm. }
    destruct (all_ok d kinds) as (ls & parts & Ea & F & -> & Fe); [exact Hne| |].
    { intros k Hk. apply Hks, Hkeys in Hk. split; [rewrite K3; destruct (of_kind k p); [contradiction|reflexivity]|]. intros q Hq. exact (Hs p q k Hp Hq Hk). }
    destruct (parts_end parts) as (body & Eb & Hb); [|exact Fe|].
    { intros ->. apply Forall2_length in F. rewrite prod_length, seq_length in F. cbn in F.
      assert (length kinds <> 0). { destruct d as [|[k v] d']; [contradiction|]. intros E. destruct kinds eqn:Ek; [|discriminate]. apply (proj2 (Hks k)). left. reflexivity. }
      assert (length points <> 0) by (rewrite Ep; discriminate). nia. }
    exists kinds, body. split; [|split; [|split; [exact Hb|]]].
    + rewrite Ep. cbn [List.concat]. destruct p; [contradiction|discriminate].
    + exists parts. destruct text_leb_ok as [O1 O2]. split; [exact (sort_sorted text_leb O1 O2 (dkeys d))|]. split; [apply NoDup_ListNoDup; eapply Permutation_NoDup; [symmetry; apply sort_perm|apply NoDup_ListNoDup; exact K2]|]. split; [|auto].
      intros k. rewrite Hks, Hkeys. split.
      * intros Hk. apply of_kind_in in Hk as (ev & Hi & Hk). eauto.
      * intros (evs & ev & He & Hi & Hk). apply (Hs evs p k He Hp). apply of_kind_in. eauto.
    + assert (Ew : warnings_table sortkey shown sortbymodel showmodels attrs (Some (Some d)) =
        rbind (all_kinds sortkey shown sortbymodel showmodels attrs d kinds) (fun ls => Ok (set_last tildes ([tildes; chars "WARNINGS"; tildes] ++ ls) ++ [[]]))).
      { unfold warnings_table, kinds. destruct d; [contradiction|reflexivity]. }
      rewrite Ew. rewrite Ea. cbn [rbind]. rewrite Eb. unfold set_last. rewrite (app_assoc [_; _; _] body), removelast_last, <- !app_assoc. reflexivity.
  - left. assert (Hall : forall q, In q points -> q = []).
    { intros q Hq. apply kinds_nil. intros k. destruct (decide (of_kind k q = [])) as [E|E]; [exact E|]. exfalso. apply (Hs q p k Hq Hp E). rewrite K. reflexivity. }
    split; [|reflexivity]. clear - Hall. induction points as [|q l IH]; [reflexivity|]. cbn [List.concat]. rewrite (Hall q (or_introl eq_refl)), IH; [reflexivity|]. intros q' Hq'. apply Hall. right. exact Hq'.
Qed.
End Proofs.

Lemma split_all ls : ls <> [] -> split_lines (join_lines ls) = flat_map split_lines ls.
Proof.
  assert (A : forall l rest, split_lines (l ++ newline :: rest) = split_lines l ++ split_lines rest).
  { induction l as [|c l IH]; intros rest; [reflexivity|]. cbn [app split_lines]. rewrite IH. destruct (c =? newline)%N; [reflexivity|].
    assert (Hn : split_lines l <> []) by (destruct l as [|c' l]; [discriminate|]; cbn [split_lines]; destruct (c' =? newline)%N; [discriminate|]; destruct (split_lines l); discriminate).
    destruct (split_lines l); [contradiction|reflexivity]. }
  induction ls as [|l [|l' ls] IH]; intros H; [contradiction|cbn; rewrite app_nil_r; reflexivity|]. cbn [join_lines]. rewrite A. cbn [flat_map]. f_equal. apply IH. discriminate.
Qed.

(** ** Theorems *)

(** Missing: sweeps with warnings of some kind at some points only. Values in tables of constraints are the latest ones. *)
Theorem C101_shown_partial : forall (V : Type) (sortkey : text -> V -> Z) (shown : text -> V -> text) sortbymodel showmodels (points : list (list (event V))),
  points <> [] -> same_kinds points -> all_plain sortbymodel showmodels points ->
  exists attrs sol table, sweep points [] None = Ok (attrs, sol) /\ warnings_table sortkey shown sortbymodel showmodels attrs sol = Ok table /\
  (List.concat points = [] -> table = [] /\ modifications table = []) /\
  (List.concat points <> [] -> exists kinds body,
     table_shows sortkey shown sortbymodel showmodels points (fun k c v => latest points k c = Some v) kinds body /\
     table = map chars ["~~~~~~~~"; "WARNINGS"; "~~~~~~~~"]%string ++ body ++ map chars ["~~~~~~~~"; ""]%string /\
     modifications table = flat_map split_lines body /\ modifications table <> []).
Proof.
  intros V sortkey shown sm shm points Hne Hs Hp. destruct (sweep_ok points [] [] None) as (attrs & sol & E & K & N); [exact Hs|exact I|intros k c; reflexivity|]. cbn [app] in K, N.
  destruct (table_ok sortkey shown sm shm points attrs N Hp sol Hne Hs K) as [[Ec Et]|(kinds & body & Hc & Ht & Hb & Et)].
  - exists attrs, sol, []. split; [exact E|]. split; [exact Et|]. split; [intros _; split; reflexivity|contradiction].
  - eexists attrs, sol, _. split; [exact E|]. split; [exact Et|]. split; [contradiction|]. intros _. exists kinds, body. split; [exact Ht|]. split; [reflexivity|].
    assert (Em : modifications ([tildes; chars "WARNINGS"; tildes] ++ body ++ [tildes; []]) = flat_map split_lines body).
    { unfold modifications. rewrite split_all by discriminate. rewrite !flat_map_app.
      change (flat_map split_lines [tildes; chars "WARNINGS"; tildes]) with [tildes; chars "WARNINGS"; tildes]. change (flat_map split_lines [tildes; []]) with [tildes; []].
      set (b := flat_map split_lines body). rewrite app_assoc. rewrite take_app_alt by (rewrite !app_length; cbn; lia). reflexivity. }
    split; [exact Em|]. rewrite Em. destruct body as [|l body]; [contradiction|]. cbn [flat_map]. destruct l as [|c l]; [discriminate|]. cbn [split_lines].
    destruct (c =? newline)%N; [discriminate|]. destruct (split_lines l); discriminate.
Qed.
Print Assumptions C101_shown_partial.

(** A single solve: each value shown is that of its warning, if checks of one constraint found one value. *)
Lemma latest_lone {V} (evs : list (event V)) k c v ev : latest [evs] k c = Some v -> In ev evs -> ev_kind ev = k -> c_id (a_con (ev_about ev)) = c ->
  (forall a b, In a evs -> In b evs -> ev_kind a = ev_kind b -> c_id (a_con (ev_about a)) = c_id (a_con (ev_about b)) -> ev_value a = ev_value b) -> v = ev_value ev.
Proof.
  unfold latest. cbn [List.concat]. rewrite app_nil_r. intros E Hi Hk Hc Hsame. apply last_Some_elem_of in E. apply elem_of_list_In, in_map_iff in E as (e & <- & He).
  apply filter_In in He as [He Hb]. apply bool_decide_eq_true in Hb as [Hb1 Hb2]. apply Hsame; congruence.
Qed.
Theorem C101_single : forall (V : Type) (sortkey : text -> V -> Z) (shown : text -> V -> text) sortbymodel showmodels (evs : list (event V)),
  all_plain sortbymodel showmodels [evs] ->
  (forall a b, In a evs -> In b evs -> ev_kind a = ev_kind b -> c_id (a_con (ev_about a)) = c_id (a_con (ev_about b)) -> ev_value a = ev_value b) ->
  exists attrs sol table, sweep [evs] [] None = Ok (attrs, sol) /\ warnings_table sortkey shown sortbymodel showmodels attrs sol = Ok table /\
  (evs = [] -> table = [] /\ modifications table = []) /\
  (evs <> [] -> exists kinds body,
     table_shows sortkey shown sortbymodel showmodels [evs] (fun k c v => exists ev, In ev evs /\ ev_kind ev = k /\ c_id (a_con (ev_about ev)) = c /\ v = ev_value ev) kinds body /\
     table = map chars ["~~~~~~~~"; "WARNINGS"; "~~~~~~~~"]%string ++ body ++ map chars ["~~~~~~~~"; ""]%string /\
     modifications table = flat_map split_lines body /\ modifications table <> []).
Proof.
  intros V sortkey shown sm shm evs Hp Hsame. destruct (C101_shown_partial V sortkey shown sm shm [evs]) as (attrs & sol & table & E & Et & H0 & H1); [discriminate| |exact Hp|].
  { intros p q k [<-|[]] [<-|[]] H. exact H. }
  exists attrs, sol, table. split; [exact E|]. split; [exact Et|]. cbn [List.concat] in H0, H1. rewrite app_nil_r in H0, H1. split; [exact H0|]. intros Hne.
  destruct (H1 Hne) as (kinds & body & (parts & T1 & T2 & T3 & T4 & T5) & T6). exists kinds, body. split; [|exact T6]. exists parts. split; [exact T1|]. split; [exact T2|]. split; [exact T3|]. split; [|exact T5].
  eapply Forall2_impl; [exact T4|]. intros [k i] ls [Hm|[Hs (mine' & data & P & F & L)]]; [left; exact Hm|right]. split; [exact Hs|]. exists mine', data. split; [exact P|]. split; [|exact L].
  assert (Hin : forall ev, In ev mine' -> In ev evs /\ ev_kind ev = k).
  { intros ev He. eapply Permutation_in in He; [|exact P]. apply filter_In in He as [He Hb]. apply bool_decide_eq_true in Hb. split; [|exact Hb].
    destruct i as [|[|i]]; cbn in He; try destruct He. all: exact He || (right; assumption) || idtac. }
  clear - F Hin Hsame. induction F as [|ev e mine' data (Hc & v & Hv & Hk & Ho) F IH]; constructor; [|apply IH; intros e' He'; apply Hin; right; exact He'].
  split; [exact Hc|]. exists v. split; [|auto]. destruct (Hin ev (or_introl eq_refl)) as [Hi Hkind]. exists ev. split; [exact Hi|]. split; [exact Hkind|]. split; [reflexivity|].
  eapply latest_lone; eauto.
Qed.
Print Assumptions C101_single.

(** ** Cases, and what the property does not extend to *)
Definition ev_of (kind msg : string) (id : nat) (tr : bool) (v : nat) : event nat := Event (chars kind) (chars msg) (About (ex_con id "" msg) tr) v.
Definition table_of (points : list (list (event nat))) : res (list text) :=
  let! s := sweep points [] None in
  warnings_table (fun _ v => (- Z.of_nat v)%Z) (fun _ v => digits v) true true (fst s) (snd s).
Definition two_points : list (list (event nat)) :=
  [[ev_of "Unexpectedly Tight Constraints" "x >= y" 1 true 3; ev_of "Relaxed Constants" "  b: relaxed" 4 true 0; ev_of "Unexpectedly Tight Constraints" "a >= 1" 2 true 7];
   [ev_of "Relaxed Constants" "  a: relaxed" 3 true 0; ev_of "Unexpectedly Tight Constraints" "a >= 1" 2 true 5]].
Example C101_nonvacuous : two_points <> [] /\ same_kinds two_points /\ all_plain true true two_points /\
  table_of two_points = Ok (map chars ["~~~~~~~~"; "WARNINGS"; "~~~~~~~~"; "Relaxed Constants in sweep 0"; "-----------------"; "  b: relaxed"; "";
    "Relaxed Constants in sweep 1"; "-----------------"; "  a: relaxed"; ""; "Unexpectedly Tight Constraints in sweep 0"; "-----------------------------------------"; "5 : a >= 1"; "3 : x >= y"; "";
    "Unexpectedly Tight Constraints in sweep 1"; "-----------------------------------------"; "5 : a >= 1"; "~~~~~~~~"; ""]%string).
Proof.
  split; [discriminate|]. split; [|split; [|vm_compute; reflexivity]].
  - intros p q k Hp Hq H. apply of_kind_in in H as (ev & Hi & <-). apply of_kind_in.
    assert (G : forall k', In k' [chars "Unexpectedly Tight Constraints"; chars "Relaxed Constants"] -> existsb (fun e => bool_decide (ev_kind e = k')) q = true).
    { intros k' [<-|[<-|[]]]; destruct Hq as [<-|[<-|[]]]; vm_compute; reflexivity. }
    assert (E : existsb (fun e => bool_decide (ev_kind e = ev_kind ev)) q = true).
    { apply G. destruct Hp as [<-|[<-|[]]]; repeat destruct Hi as [<-|Hi]; cbn [ev_kind ev_of]; try contradiction; auto using in_eq, in_cons. }
    apply existsb_exists in E as (e & He & Hb). apply bool_decide_eq_true in Hb. eauto.
  - assert (Hno : forall c, existsb (fun c => (c =? 48)%N) (c_print c true) = false -> ~ occurs at0x (c_print c true)) by
      (intros c H0 (a & b & E); rewrite E in H0; assert (existsb (fun c => (c =? 48)%N) (a ++ at0x ++ b) = true); [|congruence]; apply existsb_exists; exists 48%N; split; [apply in_or_app; right; apply in_or_app; left; vm_compute; tauto|reflexivity]).
    intros evs ev He Hi _. assert (P : forall c, In c (map (fun e => a_con (ev_about e)) (List.concat two_points)) -> plain true true c).
    { intros c Hc. repeat destruct Hc as [<-|Hc]; try contradiction; (split; [left; reflexivity|apply Hno; vm_compute; reflexivity]). }
    apply P. apply (in_map (fun e => a_con (ev_about e))). apply in_concat. eauto.
Qed.

(** A sweep fails if a point has a warning where the first point has none, or has none of its kind. *)
Theorem C101_new_refuted : forall (V : Type) (evs : list (event V)) (ev : event V) rest, of_kind (ev_kind ev) evs = [] -> sweep (evs :: [ev] :: rest) [] None = Err KeyErrorE.
Proof.
  intros V evs ev rest Hk. cbn [sweep]. assert (N : @noted V [] []) by (intros k c; reflexivity). pose proof (checks [] [] N evs) as C. cbv zeta in C. destruct C as [_ C2].
  match goal with |- context [fold_left check evs ?x] => change (made_by evs (snd (fold_left check evs x))) in C2; destruct (fold_left check evs x) as [attrs r] end. cbn [fst snd] in C2.
  assert (Hw : exists sol, append None r = Ok sol /\ append sol (appendsolwarning (ev_msg ev) (ev_about ev) None (ev_kind ev)) = Err KeyErrorE).
  { unfold appendsolwarning, dmem. cbn [dget dset default]. destruct r as [ws|]; cbn [append].
    - eexists. split; [reflexivity|]. cbn [made_by] in C2. destruct C2 as (_ & _ & C3). pose proof (C3 (ev_kind ev)) as C4. rewrite Hk in C4.
      assert (Hg : dget (map (fun kv : text * list warning => (fst kv, [snd kv])) ws) (ev_kind ev) = None).
      { apply dget_None. unfold dkeys. rewrite map_map. cbn [fst]. apply dget_None in C4. exact C4. }
      destruct (decide (ev_kind ev = ev_kind ev)); [|contradiction]. cbn [append_dict append]. rewrite Hg. reflexivity.
    - eexists. split; [reflexivity|]. reflexivity. }
  destruct Hw as (sol & -> & Ea). cbn [rbind fold_left check fst snd]. rewrite Ea. reflexivity.
Qed.
Print Assumptions C101_new_refuted.
(** Of a kind of warnings that some later points do not have, what is about the third point is shown as about the second; and what is about the first of two, as about both. *)
Theorem C101_missing_refuted :
  table_of [[ev_of "Relaxed Constants" "  a: relaxed" 1 true 0]; []; [ev_of "Relaxed Constants" "  b: relaxed" 2 true 0]] =
  table_of [[ev_of "Relaxed Constants" "  a: relaxed" 1 true 0]; [ev_of "Relaxed Constants" "  b: relaxed" 2 true 0]; []] /\
  table_of [[ev_of "Relaxed Constants" "  a: relaxed" 1 true 0]; []] = table_of [[ev_of "Relaxed Constants" "  a: relaxed" 1 true 0]] /\
  exists t, table_of [[ev_of "Relaxed Constants" "  a: relaxed" 1 true 0]; []] = Ok t.
Proof. split; [vm_compute; reflexivity|]. split; [vm_compute; reflexivity|]. eexists. vm_compute. reflexivity. Qed.
Print Assumptions C101_missing_refuted.
(** Values found at earlier points of a sweep are not shown. *)
Theorem C101_values_refuted : forall v v' : nat,
  table_of [[ev_of "Unexpectedly Tight Constraints" "a >= 1" 2 true v]; [ev_of "Unexpectedly Tight Constraints" "a >= 1" 2 true 5]] =
  table_of [[ev_of "Unexpectedly Tight Constraints" "a >= 1" 2 true v']; [ev_of "Unexpectedly Tight Constraints" "a >= 1" 2 true 5]].
Proof. intros v v'. vm_compute. reflexivity. Qed.
Print Assumptions C101_values_refuted.
