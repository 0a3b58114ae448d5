(** C106: the sliders of a model. *)
From Coq Require Import Strings.String Reals Lra.
From Verif Require Import Base Globals Lookup Widgets.
Local Open Scope list_scope.
Open Scope R_scope.

(** *** Specification *)
(** [k] is a constant with value [v]: a number, or a sweep that starts with it. *)
Definition constant (m : model R) (k : vkey) (v : R) : Prop :=
  dget (subs m) k = Some (SNum v) \/ exists vs, dget (subs m) k = Some (SSweep (v :: vs)).
Definition no_empty_sweeps (m : model R) : Prop := forall k, dget (subs m) k <> Some (SSweep []).
(** Sliders are told apart by their names. *)
Definition names_differ (l : list vkey) : Prop := forall k k', In k l -> In k' l -> shown_name k = shown_name k' -> k = k'.
(** What a slider is like, step aside *)
Definition slides (s : slider R) (k : vkey) (lo hi v : R) : Prop := s_key s = k /\ s_min s = lo /\ s_max s = hi /\ s_value s = v.
(** A model like [m], in which the sweeps of [l] are numbers *)
Definition unswept (m : model R) (l : list vkey) (m' : model R) : Prop :=
  vks m' = vks m /\ forall k, dget (subs m') k = match dget (subs m) k with
    | Some (SSweep (v :: vs)) => if bool_decide (k ∈ l) then Some (SNum v) else Some (SSweep (v :: vs))
    | o => o end.

(** Each constant has a slider, with the constant's value, from half to twice the value; there are no others. *)
Definition C106_sliders_for (cond : R -> Prop) : Prop :=
  forall m : model R, NoDup (dkeys (subs m)) -> names_differ (dkeys (subs m)) -> no_empty_sweeps m -> (forall k v, constant m k v -> cond v) ->
    exists out m', modelinteract m NoRanges = Ok (out, m') /\ unswept m (dkeys (subs m)) m' /\
      (forall k v, constant m k v -> exists s, dget out (shown_name k) = Some s /\ slides s k (v / 2) (2 * v) v) /\
      (forall name s, dget out name = Some s -> exists k v, constant m k v /\ name = shown_name k /\ slides s k (v / 2) (2 * v) v).

(** *** The loop *)
Lemma unswept_refl m : unswept m [] m.
Proof. split; auto. intros k. destruct (dget _ _) as [[| [|v vs]|]|]; auto. Qed.
Lemma loop_sliders rs (mk : vkey -> R -> slider R) l : forall out0 m0, NoDup l ->
  (forall k, In k l -> exists s, dget (subs m0) k = Some s /\ s <> SSweep []) ->
  (forall k v, In k l -> constant m0 k v -> make_slider rs k v = Ok (mk k v)) -> names_differ l ->
  (forall k, In k l -> dget out0 (shown_name k) = None) ->
  exists out m', loop (add_slider rs) (out0, m0) l = Ok (out, m') /\ unswept m0 l m' /\
    (forall name s, dget out name = Some s <-> (exists k v, In k l /\ constant m0 k v /\ name = shown_name k /\ s = mk k v) \/ dget out0 name = Some s).
Proof.
  induction l as [|k l IH]; intros out0 m0 Hnd Hin Hmk Hnm Hout.
  { exists out0, m0. split; auto. split; [apply unswept_refl|]. intros name s. split; auto. intros [(? & ? & [] & _)|]; auto. }
  assert (Nk : ~ In k l). { intros I. inversion Hnd as [|? ? N _]; subst. apply N, elem_of_list_In, I. } assert (Nd : NoDup l) by (inversion Hnd; auto).
  destruct (Hin k (or_introl eq_refl)) as (sk & Ek & Hk). cbn [loop]. unfold add_slider at 1. rewrite Ek.
  (* the rest, from a state in which k's value is settled *)
  assert (Rest : forall out1 m1, vks m1 = vks m0 -> (forall k', k' <> k -> dget (subs m1) k' = dget (subs m0) k') ->
    (forall name, name <> shown_name k -> dget out1 name = dget out0 name) ->
    exists out m', loop (add_slider rs) (out1, m1) l = Ok (out, m') /\ unswept m1 l m' /\
      (forall name s, dget out name = Some s <-> (exists k' v, In k' l /\ constant m0 k' v /\ name = shown_name k' /\ s = mk k' v) \/ dget out1 name = Some s)).
  { intros out1 m1 Hv Hs Ho. assert (C : forall k' v, In k' l -> constant m1 k' v <-> constant m0 k' v).
    { intros k' v I. unfold constant. rewrite Hs; [tauto|]. intros ->. auto. }
    destruct (IH out1 m1) as (out & m' & E & U & D); auto.
    - intros k' I. rewrite Hs by (intros ->; auto). apply Hin. right. auto.
    - intros k' v I Ck. apply Hmk; [right; auto|]. apply C; auto.
    - intros k1 k2 I1 I2. apply Hnm; right; auto.
    - intros k' I. rewrite Ho; [apply Hout; right; auto|]. intros En. apply Nk. rewrite (Hnm k k'); auto; [left; auto|right; auto].
    - exists out, m'. split; auto. split; auto. intros name s. rewrite D. split; (intros [(k' & v & I & Ck & X)|X]; [left; exists k', v; split; auto; split; [apply C; auto|auto]|auto]). }
  assert (Mem : forall k', bool_decide (k' ∈ k :: l) = if decide (k' = k) then true else bool_decide (k' ∈ l)).
  { intros k'. destruct (decide (k' = k)) as [->|N]; [apply bool_decide_eq_true; left|]. apply bool_decide_ext. rewrite elem_of_cons. tauto. }
  assert (NE : bool_decide (k ∈ l) = false) by (apply bool_decide_eq_false; rewrite elem_of_list_In; auto).
  assert (Fin : forall v m1, constant m0 k v -> vks m1 = vks m0 -> (forall k', dget (subs m1) k' = if decide (k' = k) then Some (SNum v) else dget (subs m0) k') ->
    exists out m', loop (add_slider rs) (dset out0 (shown_name k) (mk k v), m1) l = Ok (out, m') /\ unswept m0 (k :: l) m' /\
      (forall name s, dget out name = Some s <-> (exists k' v, In k' (k :: l) /\ constant m0 k' v /\ name = shown_name k' /\ s = mk k' v) \/ dget out0 name = Some s)).
  { intros v m1 Ck Hv Hs. destruct (Rest (dset out0 (shown_name k) (mk k v)) m1) as (out & m' & E & (Uv & Us) & D); auto.
    - intros k' N. rewrite Hs, decide_False by auto. auto.
    - intros name N. apply dget_dset_ne. auto.
    - exists out, m'. split; auto. split; [split; [congruence|]|].
      + intros k'. rewrite Us, Hs, Mem. destruct (decide (k' = k)) as [->|N]; auto. destruct Ck as [->|(vs & ->)]; auto.
      + intros name s. rewrite D, dget_dset. split.
        * intros [(k' & v' & I & X)|X]; [left; exists k', v'; split; [right; auto|auto]|]. destruct (decide (name = shown_name k)) as [->|N]; auto.
          injection X as <-. left. exists k, v. split; [left|]; auto.
        * intros [(k' & v' & [<-|I] & Ck' & -> & ->)|X].
          -- right. rewrite decide_True by auto. f_equal. f_equal. destruct Ck as [Ck|(? & Ck)], Ck' as [Ck'|(? & Ck')]; congruence.
          -- left. exists k', v'. auto.
          -- right. destruct (decide (name = shown_name k)) as [->|]; auto. rewrite Hout in X by (left; auto). discriminate. }
  destruct sk as [v|[|v vs]|].
  - assert (Ck : constant m0 k v) by (left; auto). rewrite (Hmk k v (or_introl eq_refl) Ck). cbn [rbind]. apply Fin; auto.
    intros k'. destruct (decide (k' = k)) as [->|]; auto.
  - congruence.
  - assert (Ck : constant m0 k v) by (right; eauto). rewrite (Hmk k v (or_introl eq_refl) Ck). cbn [rbind]. apply Fin; auto.
    intros k'. cbn [subs]. rewrite dget_dset. auto.
  - cbn [rbind]. destruct (Rest out0 m0) as (out & m' & E & (Uv & Us) & D); auto. exists out, m'. split; auto. split; [split; auto|].
    + intros k'. rewrite Us, Mem. destruct (decide (k' = k)) as [->|]; auto. rewrite Ek. auto.
    + intros name s. rewrite D. split; (intros [(k' & v & I & X)|X]; [left; exists k', v|auto]).
      * split; [right|]; auto.
      * split; auto. destruct I as [<-|I]; auto. destruct X as [[Ck|(? & Ck)] _]; congruence.
Qed.

Lemma nltb_R a b : nltb (T := R) a b = true <-> a < b.
Proof. change (Rltb a b = true <-> a < b). unfold Rltb. destruct (Rlt_dec a b); split; auto; discriminate. Qed.
Lemma nltb_R_false a b : b <= a -> nltb (T := R) a b = false.
Proof. intros L. destruct (nltb a b) eqn:E; auto. apply nltb_R in E. lra. Qed.
Lemma default_range (v : R) : ndiv v two = v / 2 /\ nmul v two = 2 * v.
Proof. unfold two, ndiv. change (v * / (1 + 1) = v / 2 /\ v * (1 + 1) = 2 * v). split; [|lra]. unfold Rdiv. do 2 f_equal. Qed.
Lemma float_slider_ok k (lo hi step v : R) : lo <= v <= hi -> float_slider k lo hi step v = Ok (Slider k lo hi step v).
Proof. intros [L U]. unfold float_slider. rewrite !nltb_R_false by lra. auto. Qed.
Definition the_slider (k : vkey) (lo hi v : R) : slider R := Slider k lo hi (ndiv (nsub hi lo) (nofZ 24)) v.

(** Missing: negative constants. *)
Theorem C106_sliders_partial : C106_sliders_for (fun v => 0 <= v).
Proof.
  intros m Hnd Hnm Hs Hp. destruct (loop_sliders [] (fun k v => the_slider k (v / 2) (2 * v) v) (dkeys (subs m)) [] m) as (out & m' & E & U & D); auto.
  - intros k I. destruct (dget (subs m) k) as [s|] eqn:Ek; [|apply dget_None in Ek; contradiction]. exists s. split; auto. intros ->. apply (Hs k Ek).
  - intros k v _ Ck. unfold make_slider. destruct (default_range v) as [-> ->]. cbn [rbind]. apply float_slider_ok. specialize (Hp k v Ck). lra.
  - exists out, m'. split; [exact E|]. split; auto. split.
    + intros k v Ck. exists (the_slider k (v / 2) (2 * v) v). split; [|repeat split]. apply D. left. exists k, v. split; auto.
      destruct Ck as [Ck|(? & Ck)]; eapply dget_In_keys; eauto.
    + intros name s Hd. apply D in Hd as [(k & v & _ & Ck & -> & ->)|[=]]. exists k, v. split; auto. split; auto. repeat split.
Qed.
Print Assumptions C106_sliders_partial.

(** *** A model with a positive and a negative constant, and a sweep *)
Definition var (name : string) (lineage : option lineage) : vkey := VKey name lineage None "-".
Definition vx : vkey := var "x" None.
Definition vy : vkey := var "y" None.
Definition vax : vkey := var "x" (Some [("A"%string, 0%nat)]).
Definition va1x : vkey := var "x" (Some [("A"%string, 1%nat)]).
Lemma pair_differ : NoDup [vx; vy] /\ names_differ [vx; vy].
Proof.
  split; [repeat constructor; set_solver|]. intros k k' [<-|[<-|[]]] [<-|[<-|[]]]; auto; discriminate.
Qed.
Definition ex_model (a : R) (sw : list R) : model R := Model [vx; vy] [(vx, SNum a); (vy, SSweep sw)].
Lemma ex_constant a v vs k w : constant (ex_model a (v :: vs)) k w <-> (k = vx /\ w = a) \/ (k = vy /\ w = v).
Proof.
  unfold constant, ex_model. cbn [subs dget]. destruct (decide (k = vx)) as [->|N]; [|destruct (decide (k = vy)) as [->|N']].
  - split; [intros [[= ->]|(? & [=])]; auto|]. intros [[_ ->]|[[=] _]]; auto.
  - split; [intros [[=]|(? & [= -> _])]; auto|]. intros [[[=] _]|[_ ->]]; eauto.
  - split; [intros [[=]|(? & [=])]|intros [[? _]|[? _]]; contradiction].
Qed.
Lemma ex_no_empty a v vs : no_empty_sweeps (ex_model a (v :: vs)).
Proof. intros k. cbn [ex_model subs dget]. destruct (decide _); [discriminate|]. destruct (decide _); discriminate. Qed.
Example C106_sliders_nonvacuous : exists out m', modelinteract (ex_model 3 [1; 5]) NoRanges = Ok (out, m') /\
  exists s, dget out "y" = Some s /\ slides s vy (1 / 2) (2 * 1) 1.
Proof.
  destruct (C106_sliders_partial (ex_model 3 [1; 5])) as (out & m' & E & _ & D & _); try apply pair_differ; try apply ex_no_empty.
  - intros k v C. apply ex_constant in C as [[_ ->]|[_ ->]]; lra.
  - exists out, m'. split; auto. apply (D vy 1). apply ex_constant. auto.
Qed.
Theorem C106_sliders_refuted : ~ C106_sliders_for (fun _ => True).
Proof.
  intros C. destruct (C (ex_model (-2) [1; 5])) as (out & m' & E & _); auto; try apply pair_differ; try apply ex_no_empty.
  unfold modelinteract, slider_vars in E. cbn [rbind dkeys subs ex_model map fst loop] in E. unfold add_slider at 1 in E. cbn [subs ex_model dget] in E. rewrite decide_True in E by auto.
  unfold make_slider in E. destruct (default_range (-2)) as [D1 D2]. rewrite D1, D2 in E. cbn [rbind] in E. unfold float_slider in E.
  replace (nltb (2 * -2) (-2 / 2)) with true in E by (symmetry; apply nltb_R; lra). discriminate.
Qed.
Print Assumptions C106_sliders_refuted.

(** *** Sweeps: the slider covers the values that were to be swept *)
Definition C106_sweeps_for (cond : list R -> Prop) : Prop :=
  forall m k vs, NoDup (dkeys (subs m)) -> names_differ (dkeys (subs m)) -> no_empty_sweeps m -> (forall k v, constant m k v -> 0 <= v) ->
    dget (subs m) k = Some (SSweep vs) -> cond vs ->
    exists out m' s, modelinteract m NoRanges = Ok (out, m') /\ dget out (shown_name k) = Some s /\ forall v, In v vs -> s_min s <= v <= s_max s.
Theorem C106_sweeps_partial : C106_sweeps_for (fun vs => forall v, In v vs -> hd 0 vs / 2 <= v <= 2 * hd 0 vs).
Proof.
  intros m k vs Hnd Hnm Hs Hp Hk Hc. destruct (C106_sliders_partial m) as (out & m' & E & _ & D & _); auto. destruct vs as [|v vs]; [destruct (Hs k Hk)|].
  destruct (D k v) as (s & Es & _ & Hlo & Hhi & _); [right; eauto|]. exists out, m', s. split; auto. split; auto. rewrite Hlo, Hhi. exact Hc.
Qed.
Print Assumptions C106_sweeps_partial.
Theorem C106_sweeps_refuted : ~ C106_sweeps_for (fun _ => True).
Proof.
  intros C. assert (P : forall k v, constant (ex_model 3 [1; 5]) k v -> 0 <= v) by (intros k v Ck; apply ex_constant in Ck as [[_ ->]|[_ ->]]; lra).
  destruct (C (ex_model 3 [1; 5]) vy [1; 5]) as (out & m' & s & E & Es & Hv); auto; try apply pair_differ; try apply ex_no_empty.
  destruct (C106_sliders_partial (ex_model 3 [1; 5])) as (out' & m'' & E' & _ & D & _); auto; try apply pair_differ; try apply ex_no_empty.
  rewrite E in E'. injection E' as <- <-. destruct (D vy 1) as (s' & Es' & _ & Hlo & Hhi & _); [apply ex_constant; auto|].
  rewrite Es in Es'. injection Es' as <-. specialize (Hv 5). rewrite Hhi in Hv. simpl In in Hv. lra.
Qed.
Print Assumptions C106_sweeps_refuted.

(** *** Moving sliders *)
(** The substitutions become the sliders' values; the others stay. *)
Definition C106_moves_for (cond : list vkey -> vkey -> Prop) : Prop :=
  forall (m : model R) (moved : list (vkey * R)), NoDup (vks m) -> NoDup (dkeys moved) -> (forall k v, In (k, v) moved -> In k (vks m) /\ cond (vks m) k) ->
    exists m', resolve m (map (fun '(k, v) => (shown_name k, v)) moved) = Ok m' /\ vks m' = vks m /\
      forall k, dget (subs m') k = match dget moved k with Some v => Some (SNum v) | None => dget (subs m) k end.
(** No other variable has its name as one of its names *)
Definition name_unique (l : list vkey) (k : vkey) : Prop := forall k', In k' l -> In (MStr (shown_name k)) (keys k') -> k' = k.
(** It is in no second or later instance of a model. *)
Definition first_instance (k : vkey) : Prop := forall l, vk_lineage k = Some l -> forall p, In p l -> snd p = 0%nat.
Definition scalar (k : vkey) : Prop := vk_idx k = None.
Lemma shown_is_full k : scalar k -> first_instance k -> shown_name k = full_name k.
Proof.
  unfold scalar, first_instance, shown_name, sort_name, full_name. intros -> Hf. destruct (vk_lineage k) as [[|p l]|] eqn:E; auto. do 2 f_equal.
  unfold path, lineage_names. f_equal. apply map_ext_in. intros q Hq. rewrite (Hf _ eq_refl q Hq). auto.
Qed.
Lemma filter_unique l k (f : vkey -> bool) : NoDup l -> In k l -> f k = true -> (forall k', In k' l -> f k' = true -> k' = k) -> List.filter f l = [k].
Proof.
  intros Hn Hk Hf Hu. induction l as [|x l IH]; [destruct Hk|]. inversion Hn as [|? ? Nx Nl]; subst. simpl. destruct (f x) eqn:Fx.
  - assert (x = k) as -> by (apply Hu; [left|]; auto). f_equal. assert (N : forall y, In y l -> f y = false).
    { intros y Hy. destruct (f y) eqn:Fy; auto. exfalso. apply Nx. rewrite <- (Hu y) by (try right; auto). apply elem_of_list_In. auto. }
    clear -N. induction l as [|y l IH]; auto. simpl. rewrite (N y (or_introl eq_refl)). apply IH. intros z Hz. apply N. right. auto.
  - destruct Hk as [->|Hk]; [congruence|]. apply IH; auto. intros k' I. apply Hu. right. auto.
Qed.
Lemma named_unique m k : NoDup (vks m) -> In k (vks m) -> scalar k -> first_instance k -> name_unique (vks m) k -> named (T := R) m (MStr (shown_name k)) = [k].
Proof.
  intros Hn Hk Hs Hf Hu. unfold named. apply filter_unique; auto.
  - apply bool_decide_eq_true, elem_of_list_In. rewrite shown_is_full by auto. right. left. auto.
  - intros k' I F. apply bool_decide_eq_true, elem_of_list_In in F. apply Hu; auto.
Qed.
Theorem C106_moves_partial : C106_moves_for (fun l k => scalar k /\ first_instance k /\ name_unique l k).
Proof.
  intros m moved Hn. revert m Hn. induction moved as [|[k v] moved IH]; intros m Hn Hd Hm.
  { exists m. auto. }
  cbn [map resolve loop]. unfold resolve in *. cbn [loop]. destruct (Hm k v (or_introl eq_refl)) as (Ik & Sk & Fk & Uk).
  unfold set_named at 1. rewrite named_unique by auto. cbn [rbind]. inversion Hd as [|? ? Nk Nd]; subst.
  destruct (IH (Model (vks m) (dset (subs m) k (SNum v)))) as (m' & E & V & S); auto.
  { intros k' v' I. apply (Hm k' v'). right. auto. }
  exists m'. split; auto. split; auto. intros k'. rewrite S. cbn [dget subs]. destruct (decide (k' = k)) as [->|N].
  - destruct (dget moved k) eqn:Ek; [|apply dget_dset_eq]. exfalso. apply Nk, elem_of_list_In. eapply dget_In_keys; eauto.
  - rewrite dget_dset_ne by auto. auto.
Qed.
Print Assumptions C106_moves_partial.
Example C106_moves_nonvacuous : exists m', resolve (ex_model 3 [1; 5]) [("y"%string, 2)] = Ok m' /\ dget (subs m') vy = Some (SNum 2) /\ dget (subs m') vx = Some (SNum 3).
Proof.
  destruct (C106_moves_partial (ex_model 3 [1; 5]) [(vy, 2)]) as (m' & E & _ & S).
  - apply pair_differ.
  - apply NoDup_singleton.
  - intros k v [[= <- <-]|[]]. split; [right; left; auto|]. split; [reflexivity|]. split; [intros l [=]|]. intros k' [<-|[<-|[]]] I; auto.
    exfalso. simpl in I. destruct I as [I|[I|[]]]; discriminate.
  - exists m'. split; [exact E|]. rewrite !S. split; reflexivity.
Qed.
(** A slider of a second instance of a model *)
Theorem C106_instances_refuted : ~ C106_moves_for (fun l k => scalar k /\ name_unique l k).
Proof.
  intros C. destruct (C (Model [va1x] [(va1x, SNum 1)]) [(va1x, 2)]) as (m' & E & _).
  - apply NoDup_singleton.
  - apply NoDup_singleton.
  - intros k v [[= <- <-]|[]]. split; [left; auto|]. split; [reflexivity|]. intros k' [<-|[]] _. auto.
  - discriminate E.
Qed.
Print Assumptions C106_instances_refuted.
(** x, in a model with another x in a submodel *)
Theorem C106_names_refuted : ~ C106_moves_for (fun _ k => scalar k /\ first_instance k).
Proof.
  intros C. destruct (C (Model [vx; vax] [(vx, SNum 1)]) [(vx, 2)]) as (m' & E & _).
  - repeat constructor; set_solver.
  - apply NoDup_singleton.
  - intros k v [[= <- <-]|[]]. split; [left; auto|]. split; [reflexivity|]. intros l [=].
  - discriminate E.
Qed.
Print Assumptions C106_names_refuted.

(** *** Ranges *)
Definition request := list (mapkey * (vkey * (R * R))).
Definition as_ranges (req : request) : ranges R := map (fun '(k, (_, (a, b))) => (k, Some [a; b])) req.
(** A request for sliders of constants, each called as it can be: each is for the one variable it is called by, its range includes the value. *)
Definition C106_ranges_for (how : mapkey -> Prop) : Prop :=
  forall (m : model R) (req : request), req <> [] -> NoDup (dkeys (subs m)) -> names_differ (dkeys (subs m)) ->
    NoDup (map (fun r => fst (snd r)) req) -> NoDup (dkeys req) ->
    (forall name k a b, In (name, (k, (a, b))) req -> how name /\ named m name = [k] /\ exists v, dget (subs m) k = Some (SNum v) /\ a <= v <= b) ->
    exists out m', modelinteract m (Ranges (as_ranges req)) = Ok (out, m') /\
      (forall name k a b v, In (name, (k, (a, b))) req -> constant m k v -> exists s, dget out (shown_name k) = Some s /\ slides s k a b v) /\
      (forall n s, dget out n = Some s -> exists name k a b, In (name, (k, (a, b))) req /\ n = shown_name k /\ s_key s = k).
Definition is_name (k : mapkey) : Prop := exists s, k = MStr s.
Definition keyed (req : request) : ranges R := map (fun '(_, (k, (a, b))) => (MKey k, Some [a; b])) req.
Lemma to_keys_loop (m : model R) (todo : request) : forall done,
  NoDup (map (fun r => fst (snd r)) (done ++ todo)) -> NoDup (dkeys todo) ->
  (forall name k a b, In (name, (k, (a, b))) todo -> is_name name /\ named m name = [k] /\ exists v, dget (subs m) k = Some (SNum v)) ->
  loop (to_keys m) (map (fun r => fst (snd r)) done, as_ranges todo ++ keyed done) (dkeys todo) =
    Ok (map (fun r => fst (snd r)) (done ++ todo), keyed (done ++ todo)).
Proof.
  induction todo as [|[name [k [a b]]] todo IH]; intros done Hd Ht Hm.
  { rewrite app_nil_r. reflexivity. }
  destruct (Hm name k a b (or_introl eq_refl)) as ((s & ->) & Hk & v & Hv). cbn [dkeys map fst loop]. unfold to_keys at 1.
  assert (Hin : in_subs m (MStr s) = true). { unfold in_subs. rewrite Hk. unfold dmem. rewrite Hv. auto. }
  rewrite Hin, Hk. assert (Hg : dget (as_ranges ((MStr s, (k, (a, b))) :: todo) ++ keyed done) (MStr s) = Some (Some [a; b])).
  { cbn. destruct (decide (MStr s = MStr s)); congruence. }
  rewrite Hg. cbn [fold_left rbind].
  assert (Hnew : ~ In k (map (fun r : mapkey * (vkey * (R * R)) => fst (snd r)) done)).
  { intros I. rewrite map_app in Hd. apply NoDup_app in Hd as (_ & Hd & _). apply (Hd k); [apply elem_of_list_In; auto|]. cbn. left. }
  assert (Hadd : add k (map (fun r : mapkey * (vkey * (R * R)) => fst (snd r)) done) = map (fun r => fst (snd r)) (done ++ [(MStr s, (k, (a, b)))])).
  { unfold add. rewrite bool_decide_eq_false_2 by (rewrite elem_of_list_In; auto). rewrite map_app. reflexivity. }
  rewrite Hadd. assert (Hset : ddel (dset (as_ranges ((MStr s, (k, (a, b))) :: todo) ++ keyed done) (MKey k) (Some [a; b])) (MStr s) = as_ranges todo ++ keyed (done ++ [(MStr s, (k, (a, b)))])).
  { rewrite dset_absent.
    - unfold keyed. rewrite map_app. cbn [as_ranges map app]. cbn [ddel]. destruct (decide (MStr s = MStr s)); [|congruence]. rewrite app_assoc. reflexivity.
    - intros I. unfold dkeys in I. rewrite map_app in I. apply in_app_or in I as [I|I].
      + unfold as_ranges in I. rewrite map_map in I. apply in_map_iff in I as ([n [k' [a' b']]] & E & I). cbn in E. subst n.
        destruct (Hm _ _ _ _ I) as ((s' & [=]) & _).
      + unfold keyed in I. rewrite map_map in I. apply in_map_iff in I as ([n [k' [a' b']]] & E & I). cbn in E. injection E as <-. apply Hnew. apply in_map_iff. eexists. split; [|exact I]. reflexivity. }
  change (map fst todo) with (dkeys todo). rewrite Hset, (IH (done ++ [(MStr s, (k, (a, b)))])).
  - rewrite <- app_assoc. reflexivity.
  - rewrite <- app_assoc. exact Hd.
  - inversion Ht; auto.
  - intros n' k' a' b' I. apply (Hm n' k' a' b'). right. auto.
Qed.
Lemma keyed_get (req : request) name k a b : NoDup (map (fun r => fst (snd r)) req) -> In (name, (k, (a, b))) req -> dget (keyed req) (MKey k) = Some (Some [a; b]).
Proof.
  induction req as [|[n [k' [a' b']]] req IH]; intros Hn Hi; [destruct Hi|]. destruct Hi as [E|I].
  - injection E as -> -> -> ->. cbn. rewrite decide_True by auto. auto.
  - cbn [keyed map dget]. inversion Hn as [|? ? N Nd]; subst. destruct (decide (MKey k = MKey k')) as [[= ->]|]; [|apply IH; auto].
    exfalso. apply N. cbn. apply elem_of_list_In, in_map_iff. eexists. split; [|exact I]. reflexivity.
Qed.
(** Missing: requests by variable. *)
Theorem C106_ranges_partial : C106_ranges_for is_name.
Proof.
  intros m req Hne Hnd Hnm Hk Hn Hm.
  assert (L := to_keys_loop m req [] Hk Hn). cbn [app map] in L. rewrite app_nil_r in L.
  assert (L' : slider_vars m (Ranges (as_ranges req)) = Ok (map (fun r => fst (snd r)) req, keyed req)).
  { rewrite <- L.
    - destruct req as [|[n [k [a b]]] req]; [congruence|]. unfold slider_vars. cbn [as_ranges map]. f_equal. unfold dkeys. cbn [map fst]. f_equal. fold (as_ranges req).
      unfold as_ranges. rewrite map_map. apply map_ext. intros [? [? [? ?]]]. auto.
    - intros name k a b I. destruct (Hm name k a b I) as (H1 & H2 & v & H3 & _). eauto. }
  unfold modelinteract. rewrite L'. cbn [rbind].
  assert (In_req : forall k, In k (map (fun r : mapkey * (vkey * (R * R)) => fst (snd r)) req) -> exists name a b, In (name, (k, (a, b))) req).
  { intros k I. apply in_map_iff in I as ([n [k' [a b]]] & <- & I). eauto. }
  set (mk := fun k v => match dget (keyed req) (MKey k) with Some (Some [a; b]) => the_slider k a b v | _ => the_slider k v v v end).
  destruct (loop_sliders (keyed req) mk (map (fun r => fst (snd r)) req) [] m) as (out & m' & E & _ & D); auto.
  - intros k I. destruct (In_req k I) as (name & a & b & Ir). destruct (Hm name k a b Ir) as (_ & _ & v & Hv & _). exists (SNum v). split; auto; discriminate.
  - intros k v I Ck. destruct (In_req k I) as (name & a & b & Ir). destruct (Hm name k a b Ir) as (_ & _ & w & Hw & Hab).
    assert (w = v) as -> by (destruct Ck as [Ck|(? & Ck)]; congruence). unfold mk, make_slider. rewrite (keyed_get req name k a b Hk Ir).
    destruct (keyed req) eqn:Eq; [exfalso; destruct req as [|[? [? [? ?]]] ?]; [auto|discriminate]|]. cbn [rbind]. apply float_slider_ok. auto.
  - intros k k' I I'. destruct (In_req k I) as (? & ? & ? & Ir). destruct (In_req k' I') as (? & ? & ? & Ir'). destruct (Hm _ _ _ _ Ir) as (_ & _ & ? & Hv & _). destruct (Hm _ _ _ _ Ir') as (_ & _ & ? & Hv' & _).
    apply Hnm; eapply dget_In_keys; eauto.
  - exists out, m'. split; auto. split.
    + intros name k a b v I Ck. exists (the_slider k a b v). split; [|repeat split]. apply D. left. exists k, v. split; [apply in_map_iff; eexists; split; [|exact I]; reflexivity|].
      split; auto. split; auto. unfold mk. rewrite (keyed_get req name k a b Hk I). auto.
    + intros n s Hs. apply D in Hs as [(k & v & I & _ & -> & ->)|[=]]. destruct (In_req k I) as (name & a & b & Ir). exists name, k, a, b. split; auto. split; auto.
      unfold mk. rewrite (keyed_get req name k a b Hk Ir). auto.
Qed.
Print Assumptions C106_ranges_partial.
Definition ex_two : model R := Model [vx; vy] [(vx, SNum 3); (vy, SNum 4)].
Lemma ex_two_ranges name : named ex_two name = [vx] -> forall how : mapkey -> Prop, how name -> forall n k a b, In (n, (k, (a, b))) [(name, (vx, (1, 10)))] ->
  how n /\ named ex_two n = [k] /\ exists v, dget (subs ex_two) k = Some (SNum v) /\ a <= v <= b.
Proof. intros Hn how Hh n k a b [[= <- <- <- <-]|[]]. split; auto. split; auto. exists 3. split; [reflexivity|lra]. Qed.
Example C106_ranges_nonvacuous : exists out m' s, modelinteract ex_two (Ranges [(MStr "x", Some [1; 10])]) = Ok (out, m') /\ dget out "x" = Some s /\ slides s vx 1 10 3.
Proof.
  destruct (C106_ranges_partial ex_two [(MStr "x", (vx, (1, 10)))]) as (out & m' & E & D & _); try discriminate; try apply pair_differ; try apply NoDup_singleton.
  - apply ex_two_ranges; [reflexivity|eexists; reflexivity].
  - destruct (D (MStr "x") vx 1 10 3) as (s & Hs & Hsl); [left; auto|left; reflexivity|]. exists out, m', s. auto.
Qed.
(** Asked for by its key, x's slider has the default range. *)
Theorem C106_ranges_refuted : ~ C106_ranges_for (fun _ => True).
Proof.
  intros C. destruct (C ex_two [(MKey vx, (vx, (1, 10)))]) as (out & m' & E & D & _); try discriminate; try apply pair_differ; try apply NoDup_singleton.
  - apply ex_two_ranges; [reflexivity|auto].
  - destruct (D (MKey vx) vx 1 10 3) as (s & Hs & Hsl); [left; auto|left; reflexivity|].
    assert (E' : modelinteract ex_two (Ranges (as_ranges [(MKey vx, (vx, (1, 10)))])) = Ok ([("x"%string, the_slider vx (3 / 2) (2 * 3) 3)], ex_two)).
    { unfold modelinteract, slider_vars. cbn [as_ranges map dkeys fst loop]. unfold to_keys. change (in_subs ex_two (MKey vx)) with true. cbn [dget]. rewrite decide_True by auto.
      change (named ex_two (MKey vx)) with [vx]. cbn [fold_left rbind dset]. rewrite decide_True by auto. cbn [ddel]. rewrite decide_True by auto.
      change (add vx []) with [vx]. cbn [loop]. unfold add_slider. change (dget (subs ex_two) vx) with (Some (SNum 3)). unfold make_slider. destruct (default_range 3) as [-> ->]. cbn [rbind].
      rewrite float_slider_ok by lra. reflexivity. }
    rewrite E' in E. injection E as <- <-. cbn [dget] in Hs. destruct (decide _) as [_|N]; [|apply N; reflexivity]. injection Hs as <-. destruct Hsl as (_ & Hlo & _). cbn in Hlo. lra.
Qed.
Print Assumptions C106_ranges_refuted.
(** A range of three numbers, as in the docstring, raises an error whatever they are. *)
Theorem C106_steps_refuted : ~ forall (m : model R) k a step b v, named m (MStr (shown_name k)) = [k] -> dget (subs m) k = Some (SNum v) -> a <= v <= b ->
  exists out m', modelinteract m (Ranges [(MStr (shown_name k), Some [a; step; b])]) = Ok (out, m').
Proof.
  intros C. destruct (C ex_two vx 1 1 10 3) as (out & m' & E); [reflexivity|reflexivity|lra|]. discriminate E.
Qed.
Print Assumptions C106_steps_refuted.
(** A constant asked for by a name that another has too has no slider. *)
Theorem C106_shared_names_refuted : ~ forall (m : model R) k v, In k (vks m) -> dget (subs m) k = Some (SNum v) -> 0 <= v ->
  exists out m' s, modelinteract m (Listed [MStr (shown_name k)]) = Ok (out, m') /\ dget out (shown_name k) = Some s.
Proof.
  intros C. destruct (C (Model [vx; vax] [(vx, SNum 1)]) vx 1) as (out & m' & s & E & Hs); [left; auto|reflexivity|lra|].
  assert (E' : modelinteract (Model [vx; vax] [(vx, SNum 1)]) (Listed [MStr (shown_name vx)]) = Ok ([], Model [vx; vax] [(vx, SNum 1)])) by reflexivity.
  rewrite E' in E. injection E as <- <-. discriminate.
Qed.
Print Assumptions C106_shared_names_refuted.
