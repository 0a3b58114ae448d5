(** The loop of localsolve. *)
From Verif Require Import Base HashVec Nomial NomialSem Sub Mono Constraint GPGen SGP SGPSem.
Open Scope R_scope.

Section Loop.
Variables (inf : R) (pick : gmap nat R -> hmap R -> schedule) (vks_of : hmap R -> list nat)
  (ord : gmap nat R -> list nat) (se : bool) (solver : solver_fn R) (verbosity limit : Z) (reltol : R).

Definition heard : Prop := (-1 < verbosity)%Z.

(** Before the newest pair every pair went on for a reason. *)
Definition reason (pre : list R) (a b : R) : Prop :=
  reltol < improvement a b \/ (heard /\ rose a b) \/ (heard /\ exists pre' z, pre = pre' ++ [z] /\ rose z a).

Record linv (cost rel : option R) (hist : list (solved R)) : Prop := {
  li_len : hist = [] \/ (Z.of_nat (length hist) <= limit + 1)%Z;
  li_none : cost = None -> rel = None;
  li_start : hist = [] -> cost = None;
  li_cost : forall c, cost = Some c -> exists pre, costs hist = pre ++ [c];
  li_rel : forall r, rel = Some r -> exists pre a b, costs hist = pre ++ [a; b] /\ r = improvement a b /\
             a + b <> 0 /\ (heard -> ~ rose a b);
  li_old : forall pre a b post, costs hist = pre ++ [a; b] ++ post -> post <> [] -> reason pre a b;
  li_last : forall pre a b, costs hist = pre ++ [a; b] ->
              (exists r, rel = Some r /\ r = improvement a b) \/
              (cost = None /\ heard /\ rose a b) \/ (heard /\ exists pre' z, pre = pre' ++ [z] /\ rose z a);
  li_reset : cost = None -> hist = [] \/ (heard /\ exists pre a b, costs hist = pre ++ [a; b] /\ rose a b)
}.

Definition good_end (out : outcome R) : Prop :=
  match out with
  | OutOfFuel => False
  | Raised _ hist => (Z.of_nat (length hist) <= Z.max 0 (limit + 1))%Z
  | Returned hist => (Z.of_nat (length hist) <= limit + 1)%Z /\
      exists pre a b, costs hist = pre ++ [a; b] /\ improvement a b <= reltol /\ (heard -> ~ rose a b) /\
        forall pre' c d post, pre ++ [a] = pre' ++ [c; d] ++ post -> reason pre' c d
  end.

Lemma app_last_inj {A} (l l' : list A) x y : l ++ [x] = l' ++ [y] -> l = l' /\ x = y.
Proof. apply app_inj_tail. Qed.
Lemma two_last {A} (l : list A) a b : l ++ [a; b] = (l ++ [a]) ++ [b].
Proof. rewrite <- app_assoc. reflexivity. Qed.

Lemma costs_snoc hist s v c : costs (hist ++ [SOL s v c]) = costs hist ++ [c].
Proof. unfold costs. rewrite map_app. reflexivity. Qed.

Lemma nltb_R a b : nltb (T := R) a b = true <-> a < b.
Proof. cbn [nltb R_num]. unfold Rltb. destruct (Rlt_dec a b); split; auto; discriminate. Qed.
Lemma nltb_R_false a b : nltb (T := R) a b = false <-> b <= a.
Proof. cbn [nltb R_num]. unfold Rltb. destruct (Rlt_dec a b); split; auto; try discriminate; lra. Qed.

Lemma eps_val : @eps R _ = 1 / 1000000.
Proof. unfold eps, ndiv. cbn. lra. Qed.

Lemma split_last {A} (l pre : list A) (x a b : A) post : l ++ [x] = pre ++ [a; b] ++ post ->
  (post = [] /\ x = b /\ l = pre ++ [a]) \/ (exists post', post = post' ++ [x] /\ l = pre ++ [a; b] ++ post').
Proof.
  intros E. destruct (decide (post = [])) as [->|Hp].
  - left. rewrite app_nil_r, two_last in E. apply app_last_inj in E as [-> ->]. auto.
  - right. destruct (exists_last Hp) as (post' & y & ->). rewrite !app_assoc in E. apply app_last_inj in E as [-> ->].
    exists post'. rewrite <- !app_assoc. auto.
Qed.

Lemma loop_end fuel : forall s x0 cost rel hist, linv cost rel hist ->
  (limit + 2 - Z.of_nat (length hist) <= Z.of_nat fuel)%Z -> (0 < fuel)%nat ->
  good_end (local_loop inf pick vks_of ord se solver verbosity limit reltol fuel s x0 cost rel hist).
Proof.
  induction fuel as [|fuel IH]; intros s x0 cost rel hist Hi Hf Hpos; [lia|].
  set (G := good_end _).
  assert (Hgo : (rel = None \/ exists r, rel = Some r /\ reltol < r) ->
    good_end (let prevcost := cost in
        if (limit <? Z.of_nat (length hist))%Z then Raised InfeasibleE hist else
        match sgp_gp inf pick vks_of ord se s x0 with
        | Err x => Raised x hist
        | Ok s' =>
            match solver (length hist) (sg_gp s') with
            | Err x => Raised x hist
            | Ok (vals, c) =>
                let hist' := hist ++ [SOL s' vals c] in
                let x0' := x0_dict (sg_gp s') vals in
                match prevcost with
                | None => local_loop inf pick vks_of ord se solver verbosity limit reltol fuel s' x0' (Some c) rel hist'
                | Some pc =>
                    if decide (nadd pc c = n0) then Raised ZeroDivisionE hist' else
                    let rel' := ndiv (nsub pc c) (nadd pc c) in
                    if nltb (nadd pc eps) (nmul c (nsub n1 eps)) && (-1 <? verbosity)%Z then
                      if decide (pc = n0) then Raised ZeroDivisionE hist' else
                      local_loop inf pick vks_of ord se solver verbosity limit reltol fuel s' x0' None None hist'
                    else local_loop inf pick vks_of ord se solver verbosity limit reltol fuel s' x0' (Some c) (Some rel') hist'
                end
            end
        end)).
  { intros Hrel. cbv zeta.
    assert (Hlen0 : (Z.of_nat (length hist) <= Z.max 0 (limit + 1))%Z).
    { destruct (li_len _ _ _ Hi) as [->|]; cbn; lia. }
    destruct (Z.ltb_spec limit (Z.of_nat (length hist))) as [Hl|Hl]; [exact Hlen0|].
    destruct (sgp_gp _ _ _ _ _ s x0) as [s'|x]; [|exact Hlen0].
    destruct (solver (length hist) (sg_gp s')) as [[vals c]|x]; [|exact Hlen0].
    set (hist' := hist ++ [SOL s' vals c]). set (x0' := x0_dict (sg_gp s') vals).
    assert (Hc : costs hist' = costs hist ++ [c]) by apply costs_snoc.
    assert (Hlen' : (Z.of_nat (length hist') <= limit + 1)%Z).
    { unfold hist'. rewrite app_length. cbn. lia. }
    assert (Hf' : (limit + 2 - Z.of_nat (length hist') <= Z.of_nat fuel)%Z).
    { unfold hist'. rewrite app_length. cbn. lia. }
    assert (Hp' : (0 < fuel)%nat) by lia.
    assert (Hold : forall pre a b post, costs hist' = pre ++ [a; b] ++ post -> post <> [] -> reason pre a b).
    { intros pre a b post E Hne. rewrite Hc in E. apply split_last in E as [(-> & _)|(post' & -> & E)]; [congruence|].
      destruct (decide (post' = [])) as [->|Hp].
      - rewrite app_nil_r in E. destruct (li_last _ _ _ Hi _ _ _ E) as [(r & Er & Hr)|[(_ & H1 & H2)|(H1 & H2)]].
        + left. destruct Hrel as [Hn|(r' & Hr' & Hlt)]; [congruence|]. assert (r' = r) as -> by congruence. rewrite <- Hr. auto.
        + right; left; auto.
        + right; right; auto.
      - eapply (li_old _ _ _ Hi); eauto. }
    assert (Hne : hist' <> []) by (unfold hist'; destruct hist; discriminate).
    assert (Hraise : good_end (Raised ZeroDivisionE hist')) by (cbn [good_end]; lia).
    destruct cost as [pc|].
    - destruct (li_cost _ _ _ Hi pc eq_refl) as (pre & Epc).
      assert (E2 : costs hist' = pre ++ [pc; c]) by (rewrite Hc, Epc, <- app_assoc; reflexivity).
      destruct (decide (nadd pc c = n0)) as [Hz|Hz]; [exact Hraise|]. cbn [nadd n0 R_num] in Hz.
      assert (Hrv : ndiv (nsub pc c) (nadd pc c) = improvement pc c) by reflexivity.
      destruct (nltb (nadd pc eps) (nmul c (nsub n1 eps)) && (-1 <? verbosity)%Z) eqn:Eb.
      + apply andb_prop in Eb as [E3 E4]. apply nltb_R in E3. apply Z.ltb_lt in E4.
        cbn [nadd nmul nsub nopp n1 R_num] in E3. rewrite eps_val in E3.
        assert (Hr : rose pc c) by (unfold rose; lra).
        destruct (decide (pc = n0)); [exact Hraise|].
        apply IH; auto. constructor; auto; try discriminate.
        * intros pre0 a b E. rewrite E2, !two_last in E. apply app_last_inj in E as [E ->]. apply app_last_inj in E as [-> ->].
          right; left. auto.
        * intros _. right. split; auto. exists pre, pc, c. auto.
      + assert (Hnr : heard -> ~ rose pc c).
        { intros Hh Hr. apply andb_false_iff in Eb as [E3|E3].
          - apply nltb_R_false in E3. cbn [nadd nmul nsub nopp n1 R_num] in E3. rewrite eps_val in E3. unfold rose in Hr. lra.
          - apply Z.ltb_ge in E3. unfold heard in Hh. lia. }
        apply IH; auto. constructor; auto; try discriminate; try contradiction.
        * intros c0 [= <-]. exists (costs hist). auto.
        * intros r [= <-]. exists pre, pc, c. split; [auto|]. auto.
        * intros pre0 a b E. rewrite E2, !two_last in E. apply app_last_inj in E as [E ->]. apply app_last_inj in E as [-> ->].
          left. exists (improvement a b). split; [auto|]. auto.
    - pose proof (li_none _ _ _ Hi eq_refl) as ->. apply IH; auto. constructor; auto; try discriminate; try contradiction.
      + intros c0 [= <-]. exists (costs hist). auto.
      + intros pre a b E. rewrite Hc, two_last in E. apply app_last_inj in E as [E ->].
        right; right. destruct (li_reset _ _ _ Hi eq_refl) as [->|(Hh & pre0 & y & z & E0 & Hr)].
        * destruct pre; discriminate.
        * split; auto. rewrite E0, two_last in E. apply app_last_inj in E as [<- <-]. exists pre0, y. auto. }
  unfold G. cbn [local_loop]. destruct rel as [r|]; [|apply Hgo; auto].
  destruct (nltb reltol r) eqn:E; [apply Hgo; right; exists r; split; auto; apply nltb_R; auto|].
  apply nltb_R_false in E. destruct (li_rel _ _ _ Hi r eq_refl) as (pre & a & b & Ec & Hr & Hz & Hnr).
  split.
  - destruct (li_len _ _ _ Hi) as [->|]; auto. destruct pre; discriminate.
  - exists pre, a, b. split; auto. split; [rewrite <- Hr; auto|]. split; auto.
    intros pre' c d post E2. apply (li_old _ _ _ Hi pre' c d (post ++ [b])).
    + rewrite Ec, two_last, E2, <- !app_assoc. reflexivity.
    + destruct post; discriminate.
Qed.

Lemma localsolve_end s x0 : good_end (localsolve inf pick vks_of ord se solver verbosity limit reltol s x0).
Proof.
  unfold localsolve. apply loop_end; [|cbn [length]; lia|lia].
  constructor; auto; try discriminate.
  - intros [|? [|? ?]]; discriminate.
  - intros [|? [|? ?]]; discriminate.
Qed.
End Loop.
