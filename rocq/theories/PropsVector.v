(** C78-C80: declarations of variables and vectors, in vectorized environments too, and views of models. *)
From Verif Require Import Base Settings Layout PropsLayout KeyDict Vector.
From Coq Require Import Strings.String QArith.
Local Open Scope list_scope.
Open Scope nat_scope.

(** ** C78 *)

(** *** Specification *)
Definition words {T Env} (args : list (arg T Env)) : list text := flat_map (fun a => match a with Str s => [s] | Val _ => [] end) args.
Definition values {T Env} (args : list (arg T Env)) : list (value T Env) := flat_map (fun a => match a with Str _ => [] | Val v => [v] end) args.
(** Each field that is not given takes the next word. *)
Fixpoint fill (fields : list (option text)) (ws : list text) : list (option text) :=
  match fields, ws with
  | [], _ => []
  | Some x :: fields', _ => Some x :: fill fields' ws
  | None :: fields', w :: ws' => Some w :: fill fields' ws'
  | None :: fields', [] => None :: fill fields' []
  end.
(** A list or array given for a single variable is a sweep of it. *)
Definition meant {T Env} (v : value T Env) : declared T Env := match v with Num _ | Fn _ => Plain v | Listed _ | Array _ => Swept v end.

Lemma fill_nil fs : fill fs [] = fs.
Proof. induction fs as [|[x|] fs IH]; simpl; congruence. Qed.

(** The words among the arguments are the name, units and label, those that are not given by keyword, in this order, wherever the value is.
    The one value there is, by keyword or not, is the value. *)
Theorem C78_variable_partial : forall (T Env : Type) (d : descr (declared T Env)) (args : list (arg T Env)),
  let r := variable_args d args in
  [d_name r; d_units r; d_label r] = fill [d_name d; d_units d; d_label d] (words args) /\
  (values args = [] -> d_value r = d_value d) /\ (forall v, values args = [v] -> d_value d = None -> d_value r = Some (meant v)).
Proof.
  intros T Env d args. cbv zeta. unfold variable_args. revert d. induction args as [|a args IH]; intros d; cbn [fold_left].
  - split; [simpl; destruct (d_name d), (d_units d), (d_label d); auto|]. split; [auto|]. intros v E. discriminate E.
  - destruct (IH (variable_arg d a)) as (F & V0 & V1). rewrite F. clear F. split; [|split].
    + destruct a as [s|v].
      * unfold words. cbn [flat_map app]. fold (words args). unfold variable_arg. destruct (d_name d) as [n|] eqn:En, (d_units d) as [u|] eqn:Eu, (d_label d) as [l|] eqn:El; simpl; rewrite ?En, ?Eu, ?El; reflexivity.
      * unfold words. cbn [flat_map app]. fold (words args). unfold variable_arg. destruct v; auto. destruct (d_value d); auto.
    + destruct a as [s|v]; [|discriminate]. unfold values. cbn [flat_map app]. intros E. rewrite (V0 E). unfold variable_arg. destruct (d_name d), (d_units d), (d_label d); auto.
    + intros v. destruct a as [s|v'].
      * unfold values. cbn [flat_map app]. intros E D. apply V1; [exact E|]. unfold variable_arg. destruct (d_name d), (d_units d), (d_label d); auto.
      * unfold values. cbn [flat_map app]. intros E D. injection E as -> E. rewrite (V0 E). unfold variable_arg. destruct v; try reflexivity. rewrite D. reflexivity.
Qed.
Print Assumptions C78_variable_partial.
Theorem C78_vector_partial : forall (T Env : Type) (d : descr (value T Env)) (args : list (arg T Env)),
  let r := vector_args d args in
  [d_name r; d_units r; d_label r] = fill [d_name d; d_units d; d_label d] (words args) /\
  (values args = [] -> d_value r = d_value d) /\ (forall v, values args = [v] -> d_value d = None -> d_value r = Some v).
Proof.
  intros T Env d args. cbv zeta. unfold vector_args. revert d. induction args as [|a args IH]; intros d; cbn [fold_left].
  - split; [simpl; destruct (d_name d), (d_units d), (d_label d); auto|]. split; [auto|]. intros v E. discriminate E.
  - destruct (IH (vector_arg d a)) as (F & V0 & V1). rewrite F. clear F. split; [|split].
    + destruct a as [s|v].
      * unfold words. cbn [flat_map app]. fold (words args). unfold vector_arg. destruct (d_name d) as [n|] eqn:En, (d_units d) as [u|] eqn:Eu, (d_label d) as [l|] eqn:El; simpl; rewrite ?En, ?Eu, ?El; reflexivity.
      * unfold words. cbn [flat_map app]. fold (words args). unfold vector_arg. destruct v; auto; destruct (d_value d); auto.
    + destruct a as [s|v]; [|discriminate]. unfold values. cbn [flat_map app]. intros E. rewrite (V0 E). unfold vector_arg. destruct (d_name d), (d_units d), (d_label d); auto.
    + intros v. destruct a as [s|v'].
      * unfold values. cbn [flat_map app]. intros E D. apply V1; [exact E|]. unfold vector_arg. destruct (d_name d), (d_units d), (d_label d); auto.
      * unfold values. cbn [flat_map app]. intros E D. injection E as -> E. rewrite (V0 E). unfold vector_arg. destruct v; try reflexivity; rewrite D; reflexivity.
Qed.
Print Assumptions C78_vector_partial.
Definition nothing {D} : descr D := Descr None None None None.
(** [Variable("x", 3, "m", "length")] *)
Example C78_nonvacuous : variable_args nothing [Str (chars "x"); Val (Num 3); Str (chars "m"); Str (chars "length")] =
  (Descr (Some (chars "x")) (Some (Plain (Num 3))) (Some (chars "m")) (Some (chars "length")) : descr (declared nat unit)).
Proof. reflexivity. Qed.

(** Not every argument counts: a fourth word is ignored, *)
Theorem C78_fourth_word_refuted : forall (T Env : Type) (d : descr (declared T Env)) (a b c e : text),
  d_name d = None -> variable_args d [Str a; Str b; Str c; Str e] = variable_args d [Str a; Str b; Str c].
Proof.
  intros T Env d a b c e. unfold variable_args. cbn [fold_left]. set (d3 := variable_arg _ (Str c)). intros Hn.
  assert (H : d_name d3 <> None /\ d_units d3 <> None /\ d_label d3 <> None).
  { subst d3. unfold variable_arg. rewrite Hn. cbn. destruct (d_units d) as [u|] eqn:Eu, (d_label d) as [l|] eqn:El; cbn; rewrite ?Eu, ?El; cbn; repeat split; congruence. }
  destruct H as (H1 & H2 & H3). unfold variable_arg. destruct (d_name d3); [|congruence]. destruct (d_units d3); [|congruence]. destruct (d_label d3); [reflexivity|congruence].
Qed.
Print Assumptions C78_fourth_word_refuted.
(** and of two values, it is the last for a variable and the first for a vector, be it a keyword. *)
Theorem C78_two_values_refuted : forall (Env : Type) (x y : nat) (a b : array nat),
  d_value (variable_args (Descr None (Some (Plain (Num y))) None None : descr (declared nat Env)) [Val (Num x)]) = Some (Plain (Num x)) /\
  d_value (vector_args (Descr None (Some (Listed b)) None None : descr (value nat Env)) [Val (Listed a)]) = Some (Listed b).
Proof. intros. split; reflexivity. Qed.
Print Assumptions C78_two_values_refuted.

(** ** C79 *)

Section Values.
Context {T Env : Type}.
Variable single : T -> T.
Implicit Types v : value T Env.
(** What can be declared: vectors of the arguments [args] *)
Notation declare := (array_variable (Env := Env) single).

(** The value of each element of a vector of own shape [shape] is that declared for its own index, wherever it is in the other dimensions. *)
Definition has_values (shape : list nat) (want : list nat -> option T) (vars : list (variable T Env)) : Prop :=
  forall x, In x vars -> exists own, index_of shape own /\ (exists j, v_idx x = own ++ j) /\ d_value (v_descr x) = option_map Const (want own).
Definition declared_values v : option (list nat * (list nat -> T)) :=
  match v with Num x => Some ([], fun _ => x) | Listed a | Array a => Some (dims a, elt a) | Fn _ => None end.
End Values.

(** A vector has one variable for each index of its shape, which is its own and the current vectorization, in order; all have the same
    name, units and label. *)
Theorem C79_elements : forall (T Env : Type) (single : T -> T) vectorization shape (d : descr (value T Env)) args shape' vars,
  array_variable single vectorization shape d args = Ok (shape', vars) ->
  shape' = shape ++ vectorization /\ NoDup (map v_idx vars) /\ (forall idx, In idx (map v_idx vars) <-> index_of shape' idx) /\
  forall x, In x vars -> [d_name (v_descr x); d_units (v_descr x); d_label (v_descr x)] = fill [d_name d; d_units d; d_label d] (words args).
Proof.
  intros T Env single vectorization shape d args shape' vars E. unfold array_variable in E.
  destruct (match d_value (vector_args d args) with Some _ => _ | None => _ end) as [f|e]; [|discriminate E]. simpl in E. injection E as <- <-.
  split; [auto|]. rewrite map_map. simpl. rewrite map_id. split; [apply indices_NoDup|]. split; [apply indices_In|].
  intros x I. apply in_map_iff in I as (i & <- & _). simpl. apply C78_vector_partial.
Qed.
Print Assumptions C79_elements.

Lemma checked_ok {T Env} shape (a : array T) : dims a = shape -> checked (Env := Env) shape a = Ok (fun i => Const (elt a i)).
Proof. intros E. unfold checked. destruct (decide _); [auto|contradiction]. Qed.
Lemma app_index shape vec idx : index_of (shape ++ vec) idx -> index_of shape (firstn (List.length shape) idx) /\ idx = firstn (List.length shape) idx ++ skipn (List.length shape) idx.
Proof.
  intros H. apply Forall2_app_inv_r in H as (own & j & H1 & H2 & ->). assert (L : List.length own = List.length shape) by (eapply Forall2_length; exact H1).
  rewrite firstn_skipn. split; [|auto]. rewrite <- L, firstn_app, Nat.sub_diag, firstn_all. simpl. rewrite app_nil_r. exact H1.
Qed.
(** The elements' values are those of a function of the own index. *)
Lemma has_values_of {T Env} (single : T -> T) vec shape (d : descr (value T Env)) args v f g :
  d_value (vector_args d args) = Some v -> element_values single vec (shape ++ vec) v = Ok f ->
  (forall idx, index_of (shape ++ vec) idx -> f idx = Const (g (firstn (List.length shape) idx))) ->
  exists vars, array_variable single vec shape d args = Ok (shape ++ vec, vars) /\ has_values shape (fun i => Some (g i)) vars.
Proof.
  intros Ev Ef H. unfold array_variable. rewrite Ev, Ef. simpl. eexists. split; [reflexivity|]. intros x I. apply in_map_iff in I as (i & <- & I).
  apply indices_In in I. pose proof (H i I) as Hi. destruct (app_index shape vec i I) as [I1 I2]. exists (firstn (List.length shape) i). split; [exact I1|].
  split; [eexists; exact I2|]. simpl. rewrite Hi. reflexivity.
Qed.
(** What numpy arrays become in vectorized environments *)
Lemma array_values {T Env} (single : T -> T) n vec shape (a : array T) : broadcastable (rev (dims a)) shape = true ->
  exists f, element_values (Env := Env) single (n :: vec) shape (Array a) = Ok f /\ forall i, f i = Const (elt a (rev (clamp (rev (dims a)) i))).
Proof.
  intros B. unfold element_values, broadcast_to. rewrite rev_involutive, B. cbn [rbind].
  rewrite checked_ok by (unfold transpose; cbn [dims]; apply rev_involutive). unfold transpose. cbn [elt]. eexists. split; [reflexivity|].
  intros i. cbn beta. rewrite rev_involutive. reflexivity.
Qed.

(** Outside of vectorized environments the value of each element is that of the list or array, which must have the shape;
    in them this holds for arrays of one dimension. What is missing: lists, numbers and arrays of more dimensions (below). *)
Theorem C79_values_partial : forall (T Env : Type) (single : T -> T) vectorization shape (d : descr (value T Env)) args a,
  d_value d = None -> (values args = [Array a] /\ (vectorization = [] \/ List.length shape <= 1) \/ values args = [Listed a] /\ vectorization = []) -> dims a = shape ->
  exists vars, array_variable single vectorization shape d args = Ok (shape ++ vectorization, vars) /\ has_values shape (fun i => Some (elt a i)) vars.
Proof.
  intros T Env single vec shape d args a Hd Hv Hs. destruct (C78_vector_partial T Env d args) as (_ & _ & V).
  assert (F : forall idx, index_of (shape ++ []) idx -> firstn (List.length shape) idx = idx).
  { intros idx I. apply Forall2_length in I. rewrite app_nil_r in I. rewrite <- I. apply firstn_all. }
  destruct Hv as [[Hv Hc]|[Hv ->]].
  - specialize (V _ Hv Hd). destruct vec as [|n vec].
    + eapply has_values_of; [exact V|simpl; apply checked_ok; rewrite app_nil_r; exact Hs|]. intros idx I. simpl. rewrite (F idx I). reflexivity.
    + destruct Hc as [Hc|Hc]; [discriminate Hc|].
      destruct (array_values (Env := Env) single n vec (shape ++ n :: vec) a) as (f & E & Hf).
      { rewrite Hs. destruct shape as [|m [|m' shape]]; [reflexivity| |simpl in Hc; lia]. simpl. rewrite Nat.eqb_refl. reflexivity. }
      eapply has_values_of; [exact V|exact E|]. intros idx I. rewrite Hf, Hs. destruct shape as [|m [|m' shape]]; [reflexivity| |simpl in Hc; lia].
      inversion I as [|i ? r ? Hi]; subst. simpl. destruct (Nat.eqb_spec m 1); simpl; repeat f_equal. lia.
  - specialize (V _ Hv Hd). eapply has_values_of; [exact V|simpl; apply checked_ok; rewrite app_nil_r; exact Hs|]. intros idx I. simpl. rewrite (F idx I). reflexivity.
Qed.
Print Assumptions C79_values_partial.

(** A list or an array of one dimension and another length than the vector's is an error, unless it is an array of one element in a vectorized
    environment: that is then the value of all. *)
Theorem C79_length_partial : forall (T Env : Type) (single : T -> T) vectorization (m n : nat) (d : descr (value T Env)) args a,
  d_value d = None -> values args = [Array a] \/ values args = [Listed a] /\ vectorization = [] -> dims a = [n] -> n <> m ->
  if decide (vectorization <> [] /\ n = 1)
  then exists vars, array_variable single vectorization [m] d args = Ok (m :: vectorization, vars) /\ has_values [m] (fun _ => Some (elt a [0])) vars
  else array_variable single vectorization [m] d args = Err ValueErrorE.
Proof.
  intros T Env single vec m n d args a Hd Hv Ha Hn. destruct (C78_vector_partial T Env d args) as (_ & _ & V).
  destruct vec as [|k vec].
  - rewrite decide_False by (intros [? _]; congruence). unfold array_variable.
    destruct Hv as [Hv|[Hv _]]; rewrite (V _ Hv Hd); simpl; unfold checked; rewrite Ha; rewrite decide_False by congruence; reflexivity.
  - destruct Hv as [Hv|[_ ?]]; [|discriminate]. destruct (decide _) as [[_ ->]|H].
    + destruct (array_values (Env := Env) single k vec (m :: k :: vec) a) as (f & E & Hf). { rewrite Ha. cbn [rev app broadcastable]. rewrite orb_true_r. reflexivity. }
      apply (has_values_of single (k :: vec) [m] d args (Array a) f (fun _ => elt a [0])); auto. intros idx I. rewrite Hf, Ha. inversion I; subst. reflexivity.
    + unfold array_variable. rewrite (V _ Hv Hd). cbn [element_values app]. unfold broadcast_to. rewrite rev_involutive, Ha. cbn [rev app broadcastable].
      rewrite (proj2 (Nat.eqb_neq n m) Hn). destruct (Nat.eqb_spec n 1) as [->|]; [|reflexivity]. exfalso. apply H. split; [discriminate|reflexivity].
Qed.
Print Assumptions C79_length_partial.

(** A single number is the value of every element in a vectorized environment, in single precision; for a vector outside of one it is an error. *)
Theorem C79_number_partial : forall (T Env : Type) (single : T -> T) vectorization shape (d : descr (value T Env)) args x,
  d_value d = None -> values args = [Num x] ->
  if decide (vectorization = []) then shape <> [] -> array_variable single vectorization shape d args = Err ValueErrorE
  else exists vars, array_variable single vectorization shape d args = Ok (shape ++ vectorization, vars) /\ has_values shape (fun _ => Some (single x)) vars.
Proof.
  intros T Env single vec shape d args x Hd Hv. destruct (C78_vector_partial T Env d args) as (_ & _ & V). specialize (V _ Hv Hd).
  destruct (decide (vec = [])) as [->|N].
  - intros Hn. unfold array_variable. rewrite V. simpl. unfold checked. simpl. rewrite app_nil_r. destruct (decide ([] = shape)) as [E|_]; [congruence|reflexivity].
  - assert (E : element_values (Env := Env) single vec (shape ++ vec) (Num x) = Ok (fun _ => Const (single x))).
    { destruct vec as [|n vec]; [congruence|]. unfold element_values, full_single, broadcast_to. cbn [dims]. simpl broadcastable. cbv iota. cbn [rbind]. rewrite checked_ok by reflexivity. reflexivity. }
    apply (has_values_of single vec shape d args (Num x) (fun _ => Const (single x)) (fun _ => single x)); auto.
Qed.
Print Assumptions C79_number_partial.

(** What is wrong in vectorized environments. A value that is not a number in single precision is changed: 0.1 in [Vectorize(3)]. *)
Theorem C79_precision_refuted : exists vars, array_variable (Env := unit) Qsingle [3] [] nothing [Str (chars "x"); Val (Num (1 # 10))] = Ok ([3], vars) /\
  exists x q, In x vars /\ d_value (v_descr x) = Some (Const q) /\ ~ Qeq q (1 # 10).
Proof.
  eexists. split; [vm_compute; reflexivity|]. eexists. eexists. split; [left; reflexivity|]. split; [simpl; reflexivity|]. vm_compute. discriminate.
Qed.
Print Assumptions C79_precision_refuted.
(** An array of two dimensions is transposed, or, if it is not square, rejected. *)
Definition table (l : list (list nat)) : array nat := Arr [List.length l; List.length (nth 0 l [])] (fun i => nth (nth 1 i 0) (nth (nth 0 i 0) l []) 0).
Theorem C79_transposed_refuted :
  (exists vars, array_variable (Env := unit) (fun x : nat => x) [3] [2; 2] nothing [Val (Array (table [[1; 2]; [3; 4]]))] = Ok ([2; 2; 3], vars) /\
     exists x, In x vars /\ v_idx x = [0; 1; 2] /\ d_value (v_descr x) = Some (Const 3)) /\
  array_variable (Env := unit) (fun x : nat => x) [4] [2; 3] nothing [Val (Array (table [[1; 2; 3]; [4; 5; 6]]))] = Err ValueErrorE.
Proof.
  split; [|reflexivity]. eexists. split; [vm_compute; reflexivity|]. eexists. split; [do 5 right; left; reflexivity|]. split; reflexivity.
Qed.
Print Assumptions C79_transposed_refuted.
(** A list is taken along the vectorized dimension rather than along the vector, or, if the lengths differ, rejected. *)
Definition row (l : list nat) : array nat := Arr [List.length l] (fun i => nth (nth 0 i 0) l 0).
Theorem C79_list_refuted :
  (exists vars, array_variable (Env := unit) (fun x : nat => x) [2] [2] nothing [Val (Listed (row [5; 6]))] = Ok ([2; 2], vars) /\
     exists x, In x vars /\ v_idx x = [0; 1] /\ d_value (v_descr x) = Some (Const 6)) /\
  array_variable (Env := unit) (fun x : nat => x) [3] [2] nothing [Val (Listed (row [5; 6]))] = Err ValueErrorE.
Proof.
  split; [|reflexivity]. eexists. split; [vm_compute; reflexivity|]. eexists. split; [right; left; reflexivity|]. split; reflexivity.
Qed.
Print Assumptions C79_list_refuted.

(** The value of each element of a vector with a function is its element of what the function returns, if that has the shape. *)
Theorem C79_linked_partial : forall (T Env : Type) (single : T -> T) vectorization shape (d : descr (value T Env)) args f,
  d_value d = None -> values args = [Fn f] ->
  exists vars, array_variable single vectorization shape d args = Ok (shape ++ vectorization, vars) /\
  forall x, In x vars -> exists g, d_value (v_descr x) = Some (Linked g) /\
    forall c, dims (f c) = shape ++ vectorization -> exists b, g c = Ok b /\ dims b = [] /\ elt b [] = elt (f c) (v_idx x).
Proof.
  intros T Env single vec shape d args f Hd Hv. destruct (C78_vector_partial T Env d args) as (_ & _ & V). specialize (V _ Hv Hd).
  unfold array_variable. rewrite V. simpl. eexists. split; [reflexivity|]. intros x I. apply in_map_iff in I as (i & <- & I). apply indices_In in I. simpl.
  eexists. split; [reflexivity|]. intros c Hc. cbn beta. unfold Vector.index. rewrite Hc. pose proof (Forall2_length _ _ _ I) as L. rewrite L, firstn_all, Nat.leb_refl.
  assert (W : forall i s, index_of s i -> within i s = true). { clear. induction 1 as [|i n is s Hlt _ IH]; simpl; [auto|]. rewrite IH. apply Nat.ltb_lt in Hlt. rewrite Hlt. auto. }
  rewrite (W _ _ I). simpl. eexists. split; [reflexivity|]. simpl. rewrite skipn_all, app_nil_r. auto.
Qed.
Print Assumptions C79_linked_partial.
(** If it returns a number, as one of a variable outside of the environment does, it raises. *)
Theorem C79_linked_number_refuted : exists vars, array_variable (Env := nat) (fun x : nat => x) [3] [] nothing [Val (Fn (fun c => Arr [] (fun _ => c)))] = Ok ([3], vars) /\
  forall x, In x vars -> exists g, d_value (v_descr x) = Some (Linked g) /\ forall c, g c = Err IndexErrorE.
Proof.
  eexists. split; [reflexivity|]. intros x I. apply in_map_iff in I as (i & <- & I). simpl. eexists. split; [reflexivity|]. intros c.
  simpl in I. destruct I as [<-|[<-|[<-|[]]]]; reflexivity.
Qed.
Print Assumptions C79_linked_number_refuted.
Example C79_nonvacuous : exists vars, array_variable (Env := unit) (fun x : nat => x) [2] [3] nothing [Str (chars "x"); Val (Array (row [13; 15; 17]))] = Ok ([3; 2], vars) /\
  map (fun x => (v_idx x, d_value (v_descr x))) vars = [([0; 0], Some (Const 13)); ([0; 1], Some (Const 13)); ([1; 0], Some (Const 15)); ([1; 1], Some (Const 15)); ([2; 0], Some (Const 17)); ([2; 1], Some (Const 17))].
Proof. eexists. split; [reflexivity|]. reflexivity. Qed.

(** ** C80 *)

(** An attribute of a set, with dots, of sets in it too *)
Fixpoint attribute_at {T} (c : cset T) (names : list nat) : option (attribute T) :=
  match names with
  | [] => Some (ASet c)
  | n :: names' => match dget (attributes c) n with
                   | Some (ASet c') => attribute_at c' names'
                   | Some a => match names' with [] => Some a | _ => None end
                   | None => None
                   end
  end.
Definition names_in (l : list step) : list nat := flat_map (fun s => match s with Attr n => [n] | Item _ => [] end) l.
(** All the indices in an expression, the last first *)
Definition items_in (l : list step) : list nat := List.concat (rev (flat_map (fun s => match s with Item i => [i] | Attr _ => [] end) l)).

Lemma within_iff i s : within i s = true <-> index_of s i.
Proof.
  revert s. induction i as [|a i IH]; intros [|n s]; simpl; try (split; [discriminate|intros H; inversion H]); [split; [constructor|auto]|].
  rewrite andb_true_iff, Nat.ltb_lt, IH. split; [intros [? ?]; constructor; auto|intros H; inversion H; auto].
Qed.
Lemma items_cons i l : items_in (Item i :: l) = items_in l ++ i.
Proof. unfold items_in. cbn [flat_map app rev]. rewrite concat_app. simpl. rewrite app_nil_r. reflexivity. Qed.

Lemma look_spec {T} : forall l (c c' : cset T) i name, attribute_at c (names_in l) = Some (ASet c') ->
  look (View c i) (l ++ [Attr name]) = view_attr (View c' (items_in l ++ i)) name.
Proof.
  induction l as [|[j|n] l IH]; intros c c' i name Hc.
  - injection Hc as ->. reflexivity.
  - change (names_in (Item j :: l)) with (names_in l) in Hc. cbn [app look]. unfold view_item. cbn [base at_index]. rewrite (IH _ _ _ _ Hc), items_cons, <- app_assoc. reflexivity.
  - change (names_in (Attr n :: l)) with (n :: names_in l) in Hc. change (items_in (Attr n :: l)) with (items_in l). cbn [app attribute_at] in *.
    assert (E : look (View c i) (Attr n :: l ++ [Attr name]) = (let! s := view_attr (View c i) n in match s with SView v' => look v' (l ++ [Attr name]) | SArray _ => Err TypeErrorE end)).
    { cbn [look]. destruct (l ++ [Attr name]) eqn:El; [destruct l; discriminate El|reflexivity]. }
    rewrite E. unfold view_attr at 1. cbn [base at_index]. destruct (dget (attributes c) n) as [[c0|a|]|]; cbn [rbind].
    + apply IH. exact Hc.
    + destruct (names_in l); discriminate Hc.
    + destruct (names_in l); discriminate Hc.
    + discriminate Hc.
Qed.

(** An attribute of a view is that of the set: for an array, its elements at all the indices given, those given last first, as the last dimensions;
    if these are not indices of it, it raises. *)
Theorem C80_view : forall (T : Type) (c c' : cset T) (l : list step) (name : nat), attribute_at c (names_in l) = Some (ASet c') ->
  let i := items_in l in
  match dget (attributes c') name with
  | Some (ASet c'') => look (as_view c) (l ++ [Attr name]) = Ok (SView (View c'' i))
  | Some (AArray a) =>
      (forall own last, dims a = own ++ last -> index_of last i ->
         exists b, look (as_view c) (l ++ [Attr name]) = Ok (SArray b) /\ dims b = own /\ forall j, index_of own j -> elt b j = elt a (j ++ i)) /\
      ((forall own last, dims a = own ++ last -> ~ index_of last i) -> look (as_view c) (l ++ [Attr name]) = Err IndexErrorE)
  | Some AOther => look (as_view c) (l ++ [Attr name]) = Err ValueErrorE
  | None => look (as_view c) (l ++ [Attr name]) = Err AttributeErrorE
  end.
Proof.
  intros T c c' l name Hc. cbv zeta. unfold as_view. rewrite (look_spec _ _ _ _ _ Hc), app_nil_r. unfold view_attr. cbn [base at_index].
  destruct (dget (attributes c') name) as [[c''|a|]|]; [reflexivity| |reflexivity|reflexivity]. set (i := items_in l). split.
  - intros own last Ed Hi. pose proof (Forall2_length _ _ _ Hi) as L. destruct (Nat.ltb_spec (List.length i) (List.length (dims a))) as [Hlt|Hge].
    + unfold index_last. rewrite Ed, app_length, L. replace (List.length own + List.length last - List.length last) with (List.length own) by lia.
      rewrite drop_app. rewrite (proj2 (within_iff _ _) Hi). cbn [rmap rbind].
      eexists. split; [reflexivity|]. cbn [dims elt]. rewrite take_app. auto.
    + rewrite Ed, app_length in Hge. assert (own = []) as -> by (destruct own; [auto|simpl in Hge; lia]). simpl in Ed. unfold Vector.index. rewrite Ed, L, firstn_all, Nat.leb_refl.
      rewrite (proj2 (within_iff _ _) Hi). cbn. rewrite skipn_all. eexists. split; [reflexivity|]. cbn [dims elt]. split; [auto|].
      intros j Hj. inversion Hj. rewrite app_nil_r. auto.
  - intros Hno. destruct (Nat.ltb_spec (List.length i) (List.length (dims a))) as [Hlt|Hge].
    + unfold index_last. destruct (within i _) eqn:E; [|reflexivity]. exfalso. apply within_iff in E. apply (Hno (firstn (List.length (dims a) - List.length i) (dims a)) _ (eq_sym (firstn_skipn _ _)) E).
    + unfold Vector.index. destruct (_ && _) eqn:E; [|reflexivity]. exfalso. apply andb_true_iff in E as [E1 E2]. apply Nat.leb_le in E1.
      assert (Q : List.length i = List.length (dims a)) by lia. rewrite Q, firstn_all in E2. apply within_iff in E2. apply (Hno [] (dims a) eq_refl E2).
Qed.
Print Assumptions C80_view.

(** So in environments entered one after another, [Vectorize(n1)], [Vectorize(n2)], ..., what a view at [[i1][i2]...] shows of a variable that was
    declared in them are its elements at these places, in its own shape. *)
Theorem C80_vectorized : forall (T : Type) (c : cset T) name (a : array T) own (lengths places : list nat),
  dget (attributes c) name = Some (AArray a) -> dims a = own ++ vectorization_in lengths -> index_of lengths places ->
  exists b, look (as_view c) (map (fun i => Item [i]) places ++ [Attr name]) = Ok (SArray b) /\ dims b = own /\
    forall j, index_of own j -> elt b j = elt a (j ++ rev places).
Proof.
  intros T c name a own lengths places Hd Ha Hi.
  assert (N : names_in (map (fun i => Item [i]) places) = []) by (clear; induction places; simpl; auto).
  assert (I : items_in (map (fun i => Item [i]) places) = rev places).
  { clear. induction places as [|i places IH]; [reflexivity|]. cbn [map]. rewrite items_cons, IH. reflexivity. }
  assert (V : vectorization_in lengths = rev lengths).
  { unfold vectorization_in. rewrite <- fold_left_rev_right. rewrite <- (rev_involutive lengths) at 2. rewrite rev_involutive. generalize (rev lengths). induction l; simpl; congruence. }
  pose proof (C80_view T c c (map (fun i => Item [i]) places) name) as H. rewrite N in H. specialize (H eq_refl). cbv zeta in H. rewrite Hd, I in H.
  destruct H as [H _]. apply (H own (rev lengths)); [congruence|]. clear - Hi. induction Hi as [|i n is ns Hlt _ IH]; simpl; [constructor|]. apply Forall2_app; [exact IH|]. constructor; [exact Hlt|constructor].
Qed.
Print Assumptions C80_vectorized.
Example C80_nonvacuous : exists b, look (as_view (Cset [(7, ASet (Cset [(0, AArray (Arr [2; 5; 3] (fun i => i)))]))])) [Item [1]; Attr 7; Item [4]; Attr 0] = Ok (SArray b) /\
  dims b = [2] /\ map (elt b) (indices [2]) = [[0; 4; 1]; [1; 4; 1]].
Proof. eexists. split; [reflexivity|]. split; reflexivity. Qed.
