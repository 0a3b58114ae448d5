(** Model of how warnings get from checks to the reader: [appendsolwarning] (gpkit/small_scripts.py:6-12), the values Tight and Loose leave on constraints
    (gpkit/constraints/tight.py:36-40, loose.py:26-28), solutions of sweeps being put together (gpkit/small_classes.py:84-151, gpkit/constraints/prog_factories.py:97-157),
    [warnings_table] (gpkit/solution_array.py:229-259) and what [Model.debug] prints of it (gpkit/constraints/model.py:206-214). *)
From Coq Require Import NArith ZArith Ascii String.
From Verif Require Import Base ConTable SetLayout.
Open Scope nat_scope.
Local Open Scope list_scope.

Definition tight_kind : text := chars "Unexpectedly Tight Constraints".
Definition loose_kind : text := chars "Unexpectedly Loose Constraints".

Section Warn.
Context {V : Type}.
(** What is shown of a value on a constraint, by the kind of warning: [-int(1e5*v)] and the text in front (246-247, 252-253) *)
Variables (sortkey : text -> V -> Z) (shown : text -> V -> text).

(** What a warning is about, and whether it is true in Python. Simplification: warnings of other kinds than the above can be about other things than constraints,
    which nothing is made of. *)
Record about := About { a_con : con; a_true : bool }.
(** A call of [appendsolwarning], and the value put on the constraint before *)
Record event := Event { ev_kind : text; ev_msg : text; ev_about : about; ev_value : V }.
Definition warning : Type := text * about.
(** [result["warnings"]], if there is such *)
Definition wresult : Type := option (list (text * list warning)).
(** [constraint.relax_sensitivity]; [constraint.rel_diff] with [constraint.tightvalues] *)
Definition attributes : Type := list (text * nat * V).

(** [appendsolwarning(msg, data, result, category)] *)
Definition appendsolwarning (msg : text) (data : about) (result : wresult) (kind : text) : wresult :=
  let ws := match result with Some ws => ws | None => [] end in
  let ws := if dmem ws kind then ws else dset ws kind [] in
  Some (dset ws kind (default [] (dget ws kind) ++ [(msg, data)])).
(** The checks of a solution, one after another: each is an event *)
Definition check (st : attributes * wresult) (ev : event) : attributes * wresult :=
  (dset (fst st) (ev_kind ev, c_id (a_con (ev_about ev))) (ev_value ev), appendsolwarning (ev_msg ev) (ev_about ev) (snd st) (ev_kind ev)).

(** [solution.append(result)], of the warnings: before the first, [None]; after it, whether there are warnings, and of each kind a list with one entry for each
    solution that had some. [DictOfLists.append] (small_classes.py:87-93), [_enlist_dict] (104-112), [_append_dict] (115-122). *)
Definition wsolution : Type := option (option (list (text * list (list warning)))).
Fixpoint append_dict (d_in : list (text * list warning)) (d_out : list (text * list (list warning))) : res (list (text * list (list warning))) :=
  match d_in with
  | [] => Ok d_out
  | (k, v) :: d_in' => match dget d_out k with
                       | Some vs => append_dict d_in' (dset d_out k (vs ++ [v]))
                       | None => Err KeyErrorE
                       end
  end.
Definition append (sol : wsolution) (result : wresult) : res wsolution :=
  match sol, result with
  | None, None => Ok (Some None)
  | None, Some ws => Ok (Some (Some (map (fun kv => (fst kv, [snd kv])) ws)))
  | Some d_out, None => Ok (Some d_out)
  | Some None, Some _ => Err KeyErrorE
  | Some (Some d_out), Some ws => let! d := append_dict ws d_out in Ok (Some (Some d))
  end.
(** A sweep (prog_factories.py:135-150), or a single solve (105-110): [points] are the checks' events for each solution *)
Fixpoint sweep (points : list (list event)) (attrs : attributes) (sol : wsolution) : res (attributes * wsolution) :=
  match points with
  | [] => Ok (attrs, sol)
  | evs :: points' =>
      let '(attrs, result) := fold_left check evs (attrs, None) in
      let! sol := append sol result in
      sweep points' attrs sol
  end.

(** What a reader of the solution has: lists of length one have been replaced by their entry (_enray, 138-151). Simplification: an array of lists is taken for
    the list of them, as [numpy] makes it of lists of different lengths, or of equal ones. *)
Inductive column := Lone (data : list warning) | Several (data_vec : list (list warning)).
Definition enray (vs : list (list warning)) : column := match vs with [v] => Lone v | _ => Several vs end.

(** [sorted(data, key=lambda l: l[0])] (241) *)
Definition by_message (data : list warning) : list warning := sort (fun a b => text_leb (fst a) (fst b)) data.
Definition sweep_title (wtype : text) (many : bool) (i : nat) : text := if many then wtype ++ chars " in sweep " ++ digits i else wtype.
(** The value on the constraint: a check put it there. *)
Definition value_on (attrs : attributes) (kind : text) (w : warning) : res V :=
  match dget attrs (kind, c_id (a_con (snd w))) with Some v => Ok v | None => Err AttributeErrorE end.
Fixpoint rows (attrs : attributes) (kind : text) (data : list warning) : res (list (entry Z)) :=
  match data with
  | [] => Ok []
  | w :: data' =>
      let! v := value_on attrs kind w in
      let! es := rows attrs kind data' in
      Ok (Entry (sortkey kind v) (shown kind v) (a_con (snd w)) :: es)
  end.
(** One turn of the inner loop (240-257) *)
Definition warnings_block (sortbymodel showmodels : bool) (attrs : attributes) (wtype : text) (many : bool) (i : nat) (data : list warning) : res (list text) :=
  let data := by_message data in
  let title := sweep_title wtype many i in
  let messages := [title; repeat 45%N (length wtype)] ++ map fst data ++ [[]] in
  if decide (wtype = tight_kind \/ wtype = loose_kind) then
    match data with
    | [] => Err IndexErrorE
    | (_, a) :: _ => if a_true a then let! es := rows attrs wtype data in Ok (constraint_table Z.leb sortbymodel showmodels es title) else Ok messages
    end
  else Ok messages.
Fixpoint blocks (sortbymodel showmodels : bool) (attrs : attributes) (wtype : text) (many : bool) (i : nat) (data_vec : list (list warning)) : res (list text) :=
  match data_vec with
  | [] => Ok []
  | data :: data_vec' =>
      let! b := warnings_block sortbymodel showmodels attrs wtype many i data in
      let! bs := blocks sortbymodel showmodels attrs wtype many (S i) data_vec' in
      Ok (b ++ bs)
  end.
Fixpoint all_kinds (sortbymodel showmodels : bool) (attrs : attributes) (ws : list (text * list (list warning))) (kinds : list text) : res (list text) :=
  match kinds with
  | [] => Ok []
  | k :: kinds' =>
      let data_vec := match enray (default [] (dget ws k)) with Lone data => [data] | Several vs => vs end in
      let! b := blocks sortbymodel showmodels attrs k (1 <? length data_vec) 0 data_vec in
      let! bs := all_kinds sortbymodel showmodels attrs ws kinds' in
      Ok (b ++ bs)
  end.
Definition tildes : text := chars "~~~~~~~~".
(** [lines[-1] = "~~~~~~~~"] (258) *)
Definition set_last (x : text) (l : list text) : list text := removelast l ++ [x].
(** [warnings_table] (229-259) *)
Definition warnings_table (sortbymodel showmodels : bool) (attrs : attributes) (sol : wsolution) : res (list text) :=
  match sol with
  | Some (Some ((_ :: _) as ws)) =>
      let! ls := all_kinds sortbymodel showmodels attrs ws (sort text_leb (dkeys ws)) in
      Ok (set_last tildes ([tildes; chars "WARNINGS"; tildes] ++ ls) ++ [[]])
  | _ => Ok []
  end.

(** [sol.table(tables=["warnings"]).split("\n")[3:-2]] (model.py:207): what [debug] prints as modifications, if it is not empty *)
Definition modifications (table : list text) : list text :=
  let ls := split_lines (join_lines table) in
  drop 3 (take (length ls - 2) ls).
End Warn.
Arguments event V : clear implicits. Arguments attributes V : clear implicits.
