(** Model of the sensitivity diagrams of gpkit/interactive/sankey.py.
    Simplifications: a node's name, the name of the node it is linked to with a
    dot and a number (sankey.py:55), is the list of these numbers, after the
    label of the top node (so [[]] is the top node); titles are numbers; the
    drawing itself, clicks on it ([top_node], sankey.py:197-199, 228-231) and the
    flags for names of variables are left out. What [isinstance] and [is] tell
    about a set (sankey.py:94-95, 99, 104-106, 112) is part of the set. *)
From Verif Require Import Base.
Open Scope nat_scope.

Definition node := list nat.
Inductive tag := TNone | TConstraint | TSubarray.
Global Instance tag_dec : EqDecision tag.
Proof. solve_decision. Defined.

Section Sankey.
Context {T : Type} `{Num T}.

(** EPS and INSENSITIVE (sankey.py:13-14) *)
Definition EPS : T := ninv (nofZ 10000000000).
Definition INSENSITIVE : T := ninv (nofZ 100).

(** A constraint: its sensitivity in the solution, if it has one there; its
    [v_ss]; its variables (sankey.py:115-121) *)
Record con := Con { c_title : nat; c_senss : option T; c_vss : option (list (nat * T)); c_vars : list nat }.
(** The sensitivity to a fixed variable: [.get(vk, EPS)] (sankey.py:73-76) *)
Inductive fsens := FMissing | FNan | FVal (x : T).
(** One of a model's own variables: whether it is among the constants of the
    solution (sankey.py:63), the vector it is in with whether its elements are
    all equal, its sensitivity *)
Record fvar := FVar { f_title : nat; f_const : bool; f_vec : option (nat * bool); f_sens : fsens }.
(** Keys of a dict of constraints *)
Inductive key := KInt (n : nat) | KStr (n : nat).
Global Instance key_dec : EqDecision key.
Proof using. solve_decision. Defined.
(** Sets: lists and unnamed sets; dicts; array constraints, with whether they
    have more than one element; named models, with their own variables *)
Inductive kind := Plain | Dict | Array (many : bool) | Named (fixed : list fvar).
(** A set's [labels] are its [idxlookup], or a dict's keys with their positions. *)
Inductive tree := Leaf (c : con) | Set_ (k : kind) (title : nat) (labels : list (key * nat)) (cs : list tree).

(** self.links, self.links_to_target, self.nodes (sankey.py:48-50) *)
Record st := St { links : list ((node * node) * T); counts : list (node * nat); nodes : list (node * (nat * tag)) }.
Definition fresh : st := St [] [] [].

Definition count (s : st) (n : node) : nat := match dget (counts s) n with Some k => k | None => 0 end.
(** [add_node] (sankey.py:52-57) *)
Definition add_node (s : st) (target : node) (title : nat) (tg : tag) : node * st :=
  let k := S (count s target) in
  let n := target ++ [k] in
  (n, St (links s) (dset (counts s) target k) (dset (nodes s) n (title, tg))).
(** [self.links[a, b] = x] (sankey.py:84, 88, 128, 174) *)
Definition set_link (s : st) (a b : node) (x : T) : st := St (dset (links s) (a, b) x) (counts s) (nodes s).
(** [self.links[a, b] += x] on a defaultdict(float) (sankey.py:85, 110, 130) *)
Definition bump_link (s : st) (a b : node) (x : T) : st :=
  set_link s a b (nadd (match dget (links s) (a, b) with Some y => y | None => n0 end) x).

(** [abs_var_sens] (sankey.py:73-76) *)
Definition abs_var_sens (f : fvar) : T :=
  match f_sens f with FMissing => nopp (nabs EPS) | FNan => EPS | FVal x => nopp (nabs x) end.
(** [linkfixed] (sankey.py:59-90); [vecs]: fixedvecs *)
Fixpoint linkfixed (fixed : list fvar) (vecs : list (nat * node)) (target : node) (total : T) (s : st) : T * st :=
  match fixed with
  | [] => (total, s)
  | f :: fixed' =>
      if f_const f then
        let '(vecs, s) :=
          match f_vec f with
          | Some (v, true) => if dmem vecs v then (vecs, s) else let '(n, s) := add_node s target v TConstraint in (dset vecs v n, s)
          | _ => (vecs, s)
          end in
        let x := abs_var_sens f in
        let s :=
          match (match f_vec f with Some (v, _) => dget vecs v | None => None end) with
          | Some vectarget =>
              let '(source, s) := add_node s vectarget (f_title f) TSubarray in
              bump_link (set_link s source vectarget x) vectarget target x
          | None => let '(source, s) := add_node s target (f_title f) TConstraint in set_link s source target x
          end in
        linkfixed fixed' vecs target (nadd total x) s
      else linkfixed fixed' vecs target total s
  end.

(** The sensitivity of a single constraint (sankey.py:115-121) *)
Definition leaf_sens (var : option nat) (c : con) : T :=
  match var with
  | None => match c_senss c with Some s => let x := nopp (nabs s) in if decide (x = n0) then nopp EPS else x | None => n0 end
  | Some v =>
      match c_vss c with
      | None => if bool_decide (v ∈ c_vars c) then EPS else n0
      | Some d => match dget d v with Some x => if decide (x = n0) then EPS else x | None => n0 end
      end
  end.
Definition key_title (k : key) : nat := match k with KInt n | KStr n => n end.
(** [cset[i]] where sets are indexed (sankey.py:105, set.py:125-130): an index that is a key is taken as the key. *)
Definition position (k : kind) (labels : list (key * nat)) (i : nat) : nat :=
  match k with Dict => i | _ => match dget labels (KInt i) with Some j => j | None => i end end.

(** [link] (sankey.py:92-131). [top]: whether [cset is self.cset] *)
Fixpoint link (t : tree) (top labeled subarray : bool) (var : option nat) (target : node) (s : st) : T * st :=
  match t with
  | Leaf c =>
      let x := leaf_sens var c in
      if labeled then (x, s)
      else let '(source, s) := add_node s target (c_title c) (if subarray then TSubarray else TConstraint) in (x, set_link s source target x)
  | Set_ k title labels cs =>
      let '(switched, target, total, subarray, s) :=
        match k with
        | Named fixed =>
            if labeled then (None, target, n0, subarray, s)
            else
              let '(switched, target, s) := if top then (None, target, s) else let '(n, s) := add_node s target title TNone in (Some target, n, s) in
              let '(x, s) := match var with None => linkfixed fixed [] target n0 s | Some _ => (n0, s) end in
              (switched, target, nadd n0 x, subarray, s)
        | Array true => let '(n, s) := add_node s target title TConstraint in (Some target, n, n0, true, s)
        | _ => (None, target, n0, subarray, s)
        end in
      let subs := map (fun c => link c false true false var) cs in
      let '(total, s) :=
        match labels with
        | [] => (fix each cs total s := match cs with [] => (total, s) | c :: cs' => let '(x, s) := link c false false subarray var target s in each cs' (nadd total x) s end) cs total s
        | _ =>
            fold_left (fun '(total, s) '(ky, i) =>
              let '(source, s) := add_node s target (key_title ky) TNone in
              let '(x, s) := nth (position k labels i) subs (fun _ s => (n0, s)) source s in
              (nadd total x, bump_link s source target x)) labels (total, s)
        end in
      (total, match switched with Some up => bump_link s target up total | None => s end)
  end.

(** The part of [diagram] that makes the links (sankey.py:160-174), in the state left by earlier diagrams; [cost]: the cost's sensitivity to the variable, if any *)
Definition diagram (t : tree) (var : option (nat * option T)) (s : st) : st :=
  match var with
  | None => snd (link t true false false None [] (St (links s) (counts s) (dset (nodes s) [] (0, TNone))))
  | Some (v, cost) =>
      let s := St (links s) (counts s) (dset (nodes s) [] (0, TNone)) in
      let '(csetnode, s) := add_node s [] 0 TNone in
      let s := match cost with Some x => let '(costnode, s) := add_node s [] 0 TNone in set_link s costnode [] x | None => s end in
      let '(x, s) := link t true false false (Some v) csetnode s in
      set_link s csetnode [] x
  end.

(** [filter] (sankey.py:133-138) *)
Definition filt (maxlinks : nat) (forced : bool) (f : (node * node) * T -> bool) (l : list ((node * node) * T)) : list ((node * node) * T) :=
  if (maxlinks <? length l) || forced then List.filter f l else l.
Definition tag_of (s : st) (n : node) : tag := match dget (nodes s) n with Some (_, tg) => tg | None => TNone end.
(** [node.count(".")], with the dots in the label of the top node *)
Definition dots (labeldots : nat) (n : node) : nat := labeldots + length n.
(** The culling loop (sankey.py:216-218), from [culldepth]; it ends when [culldepth] is [mindepth]. *)
Fixpoint cull (maxlinks labeldots mindepth culldepth : nat) (l : list ((node * node) * T)) : list ((node * node) * T) :=
  match culldepth with
  | 0 => l
  | S culldepth' =>
      if (maxlinks <? length l) && (mindepth <? culldepth)
      then cull maxlinks labeldots mindepth culldepth' (filt maxlinks false (fun l => dots labeldots (fst (fst l)) <? culldepth) l)
      else l
  end.
(** [_links_and_nodes] (sankey.py:195-240), the links, without a top node *)
Definition shown_links (minsenss : T) (maxlinks : nat) (showconstraints : bool) (labeldots : nat) (s : st) : list ((node * node) * T) :=
  let is l tg := bool_decide (tag_of s (fst (fst l)) = tg) in
  let l := links s in
  let l := filt maxlinks true (fun l => nltb minsenss (nabs (snd l))) l in
  let l := if showconstraints then l else filt maxlinks true (fun l => negb (is l TConstraint) && negb (is l TSubarray)) l in
  let l := filt maxlinks false (fun l => negb (is l TSubarray)) l in
  let l := filt maxlinks false (fun l => negb (is l TConstraint) || nltb INSENSITIVE (nabs (snd l))) l in
  let culldepth := fold_right Nat.max 0 (map (fun n => dots labeldots (fst n)) (nodes s)) - 1 in
  let l := cull maxlinks labeldots 1 culldepth l in
  filt maxlinks false (fun l => negb (is l TConstraint)) l.
End Sankey.
Arguments tree : clear implicits.
Arguments con : clear implicits.
Arguments fvar : clear implicits.
Arguments kind : clear implicits.
Arguments st : clear implicits.
