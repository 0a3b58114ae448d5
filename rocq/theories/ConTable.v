(** Model of the tables of constraints: [tight_table], [loose_table] and [constraint_table] (gpkit/solution_array.py:135-226). *)
From Verif Require Import Base.
From Coq Require Import NArith.
Open Scope nat_scope.
Local Open Scope list_scope.

(** Texts: lists of code points *)
Definition text := list N.
Definition space : N := 32%N.
Definition star : N := 42%N.
(** Lengths of texts; [minlen], [maxlen] (192) *)
Definition minlen : nat := 25.
Definition maxlen : nat := 80.

(** ** Splitting *)

(** The length of the match of CONSTRSPLITPATTERN (16) at the start of a text, if there is one: any characters but stars around a star, or one of
    the operators between spaces *)
Definition match_len (s : text) : option nat :=
  match s with
  | a :: b :: c :: s' =>
      if bool_decide (a <> star /\ b = star /\ c <> star) then Some 3
      else if bool_decide ([a; b; c] = [32; 43; 32]%N) then Some 3
      else if bool_decide ([a; b; c] = [32; 62; 61]%N /\ head s' = Some space) then Some 4
      else if bool_decide ([a; b; c] = [32; 60; 61]%N /\ head s' = Some space) then Some 4
      else if bool_decide ([a; b; c] = [32; 61; 32]%N) then Some 3
      else None
  | _ => None
  end.
(** [CONSTRSPLITPATTERN.split(s)]: [cur] is what comes since the last match, [skip] is how much of the match is still to be skipped *)
Fixpoint split_go (s : text) (skip : nat) (cur : text) : list text :=
  match s with
  | [] => [cur]
  | c :: s' =>
      match skip with
      | S k => split_go s' k cur
      | O => match match_len s with
             | Some n => cur :: firstn n s :: split_go s' (n - 1) []
             | None => split_go s' 0 (cur ++ [c])
             end
      end
  end.
(** [[s for s in CONSTRSPLITPATTERN.split(constrstr) if s]] (193) *)
Definition segments (s : text) : list text := List.filter (fun s => negb (bool_decide (s = []))) (split_go s 0 []).

(** ** Wrapping *)

(** [while len(line) > maxlen: ...] (207-209): the lines that are full, and the rest *)
Fixpoint cut (fuel : nat) (line : text) : list text * text :=
  match fuel with
  | O => ([], line)
  | S fuel' => if maxlen <? length line then let '(full, rest) := cut fuel' (space :: space :: skipn maxlen line) in (firstn maxlen line :: full, rest) else ([], line)
  end.
(** The loop over segments (195-210). [carry] is what the segment before put in front of this one (201). *)
Fixpoint wrap (segs : list text) (carry : text) (line : text) : list text :=
  match segs with
  | [] => [line]
  | s :: segs' =>
      let segment := carry ++ s in
      match match_len segment, segment, segs' with
      | Some _, c :: rest, _ :: _ =>
          let '(full, line) := cut (length (line ++ [c])) (line ++ [c]) in
          full ++ wrap segs' rest line
      | _, _, _ =>
          let '(before, line) :=
            if (maxlen <? length line + length segment) && (minlen <? length line) then ([line], [space; space]) else ([], line) in
          let '(full, line) := cut (length (line ++ segment)) (line ++ segment) in
          before ++ full ++ wrap segs' [] line
      end
  end.
Definition constraintlines (constrstr : text) : list text := wrap (segments constrstr) [] [].

(** ** Texts of constraints *)

(** Does a text start with another *)
Fixpoint starts (p s : text) : bool :=
  match p, s with [], _ => true | a :: p', b :: s' => bool_decide (a = b) && starts p' s' | _, _ => false end.
(** [if " at 0x" in constrstr: constrstr = constrstr[:constrstr.find(" at 0x")] + ">"] (178-179) *)
Definition at0x : text := [32; 97; 116; 32; 48; 120]%N.
Fixpoint no_address (s : text) : text :=
  match s with
  | [] => []
  | c :: s' => if starts at0x s then [62%N] else c :: no_address s'
  end.
(** [constrstr.replace(model, "")] (191); [skip] as above *)
Fixpoint remove_go (old s : text) (skip : nat) : text :=
  match s with
  | [] => []
  | c :: s' =>
      match skip with
      | S k => remove_go old s' k
      | O => if negb (bool_decide (old = [])) && starts old s then remove_go old s' (length old - 1) else c :: remove_go old s' 0
      end
  end.
Definition remove (old s : text) : text := remove_go old s 0.

(** ** Sorting *)

Section Sort.
Context {A : Type}.
Variable leb : A -> A -> bool.
Fixpoint insert (x : A) (l : list A) : list A := match l with [] => [x] | y :: l' => if leb x y then x :: l else y :: insert x l' end.
(** [sorted]: ascending and stable *)
Definition sort (l : list A) : list A := fold_right insert [] l.
End Sort.
(** Comparing texts, and tuples *)
Fixpoint text_leb (a b : text) : bool :=
  match a, b with
  | [], _ => true
  | _ :: _, [] => false
  | x :: a', y :: b' => if bool_decide (x = y) then text_leb a' b' else (x <? y)%N
  end.
(** Comparing pairs when the first components have a total order: by the first, if they are equal by the second *)
Definition lex {A B} (la : A -> A -> bool) (lb : B -> B -> bool) (x y : A * B) : bool :=
  if la (fst x) (fst y) then (if la (fst y) (fst x) then lb (snd x) (snd y) else true) else false.

(** ** Tables *)

(** A constraint: where it is in memory, the name of the model it is in ([lineagestr]), [str(c)] and what [try_str_without] gives, with and without
    models *)
Record con := Con { c_id : nat; c_model : text; c_str : text; c_print : bool -> text }.

Section Table.
Context {K : Type}.
Variable kleb : K -> K -> bool.   (* comparing what constraints are sorted by *)

Record entry := Entry { e_sortby : K; e_opening : text; e_con : con }.
(** [sorted(data)] (173): the memory addresses are different, so that constraints are not compared *)
Definition entry_leb (a b : entry) : bool :=
  lex kleb (lex text_leb Nat.leb) (e_sortby a, (e_opening a, c_id (e_con a))) (e_sortby b, (e_opening b, c_id (e_con b))).
Record deco := Deco { d_num : nat; d_model : text; d_sortby : K; d_text : text; d_opening : text }.
Definition deco_leb (a b : deco) : bool :=
  lex Nat.leb (lex text_leb (lex kleb (lex text_leb text_leb)))
    (d_num a, (d_model a, (d_sortby a, (d_text a, d_opening a)))) (d_num b, (d_model b, (d_sortby b, (d_text b, d_opening b)))).
(** Numbering models by when they come first (172-180) *)
Fixpoint decorate (sortbymodel showmodels : bool) (models : list (text * nat)) (l : list entry) : list deco :=
  match l with
  | [] => []
  | e :: l' =>
      let model := if sortbymodel then c_model (e_con e) else [] in
      let models := if dmem models model then models else dset models model (length models) in
      Deco (default 0 (dget models model)) model (e_sortby e) (no_address (c_print (e_con e) showmodels)) (e_opening e) :: decorate sortbymodel showmodels models l'
  end.

(** A line before it is padded: the model's, an empty one, or left and right side *)
Inductive tline := Title (model : text) | Text (l r : text).
Definition colon : text := [32; 58; 32]%N.
(** The loop over the sorted list (182-212) *)
Fixpoint body (previous : option text) (l : list deco) (lines : list tline) : list tline :=
  match l with
  | [] => lines
  | d :: l' =>
      let lines :=
        if bool_decide (previous = Some (d_model d)) then lines else
        let lines := match lines with [] => [] | _ => lines ++ [Text [] []] end in
        match d_model d, lines with [], [] => lines | _, _ => lines ++ [Title (d_model d)] end in
      let ls := constraintlines (remove (d_model d) (d_text d)) in
      let lines := lines ++ [Text (d_opening d ++ colon) (match ls with l0 :: _ => l0 | [] => [] end)] ++ map (Text []) (tl ls) in
      body (Some (d_model d)) l' lines
  end.

(** [s.rstrip()]; whitespace as in Python's [str.isspace] *)
Definition is_space (c : N) : bool :=
  (((9 <=? c) && (c <=? 13)) || ((28 <=? c) && (c <=? 32)) || (c =? 133) || (c =? 160) || (c =? 5760) || ((8192 <=? c) && (c <=? 8202)) ||
   (c =? 8232) || (c =? 8233) || (c =? 8239) || (c =? 8287) || (c =? 12288))%N.
Fixpoint lstrip (s : text) : text := match s with c :: s' => if is_space c then lstrip s' else s | [] => [] end.
Definition rstrip (s : text) : text := rev (lstrip (rev s)).
(** ["{0:>L}".format(s)] *)
Definition pad (L : nat) (s : text) : text := repeat space (L - length s) ++ s.
(** ["{0:<L}".format(s)] *)
Definition padr (L : nat) (s : text) : text := s ++ repeat space (L - length s).
Definition bar : text := [32; 124; 32]%N.
(** Padding (213-226) *)
Definition widths (lines : list tline) : nat * nat :=
  fold_right (fun l m => match l with Text a b => (max (length a) (fst m), max (length b) (snd m)) | Title _ => m end) (0, 0) lines.
Definition render (L : nat * nat) (l : tline) : text :=
  match l with
  | Title m => rstrip (pad (fst L) bar ++ m)
  | Text a b => rstrip (pad (fst L) a ++ padr (snd L) b)
  end.
Definition none_text : text := [40; 110; 111; 110; 101; 41]%N.
Definition constraint_table (sortbymodel showmodels : bool) (data : list entry) (title : text) : list text :=
  let decorated := sort deco_leb (decorate sortbymodel showmodels [] (sort entry_leb data)) in
  let lines := match body None decorated [] with [] => [Text [] none_text] | ls => ls end in
  [title; repeat 45%N (length title)] ++ map (render (widths lines)) lines ++ [[]].
End Table.
Arguments entry K : clear implicits. Arguments deco K : clear implicits.

(** ** Which constraints *)

Section Sens.
Context {T : Type}.
Variable leb : T -> T -> bool.
(** [float("%+6.2g" % s)], ["%+6.2g" % s] *)
Variable rnd : T -> T.
Variable fmt : T -> text.
(** What [tight_table] sorts by (140-147): the largest come first *)
Definition tight_leb : T * text -> T * text -> bool := lex (fun a b => leb b a) text_leb.
(** [tight_table] (135-148). The sensitivities are those of the last point of a sweep, or the only one. Simplification: [float] of the negative is the negative;
    the title is an argument. *)
Definition tight_data (n : nat) (tight_senss : T) (cs : list (con * T)) : list (entry (T * text)) :=
  firstn n (sort (entry_leb tight_leb) (map (fun cs => Entry (rnd (snd cs), c_str (fst cs)) (fmt (snd cs)) (fst cs)) (List.filter (fun cs => leb tight_senss (snd cs)) cs))).
Definition tight_table (sortbymodel showmodels : bool) (n : nat) (tight_senss : T) (cs : list (con * T)) (title : text) : list text :=
  constraint_table tight_leb sortbymodel showmodels (tight_data n tight_senss cs) title.
(** [loose_table] (150-162) *)
Definition loose_data (min_senss : T) (cs : list (con * T)) : list (entry unit) :=
  map (fun cs => Entry tt [] (fst cs)) (List.filter (fun cs => leb (snd cs) min_senss) cs).
Definition loose_table (sortbymodel showmodels : bool) (min_senss : T) (cs : list (con * T)) (title : text) : list text :=
  constraint_table (fun _ _ => true) sortbymodel showmodels (loose_data min_senss cs) title.
End Sens.
