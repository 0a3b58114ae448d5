(** Model of how expressions are printed: the trees that operators leave behind (gpkit/nomials/math.py) and [parse_ast]
    (gpkit/repr_conventions.py), on a platform with unicode exponents (repr_conventions.py:9-18). Strings are lists of code points.
    Units, arrays and the cache of strings (which changes no result) are left out. *)
From Verif Require Import Base HashVec Nomial.

Definition text := list N.

Section Print.
Context {T : Type} `{Num T}.

(** What expressions evaluate to: a Python number, or a nomial with its hmap and [.ast]. [OVar] prints its key, [OPlain] is a nomial
    without [.ast]. *)
Inductive obj :=
| ONum (c : T) | OVar (x : nat) | OPlain (h : hmap T)
| OAdd (h : hmap T) (a b : obj) | OMul (h : hmap T) (a b : obj) | ODiv (h : hmap T) (a b : obj)
| ONeg (h : hmap T) (a : obj) | OPow (h : hmap T) (a : obj) (x : T).

Definition obj_value (o : obj) : value T :=
  match o with
  | ONum c => VNum c | OVar x => VNom (var_hmap x) | OPlain h => VNom h
  | OAdd h _ _ | OMul h _ _ | ODiv h _ _ | ONeg h _ | OPow h _ _ => VNom h
  end.

Section Ops.
Variable se : bool.   (* SignomialsEnabled *)

(** A nomial result gets the tree, a number is returned as it is. *)
Definition with_ast (tree : hmap T -> obj) (r : res (value T)) : res obj :=
  rmap (fun v => match v with VNum c => ONum c | VNom h => tree h end) r.

(** [+] (math.py:179-193): the tree has the operands in the order written; adding the number 0 copies the hmap and not the tree. *)
Definition is_zero (v : value T) : bool := match v with VNum c => bool_decide (c = n0) | VNom _ => false end.
Definition o_add (a b : obj) : res obj :=
  let va := obj_value a in let vb := obj_value b in
  with_ast (fun h => if is_zero va || is_zero vb then OPlain h else OAdd h a b) (py_add se va vb).
(** [*] (math.py:195-225) *)
Definition o_mul (a b : obj) : res obj := with_ast (fun h => OMul h a b) (py_mul se (obj_value a) (obj_value b)).
(** [/] (math.py:227-235, 313-319) *)
Definition o_div (a b : obj) : res obj := with_ast (fun h => ODiv h a b) (py_div se (obj_value a) (obj_value b)).
(** unary [-] (math.py:247-252) *)
Definition o_neg (a : obj) : res obj := with_ast (fun h => ONeg h a) (py_neg se (obj_value a)).
(** [-] (math.py:254-258) *)
Definition o_sub (a b : obj) : res obj :=
  match a, b with
  | ONum x, ONum y => Ok (ONum (nsub x y))
  | _, _ => if se then let! nb := o_neg b in o_add a nb else Err TypeErrorE
  end.
(** [**] (math.py:237-245, 321-333). By the time Signomial.__pow__ stores the exponent in the tree, its loop has counted it down to 0. *)
Definition is_mono (a : obj) : bool := match obj_value a with VNom h => bool_decide (classify h = CMonomial) | VNum _ => false end.
Definition o_powz (a : obj) (z : Z) : res obj :=
  with_ast (fun h => OPow h a (if is_mono a then nofZ z else nofZ 0)) (py_powz se (obj_value a) z).
Definition o_powr (a : obj) (r : T) : res obj := with_ast (fun h => OPow h a r) (py_powr se (obj_value a) r).

(** Running an expression ([run] in Nomial.v, with trees) *)
Fixpoint run_obj (e : expr T) : res obj :=
  match e with
  | EConst c => Ok (ONum c)
  | EVar x => Ok (OVar x)
  | EAdd a b => let! va := run_obj a in let! vb := run_obj b in o_add va vb
  | ESub a b => let! va := run_obj a in let! vb := run_obj b in o_sub va vb
  | EMul a b => let! va := run_obj a in let! vb := run_obj b in o_mul va vb
  | EDiv a b => let! va := run_obj a in let! vb := run_obj b in o_div va vb
  | ENeg a => let! va := run_obj a in o_neg va
  | EPowZ a z => let! va := run_obj a in o_powz va z
  | EPowR a r => let! va := run_obj a in o_powr va r
  end.
End Ops.

(** ** Text *)
Definition SP : N := 32. Definition LP : N := 40. Definition RP : N := 41. Definition PLUS : N := 43. Definition MINUS : N := 45.
Definition SLASH : N := 47. Definition ONE : N := 49. Definition CARET : N := 94. Definition DOT : N := 183.

Definition has (c : N) (s : text) : bool := existsb (N.eqb c) s.
(** [" + " in s or " - " in s] *)
Fixpoint has_addi (s : text) : bool :=
  match s with
  | a :: s' => match s' with b :: c :: _ => N.eqb a SP && (N.eqb b PLUS || N.eqb b MINUS) && N.eqb c SP | _ => false end || has_addi s'
  | [] => false
  end.
(** ["·" in s or "/" in s] *)
Definition has_mult (s : text) : bool := has DOT s || has SLASH s.

(** [INSIDE_PARENS.sub("", s)] with the pattern [\(.*\)] (repr_conventions.py:8, 75): greedy, so what goes is all from the first "("
    to the last ")" behind it. Texts are on one line. *)
Fixpoint upto_first (c : N) (s : text) : option (text * text) :=   (* before, behind *)
  match s with
  | [] => None
  | a :: s' => if N.eqb a c then Some ([], s') else
      match upto_first c s' with Some (p, q) => Some (a :: p, q) | None => None end
  end.
Fixpoint behind_last (c : N) (s : text) : option text :=
  match s with
  | [] => None
  | a :: s' => match behind_last c s' with Some r => Some r | None => if N.eqb a c then Some s' else None end
  end.
Definition strip (s : text) : text :=
  match upto_first LP s with
  | None => s
  | Some (p, q) => match behind_last RP q with None => s | Some r => p ++ r end
  end.

(** [parenthesize] (repr_conventions.py:73-80) *)
Definition parenthesize (s : text) (addi mult : bool) : text :=
  let parensless := if has LP s then strip s else s in
  let bare_addi := has_addi parensless in
  let bare_mult := has_mult parensless in
  if (negb (match parensless with [] => true | _ => false end) && (addi && bare_addi)) || (mult && bare_mult)
  then LP :: s ++ [RP] else s.

(** [chr(176+x)] for 2 and 3, [chr(8304+x)] for 4 to 9 (repr_conventions.py:131-136) *)
Definition superscripts : list (Z * N) := combine [2; 3; 4; 5; 6; 7; 8; 9]%Z [178; 179; 8308; 8309; 8310; 8311; 8312; 8313]%N.
Definition superscript (x : T) : option N :=
  option_map snd (List.find (fun zc => bool_decide (x = nofZ (fst zc))) superscripts).

Section Str.
Variable name : nat -> text.     (* a key's [str_without] *)
Variable fmt : T -> text.        (* [strify] of a number (repr_conventions.py:53-70) *)
Variable xfmt : T -> text.       (* ["%s" % x] for an exponent *)
Variable plain : hmap T -> text. (* nomials without [.ast] (core.py:46-68) *)

(** [strify] and [parse_ast] (repr_conventions.py:53-147) *)
Fixpoint strify (o : obj) : text :=
  match o with
  | ONum c => fmt c
  | OVar x => name x
  | OPlain h => plain h
  | OAdd _ a b =>
      match strify b with
      | c :: r => if N.eqb c MINUS then strify a ++ [SP; MINUS; SP] ++ r else strify a ++ [SP; PLUS; SP] ++ c :: r
      | [] => []   (* [right[0]] would raise; no text is empty *)
      end
  | OMul _ a b =>
      let left := parenthesize (strify a) true false in
      let right := parenthesize (strify b) true false in
      if decide (left = [ONE]) then right else if decide (right = [ONE]) then left else left ++ DOT :: right
  | ODiv _ a b =>
      let left := parenthesize (strify a) true false in
      let right := parenthesize (strify b) true true in
      if decide (right = [ONE]) then left else left ++ SLASH :: right
  | ONeg _ a => MINUS :: parenthesize (strify a) true false
  | OPow _ a x =>
      let left := parenthesize (strify a) true true in
      if decide (left = [ONE]) then [ONE] else
      match superscript x with
      | Some c => left ++ [c]
      | None => left ++ CARET :: xfmt x
      end
  end.
End Str.
End Print.
Arguments obj T : clear implicits.
