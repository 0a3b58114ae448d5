(** Specification for C72 and C73: the files of MOSEK's command line solver mskexpopt. *)
From Verif Require Import Base Settings NomialSem.
From Coq Require Import Strings.String Strings.Ascii DecimalString.
Local Open Scope list_scope.
Open Scope nat_scope.

(** ** Problems *)

(** The words of a file, without lines that begin with an asterisk. [start]: at the start of a line; [comment]: in such a line; [cur]: the
    word so far. *)
Definition flush (cur : text) : list text := match cur with [] => [] | _ => [cur] end.
Fixpoint scan (s : text) (start comment : bool) (cur : text) : list text :=
  match s with
  | [] => flush cur
  | c :: s' =>
      if Ascii.eqb c newline then flush cur ++ scan s' true false []
      else if comment then scan s' false true []
      else if Ascii.eqb c " "%char then flush cur ++ scan s' false false []
      else if start && Ascii.eqb c "*"%char then scan s' false true []
      else scan s' false false (cur ++ [c])
  end.
Definition file_words (s : text) : list text := scan s true false [].

(** A word, and one that doesn't start a comment *)
Definition visible (w : text) : Prop := w <> [] /\ Forall (fun c => 33 <= nat_of_ascii c) w.
Definition good (w : text) : Prop := visible w /\ hd_error w <> Some "*"%char.
(** A number that is read as the number that was written *)
Definition round_trip {T} (fmt : T -> text) (parse : text -> option T) (x : T) : Prop := good (fmt x) /\ parse (fmt x) = Some x.

(** A word that is a decimal number *)
Definition nat_of (w : text) : option nat := option_map Nat.of_uint (NilEmpty.uint_of_string (string_of_list_ascii w)).

(** The numbers of constraints, variables and terms; the coefficient of each term; the constraint each is in, 0 for the cost; and the exponent of
    variable [j] in term [t], as triples. *)
Record problem (T : Type) := Problem { q_con : nat; q_var : nat; q_ter : nat; q_c : list T; q_in : list nat; q_exps : list (nat * nat * T) }.
Arguments Problem {T}. Arguments q_con {T}. Arguments q_var {T}. Arguments q_ter {T}. Arguments q_c {T}. Arguments q_in {T}. Arguments q_exps {T}.

Section Reader.
Context {T : Type} (parse : text -> option T).
Fixpoint triples (ws : list text) : option (list (nat * nat * T)) :=
  match ws with
  | [] => Some []
  | t :: j :: a :: ws' =>
      match nat_of t, nat_of j, parse a, triples ws' with
      | Some t, Some j, Some a, Some r => Some ((t, j, a) :: r)
      | _, _, _, _ => None
      end
  | _ => None
  end.
Definition numbers {X} (f : text -> option X) (n : nat) (ws : list text) : option (list X) :=
  if List.length ws <? n then None else mapM f (firstn n ws).
Definition read_problem (file : text) : option (problem T) :=
  match file_words file with
  | con :: var :: ter :: ws =>
      match nat_of con, nat_of var, nat_of ter with
      | Some con, Some var, Some ter =>
          match numbers parse ter ws, numbers nat_of ter (skipn ter ws), triples (skipn (ter + ter) ws) with
          | Some c, Some i, Some e => Some (Problem con var ter c i e)
          | _, _, _ => None
          end
      | _, _, _ => None
      end
  | _ => None
  end.
End Reader.

(** The value of a term, and of constraint [i] (or for 0 the cost), where [x j] is the logarithm of variable [j]. The problem is to
    minimize the cost such that constraints 1 to [q_con q] are at most 1. *)
Definition term_value (q : problem R) (x : nat -> R) (t : nat) : R :=
  (List.nth t (q_c q) 0 * exp (lsum (fun e => if Nat.eqb (fst (fst e)) t then snd e * x (snd (fst e)) else 0) (q_exps q)))%R.
Definition posy_value (q : problem R) (x : nat -> R) (i : nat) : R :=
  lsum (fun t => if Nat.eqb (List.nth t (q_in q) 0) i then term_value q x t else 0%R) (seq 0 (q_ter q)).

(** ** Solutions *)

Definition blanks (n : nat) : text := repeat " "%char n.
Definition line (l : text) : text := l ++ [newline].
(** A value: its index, spaces, the number and spaces, as in ["1       2.390776e+000   "] *)
Record value := Value { v_index : text; v_gap : nat; v_number : text; v_end : nat }.
Definition value_line (v : value) : text := line (v_index v ++ blanks (S (v_gap v)) ++ v_number v ++ blanks (v_end v)).
Definition value_ok (v : value) : Prop := visible (v_index v) /\ visible (v_number v).

(** A solution file: up to the header of the dual variables, and those. What comes after them starts with an empty line, if there is anything. *)
Definition head_text (status objective : text) (primal : list value) : text :=
  line (chars "PROBLEM STATUS      : PRIMAL_AND_DUAL_FEASIBLE")
  ++ line (chars "SOLUTION STATUS     : " ++ status)
  ++ line (chars "OBJECTIVE           : " ++ objective)
  ++ line []
  ++ line (chars "PRIMAL VARIABLES")
  ++ line (chars "INDEX   ACTIVITY")
  ++ List.concat (map value_line primal)
  ++ line []
  ++ line (chars "DUAL VARIABLES")
  ++ chars "INDEX   ACTIVITY".
Definition duals_text (dual : list value) (more : text) : text := line [] ++ List.concat (map value_line dual) ++ more.
Definition solution_file (status objective : text) (primal dual : list value) (more : text) : text :=
  head_text status objective primal ++ duals_text dual more.
