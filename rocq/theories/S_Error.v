(** Specification vocabulary for error messages under the input line: C70. *)
From Coq Require Import List Ascii String Bool Lia Arith.
From Verif Require Import M_Base M_StringUtil M_Tree M_Context M_Parser M_Match M_Simplify S_Engine S_Tree.
Import ListNotations.
Open Scope list_scope.
Open Scope nat_scope.

Definition NEWLINE : ascii := ascii_of_nat 10.
(** The first line of a text *)
Fixpoint first_line (out : list ascii) : list ascii :=
  match out with
  | [] => []
  | c :: out' => if Ascii.eqb c NEWLINE then [] else c :: first_line out'
  end.
(** Column [c] of the line below the input shows one of the signs that point at the input. *)
Definition marked (out : list ascii) (c : nat) : Prop :=
  nth_error (first_line out) c = Some "^"%char \/ nth_error (first_line out) c = Some "~"%char.
(** The signs stand exactly below [len] characters, the first of them in column [col]. *)
Definition marks (out : list ascii) (col len : nat) : Prop := forall c, marked out c <-> col <= c < col + len.
(** The text is one line, it shows the message, the other characters are the signs and blanks. *)
Definition one_line_with (out : list ascii) (msg : cstr) : Prop :=
  exists before behind, out = before ++ msg ++ behind ++ [NEWLINE] /\
    Forall (fun c => c = " "%char \/ c = "^"%char \/ c = "~"%char) (before ++ behind).
(** A message: one line without the signs *)
Definition plain (msg : cstr) : Prop := ~ In NEWLINE msg /\ ~ In "^"%char msg /\ ~ In "~"%char msg.

(** The part of the line that begins in column [col] is [t]. *)
Definition typed_at (line : cstr) (col : nat) (t : cstr) : Prop := exists a b, line = a ++ t ++ b /\ List.length a = col.

(** The nodes of a tree *)
Fixpoint nodes_of (t : node) : list node :=
  t :: match t with NOp _ cs _ => flat_map nodes_of cs | _ => [] end.
(** What a node of a parsed tree was written as: the token with its number is the name of the operator, the number or the
    name of the variable. (An operator that is understood without being written has the number of the token
    behind the place where it would stand.) *)
Definition written_as (strtod : cstr -> option double) (c : ctx) (n : node) (t : cstr) : Prop :=
  match n with
  | NConst v _ => strtod t = Some v
  | NVar x _ _ => t = x
  | NOp op _ _ => o_name op = t \/ ctx_glue c = Ok (Some op)
  end.

(** Rules replace only operators and numbers: no pattern is a single variable. The long form of x' is an operator with
    two operands, the second of which is a variable. *)
Definition variable (n : node) : Prop := exists x i k, n = NVar x i k.
Definition rewrites_no_variable (sm : simp) : Prop :=
  (forall rs r, In rs (s_rulesets sm) -> In r rs -> ~ variable (pt_tree (r_pat r))) /\
  (forall b, s_before sm = Some b -> ~ variable (pt_tree b)) /\
  ~ variable (pt_tree (s_malformed sm)) /\
  (exists op a z k, s_after sm = Some (NOp op [a; z] k) /\ variable z).
