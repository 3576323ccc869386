(** Specification vocabulary for the constraints of rules (what stands behind WHERE): C72. *)
From Coq Require Import Reals.
From Coq Require Import List Ascii String NArith ZArith Bool Lia Arith.
From Coq.Floats Require Import SpecFloat.
From Verif Require Import M_Base M_StringUtil M_Tree M_Context M_Parser M_TreeUtil M_Match M_Double M_Eval M_Simplify S_Tree S_Simplify.
Import ListNotations.
Open Scope string_scope.
Open Scope list_scope.
Open Scope nat_scope.

(** ** The words of the language, besides the operators of the calculator: name, place, number of operands, strength, associativity *)
Definition constraint_words : list (string * placement * option nat * nat * assoc) :=
  [ ("type", PFunction, Some 1, 255, ALeft); ("equal", PFunction, Some 2, 255, ALeft); ("count", PFunction, None, 255, ALeft);
    ("CONST", PFunction, Some 0, 255, ALeft); ("VAR", PFunction, Some 0, 255, ALeft); ("OP", PFunction, Some 0, 255, ALeft);
    ("TRUE", PFunction, Some 0, 255, ALeft); ("FALSE", PFunction, Some 0, 255, ALeft);
    ("==", PInfix, Some 2, 1, ALeft); ("!=", PInfix, Some 2, 1, ALeft);
    ("<", PInfix, Some 2, 1, ALeft); (">", PInfix, Some 2, 1, ALeft); ("<=", PInfix, Some 2, 1, ALeft); (">=", PInfix, Some 2, 1, ALeft);
    ("||", PInfix, Some 2, 0, ALeft); ("!", PPrefix, Some 1, 4, ALeft) ].
Definition describes (w : string * placement * option nat * nat * assoc) (op : operator) : Prop :=
  match w with (n, p, a, k, s) => o_name op = str n /\ o_place op = p /\ o_arity op = a /\ o_prec op = k /\ o_assoc op = s end.

(** ** Conditions and what they mean *)
Inductive nodekind := KindConst | KindVar | KindOp.
Definition kind_of_node (t : node) : nodekind := match t with NConst _ _ => KindConst | NVar _ _ _ => KindVar | NOp _ _ _ => KindOp end.
Definition same_kind (a b : nodekind) : bool :=
  match a, b with KindConst, KindConst | KindVar, KindVar | KindOp, KindOp => true | _, _ => false end.
Inductive comparison_sign := Equal | Unequal | Less | Greater | AtMost | AtLeast.
Inductive cond :=
| IsKind (t : node) (k : nodekind) | IsNotKind (t : node) (k : nodekind)   (** type(t) == K, type(t) != K *)
| Same (a b : node)                                                        (** equal(a, b) *)
| Compare (c : comparison_sign) (a b : node)                               (** a == b, a < b, ... for numbers *)
| Truth (b : bool)                                                         (** TRUE, FALSE *)
| Either (c d : cond)                                                      (** c || d *)
| Negation (c : cond).                                                     (** !c *)

(** The comparisons of IEEE 754 *)
Definition compare_doubles (c : comparison_sign) (x y : double) : bool :=
  match SFcompare x y with
  | None => match c with Unequal => true | _ => false end
  | Some Eq => match c with Equal | AtMost | AtLeast => true | _ => false end
  | Some Lt => match c with Unequal | Less | AtMost => true | _ => false end
  | Some Gt => match c with Unequal | Greater | AtLeast => true | _ => false end
  end.
(** The truth of a condition, where [value] evaluates expressions; [None]: some expression in it has no value. *)
Fixpoint meaning (value : node -> option double) (c : cond) : option bool :=
  match c with
  | IsKind t k => Some (same_kind (kind_of_node t) k)
  | IsNotKind t k => Some (negb (same_kind (kind_of_node t) k))
  | Same a b => Some (tree_equals a b)
  | Compare s a b => match value a, value b with Some x, Some y => Some (compare_doubles s x y) | _, _ => None end
  | Truth b => Some b
  | Either c d => match meaning value c, meaning value d with Some x, Some y => Some (x || y) | _, _ => None end
  | Negation c => option_map negb (meaning value c)
  end.

(** ** How conditions are written: the trees the parser builds for them *)
Section Written.
Variable pc : ctx.
Definition word (n : string) (p : placement) (op : operator) : Prop := ctx_lookup_op pc (str n) p = Ok (Some op).
Definition kind_word (k : nodekind) : string := match k with KindConst => "CONST" | KindVar => "VAR" | KindOp => "OP" end.
Definition sign_word (c : comparison_sign) : string :=
  match c with Equal => "==" | Unequal => "!=" | Less => "<" | Greater => ">" | AtMost => "<=" | AtLeast => ">=" end.
Inductive stands_for : node -> cond -> Prop :=
| sf_kind : forall eqo ty ko t k i j l, word "==" PInfix eqo -> word "type" PFunction ty -> word (kind_word k) PFunction ko ->
    stands_for (NOp eqo [NOp ty [t] i; NOp ko [] j] l) (IsKind t k)
| sf_not_kind : forall neo ty ko t k i j l, word "!=" PInfix neo -> word "type" PFunction ty -> word (kind_word k) PFunction ko ->
    stands_for (NOp neo [NOp ty [t] i; NOp ko [] j] l) (IsNotKind t k)
| sf_same : forall e a b l, word "equal" PFunction e -> stands_for (NOp e [a; b] l) (Same a b)
| sf_compare : forall s op a b l, word (sign_word s) PInfix op -> stands_for (NOp op [a; b] l) (Compare s a b)
| sf_truth : forall b op l, word (if b : bool then "TRUE" else "FALSE") PFunction op -> stands_for (NOp op [] l) (Truth b)
| sf_either : forall op s t c d l, word "||" PInfix op -> stands_for s c -> stands_for t d -> stands_for (NOp op [s; t] l) (Either c d)
| sf_negation : forall op t c l, word "!" PPrefix op -> stands_for t c -> stands_for (NOp op [t] l) (Negation c).
End Written.

(** An expression of the calculator: all operators are among its 58 (numbers and addresses are those of the calculator) *)
Definition of_calculator (t : node) : Prop := forall op, In op (operators_of t) -> o_id op < 58 /\ o_addr op < 58.
(** All expressions in a condition satisfy [P]; all that are compared as numbers, [Q]. *)
Fixpoint all_operands (P Q : node -> Prop) (c : cond) : Prop :=
  match c with
  | IsKind t _ | IsNotKind t _ => P t
  | Same a b => P a /\ P b
  | Compare _ a b => (P a /\ Q a) /\ (P b /\ Q b)
  | Truth _ => True
  | Either c d => all_operands P Q c /\ all_operands P Q d
  | Negation c => all_operands P Q c
  end.
(** The calculator evaluates [t] to [value t] without changing its state (no random numbers are drawn). *)
Definition evaluates (L : libm) (fuel : nat) (w : world) (value : node -> option double) (t : node) : Prop :=
  match value t with
  | Some v => evals (arith_listener L fuel) (Done (Ok w)) t (Done (Ok w)) (RVal v)
  | None => exists e p, evals (arith_listener L fuel) (Done (Ok w)) t (Done (Ok w)) (RFail e p)
  end.
