(** Model of src/engine/tree/operator.c and src/engine/tree/node.c: operators and expression trees. *)
From Coq Require Import List Ascii String NArith ZArith Bool Lia Arith.
From Coq.Floats Require Import SpecFloat.
From Verif Require Import M_Base.
Import ListNotations.

(** C double: IEEE 754 binary64 as the standard library's spec_float (53 bits, exponent 1024).
    The sign and payload of NaNs are not represented. *)
Definition double := spec_float.
(** C's == on doubles: false for NaN, -0 == +0 *)
Definition deqb (a b : double) : bool := SFeqb a b.

(** operator.h:17-22 *)
Inductive placement := PPrefix | PInfix | PPostfix | PFunction.
Definition placement_eqb (a b : placement) : bool :=
  match a, b with
  | PPrefix, PPrefix | PInfix, PInfix | PPostfix, PPostfix | PFunction, PFunction => true
  | _, _ => false
  end.
(** operator.h:12-15 *)
Inductive assoc := ARight | ALeft.
Definition assoc_eqb (a b : assoc) : bool :=
  match a, b with ARight, ARight | ALeft, ALeft => true | _, _ => false end.

(** operator.h:24-31. arity OP_DYNAMIC_ARITY (SIZE_MAX) is [None]. [o_addr] is not a field of the C
    struct: it is the address at which the context stores the operator, so that comparing two
    operator pointers is comparing [o_addr]. *)
Record operator := mkOp {
  o_name : cstr;
  o_id : nat;
  o_arity : option nat;
  o_prec : nat;
  o_assoc : assoc;
  o_place : placement;
  o_addr : nat }.

Definition OP_MAX_PRECEDENCE : nat := 255.

(** operator.c:3-12. id is zero (C99 initializer) until the operator is added to a context. *)
Definition op_get_function (name : cstr) (arity : option nat) : operator :=
  mkOp name 0 arity OP_MAX_PRECEDENCE ALeft PFunction 0.
(** operator.c:14-23 *)
Definition op_get_prefix (name : cstr) (prec : nat) : operator :=
  mkOp name 0 (Some 1) prec ALeft PPrefix 0.
(** operator.c:25-34 *)
Definition op_get_infix (name : cstr) (prec : nat) (a : assoc) : operator :=
  mkOp name 0 (Some 2) prec a PInfix 0.
(** operator.c:36-45 *)
Definition op_get_postfix (name : cstr) (prec : nat) : operator :=
  mkOp name 0 (Some 1) prec ALeft PPostfix 0.
(** operator.c:48-51 *)
Definition op_get_constant (name : cstr) : operator := op_get_function name (Some 0).

(** node.c:6-27. Nodes are owned by exactly one parent, so trees are values; the NULL children of a
    freshly allocated operator node (node.c:55) are not represented because every caller fills them
    before the node becomes reachable. num_children is the length of the list. *)
Inductive node :=
| NConst (v : double) (tok : nat)
| NVar (name : cstr) (id : nat) (tok : nat)
| NOp (op : operator) (children : list node) (tok : nat).

(** node.c:76-84 *)
Definition get_token_index (n : node) : nat :=
  match n with NConst _ t | NVar _ _ t | NOp _ _ t => t end.
Definition is_op_node (n : node) : bool := match n with NOp _ _ _ => true | _ => false end.

(** Induction over trees with the hypothesis for every child (Coq's default one is too weak). *)
Section NodeInd.
Variable P : node -> Prop.
Hypothesis Hc : forall v t, P (NConst v t).
Hypothesis Hv : forall n i t, P (NVar n i t).
Hypothesis Ho : forall op cs t, Forall P cs -> P (NOp op cs t).
Fixpoint node_ind' (n : node) : P n :=
  match n with
  | NConst v t => Hc v t
  | NVar x i t => Hv x i t
  | NOp op cs t =>
    Ho op cs t ((fix go (l : list node) : Forall P l :=
                   match l with
                   | [] => Forall_nil P
                   | x :: l' => Forall_cons x (node_ind' x) (go l')
                   end) cs)
  end.
End NodeInd.
