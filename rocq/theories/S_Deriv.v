(** Specification vocabulary for the notations of derivatives: C73. *)
From Coq Require Import List Ascii String NArith ZArith Bool Lia Arith.
From Verif Require Import M_Base M_Tree M_TreeUtil M_Match S_Tree.
Import ListNotations.
Open Scope nat_scope.

Section Notations.
(** The operators written  e'  and  deriv(e, x) *)
Variables prime deriv : operator.

(** Two different variables occur. *)
Definition two_variables (x : node) : Prop := exists y z, In y (var_names x) /\ In z (var_names x) /\ y <> z.
(** [v] is the variable the short form e' refers to: the only one in e, or the name z if there is none. *)
Definition refers_to (e : node) (v : cstr) : Prop :=
  (var_names e = [] /\ v = str "z") \/ (In v (var_names e) /\ forall y, In y (var_names e) -> y = v).
(** [spelled t u]: [u] is [t] with every e' written as deriv(e, v). Positions of the operators stay; ids of
    variables do not matter. *)
Inductive spelled : node -> node -> Prop :=
| sp_const : forall v k, spelled (NConst v k) (NConst v k)
| sp_var : forall x i j k, spelled (NVar x i k) (NVar x j k)
| sp_op : forall op cs ds k, o_id op <> o_id prime -> Forall2 spelled cs ds -> spelled (NOp op cs k) (NOp op ds k)
| sp_prime : forall op e e' v i j k, o_id op = o_id prime -> refers_to e v -> spelled e e' ->
    spelled (NOp op [e] k) (NOp deriv [e'; NVar v i j] k).

(** [e'] occurs in [t] (at [q]). *)
Definition short_at (t : node) (q : path) (e : node) : Prop :=
  exists op k, subtree t q = Some (NOp op [e] k) /\ o_id op = o_id prime.
(** deriv(e, b) occurs in [t] (at [q]). *)
Definition long_at (t : node) (q : path) (e b : node) : Prop :=
  exists op k, subtree t q = Some (NOp op [e; b] k) /\ o_id op = o_id deriv.
(** The operators have the right number of operands, as the parser builds them. *)
Definition arities (t : node) : Prop := forall q op cs k, subtree t q = Some (NOp op cs k) ->
  (o_id op = o_id prime -> exists e, cs = [e]) /\ (o_id op = o_id deriv -> exists e b, cs = [e; b]).
(** How often the short form occurs *)
Fixpoint shorts (t : node) : nat :=
  match t with
  | NOp op cs _ => (if o_id op =? o_id prime then 1 else 0) + list_sum (map shorts cs)
  | _ => 0
  end.
Definition is_variable (t : node) : Prop := exists x i k, t = NVar x i k.
End Notations.
