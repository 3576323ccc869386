(** Specification vocabulary for C82: the history and what is shown. *)
From Coq Require Import List Ascii String NArith ZArith Bool.
From Verif Require Import M_Base M_Tree M_TreeUtil M_Double M_Eval M_Simplify M_Session.
Import ListNotations.
Open Scope list_scope.
Open Scope nat_scope.

(** The numbers among what is shown that are results: evaluations that ended in one constant, and folds; in the order shown *)
Definition number_shown (x : shown) : list double :=
  match x with
  | SResult (NConst v _) => [v]
  | SFold v => [v]
  | _ => []
  end.
Definition numbers_shown (o : list shown) : list double := flat_map number_shown o.
(** The random numbers of [w'] are those of [w] without the first ones, which were drawn. *)
Definition drawn (w w' : world) : Prop := exists used, w_rand w = used ++ w_rand w'.
