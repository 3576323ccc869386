(** Specification vocabulary for C81: results and ans. *)
From Coq Require Import List Ascii String NArith ZArith Bool.
From Verif Require Import M_Base M_Tree M_TreeUtil M_Double M_Eval.
Import ListNotations.
Open Scope list_scope.
Open Scope nat_scope.

(** The tree displays the number: as a constant or, if it is negative, as minus its absolute value. *)
Definition displays (u : node) (v : double) : Prop :=
  (exists k, u = NConst v k) \/
  (dltb v d0 = true /\ exists m k j, u = NOp m [NConst (fabs v) k] j /\ o_name m = str "-" /\ o_place m = PPrefix).
