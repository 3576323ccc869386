(** Specification vocabulary for C80: input that does not refer to earlier results or to chance. *)
From Coq Require Import List Ascii String NArith ZArith Bool Lia Arith.
From Verif Require Import M_Base M_Tree M_Match M_Eval M_Simplify M_ArithCtx M_Session S_Tree S_Session.
Import ListNotations.
Open Scope list_scope.
Open Scope nat_scope.

(** The operator has the number of @, rand or ans in the table of operators. *)
Definition refers_back (op : operator) : Prop :=
  exists b, nth_error arith_ops (o_id op) = Some b /\ In (o_name b) [str "@"; str "rand"; str "ans"].
Definition self_contained (t : node) : Prop := Forall (fun op => ~ refers_back op) (operators_of t).
(** No rule introduces such an operator or asks for its value in a constraint. *)
Definition self_contained_pattern (p : pattern) : Prop := Forall (Forall self_contained) (pt_constraints p).
Definition self_contained_rules (sm : simp) : Prop :=
  (forall rs r, In rs (s_rulesets sm) -> In r rs -> self_contained_pattern (r_pat r) /\ self_contained (r_after r)) /\
  self_contained_pattern (s_malformed sm) /\ (forall a, s_after sm = Some a -> self_contained a).
(** The same session with another history and other random numbers *)
Definition with_past (s : session) (w : world) : session := mkSession (ss_ctx s) (ss_pc s) (ss_funs s) (ss_simp s) w.
(** A line was executed with two pasts [w] and [w']: the same is shown, with the same success; what is added to the
    history is the same (one number or nothing); no random numbers are used up; nothing else changes. *)
Definition entered (v : option double) (w : world) : world :=
  match v with Some v => mkWorld (history_add (w_history w) v) (w_rand w) | None => w end.
Definition answers_alike (s : session) (w w' : world) (r r' : step cmdres) : Prop :=
  (exists o b v, r = Done (Ok (Did (with_past s (entered v w)) o b)) /\ r' = Done (Ok (Did (with_past s (entered v w')) o b))) \/
  (r = r' /\ (r = Done Ub \/ r = Done Halt \/ r = Forever)).
