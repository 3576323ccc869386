(** How an expression is simplified: C75. *)
From Coq Require Import List Ascii String NArith ZArith Bool Lia Arith.
From Verif Require Import M_Base M_Tree M_Context M_TreeUtil M_Match M_Double M_Eval M_Simplify S_Match.
Import ListNotations.
Open Scope nat_scope.

Section Passes.
Variable L : libm.
Variable fuel : nat.
Variables g pc : ctx.
(** Checks constraints in a world (history and random numbers) *)
Definition checks (w : world) : node -> res bool := propositional_checker L fuel pc w.
Definition none_applies (w : world) (rs : list rule) (t : node) : Prop := forall r, In r rs -> apply_rule (checks w) t r = Ok None.
(** Constant subexpressions are replaced by their values; [e]: what could not be evaluated *)
Definition evaluated (w : world) (t : node) (w' : world) (t' : node) (e : option (Z * path)) : Prop := reduce_constants L fuel w t = Done (Ok (w', (t', e))).
(** [n] times the first rule that can be applied is applied, and then constants are evaluated, until no rule can be applied *)
Inductive exhausts (rs : list rule) : nat -> world -> node -> world -> node -> Prop :=
| ex_end : forall w t, none_applies w rs t -> exhausts rs 0 w t w t
| ex_step : forall n w t t1 w2 t2 e w3 t3, first_applies (checks w) rs t t1 -> evaluated w t1 w2 t2 e -> exhausts rs n w2 t2 w3 t3 -> exhausts rs (S n) w t w3 t3.
(** Negative constants -c are written as the operator minus and the constant c *)
Definition with_minus (t t' : node) : Prop := exists minus, ctx_lookup_op g (str "-") PPrefix = Ok (Some minus) /\ t' = replace_negative_consts minus t.
Definition pass (rs : list rule) (w : world) (t : node) (w' : world) (t' : node) : Prop := exists n u, n < fuel /\ exhausts rs n w t w' u /\ with_minus u t'.
(** One pass for each list of rules, in this order *)
Inductive passes : list (list rule) -> world -> node -> world -> node -> Prop :=
| pa_nil : forall w t, passes [] w t w t
| pa_cons : forall rs more w t w1 t1 w2 t2, pass rs w t w1 t1 -> passes more w1 t1 w2 t2 -> passes (rs :: more) w t w2 t2.
(** The sections of the rule file without the second, that of the derivatives *)
Definition other_sections (sm : simp) : list (list rule) := map (fun i => nth i (s_rulesets sm) []) [0; 2; 3; 4; 5; 6].
(** [err]: what is reported *)
Inductive simplified (sm : simp) (w : world) (t : node) : world -> node -> option (Z * path) -> Prop :=
| si_bad : forall w1 t1 e1 w2 t2 w3 t3 e, evaluated w t w1 t1 e1 -> passes (other_sections sm) w1 t1 w2 t2 ->
    apply_derivatives L fuel g pc sm w2 t2 = Done (Ok (w3, (t3, Some e))) -> simplified sm w t w3 t3 (Some e)
| si_undefined : forall w1 t1 e1 w2 t2 w3 t3 w4 t4 w5 t5 e, evaluated w t w1 t1 e1 -> passes (other_sections sm) w1 t1 w2 t2 ->
    apply_derivatives L fuel g pc sm w2 t2 = Done (Ok (w3, (t3, None))) -> passes (other_sections sm) w3 t3 w4 t4 ->
    evaluated w4 t4 w5 t5 (Some e) -> simplified sm w t w5 t5 (Some e)
| si_good : forall w1 t1 e1 w2 t2 w3 t3 w4 t4 w5 t5 t6, evaluated w t w1 t1 e1 -> passes (other_sections sm) w1 t1 w2 t2 ->
    apply_derivatives L fuel g pc sm w2 t2 = Done (Ok (w3, (t3, None))) -> passes (other_sections sm) w3 t3 w4 t4 ->
    evaluated w4 t4 w5 t5 None -> with_minus t5 t6 -> simplified sm w t w5 t6 None.
End Passes.
