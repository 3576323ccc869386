(** Specification vocabulary for numbers and operators: C42-C46, C54, C60. *)
From Coq Require Import List Ascii String NArith ZArith Bool Lia Reals.
From Coq.Floats Require Import SpecFloat.
From Flocq Require Import Core.
From Verif Require Import M_Base M_Tree M_Context M_Strtod M_Double M_Eval M_ArithCtx L_ArithCtx.
Import ListNotations.
Open Scope Z_scope.

(** ** Doubles and numbers *)
(** [d] is a binary64 datum (mantissa and exponent in range). *)
Definition valid (d : double) : Prop := valid_binary prec emax d = true.
Definition finite (d : double) : Prop := match d with S754_zero _ | S754_finite _ _ _ => True | _ => False end.
Definition val (d : double) : R :=
  match d with S754_finite s m e => (IZR (if s then Zneg m else Zpos m) * bpow radix2 e)%R | _ => 0%R end.
(** [d] is a number (no NaN, no infinity) with value [r]. *)
Definition number (d : double) (r : R) : Prop := valid d /\ finite d /\ val d = r.
(** [d] is the integer [z] *)
Definition isZ (d : double) (z : Z) : Prop := number d (IZR z).
(** [d] is a number and [z] its integer part *)
Definition int_part (d : double) (z : Z) : Prop := exists r, number d r /\ Ztrunc r = z.
(** Integers of at most 53 bits: all of them are doubles. *)
Definition small (z : Z) : Prop := Z.abs z <= 2 ^ 53.
(** Rounding to the nearest double, ties to even *)
Definition rnd (r : R) : R := Generic_fmt.round radix2 (FLT.FLT_exp (-1074) 53) ZnearestE r.

(** ** What the calculator does on applying an operator to numbers *)
Section Apply.
Variable L : libm.
Variables (name : string) (p : placement) (w : world) (args : list double).
Definition applies (P : operator -> Prop) : Prop :=
  exists op, ctx_lookup_op the_arith_ctx (str name) p = Ok (Some op) /\ P op.
(** It ends, reports no error and yields [v]; the state is [w'] then. *)
Definition gives_in (w' : world) (v : double) : Prop :=
  applies (fun op => exists n, forall fuel, (n <= fuel)%nat -> arith_op_evaluate L fuel w op args = Done (Ok (w', (0, v)))).
Definition gives (v : double) : Prop := gives_in w v.
(** It ends and reports error [e]. *)
Definition reports (e : Z) : Prop :=
  e <> 0 /\ applies (fun op => exists n, forall fuel, (n <= fuel)%nat ->
    exists v, arith_op_evaluate L fuel w op args = Done (Ok (w, (e, v)))).
(** It has undefined behaviour. *)
Definition undefined : Prop :=
  applies (fun op => exists n, forall fuel, (n <= fuel)%nat -> arith_op_evaluate L fuel w op args = Done Ub).
(** It does not end. *)
Definition runs_forever : Prop :=
  applies (fun op => forall fuel, arith_op_evaluate L fuel w op args = Forever).
End Apply.

(** ** Mathematics *)
(** Pascal's triangle *)
Fixpoint choose (n k : nat) : Z :=
  match n, k with
  | _, O => 1
  | O, S _ => 0
  | S n', S k' => choose n' k' + choose n' k
  end.
Fixpoint factorial (n : nat) : Z := match n with O => 1 | S m => Z.of_nat n * factorial m end.
(** Fibonacci numbers over the integers *)
Fixpoint fibo (n : nat) : Z := match n with O => 0 | S m => match m with O => 1 | S k => fibo m + fibo k end end.
Definition fiboZ (z : Z) : Z :=
  if 0 <=? z then fibo (Z.to_nat z)
  else if Z.even z then - fibo (Z.to_nat (- z)) else fibo (Z.to_nat (- z)).
