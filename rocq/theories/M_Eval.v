(** Model of src/client/core/arith_evaluation.c and history.c: the value of operators. *)
From Coq Require Import List Ascii String NArith ZArith Bool Lia.
From Coq.Floats Require Import SpecFloat.
From Verif Require Import M_Base M_Tree M_TreeUtil M_Strtod M_Double.
Import ListNotations.
Open Scope Z_scope.
Open Scope res_scope.

(** arith_evaluation.h:6-12 *)
Definition LISTENERERR_HISTORY_NOT_SET : Z := 1.
Definition LISTENERERR_IMPOSSIBLE_DERIV : Z := 2.
Definition LISTENERERR_MALFORMED_DERIV_A : Z := 3.
Definition LISTENERERR_MALFORMED_DERIV_B : Z := 4.
Definition LISTENERERR_UNKNOWN_OP : Z := 5.
Definition LISTENERERR_DIVISION_BY_ZERO : Z := 6.
Definition LISTENERERR_COMPLEX_SOLUTION : Z := 7.

(** Outcome of a function with loops that may run forever: [Forever] is "not finished after the given
    number of rounds". *)
Inductive run (A : Type) : Type := Done (a : A) | Forever.
Arguments Done {A} a.
Arguments Forever {A}.

Definition d0 : double := S754_zero false.
Definition d1 : double := of_Z 1.

(** arith_evaluation.c:13-29 *)
Definition dsum (args : list double) : double := fold_left dadd args d0.
Definition count_of (args : list double) : double := of_Z (Z.of_nat (List.length args)).
Definition variance (L : libm) (args : list double) : double :=
  let u := ddiv (dsum args) (count_of args) in
  let res := fold_left (fun res x => dadd res (m_pow L (dsub x u) (of_Z 2))) args d0 in
  ddiv res (count_of args).

(** arith_evaluation.c:42-52 *)
Fixpoint euclid_loop (fuel : nat) (a b : double) : run double :=
  match fuel with
  | O => Forever
  | S f =>
    if dneb b d0 then
      if dgtb a b then euclid_loop f (dsub a b) b else euclid_loop f a (dsub b a)
    else Done a
  end.
(** arith_evaluation.c:31-55 *)
Definition euclid (fuel : nat) (a b : double) : run double :=
  let a := fabs (trunc a) in
  let b := fabs (trunc b) in
  if deqb a d0 then Done b else euclid_loop fuel a b.

(** arith_evaluation.c:66-69 *)
Fixpoint binomial_loop (fuel : nat) (n k i res : double) : run double :=
  match fuel with
  | O => Forever
  | S f =>
    if dleb i k then binomial_loop f n k (dadd i d1) (ddiv (dmul res (dadd (dsub n k) i)) i)
    else Done res
  end.
(** arith_evaluation.c:57-72 *)
Definition binomial (fuel : nat) (n k : double) : run double :=
  let n := fabs (trunc n) in
  let k := fabs (trunc k) in
  if deqb k d0 then Done d1
  else
    let k := if dgtb (dmul (of_Z 2) k) n then dsub n k else k in
    binomial_loop fuel n k d1 d1.

(** arith_evaluation.c:74-80 for n >= 0, the only way it is called; a sum that is no long is signed
    overflow. The recursion depth is not limited here. *)
Fixpoint fib (n : nat) : res Z :=
  match n with
  | O => Ok 0
  | S O => Ok 1
  | S (S m as p) =>
    a <- fib p ;;
    b <- fib m ;;
    if a + b <=? 2 ^ 63 - 1 then Ok (a + b) else Ub
  end.
(** arith_evaluation.c:82-100; labs(LONG_MIN) overflows *)
Definition fibonacci (n : double) : res double :=
  l <- to_long n ;;
  if l <? 0 then
    if l =? - 2 ^ 63 then Ub
    else
      v <- fib (Z.to_nat (- l)) ;;
      Ok (of_Z (if Z.rem l 2 =? 0 then - v else v))
  else
    v <- fib (Z.to_nat l) ;;
    Ok (of_Z v).

(** arith_evaluation.c:105-112; [r] is what rand() returns if it is called. The flag says whether it was
    called. *)
Definition random_between (r : Z) (min max : double) : res (bool * double) :=
  let min := trunc min in
  let max := trunc max in
  diff <- to_long (dsub max min) ;;
  if diff <? 1 then Ok (false, of_Z (-1))
  else Ok (true, dadd (of_Z (Z.rem r diff)) min).

(** arith_evaluation.c:181-184 *)
Fixpoint factorial_loop (fuel : nat) (i res : double) : run double :=
  match fuel with
  | O => Forever
  | S f => if dgtb i d1 then factorial_loop f (dsub i d1) (dmul res i) else Done res
  end.

(** ** history.c. ans_vec is the list of stored results, oldest first. *)
(** history.c:22-27; [index] is a size_t *)
Definition history_get (h : list double) (index : Z) : option double :=
  if Z.of_nat (List.length h) <=? index then None
  else nth_error h (List.length h - 1 - Z.to_nat index).
(** history.c:29-32 *)
Definition history_add (h : list double) (v : double) : list double := h ++ [v].
(** An int used as a size_t *)
Definition to_size (z : Z) : Z := z mod 2 ^ 64.

(** ** Operators *)
(** State of the program as the operators see it: the stored results and the values rand() will
    return. *)
Record world := mkWorld { w_history : list double; w_rand : list Z }.

(** What an operator does: the new state, the error code and the value written to *out (0 if none is) *)
Definition outcome := run (res (world * (Z * double))).
Definition ok (w : world) (v : double) : outcome := Done (Ok (w, (0, v))).
Definition err (w : world) (e : Z) : outcome := Done (Ok (w, (e, d0))).
Definition crash : outcome := Done Ub.
Definition ok_run (w : world) (r : run double) : outcome :=
  match r with Done v => ok w v | Forever => Forever end.
(** reading args[0] or args[0] and args[1] *)
Definition with1 (args : list double) (f : double -> outcome) : outcome :=
  match args with x :: _ => f x | [] => crash end.
Definition with2 (args : list double) (f : double -> double -> outcome) : outcome :=
  match args with x :: y :: _ => f x y | _ => crash end.
Definition from_history (w : world) (index : Z) : outcome :=
  match history_get (w_history w) index with Some v => ok w v | None => err w LISTENERERR_HISTORY_NOT_SET end.

Section Ops.
Variable L : libm.
(** rounds granted to the loops *)
Variable fuel : nat.

(** arith_evaluation.c:114-379 *)
Definition arith_op_evaluate (w : world) (op : operator) (args : list double) : outcome :=
  let one f := with1 args (fun x => ok w (f x)) in
  match o_id op with
  | 0 => one (fun x => x)
  | 1 => with1 args (fun x => match to_int x with Ok i => from_history w (to_size i) | _ => crash end)
  | 2 | 3 => err w LISTENERERR_IMPOSSIBLE_DERIV
  | 4 => with2 args (fun x y => ok w (dadd x y))
  | 5 => with2 args (fun x y => ok w (dsub x y))
  | 6 => with2 args (fun x y => ok w (dmul x y))
  | 7 => with2 args (fun x y => if dneb y d0 then ok w (ddiv x y) else err w LISTENERERR_DIVISION_BY_ZERO)
  | 8 => with2 args (fun x y =>
           if deqb x d0 && dleb y d0 then err w LISTENERERR_DIVISION_BY_ZERO
           else if dltb x d0 && dltb y d1 then err w LISTENERERR_COMPLEX_SOLUTION
           else ok w (m_pow L x y))
  | 9 => with2 args (fun x y => ok_run w (binomial fuel x y))
  | 10 => with2 args (fun x y => ok w (m_fmod L x y))
  | 11 => one (fun x => x)
  | 12 => one dneg
  | 13 => with1 args (fun x => if isinf x then ok w dinf else ok_run w (factorial_loop fuel (trunc x) d1))
  | 14 => one (fun x => ddiv x (of_Z 100))
  | 15 => one (m_exp L)
  | 16 => with2 args (fun x y => if dgeb x d0 then ok w (m_pow L x (ddiv d1 y)) else err w LISTENERERR_COMPLEX_SOLUTION)
  | 17 => with1 args (fun x => if dgeb x d0 then ok w (dsqrt x) else err w LISTENERERR_COMPLEX_SOLUTION)
  | 18 => with2 args (fun x y => ok w (ddiv (m_log L x) (m_log L y)))
  | 19 => one (m_log L)
  | 20 => one (m_log2 L)
  | 21 => one (m_log10 L)
  | 22 => one (m_sin L)
  | 23 => one (m_cos L)
  | 24 => one (m_tan L)
  | 25 => one (m_asin L)
  | 26 => one (m_acos L)
  | 27 => one (m_atan L)
  | 28 => one (m_sinh L)
  | 29 => one (m_cosh L)
  | 30 => one (m_tanh L)
  | 31 => one (m_asinh L)
  | 32 => one (m_acosh L)
  | 33 => one (m_atanh L)
  | 34 => ok w (fold_left (fun r x => if dgtb x r then x else r) args dninf)
  | 35 => ok w (fold_left (fun r x => if dltb x r then x else r) args dinf)
  | 36 => one fabs
  | 37 => one ceil
  | 38 => one floor
  | 39 => one round
  | 40 => one trunc
  | 41 => one (fun x => dsub x (floor x))
  | 42 => one (fun x => if dltb x d0 then of_Z (-1) else if dgtb x d0 then d1 else d0)
  | 43 => ok w (dsum args)
  | 44 => ok w (fold_left dmul args d1)
  | 45 => match args with
          | [] => ok w d0
          | _ => ok w (ddiv (dsum args) (count_of args))
          end
  | 46 => with2 args (fun x y => ok_run w (euclid fuel x y))
  | 47 => with2 args (fun x y =>
            match euclid fuel x y with
            | Done g => ok w (ddiv (fabs (dmul (trunc x) (trunc y))) g)
            | Forever => Forever
            end)
  | 48 => with2 args (fun x y =>
            let r := match w_rand w with r :: _ => r | [] => 0%Z end in
            match random_between r x y with
            | Ok (called, v) => ok (if called then mkWorld (w_history w) (tl (w_rand w)) else w) v
            | _ => crash
            end)
  | 49 => with1 args (fun x => match fibonacci x with Ok v => ok w v | _ => crash end)
  | 50 => one (m_tgamma L)
  | 51 => ok w (variance L args)
  | 52 => ok w (ratio 314159265359 (pow10 11))
  | 53 => ok w (ratio 271828182846 (pow10 11))
  | 54 => ok w (ratio 161803398874 (pow10 11))
  | 55 => ok w (of_Z 299792458)
  | 56 => ok w (ratio 3432 (pow10 1))
  | 57 => from_history w 0
  | _ => err w LISTENERERR_UNKNOWN_OP
  end%nat.

(** The operators as listener of tree_reduce (M_TreeUtil): a run that crashed or does not end stays
    so. *)
Definition lworld := run (res world).
Definition arith_listener : @listener lworld := fun s op args =>
  match s with
  | Done (Ok w) =>
    match arith_op_evaluate w op args with
    | Done (Ok (w', ev)) => (Done (Ok w'), ev)
    | Done Ub => (Done Ub, (0, d0))
    | Done Halt => (Done Halt, (0, d0))
    | Forever => (Forever, (0, d0))
    end
  | _ => (s, (0, d0))
  end.

(** arith_evaluation.c:381-386: 0 in case of an error, because the result variable keeps its initial
    value *)
Definition arith_evaluate (w : world) (n : node) : lworld * double :=
  let '(s, r) := tree_reduce arith_listener (Done (Ok w)) n in
  (s, match r with RVal v => v | RFail _ _ => d0 end).
End Ops.
