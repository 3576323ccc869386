(** Model of the C library's printf("%-.10g", v) for doubles: how the calculator prints constants
    (src/engine/tree/tree_to_string.h:10 CONSTANT_TYPE_FMT, used in tree_to_string.c:138 and 219, cmd_table.c:214 and
    cmd_help.c:254). C11 7.21.6.1: with precision P = 10 and X the exponent an e-style conversion would have, the style
    is f with precision P-1-X if P > X >= -4 and e with precision P-1 otherwise; trailing zeros are removed. The minus
    flag has no effect without a width. The decimal digits are those of the exact value, rounded to nearest, ties to
    even (glibc, default rounding mode). The sign of a NaN is not modelled (glibc may print "-nan"). *)
From Coq Require Import List Ascii String NArith ZArith Bool Lia Arith.
From Coq.Floats Require Import SpecFloat.
From Verif Require Import M_Base M_Tree.
Import ListNotations.
Open Scope Z_scope.

(** The greatest k with 10^k <= n, for n > 0 *)
Fixpoint log10_loop (f : nat) (n : Z) : Z :=
  match f with O => 0 | S f' => if n <? 10 then 0 else 1 + log10_loop f' (n / 10) end.
Definition log10 (n : Z) : Z := log10_loop (Z.to_nat (Z.log2 n)) n.
(** The X with 10^X <= num/den < 10^(X+1) *)
Definition exponent10 (num den : Z) : Z :=
  if den <=? num then log10 (num / den) else - (1 + log10 ((den - 1) / num)).
(** The integer nearest to a/b, ties to even *)
Definition nearest (a b : Z) : Z :=
  let q := a / b in
  match 2 * (a mod b) ?= b with
  | Lt => q
  | Gt => q + 1
  | Eq => if Z.even q then q else q + 1
  end.
(** Ten significant digits D (10^9 <= D < 10^10) and the exponent X: num/den is about D * 10^(X-9). *)
Definition ten_digits (num den : Z) : Z * Z :=
  let x := exponent10 num den in
  let d := if x <=? 9 then nearest (num * 10 ^ (9 - x)) den else nearest num (den * 10 ^ (x - 9)) in
  if d =? 10 ^ 10 then (10 ^ 9, x + 1) else (d, x).

Definition digit_of (d : Z) : ascii := ascii_of_nat (48 + Z.to_nat d).
(** The last k decimal digits of n *)
Fixpoint last_digits (k : nat) (n : Z) : cstr :=
  match k with O => [] | S k' => last_digits k' (n / 10) ++ [digit_of (n mod 10)] end.
Fixpoint drop_zeros (s : cstr) : cstr := match s with c :: s' => if ceqb c "0" then drop_zeros s' else s | [] => [] end.
(** Trailing zeros removed *)
Definition trimmed (s : cstr) : cstr := rev (drop_zeros (rev s)).
(** A fraction with its point; no point without digits *)
Definition fraction (s : cstr) : cstr := match trimmed s with [] => [] | f => "."%char :: f end.
(** At least two digits *)
Definition exponent_text (x : Z) : cstr :=
  "e"%char :: (if x <? 0 then "-"%char else "+"%char) :: (if Z.abs x <? 100 then last_digits 2 (Z.abs x) else last_digits 3 (Z.abs x)).

Definition positive_text (num den : Z) : cstr :=
  let '(d, x) := ten_digits num den in
  let ds := last_digits 10 d in
  if (-4 <=? x) && (x <=? 9) then
    if 0 <=? x then firstn (Z.to_nat (x + 1)) ds ++ fraction (skipn (Z.to_nat (x + 1)) ds)
    else "0"%char :: fraction (repeat "0"%char (Z.to_nat (- x - 1)) ++ ds)
  else firstn 1 ds ++ fraction (skipn 1 ds) ++ exponent_text x.

Definition sign_text (s : bool) : cstr := if s then ["-"%char] else [].
Definition printf_g (v : double) : cstr :=
  match v with
  | S754_nan => str "nan"
  | S754_infinity s => sign_text s ++ str "inf"
  | S754_zero s => sign_text s ++ str "0"
  | S754_finite s m e =>
    sign_text s ++ (if 0 <=? e then positive_text (Zpos m * 2 ^ e) 1 else positive_text (Zpos m) (2 ^ (- e)))
  end.
