(** Model of the C library's strtod as the parser uses it (src/engine/parsing/parser.c:36-41): a token is
    a constant if strtod consumes all of it. Tokens are runs of digits and points, runs of letters, or
    operator names (tokenizer.c), so the exponent, hexadecimal and signed forms of strtod cannot occur
    unless an operator has such a name; these are left out. *)
From Coq Require Import List Ascii String NArith ZArith Bool Lia Arith.
From Coq.Floats Require Import SpecFloat.
From Verif Require Import M_Base M_Tree.
Import ListNotations.
Open Scope nat_scope.

Definition prec : Z := 53.
Definition emax : Z := 1024.

(** The double nearest to n / d (ties to even), as IEEE 754 demands of a correctly rounding strtod. *)
Definition ratio (n : N) (d : positive) : double :=
  match n with
  | N0 => S754_zero false
  | Npos p => SFdiv prec emax (S754_finite false p 0) (S754_finite false d 0)
  end.

Definition digit_val (c : ascii) : option N :=
  let n := nat_of_ascii c in if (48 <=? n) && (n <=? 57) then Some (N.of_nat (n - 48)) else None.

(** digits: value so far, number of digits, rest *)
Fixpoint scan_digits (s : cstr) (acc : N) (cnt : nat) : N * nat * cstr :=
  match s with
  | [] => (acc, cnt, [])
  | c :: s' =>
    match digit_val c with
    | Some d => scan_digits s' (10 * acc + d)%N (S cnt)
    | None => (acc, cnt, s)
    end
  end.
Fixpoint pow10 (k : nat) : positive := match k with 0 => 1%positive | S k' => (10 * pow10 k')%positive end.

Definition lower (c : ascii) : ascii :=
  let n := nat_of_ascii c in if (65 <=? n) && (n <=? 90) then ascii_of_nat (n + 32) else c.
Definition ieq (a : cstr) (b : string) : bool := streqb (map lower a) (str b).

(** Decimal form: digits, optionally a point and digits; at least one digit altogether. *)
Definition strtod (s : cstr) : option double :=
  if List.length s =? 0 then Some (S754_zero false)   (* nothing consumed, nothing left *)
  else
  let '(ip, n1, r1) := scan_digits s 0%N 0 in
  match r1 with
  | [] => if n1 =? 0 then None else Some (ratio ip 1)
  | c :: r2 =>
    if ceqb c "." then
      let '(all, n2, r3) := scan_digits r2 ip 0 in
      match r3 with
      | [] => if n1 + n2 =? 0 then None else Some (ratio all (pow10 n2))
      | _ => None
      end
    else if ieq s "inf" || ieq s "infinity" then Some (S754_infinity false)
    else if ieq s "nan" then Some S754_nan
    else None
  end.
