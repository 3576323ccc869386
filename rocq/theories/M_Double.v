(** Operations on C doubles used by the calculator: + - * / and comparisons (IEEE 754 binary64, round to
    nearest even), the exact functions of math.h (trunc, floor, ceil, round, fabs, sqrt) and
    conversions. The transcendental functions of math.h are parameters, collected in [libm]. *)
From Coq Require Import List NArith ZArith Bool Lia.
From Coq.Floats Require Import SpecFloat.
From Verif Require Import M_Base M_Tree M_Strtod.
Import ListNotations.
Open Scope Z_scope.

Definition dadd (a b : double) : double := SFadd prec emax a b.
Definition dsub (a b : double) : double := SFsub prec emax a b.
Definition dmul (a b : double) : double := SFmul prec emax a b.
Definition ddiv (a b : double) : double := SFdiv prec emax a b.
Definition dneg (a : double) : double := SFopp a.
Definition dltb (a b : double) : bool := SFltb a b.
Definition dleb (a b : double) : bool := SFleb a b.
Definition dgtb (a b : double) : bool := SFltb b a.
Definition dgeb (a b : double) : bool := SFleb b a.
Definition dneb (a b : double) : bool := negb (deqb a b).
Definition dsqrt (a : double) : double := SFsqrt prec emax a.
Definition fabs (a : double) : double := SFabs a.
Definition dinf : double := S754_infinity false.
Definition dninf : double := S754_infinity true.

(** Conversion of an integer to double *)
Definition of_Z (z : Z) : double := binary_normalize prec emax z 0 false.
(** The same with the sign of zero given *)
Definition of_Z_signed (s : bool) (z : Z) : double := binary_normalize prec emax z 0 s.

(** Conversion to an integer type: the value with the fraction cut off; [None] for NaN and infinities,
    where the conversion is undefined in C *)
Definition cut (d : double) : option Z :=
  match d with
  | S754_zero _ => Some 0
  | S754_finite s m e => Some (cond_Zopp s (if 0 <=? e then Zpos m * 2 ^ e else Zpos m / 2 ^ (- e)))
  | _ => None
  end.
(** (int)d and (long)d: undefined if the value does not fit *)
Definition to_range (lo hi : Z) (d : double) : res Z :=
  match cut d with
  | Some z => if (lo <=? z) && (z <=? hi) then Ok z else Ub
  | None => Ub
  end.
Definition to_int : double -> res Z := to_range (- 2 ^ 31) (2 ^ 31 - 1).
Definition to_long : double -> res Z := to_range (- 2 ^ 63) (2 ^ 63 - 1).

(** trunc, floor, ceil, round of math.h. A double with non-negative exponent is integral. *)
Definition trunc (d : double) : double :=
  match d with
  | S754_finite s m e => if 0 <=? e then d else of_Z_signed s (cond_Zopp s (Zpos m / 2 ^ (- e)))
  | _ => d
  end.
Definition floor (d : double) : double :=
  match d with
  | S754_finite s m e => if 0 <=? e then d else of_Z_signed s (cond_Zopp s (Zpos m) / 2 ^ (- e))
  | _ => d
  end.
Definition ceil (d : double) : double :=
  match d with
  | S754_finite s m e => if 0 <=? e then d else of_Z_signed s (- (cond_Zopp (negb s) (Zpos m) / 2 ^ (- e)))
  | _ => d
  end.
Definition round (d : double) : double :=
  match d with
  | S754_finite s m e => if 0 <=? e then d else of_Z_signed s (cond_Zopp s ((2 * Zpos m + 2 ^ (- e)) / (2 * 2 ^ (- e))))
  | _ => d
  end.
Definition isinf (d : double) : bool := match d with S754_infinity _ => true | _ => false end.

(** math.h: functions whose value the C standard leaves to the implementation *)
Record libm := mkLibm {
  m_pow : double -> double -> double;
  m_fmod : double -> double -> double;
  m_exp : double -> double;
  m_log : double -> double;
  m_log2 : double -> double;
  m_log10 : double -> double;
  m_sin : double -> double;
  m_cos : double -> double;
  m_tan : double -> double;
  m_asin : double -> double;
  m_acos : double -> double;
  m_atan : double -> double;
  m_sinh : double -> double;
  m_cosh : double -> double;
  m_tanh : double -> double;
  m_asinh : double -> double;
  m_acosh : double -> double;
  m_atanh : double -> double;
  m_tgamma : double -> double }.
