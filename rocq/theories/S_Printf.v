(** Specification vocabulary for printed numbers: C53. *)
From Coq Require Import Reals.
From Flocq Require Import Core.
From Coq Require Import List Ascii String NArith ZArith Bool Lia.
From Coq.Floats Require Import SpecFloat.
From Verif Require Import M_Base M_Tree S_Engine S_Eval.
Import ListNotations.
Open Scope Z_scope.

(** Powers of ten: [bpow ten k] *)
Definition ten : radix := Build_radix 10 (refl_equal true).
(** Numerals *)
Definition digits (s : cstr) : Prop := Forall (fun c => in_range c 48 57) s.
Definition number_of (s : cstr) : Z := fold_left (fun a c => 10 * a + (Z.of_nat (nat_of_ascii c) - 48)) s 0.
(** The text is a numeral, with or without a fraction, for this number. *)
Inductive decimal : cstr -> R -> Prop :=
| dec_whole : forall ip, ip <> [] -> digits ip -> decimal ip (IZR (number_of ip))
| dec_frac : forall ip fp, ip <> [] -> fp <> [] -> digits ip -> digits fp ->
    decimal (ip ++ "."%char :: fp) (IZR (number_of (ip ++ fp)) / IZR (10 ^ Z.of_nat (List.length fp))).
(** As [decimal], but there may be no digits in front of the point or none behind it. *)
Inductive numeral : cstr -> R -> Prop :=
| num_whole : forall ip, ip <> [] -> digits ip -> numeral ip (IZR (number_of ip))
| num_frac : forall ip fp, ip ++ fp <> [] -> digits ip -> digits fp ->
    numeral (ip ++ "."%char :: fp) (IZR (number_of (ip ++ fp)) / IZR (10 ^ Z.of_nat (List.length fp))).
(** The text is this word (in small letters), written in small or capital letters. *)
Definition spells (s : cstr) (w : string) : Prop :=
  Forall2 (fun c d => c = d \/ (in_range c 65 90 /\ nat_of_ascii d = nat_of_ascii c + 32)%nat) s (str w).
(** Characters numerals are made of, and characters names are made of *)
Definition figure (c : ascii) : Prop := in_range c 48 57 \/ c = "."%char.
Definition name_char (c : ascii) : Prop :=
  in_range c 65 90 \/ in_range c 97 122 \/ c = "_"%char \/ c = "["%char \/ c = "]"%char.
(** Numbers with at most ten significant decimal digits *)
Definition ten_digit_number (r : R) : Prop := exists d j, 0 < d < 10 ^ 10 /\ r = (IZR d * bpow ten j)%R.

(** Numbers a %.10g conversion prints without an exponent, and zero *)
Definition plain_range (v : double) : Prop := v = S754_zero false \/ exists a, number v a /\ (/ 10000 <= a <= 9999999999)%R.
(** Equal up to (little more than) half a unit of the tenth digit *)
Definition ten_alike (v w : double) : Prop :=
  v = w \/ exists a b k, number v a /\ number w b /\ (bpow ten k <= a < bpow ten (k + 1))%R /\ (Rabs (b - a) <= 51 / 100 * bpow ten (k - 9))%R.
(** The same tree with other constants *)
Inductive same_tree (alike : double -> double -> Prop) : node -> node -> Prop :=
| st_const : forall v w i j, alike v w -> same_tree alike (NConst v i) (NConst w j)
| st_var : forall x i k j l, same_tree alike (NVar x i k) (NVar x j l)
| st_op : forall op cs ds i j, Forall2 (same_tree alike) cs ds -> same_tree alike (NOp op cs i) (NOp op ds j).
