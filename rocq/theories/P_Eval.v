(** Theorems about numbers and operators: C42-C46, C54, C60, C61. *)
From Coq Require Import List Ascii String NArith ZArith Bool Lia Reals Lra.
From Coq.Floats Require Import SpecFloat.
From Flocq Require Import Core.
From Verif Require Import M_Base M_Tree M_TreeUtil M_Context M_Strtod M_Double M_Eval M_ArithCtx L_ArithCtx S_Eval L_Float L_Eval.
Import ListNotations.
Open Scope string_scope.
Open Scope list_scope.
Open Scope Z_scope.

Ltac by_id i := apply applies_id with (id := i); [vm_compute; reflexivity|intros op Hid; unfold arith_op_evaluate; rewrite Hid].
Definition e0 : world := mkWorld [] [].

(** ** C42: history *)
(** The results stored one after the other *)
Definition after (rs : list double) (random : list Z) : world := mkWorld (fold_left history_add rs []) random.
Lemma after_list : forall rs rand, w_history (after rs rand) = rs.
Proof.
  intros rs rand. unfold after. cbn [w_history]. change rs with ([] ++ rs) at 2. generalize (@nil double) as h. induction rs as [|r rs IH]; intros h; cbn [fold_left].
  - rewrite app_nil_r. reflexivity.
  - rewrite IH. unfold history_add. rewrite <- app_assoc. reflexivity.
Qed.
Lemma history_nth : forall h i, 0 <= i -> history_get h i = nth_error (rev h) (Z.to_nat i).
Proof.
  intros h i P. unfold history_get. destruct (Z.leb_spec (Z.of_nat (List.length h)) i) as [G|G].
  - symmetry. apply nth_error_None. rewrite rev_length. lia.
  - rewrite (nth_error_nth' h d0) by lia. rewrite (nth_error_nth' (rev h) d0) by (rewrite rev_length; lia). f_equal. rewrite rev_nth by lia. f_equal. lia.
Qed.
Theorem C42_ans : forall L rs rand,
  (forall l r, rs = l ++ [r] -> gives L "ans" PFunction (after rs rand) [] r)
  /\ (rs = [] -> reports L "ans" PFunction (after rs rand) [] LISTENERERR_HISTORY_NOT_SET).
Proof.
  intros L rs rand. split.
  - intros l r ->. by_id 57%nat. exists O. intros fuel _. unfold from_history. rewrite after_list, history_nth by lia.
    rewrite rev_app_distr. reflexivity.
  - intros ->. split; [discriminate|]. by_id 57%nat. exists O. intros fuel _. eexists. reflexivity.
Qed.
(** @i is the i-th most recent result; negative indices and those beyond the history are errors. *)
Theorem C42_at_partial : forall L rs rand x i, int_part x i -> - 2 ^ 31 <= i < 2 ^ 31 -> Z.of_nat (List.length rs) < 2 ^ 63 ->
  (forall r, 0 <= i -> nth_error (rev rs) (Z.to_nat i) = Some r -> gives L "@" PPrefix (after rs rand) [x] r)
  /\ (i < 0 \/ Z.of_nat (List.length rs) <= i -> reports L "@" PPrefix (after rs rand) [x] LISTENERERR_HISTORY_NOT_SET).
Proof.
  intros L rs rand x i X B Lh. split.
  - intros r P N. by_id 1%nat. exists O. intros fuel _. unfold with1, to_int. rewrite (to_range_int _ _ _ _ X) by lia.
    unfold from_history, to_size. rewrite after_list, Z.mod_small by lia. rewrite history_nth by lia. rewrite N. reflexivity.
  - intros Ho. split; [discriminate|]. by_id 1%nat. exists 0%nat. intros fuel _. exists d0. unfold with1, to_int. rewrite (to_range_int _ _ _ _ X) by lia.
    unfold from_history. rewrite after_list.
    assert (E : history_get rs (to_size i) = None); [|rewrite E; reflexivity].
    assert (Z.of_nat (List.length rs) <= to_size i).
    { unfold to_size. destruct Ho as [Ho|Ho]; [|rewrite Z.mod_small by lia; lia].
      replace (i mod 2 ^ 64) with ((i + 1 * 2 ^ 64) mod 2 ^ 64) by apply Z_mod_plus_full.
      rewrite Z.mod_small by lia. lia. }
    unfold history_get. replace (Z.of_nat (List.length rs) <=? to_size i) with true by lia. reflexivity.
Qed.
(** @x with x outside int, or no number, is undefined behaviour: no error is reported. *)
Theorem C42_at_undefined : forall L w x, (x = S754_nan \/ (exists s, x = S754_infinity s) \/ exists i, int_part x i /\ (i < - 2 ^ 31 \/ 2 ^ 31 <= i)) ->
  undefined L "@" PPrefix w [x].
Proof.
  intros L w x H. by_id 1%nat. exists O. intros fuel _. unfold with1. destruct H as [->|[[s ->]|(i & X & B)]]; [reflexivity..|].
  unfold to_int. rewrite (to_range_out _ _ _ _ X) by lia. reflexivity.
Qed.
Theorem C42_at_refuted : ~ (forall L rs rand x i, int_part x i -> Z.of_nat (List.length rs) <= i ->
  reports L "@" PPrefix (after rs rand) [x] LISTENERERR_HISTORY_NOT_SET).
Proof.
  intros H. assert (X : int_part (of_Z (2 ^ 31)) (2 ^ 31)) by (apply isZ_int_part; apply of_Z_Z; unfold small; lia).
  set (L := mkLibm (fun x _ => x) (fun x _ => x) (fun x => x) (fun x => x) (fun x => x) (fun x => x) (fun x => x) (fun x => x) (fun x => x)
    (fun x => x) (fun x => x) (fun x => x) (fun x => x) (fun x => x) (fun x => x) (fun x => x) (fun x => x) (fun x => x) (fun x => x)).
  apply (reports_not_undefined L "@" PPrefix (after [] []) [of_Z (2 ^ 31)] LISTENERERR_HISTORY_NOT_SET).
  - apply (H L [] [] _ _ X). cbn. lia.
  - apply C42_at_undefined. right. right. exists (2 ^ 31). split; auto. lia.
Qed.
Example C42_case : nth_error (rev [of_Z 5; of_Z 7; of_Z 9]) 1 = Some (of_Z 7) /\ int_part (of_Z 1) 1.
Proof. split; [reflexivity|]. apply isZ_int_part. apply of_Z_Z. unfold small. lia. Qed.
Print Assumptions C42_ans.
Print Assumptions C42_at_partial.
Print Assumptions C42_at_undefined.
Print Assumptions C42_at_refuted.

(** ** C43: gcd and lcm *)
Theorem C43_gcd_partial : forall L w x y a b, int_part x a -> int_part y b -> small a -> small b ->
  exists v, gives L "gcd" PFunction w [x; y] v /\ isZ v (Z.gcd a b).
Proof.
  intros L w x y a b X Y A B. destruct (euclid_gcd x y a b X Y A B) as (v & n & V & E). exists v. split; auto.
  by_id 46%nat. exists n. intros fuel F. cbn [with2]. rewrite E by auto. reflexivity.
Qed.
(** gcd(2^60, 1) does not end: 2^60 - 1 is 2^60 in doubles. Neither does gcd(inf, 1). *)
Theorem C43_gcd_forever : forall L w, runs_forever L "gcd" PFunction w [of_Z (2 ^ 60); of_Z 1] /\ runs_forever L "gcd" PFunction w [dinf; of_Z 1].
Proof.
  intros L w. split; by_id 46%nat; intros fuel; cbn [with2]; rewrite euclid_stuck by (vm_compute; reflexivity); reflexivity.
Qed.
Theorem C43_gcd_refuted : forall L, ~ (forall w x y a b, isZ x a -> isZ y b -> exists v, gives L "gcd" PFunction w [x; y] v /\ isZ v (Z.gcd a b)).
Proof.
  intros L H. destruct (H e0 (of_Z (2 ^ 60)) (of_Z 1) (2 ^ 60) 1) as (v & G & _).
  - apply isZ_test; vm_compute; reflexivity.
  - apply of_Z_Z. unfold small. lia.
  - eapply gives_not_forever; [exact G|]. apply C43_gcd_forever.
Qed.
Theorem C43_lcm_partial : forall L w x y a b, int_part x a -> int_part y b -> small (a * b) -> (a <> 0 \/ b <> 0) -> small a -> small b ->
  exists v, gives L "lcm" PFunction w [x; y] v /\ isZ v (Z.lcm a b).
Proof.
  intros L w x y a b X Y S N A B. destruct (euclid_gcd x y a b X Y A B) as (v & n & V & E).
  exists (ddiv (fabs (dmul (trunc x) (trunc y))) v). split.
  - by_id 47%nat. exists n. intros fuel F. cbn [with2]. rewrite E by auto. reflexivity.
  - assert (G : Z.gcd a b <> 0) by (rewrite Z.gcd_eq_0; lia). assert (P : 0 < Z.gcd a b) by (pose proof (Z.gcd_nonneg a b); lia).
    assert (M : Z.lcm a b * Z.gcd a b = Z.abs (a * b)).
    { unfold Z.lcm. rewrite <- (Z.abs_eq (Z.gcd a b)) at 2 by lia. rewrite <- Z.abs_mul. f_equal.
      destruct (Z.gcd_divide_r a b) as [q Q]. assert (D : b / Z.gcd a b = q) by (rewrite Q at 1; apply Z.div_mul; auto). rewrite D, <- Z.mul_assoc, <- Q. reflexivity. }
    apply ddiv_Z with (Z.gcd a b); auto.
    + rewrite M. apply fabs_Z. apply dmul_Z; auto using trunc_int.
    + unfold small in *. pose proof (Z.lcm_nonneg a b). rewrite Z.abs_eq by auto. nia.
Qed.
(** lcm(0, 0) is not a number; lcm(3, 9007199254740990) is off by one, although it is a double. *)
Theorem C43_lcm_zero : forall L w, gives L "lcm" PFunction w [of_Z 0; of_Z 0] S754_nan.
Proof. intros L w. by_id 47%nat. exists O. intros fuel _. reflexivity. Qed.
Theorem C43_lcm_off_by_one : forall L w, gives L "lcm" PFunction w [of_Z 3; of_Z 9007199254740990] (of_Z 9007199254740989)
  /\ Z.lcm 3 9007199254740990 = 9007199254740990.
Proof.
  intros L w. split; [|vm_compute; reflexivity].
  assert (X : isZ (of_Z 3) 3) by (apply of_Z_Z; unfold small; lia). assert (Y : isZ (of_Z 9007199254740990) 9007199254740990) by (apply of_Z_Z; unfold small; lia).
  destruct (euclid_gcd _ _ _ _ (isZ_int_part _ _ X) (isZ_int_part _ _ Y)) as (v & n & V & E); try (unfold small; lia).
  assert (v = of_Z 3) as ->. { eapply isZ_unique with (a := 3); auto. lia. }
  by_id 47%nat. exists n. intros fuel F. cbn [with2]. rewrite E by auto. unfold ok. do 3 f_equal. 
Qed.
Theorem C43_lcm_refuted : forall L, ~ (forall w x y a b, isZ x a -> isZ y b -> small (Z.lcm a b) ->
  exists v, gives L "lcm" PFunction w [x; y] v /\ isZ v (Z.lcm a b)).
Proof.
  intros L H. destruct (H e0 (of_Z 3) (of_Z 9007199254740990) 3 9007199254740990) as (v & G & V); try (apply of_Z_Z; unfold small; lia).
  - destruct (C43_lcm_off_by_one L e0) as [_ ->]. unfold small. lia.
  - destruct (C43_lcm_off_by_one L e0) as [G2 E]. rewrite E in V. destruct (gives_unique _ _ _ _ _ _ _ _ _ G G2) as [_ ->].
    assert (I : isZ (of_Z 9007199254740989) 9007199254740989) by (apply of_Z_Z; unfold small; lia).
    pose proof (isZ_fun _ _ _ V I). discriminate.
Qed.
Example C43_case : int_part (of_Z (-84)) (-84) /\ int_part (of_Z 36) 36 /\ small (-84 * 36) /\ Z.gcd (-84) 36 = 12 /\ Z.lcm (-84) 36 = 252.
Proof. repeat split; try (apply isZ_int_part; apply of_Z_Z); unfold small; try lia; vm_compute; reflexivity. Qed.
Print Assumptions C43_gcd_partial.
Print Assumptions C43_gcd_forever.
Print Assumptions C43_gcd_refuted.
Print Assumptions C43_lcm_partial.
Print Assumptions C43_lcm_zero.
Print Assumptions C43_lcm_off_by_one.
Print Assumptions C43_lcm_refuted.

(** ** C44: binomial coefficient, factorial, Fibonacci numbers *)
Theorem C44_binomial_partial : forall L w x y n k, int_part x (Z.of_nat n) -> int_part y (Z.of_nat k) -> (k <= n)%nat ->
  Z.of_nat (Nat.min k (n - k)) * choose n k <= 2 ^ 53 -> Z.of_nat n <= 2 ^ 53 ->
  exists v, gives L "C" PInfix w [x; y] v /\ isZ v (choose n k).
Proof.
  intros L w x y n k X Y Lk B Bn. destruct (binomial_choose x y n k X Y Lk B Bn) as (v & r & V & E). exists v. split; auto.
  by_id 9%nat. exists r. intros fuel F. cbn [with2]. rewrite E by auto. reflexivity.
Qed.
(** 2 C 3 is 1, not 0; 58 C 23 is off by one. *)
Theorem C44_binomial_above : forall L w, gives L "C" PInfix w [of_Z 2; of_Z 3] (of_Z 1) /\ choose 2 3 = 0.
Proof. intros L w. split; [|reflexivity]. by_id 9%nat. exists 1%nat. intros [|f] F; [lia|]. reflexivity. Qed.
Lemma choose_58_23 : choose 58 23 = 8799226775309880.
Proof.
  pose proof (choose_factorial 58 23 ltac:(lia)) as H. apply Z.mul_reg_r with (factorial 23 * factorial (58 - 23)).
  - vm_compute. discriminate.
  - rewrite H. vm_compute. reflexivity.
Qed.
Theorem C44_binomial_rounding : forall L w, gives L "C" PInfix w [of_Z 58; of_Z 23] (of_Z 8799226775309881) /\ choose 58 23 = 8799226775309880.
Proof.
  intros L w. split; [|apply choose_58_23]. by_id 9%nat. exists 30%nat. intros fuel F. cbn [with2].
  assert (E : binomial fuel (of_Z 58) (of_Z 23) = Done (of_Z 8799226775309881)); [|rewrite E; reflexivity].
  assert (E2 : binomial 30 (of_Z 58) (of_Z 23) = Done (of_Z 8799226775309881)) by (vm_compute; reflexivity).
  unfold binomial in *. destruct (deqb _ _); auto. eapply binomial_loop_more; eauto.
Qed.
Theorem C44_binomial_refuted : forall L,
  ~ (forall w x y n k, isZ x (Z.of_nat n) -> isZ y (Z.of_nat k) -> small (choose n k) ->
     exists v, gives L "C" PInfix w [x; y] v /\ isZ v (choose n k))
  /\ ~ (forall w x y n k, isZ x (Z.of_nat n) -> isZ y (Z.of_nat k) -> (k <= n)%nat -> small (choose n k) ->
     exists v, gives L "C" PInfix w [x; y] v /\ isZ v (choose n k)).
Proof.
  intros L. split; intros H.
  - destruct (H e0 (of_Z 2) (of_Z 3) 2%nat 3%nat) as (v & G & V); try (apply of_Z_Z; unfold small; cbn; lia). { unfold small. cbn. lia. }
    destruct (C44_binomial_above L e0) as [G2 E]. rewrite E in V. destruct (gives_unique _ _ _ _ _ _ _ _ _ G G2) as [_ ->].
    assert (I : isZ (of_Z 1) 1) by (apply of_Z_Z; unfold small; lia). pose proof (isZ_fun _ _ _ V I). discriminate.
  - destruct (H e0 (of_Z 58) (of_Z 23) 58%nat 23%nat) as (v & G & V); try (apply of_Z_Z; unfold small; cbn; lia); try lia.
    { rewrite choose_58_23. unfold small. lia. }
    destruct (C44_binomial_rounding L e0) as [G2 E]. rewrite E in V. destruct (gives_unique _ _ _ _ _ _ _ _ _ G G2) as [_ ->].
    assert (I : isZ (of_Z 8799226775309881) 8799226775309881) by (apply of_Z_Z; unfold small; lia). pose proof (isZ_fun _ _ _ V I). discriminate.
Qed.
(** The factorial is exact up to 22!; no larger factorial is a double. *)
Theorem C44_factorial : forall L w x n, int_part x (Z.of_nat n) -> (n <= 22)%nat ->
  exists v, gives L "!" PPostfix w [x] v /\ isZ v (factorial n).
Proof.
  intros L w x n X B. destruct (factorial_exact x (Z.of_nat n) X ltac:(lia)) as (v & r & V & E). rewrite Nat2Z.id in V. exists v. split; auto.
  by_id 13%nat. exists r. intros fuel F. cbn [with1]. apply int_part_cut in X. destruct X as (_ & Fx & _).
  assert (I : isinf x = false) by (destruct x; auto; destruct Fx). rewrite I, E by auto. reflexivity.
Qed.
Theorem C44_factorial_ends_partial : forall L w x z, int_part x z -> small z -> exists v, gives L "!" PPostfix w [x] v.
Proof.
  intros L w x z X S. destruct (factorial_ends x z d1 X S) as (v & n & E). exists v. by_id 13%nat. exists n. intros fuel F. cbn [with1].
  apply int_part_cut in X. destruct X as (_ & Fx & _).
  assert (I : isinf x = false) by (destruct x; auto; destruct Fx). rewrite I, E by auto. reflexivity.
Qed.
(** (2^54)! does not end. *)
Theorem C44_factorial_ends_refuted : forall L w, runs_forever L "!" PPostfix w [of_Z (2 ^ 54)] /\ isZ (of_Z (2 ^ 54)) (2 ^ 54).
Proof.
  intros L w. split; [|apply isZ_test; vm_compute; reflexivity]. by_id 13%nat. intros fuel. cbn [with1].
  replace (isinf (of_Z (2 ^ 54))) with false by (vm_compute; reflexivity). rewrite factorial_stuck by (vm_compute; reflexivity). reflexivity.
Qed.
(** Fibonacci numbers, also for negative arguments *)
Theorem C44_fibonacci_numbers : fiboZ 0 = 0 /\ fiboZ 1 = 1 /\ forall z, fiboZ (z + 2) = fiboZ (z + 1) + fiboZ z.
Proof.
  split; [reflexivity|]. split; [reflexivity|]. intros z. unfold fiboZ.
  destruct (Z.leb_spec 0 z) as [P|P].
  - replace (0 <=? z + 2) with true by lia. replace (0 <=? z + 1) with true by lia.
    replace (Z.to_nat (z + 2)) with (S (S (Z.to_nat z))) by lia. replace (Z.to_nat (z + 1)) with (S (Z.to_nat z)) by lia. apply fibo_SS.
  - destruct (Z.eq_dec z (-1)) as [->|N1]; [reflexivity|]. destruct (Z.eq_dec z (-2)) as [->|N2]; [reflexivity|].
    replace (0 <=? z + 2) with false by lia. replace (0 <=? z + 1) with false by lia.
    rewrite !Z.even_add. change (Z.even 2) with true. change (Z.even 1) with false.
    replace (Z.to_nat (- z)) with (S (S (Z.to_nat (- (z + 2))))) by lia. replace (Z.to_nat (- (z + 1))) with (S (Z.to_nat (- (z + 2)))) by lia.
    rewrite fibo_SS. destruct (Z.even z); cbn [Bool.eqb]; lia.
Qed.
Theorem C44_fibonacci : forall L w x z, int_part x z -> - 92 <= z <= 92 ->
  exists v, gives L "fib" PFunction w [x] v /\ number v (rnd (IZR (fiboZ z))) /\ (- 78 <= z <= 78 -> isZ v (fiboZ z)).
Proof.
  intros L w x z X B. destruct (fibonacci_ok x z X B) as [E Bd]. exists (of_Z (fiboZ z)). split; [|split].
  - by_id 49%nat. exists O. intros fuel _. cbn [with1]. rewrite E. reflexivity.
  - apply of_Z_rnd. apply fits_le with 63; [|lia]. rewrite <- abs_IZR. change (bpow radix2 63) with (IZR (2 ^ 63)). apply IZR_le. lia.
  - intros B2. apply of_Z_Z. unfold small.
    assert (M : forall n, (n <= 78)%nat -> 0 <= fibo n <= 2 ^ 53).
    { intros n Hn. pose proof (fibo_mono n 78 Hn). pose proof (fibo_nonneg n). assert (fibo 78 <= 2 ^ 53) by (rewrite fibo_fast; vm_compute; discriminate). lia. }
    unfold fiboZ. destruct (Z.leb_spec 0 z); [pose proof (M (Z.to_nat z) ltac:(lia)); lia|].
    pose proof (M (Z.to_nat (- z)) ltac:(lia)). destruct (Z.even z); lia.
Qed.
(** From fib(93) on a long overflows. *)
Theorem C44_fibonacci_overflow : forall L w x z, int_part x z -> 93 <= Z.abs z -> undefined L "fib" PFunction w [x].
Proof.
  intros L w x z X B. by_id 49%nat. exists O. intros fuel _. cbn [with1]. unfold fibonacci, to_long.
  destruct (Z.le_gt_cases (- 2 ^ 63) z) as [L1|L1]; [destruct (Z.le_gt_cases z (2 ^ 63 - 1)) as [L2|L2]|].
  - rewrite (to_range_int _ _ _ _ X) by lia. cbn [rbind]. destruct (Z.ltb_spec z 0) as [N|N].
    + destruct (z =? - 2 ^ 63); auto. rewrite fib_overflow by lia. reflexivity.
    + rewrite fib_overflow by lia. reflexivity.
  - rewrite (to_range_out _ _ _ _ X) by lia. reflexivity.
  - rewrite (to_range_out _ _ _ _ X) by lia. reflexivity.
Qed.
Example C44_case : Z.of_nat (Nat.min 3 (40 - 3)) * choose 40 3 <= 2 ^ 53 /\ choose 40 3 = 9880 /\ int_part (of_Z 40) (Z.of_nat 40)
  /\ fiboZ (-8) = -21 /\ factorial 5 = 120.
Proof. repeat split; try (vm_compute; congruence). apply isZ_int_part. apply of_Z_Z. unfold small. cbn. lia. Qed.
Print Assumptions C44_binomial_partial.
Print Assumptions C44_binomial_above.
Print Assumptions C44_binomial_rounding.
Print Assumptions C44_binomial_refuted.
Print Assumptions C44_factorial.
Print Assumptions C44_factorial_ends_partial.
Print Assumptions C44_factorial_ends_refuted.
Print Assumptions C44_fibonacci_numbers.
Print Assumptions C44_fibonacci.
Print Assumptions C44_fibonacci_overflow.

(** ** C45: rand *)
(** rand(a, b) is a + r mod (b - a) where r is what the generator returns: it lies in [a, b), and every number of the
    interval is the result for some r. *)
Theorem C45_rand_partial : forall L w x y a b r rs, int_part x a -> int_part y b -> small a -> small b -> small (b - a) -> a < b ->
  0 <= r -> w_rand w = r :: rs ->
  exists v z, gives_in L "rand" PFunction w [x; y] (mkWorld (w_history w) rs) v /\ isZ v z /\ a <= z < b
    /\ z = a + r mod (b - a).
Proof.
  intros L w x y a b r rs X Y A B D Lt R W. destruct (random_in r x y a b X Y A B D Lt R) as (v & E & V).
  exists v, (a + r mod (b - a)). split; [|split; [auto|split; [|auto]]].
  - by_id 48%nat. exists O. intros fuel _. cbn [with2]. rewrite W, E. reflexivity.
  - pose proof (Z.mod_pos_bound r (b - a) ltac:(lia)). lia.
Qed.
(** rand(2^53 + 2, 2^53 + 4) can be 2^53 + 4. *)
Theorem C45_rand_refuted : forall L, ~ (forall w x y a b r rs, isZ x a -> isZ y b -> a < b -> 0 <= r -> w_rand w = r :: rs ->
  exists v z w', gives_in L "rand" PFunction w [x; y] w' v /\ isZ v z /\ a <= z < b).
Proof.
  intros L H. set (a := 2 ^ 53 + 2). set (b := 2 ^ 53 + 4).
  destruct (H (mkWorld [] [1]) (of_Z a) (of_Z b) a b 1 []) as (v & z & w' & G & V & B); try (apply isZ_test; vm_compute; reflexivity); try reflexivity; try (unfold a, b; lia).
  assert (G2 : gives_in L "rand" PFunction (mkWorld [] [1]) [of_Z a; of_Z b] (mkWorld [] []) (of_Z b)).
  { by_id 48%nat. exists O. intros fuel _. vm_compute. reflexivity. }
  destruct (gives_unique _ _ _ _ _ _ _ _ _ G G2) as [_ ->].
  assert (I : isZ (of_Z b) b) by (apply isZ_test; vm_compute; reflexivity). pose proof (isZ_fun _ _ _ V I). unfold a, b in *. lia.
Qed.
Example C45_case : int_part (of_Z 1) 1 /\ int_part (of_Z 7) 7 /\ 1 + 1804289383 mod (7 - 1) = 2.
Proof. repeat split; try (apply isZ_int_part; apply of_Z_Z; unfold small; lia). Qed.
Print Assumptions C45_rand_partial.
Print Assumptions C45_rand_refuted.

(** ** C46: max, min, sum, prod, avg *)
(** A double other than NaN *)
Definition ordered (d : double) : Prop := valid d /\ d <> S754_nan.
Theorem C46_max_partial : forall L w args, args <> [] -> Forall ordered args ->
  exists m, gives L "max" PFunction w args m /\ In m args /\ Forall (fun x => dleb x m = true) args.
Proof.
  intros L w args N F. destruct (max_spec args N F) as [I A]. eexists. split; [|split; [exact I|exact A]]. by_id 34%nat. exists O. reflexivity.
Qed.
Theorem C46_min_partial : forall L w args, args <> [] -> Forall ordered args ->
  exists m, gives L "min" PFunction w args m /\ In m args /\ Forall (fun x => dleb m x = true) args.
Proof.
  intros L w args N F. destruct (min_spec args N F) as [I A]. eexists. split; [|split; [exact I|exact A]]. by_id 35%nat. exists O. reflexivity.
Qed.
(** max of NaN is minus infinity, no argument. *)
Theorem C46_max_refuted : forall L, ~ (forall w args, args <> [] -> exists m, gives L "max" PFunction w args m /\ In m args).
Proof.
  intros L H. destruct (H e0 [S754_nan] ltac:(discriminate)) as (m & G & [<-|[]]).
  assert (G2 : gives L "max" PFunction e0 [S754_nan] dninf) by (by_id 34%nat; exists O; reflexivity).
  destruct (gives_unique _ _ _ _ _ _ _ _ _ G G2) as [_ E]. discriminate E.
Qed.
(** Nothing at all: minus infinity, infinity, 0, 1, 0 *)
Theorem C46_empty : forall L w, gives L "max" PFunction w [] dninf /\ gives L "min" PFunction w [] dinf
  /\ gives L "sum" PFunction w [] d0 /\ gives L "prod" PFunction w [] d1 /\ gives L "avg" PFunction w [] d0.
Proof. intros L w. repeat split; [by_id 34%nat|by_id 35%nat|by_id 43%nat|by_id 44%nat|by_id 45%nat]; exists O; reflexivity. Qed.
(** Left to right, rounding after every step *)
Theorem C46_fold : forall L w args x s p,
  gives L "sum" PFunction w args s -> gives L "prod" PFunction w args p ->
  gives L "sum" PFunction w (args ++ [x]) (dadd s x) /\ gives L "prod" PFunction w (args ++ [x]) (dmul p x).
Proof.
  intros L w args x s p S P.
  assert (S2 : gives L "sum" PFunction w args (dsum args)) by (by_id 43%nat; exists O; reflexivity).
  assert (P2 : gives L "prod" PFunction w args (fold_left dmul args d1)) by (by_id 44%nat; exists O; reflexivity).
  destruct (gives_unique _ _ _ _ _ _ _ _ _ S S2) as [_ ->]. destruct (gives_unique _ _ _ _ _ _ _ _ _ P P2) as [_ ->]. split.
  - by_id 43%nat. exists O. intros fuel _. unfold dsum. rewrite fold_left_app. reflexivity.
  - by_id 44%nat. exists O. intros fuel _. rewrite fold_left_app. reflexivity.
Qed.
(** The average is the sum divided by the number of arguments. *)
Theorem C46_avg : forall L w args s, args <> [] -> gives L "sum" PFunction w args s ->
  gives L "avg" PFunction w args (ddiv s (of_Z (Z.of_nat (List.length args)))).
Proof.
  intros L w args s N S.
  assert (S2 : gives L "sum" PFunction w args (dsum args)) by (by_id 43%nat; exists O; reflexivity).
  destruct (gives_unique _ _ _ _ _ _ _ _ _ S S2) as [_ ->]. by_id 45%nat. exists O. intros fuel _. destruct args; [congruence|reflexivity].
Qed.
(** Integers: exact as long as no partial result exceeds 2^53 *)
Theorem C46_integers : forall L w xs zs, Forall2 isZ xs zs ->
  (fold_right Z.add 0 (map Z.abs zs) <= 2 ^ 53 -> exists v, gives L "sum" PFunction w xs v /\ isZ v (fold_right Z.add 0 zs))
  /\ ((forall k, Z.abs (fold_right Z.mul 1 (firstn k zs)) <= 2 ^ 53) -> exists v, gives L "prod" PFunction w xs v /\ isZ v (fold_right Z.mul 1 zs)).
Proof.
  intros L w xs zs F. split.
  - intros B. exists (dsum xs). split. { by_id 43%nat. exists O. reflexivity. }
    rewrite <- fold_symmetric by (intros; lia). apply fold_sum_Z; auto using d0_Z.
    rewrite <- fold_symmetric in B by (intros; lia). replace (fold_left (fun s y => s + Z.abs y) zs 0) with (fold_left Z.add (map Z.abs zs) 0). { simpl (Z.abs 0). lia. }
    clear. generalize 0. induction zs as [|z zs IH]; intros k; cbn [map fold_left]; auto.
  - intros B. exists (fold_left dmul xs d1). split. { by_id 44%nat. exists O. reflexivity. }
    rewrite <- fold_symmetric by (intros; lia). apply fold_prod_Z; auto using d1_Z. intros k. rewrite fold_symmetric by (intros; lia). apply B.
Qed.
Example C46_case : Forall ordered [of_Z 3; dninf; of_Z (-2)] /\ Forall2 isZ [of_Z 3; of_Z (-2)] [3; -2].
Proof.
  split. { repeat constructor; discriminate. } repeat constructor; apply (of_Z_Z _); unfold small; lia.
Qed.
Print Assumptions C46_max_partial.
Print Assumptions C46_min_partial.
Print Assumptions C46_max_refuted.
Print Assumptions C46_empty.
Print Assumptions C46_fold.
Print Assumptions C46_avg.
Print Assumptions C46_integers.

(** ** C54: power *)
(** x^y has a real value *)
Definition real_power (x y : R) : Prop := (0 < x \/ x = 0 /\ 0 < y \/ x < 0 /\ exists z, y = IZR z)%R.
Definition an_error L w x y : Prop := exists e, reports L "^" PInfix w [x; y] e.
(** Exactly when an error is reported; otherwise the result is that of the C library's pow. *)
Theorem C54_when : forall L w x y a b, number x a -> number y b ->
  ((a = 0 /\ b <= 0)%R -> reports L "^" PInfix w [x; y] LISTENERERR_DIVISION_BY_ZERO)
  /\ ((a < 0 /\ b < 1)%R -> reports L "^" PInfix w [x; y] LISTENERERR_COMPLEX_SOLUTION)
  /\ ((~ (a = 0 /\ b <= 0) /\ ~ (a < 0 /\ b < 1))%R -> gives L "^" PInfix w [x; y] (m_pow L x y)).
Proof.
  intros L w x y a b (Vx & Fx & <-) (Vy & Fy & <-). destruct d0_Z as (V0 & F0 & E0). destruct d1_Z as (V1 & F1 & E1).
  assert (T1 : deqb x d0 = Req_bool (val x) 0) by (rewrite deqb_val, E0; auto).
  assert (T2 : dleb y d0 = Rle_bool (val y) 0) by (rewrite dleb_val, E0; auto).
  assert (T3 : dltb x d0 = Rlt_bool (val x) 0) by (rewrite dltb_val, E0; auto).
  assert (T4 : dltb y d1 = Rlt_bool (val y) 1) by (rewrite dltb_val, E1; auto).
  split; [|split].
  - intros [A B]. split; [discriminate|]. by_id 8%nat. exists O. intros fuel _. cbn [with2]. rewrite T1, T2.
    rewrite Req_bool_true, Rle_bool_true by auto. eexists. reflexivity.
  - intros [A B]. split; [discriminate|]. by_id 8%nat. exists O. intros fuel _. cbn [with2]. rewrite T1, T3, T4.
    rewrite Req_bool_false, Rlt_bool_true, Rlt_bool_true by lra. eexists. reflexivity.
  - intros [A B]. by_id 8%nat. exists O. intros fuel _. cbn [with2]. rewrite T1, T2, T3, T4.
    destruct (Req_bool_spec (val x) 0), (Rle_bool_spec (val y) 0), (Rlt_bool_spec (val x) 0), (Rlt_bool_spec (val y) 1); try reflexivity; exfalso; lra.
Qed.
(** The claim holds for bases that are not negative, and for negative ones if the exponent is an integer >= 1 or a
    broken number < 1. *)
Theorem C54_error_partial : forall L w x y a b, number x a -> number y b ->
  (0 <= a \/ (1 <= b /\ exists z, b = IZR z) \/ (b < 1 /\ ~ exists z, b = IZR z))%R ->
  (an_error L w x y <-> ~ real_power a b).
Proof.
  intros L w x y a b X Y C. destruct (C54_when L w x y a b X Y) as (H1 & H2 & H3). unfold an_error, real_power.
  assert (N : gives L "^" PInfix w [x; y] (m_pow L x y) -> ~ exists e, reports L "^" PInfix w [x; y] e).
  { intros G [e E]. eapply gives_not_reports; [exact G|exact E]. }
  destruct (Rlt_le_dec a 0) as [A|A].
  - destruct C as [C|[[C I]|[C I]]]; [lra| |].
    + split; [intros E; exfalso; revert E; apply N; apply H3; lra|]. intros F. exfalso. apply F. right. right. auto.
    + split; [|intros _; eexists; apply H2; lra]. intros _ [P|[[P _]|[_ P]]]; [lra|lra|auto].
  - destruct (Rle_lt_or_eq_dec 0 a A) as [P|<-].
    + split; [intros E; exfalso; revert E; apply N; apply H3; lra|]. intros F. exfalso. apply F. auto.
    + destruct (Rle_lt_dec b 0) as [Q|Q].
      * split; [|intros _; eexists; apply H1; lra]. intros _ [P|[[_ P]|[P _]]]; lra.
      * split; [intros E; exfalso; revert E; apply N; apply H3; lra|]. intros F. exfalso. apply F. right. left. auto.
Qed.
(** (-2)^(-1) is reported to be complex; (-2)^1.5 is not reported. *)
Theorem C54_error_refuted : forall L w,
  (an_error L w (of_Z (-2)) (of_Z (-1)) /\ real_power (-2) (-1))
  /\ (~ an_error L w (of_Z (-2)) (ratio 15 (pow10 1)) /\ ~ real_power (-2) (3 / 2) /\ number (ratio 15 (pow10 1)) (3 / 2)).
Proof.
  intros L w. assert (A : isZ (of_Z (-2)) (-2)) by (apply of_Z_Z; unfold small; lia). assert (B : isZ (of_Z (-1)) (-1)) by (apply of_Z_Z; unfold small; lia).
  assert (C : number (ratio 15 (pow10 1)) (3 / 2)).
  { replace (ratio 15 (pow10 1)) with (S754_finite false 6755399441055744 (-52)) by (vm_compute; reflexivity). split; [vm_compute; reflexivity|]. split; [exact I|].
    unfold val. change (bpow radix2 (-52)) with (/ IZR (2 ^ 52))%R. lra. }
  split; split.
  - eexists. apply (C54_when L w _ _ _ _ A B). lra.
  - right. right. split; [lra|]. exists (-1). reflexivity.
  - intros [e E]. eapply gives_not_reports; [|exact E]. apply (C54_when L w _ _ _ _ A C). lra.
  - split; [|exact C]. intros [P|[[P _]|[_ [z P]]]]; [lra|lra|]. assert (3 = 2 * z); [|lia]. apply eq_IZR. rewrite mult_IZR. lra.
Qed.
Example C54_case : number (of_Z (-2)) (-2) /\ number (of_Z 3) 3.
Proof. split; [apply (of_Z_Z (-2))|apply (of_Z_Z 3)]; unfold small; lia. Qed.
Print Assumptions C54_when.
Print Assumptions C54_error_partial.
Print Assumptions C54_error_refuted.

(** ** C60: operators end without undefined behaviour *)
Definition fits_arity (op : operator) (args : list double) : Prop := match o_arity op with Some k => List.length args = k | None => True end.
Definition int_args (b : Z) (args : list double) : Prop := Forall (fun x => exists z, int_part x z /\ Z.abs z <= b) args.
(** What has to be known of the arguments, by operator name *)
Definition tame (op : operator) (args : list double) : Prop :=
  if streqb (o_name op) (str "@") then int_args (2 ^ 31 - 1) args
  else if streqb (o_name op) (str "fib") then int_args 92 args
  else if existsb (streqb (o_name op)) [str "C"; str "!"; str "gcd"; str "lcm"; str "rand"] then int_args (2 ^ 53) args
  else True.
Definition ends_well L w op args : Prop :=
  exists n w' e v, forall fuel, (n <= fuel)%nat -> arith_op_evaluate L fuel w op args = Done (Ok (w', (e, v))).
Lemma binomial_loop_ends : forall fuel n k i r zk zi, isZ k zk -> isZ i zi -> 0 <= zk < 2 ^ 53 -> 0 <= zi <= zk + 1 ->
  zk - zi + 1 < Z.of_nat fuel -> exists v, binomial_loop fuel n k i r = Done v.
Proof.
  induction fuel as [|f IH]; intros n k i r zk zi K I Bk Bi F; [lia|]. cbn [binomial_loop]. rewrite (dleb_Z _ _ _ _ I K).
  destruct (Z.leb_spec zi zk); [|eauto]. apply IH with zk (zi + 1); auto; try lia. apply dadd_Z; auto using d1_Z. unfold small. lia.
Qed.
Lemma binomial_loop_negative : forall fuel n k i r zk zi, isZ k zk -> isZ i zi -> zk < zi -> (0 < fuel)%nat -> binomial_loop fuel n k i r = Done r.
Proof. intros [|f] n k i r zk zi K I Lt F; [lia|]. cbn [binomial_loop]. rewrite (dleb_Z _ _ _ _ I K). replace (zi <=? zk) with false by lia. reflexivity. Qed.
Lemma double_Z : forall y k, isZ y k -> 0 <= k <= 2 ^ 53 -> isZ (dmul (of_Z 2) y) (2 * k).
Proof.
  intros y k (Vy & Fy & Ey) B. destruct two_Z as (V2 & F2 & E2).
  assert (G : Generic_fmt.generic_format radix2 (FLT.FLT_exp (-1074) 53) (IZR (2 * k))).
  { rewrite mult_IZR. apply FLT.generic_format_FLT. destruct (Z.eq_dec k (2 ^ 53)) as [->|N2].
    - exists (Float radix2 1 54); [|vm_compute; reflexivity|vm_compute; discriminate]. unfold F2R. cbn [Fnum Fexp].
      change (bpow radix2 54) with (IZR (2 ^ 54)). rewrite <- !mult_IZR. reflexivity.
    - exists (Float radix2 k 1); [unfold F2R; cbn [Fnum Fexp]; change (bpow radix2 1) with 2%R; ring| |vm_compute; discriminate].
      cbn [Fnum]. change (radix2 ^ 53)%Z with (2 ^ 53). lia. }
  assert (Rd : rnd (IZR (2 * k)) = IZR (2 * k)) by (apply Generic_fmt.round_generic; [apply Generic_fmt.valid_rnd_N|auto]).
  destruct (dmul_val _ _ V2 Vy F2 Fy) as (A & C & D).
  { rewrite E2, Ey, <- mult_IZR. unfold fits_double. rewrite Rd. apply Rle_lt_trans with (bpow radix2 54); [|apply bpow_lt; lia].
    rewrite <- abs_IZR. change (bpow radix2 54) with (IZR (2 ^ 54)). apply IZR_le. lia. }
  split; [auto|]. split; [auto|]. rewrite D, E2, Ey, <- mult_IZR. exact Rd.
Qed.
Lemma binomial_ends : forall x y a b, int_part x a -> int_part y b -> Z.abs a <= 2 ^ 53 -> Z.abs b <= 2 ^ 53 ->
  exists v n, forall fuel, (n <= fuel)%nat -> binomial fuel x y = Done v.
Proof.
  intros x y a b X Y A B. apply trunc_int, fabs_Z in X. apply trunc_int, fabs_Z in Y. unfold binomial.
  rewrite (deqb_Z _ d0 _ 0 Y d0_Z). destruct (Z.eqb_spec (Z.abs b) 0) as [E|N]; [exists d1, O; auto|].
  rewrite (dgtb_Z _ _ (2 * Z.abs b) (Z.abs a)) by (auto; apply double_Z; auto; lia).
  destruct (Z.ltb_spec (Z.abs a) (2 * Z.abs b)) as [G|G].
  - assert (K : isZ (dsub (fabs (trunc x)) (fabs (trunc y))) (Z.abs a - Z.abs b)) by (apply dsub_Z; auto; unfold small; lia).
    destruct (Z.le_gt_cases 0 (Z.abs a - Z.abs b)) as [P|P].
    + destruct (binomial_loop_ends (Z.to_nat (Z.abs a - Z.abs b + 2)) (fabs (trunc x)) _ _ d1 _ 1 K d1_Z) as (v & E); try lia.
      exists v, (Z.to_nat (Z.abs a - Z.abs b + 2)). intros fuel F. eapply binomial_loop_more; eauto.
    + exists d1, 1%nat. intros fuel F. eapply binomial_loop_negative; eauto using d1_Z. lia.
  - destruct (binomial_loop_ends (Z.to_nat (Z.abs b + 2)) (fabs (trunc x)) _ _ d1 _ 1 Y d1_Z) as (v & E); try lia.
    exists v, (Z.to_nat (Z.abs b + 2)). intros fuel F. eapply binomial_loop_more; eauto.
Qed.
Lemma args1 : forall args : list double, List.length args = 1%nat -> exists x, args = [x].
Proof. intros [|x [|y l]] H; try discriminate. eauto. Qed.
Lemma args2 : forall args : list double, List.length args = 2%nat -> exists x y, args = [x; y].
Proof. intros [|x [|y [|z l]]] H; try discriminate. eauto. Qed.
Lemma int1 : forall b x, int_args b [x] -> exists z, int_part x z /\ Z.abs z <= b.
Proof. intros b x H. inversion H; auto. Qed.
Lemma int2 : forall b x y, int_args b [x; y] -> (exists z, int_part x z /\ Z.abs z <= b) /\ (exists z, int_part y z /\ Z.abs z <= b).
Proof. intros b x y H. inversion H as [|? ? A B]; subst. inversion B; auto. Qed.
Ltac plain := exists O; do 3 eexists; intros fuel _; reflexivity.
Ltac simple_op :=
  match goal with
  | H : List.length ?a = 1%nat |- _ => destruct (args1 _ H) as [x ->]; plain
  | H : List.length ?a = 2%nat |- _ => destruct (args2 _ H) as (x & y & ->); plain
  | |- _ => plain
  end.
Lemma if_done : forall (b : bool) w e1 v1 e2 v2, exists n w' e v, forall fuel : nat, (n <= fuel)%nat ->
  (if b then Done (Ok (w, (e1, v1))) else Done (Ok (w, (e2, v2)))) = (Done (Ok (w', (e, v))) : outcome).
Proof. intros [] *; exists O; do 3 eexists; intros; reflexivity. Qed.
Theorem C60_ends_partial : forall L w op args, In op arith_registry -> fits_arity op args -> tame op args -> ends_well L w op args.
Proof.
  intros L w op args H A T. unfold arith_registry, numbered in H. unfold ends_well, arith_op_evaluate.
  vm_compute in H.
  repeat (destruct H as [<-|H]; [cbn [o_id]; cbn [o_id fits_arity o_arity] in A; unfold fits_arity in A; cbn [o_arity] in A; try simple_op|]); [..|destruct H].
  - (* @ *) destruct (args1 _ A) as [x ->]. cbn in T. apply int1 in T. destruct T as (z & X & B). exists O. cbn [with1]. unfold to_int. rewrite (to_range_int _ _ _ _ X) by lia.
    unfold from_history. destruct (history_get (w_history w) (to_size z)); do 3 eexists; intros fuel _; reflexivity.
  - (* / *) destruct (args2 _ A) as (x & y & ->). cbn [with2]. apply if_done.
  - (* ^ *) destruct (args2 _ A) as (x & y & ->). cbn [with2]. exists O. destruct (deqb x d0 && dleb y d0), (dltb x d0 && dltb y d1); do 3 eexists; intros fuel _; reflexivity.
  - (* C *) destruct (args2 _ A) as (x & y & ->). cbn in T. apply int2 in T. destruct T as ((a & X & Ba) & (b & Y & Bb)).
    destruct (binomial_ends x y a b X Y Ba Bb) as (v & n & E). exists n, w, 0, v. intros fuel F. cbn [with2]. rewrite E by auto. reflexivity.
  - (* ! *) destruct (args1 _ A) as [x ->]. cbn in T. apply int1 in T. destruct T as (z & X & B). destruct (factorial_ends x z d1 X B) as (v & n & E).
    apply int_part_cut in X. destruct X as (_ & Fx & _). assert (I : isinf x = false) by (destruct x; auto; destruct Fx).
    exists n, w, 0, v. intros fuel F. cbn [with1]. rewrite I, E by auto. reflexivity.
  - (* root *) destruct (args2 _ A) as (x & y & ->). cbn [with2]. apply if_done.
  - (* sqrt *) destruct (args1 _ A) as [x ->]. cbn [with1]. apply if_done.
  - (* avg *) destruct args; plain.
  - (* gcd *) destruct (args2 _ A) as (x & y & ->). cbn in T. apply int2 in T. destruct T as ((a & X & Ba) & (b & Y & Bb)).
    destruct (euclid_gcd x y a b X Y Ba Bb) as (v & n & _ & E). exists n, w, 0, v. intros fuel F. cbn [with2]. rewrite E by auto. reflexivity.
  - (* lcm *) destruct (args2 _ A) as (x & y & ->). cbn in T. apply int2 in T. destruct T as ((a & X & Ba) & (b & Y & Bb)).
    destruct (euclid_gcd x y a b X Y Ba Bb) as (v & n & _ & E). exists n, w, 0, (ddiv (fabs (dmul (trunc x) (trunc y))) v). intros fuel F. cbn [with2]. rewrite E by auto. reflexivity.
  - (* rand *) destruct (args2 _ A) as (x & y & ->). cbn in T. apply int2 in T. destruct T as ((a & X & Ba) & (b & Y & Bb)). cbn [with2].
    destruct (random_total (match w_rand w with r :: _ => r | [] => 0%Z end) x y a b X Y Ba Bb) as (c & v & ->). plain.
  - (* fib *) destruct (args1 _ A) as [x ->]. cbn in T. apply int1 in T. destruct T as (z & X & B). cbn [with1].
    destruct (fibonacci_ok x z X ltac:(lia)) as [-> _]. plain.
  - (* ans *) unfold from_history. destruct (history_get (w_history w) 0); plain.
Qed.
Theorem C60_ends_refuted : forall L, ~ (forall w op args, In op arith_registry -> fits_arity op args -> ends_well L w op args).
Proof.
  intros L H. assert (E : exists op, In op arith_registry /\ o_id op = 46%nat /\ o_arity op = Some 2%nat).
  { exists (nth 46 arith_registry star). repeat split; try (vm_compute; reflexivity). apply nth_In. vm_compute. lia. }
  destruct E as (op & I & Hid & Ar). destruct (H e0 op [dinf; of_Z 1] I) as (n & w' & e & v & E). { unfold fits_arity. rewrite Ar. reflexivity. }
  specialize (E n (le_n n)). unfold arith_op_evaluate in E. rewrite Hid in E. cbn [with2] in E. rewrite euclid_stuck in E by (vm_compute; reflexivity). discriminate E.
Qed.
Example C60_case : exists op args, In op arith_registry /\ fits_arity op args /\ tame op args /\ o_name op = str "lcm" /\ List.length args = 2%nat.
Proof.
  exists (nth 47 arith_registry star), [of_Z 4; of_Z 6]. split; [apply nth_In; vm_compute; lia|]. split; [vm_compute; reflexivity|]. split; [|split; [vm_compute; reflexivity|reflexivity]].
  assert (F : int_args (2 ^ 53) [of_Z 4; of_Z 6]).
  { repeat constructor; eexists; (split; [apply isZ_int_part; apply of_Z_Z; unfold small; lia|lia]). }
  exact F.
Qed.
Print Assumptions C60_ends_partial.
Print Assumptions C60_ends_refuted.

(** ** C61: elementary arithmetic *)
(** The result of the calculator is the double nearest to the exact one, unless it is too large. *)
Definition fits (r : R) : Prop := (Rabs (rnd r) < bpow radix2 1024)%R.
Theorem C61_rounded : forall L w x y a b, number x a -> number y b ->
  (fits (a + b) -> exists v, gives L "+" PInfix w [x; y] v /\ number v (rnd (a + b)))
  /\ (fits (a - b) -> exists v, gives L "-" PInfix w [x; y] v /\ number v (rnd (a - b)))
  /\ (fits (a * b) -> exists v, gives L "*" PInfix w [x; y] v /\ number v (rnd (a * b)))
  /\ (fits (a / b) -> b <> 0%R -> exists v, gives L "/" PInfix w [x; y] v /\ number v (rnd (a / b)))
  /\ (b = 0%R -> reports L "/" PInfix w [x; y] LISTENERERR_DIVISION_BY_ZERO).
Proof.
  intros L w x y a b (Vx & Fx & <-) (Vy & Fy & <-). destruct d0_Z as (V0 & F0 & E0).
  assert (T : dneb y d0 = negb (Req_bool (val y) 0)) by (unfold dneb; rewrite deqb_val, E0; auto).
  split; [|split; [|split; [|split]]].
  - intros F. exists (dadd x y). split; [by_id 4%nat; exists O; reflexivity|]. apply dadd_val; auto.
  - intros F. exists (dsub x y). split; [by_id 5%nat; exists O; reflexivity|]. apply dsub_val; auto.
  - intros F. exists (dmul x y). split; [by_id 6%nat; exists O; reflexivity|]. apply dmul_val; auto.
  - intros F N. exists (ddiv x y). split; [|apply ddiv_val; auto]. by_id 7%nat. exists O. intros fuel _. cbn [with2]. rewrite T, Req_bool_false by auto. reflexivity.
  - intros Z. split; [discriminate|]. by_id 7%nat. exists O. intros fuel _. exists d0. cbn [with2]. rewrite T, Req_bool_true by auto. reflexivity.
Qed.
Theorem C61_unary : forall L w x a, number x a ->
  (exists v, gives L "-" PPrefix w [x] v /\ number v (- a))
  /\ gives L "+" PPrefix w [x] x /\ gives L "$" PPrefix w [x] x
  /\ (exists v, gives L "abs" PFunction w [x] v /\ number v (Rabs a))
  /\ (exists v, gives L "%" PPostfix w [x] v /\ number v (rnd (a / 100)))
  /\ ((0 <= a)%R -> exists v, gives L "sqrt" PFunction w [x] v /\ number v (rnd (sqrt a)))
  /\ ((a < 0)%R -> reports L "sqrt" PFunction w [x] LISTENERERR_COMPLEX_SOLUTION)
  /\ (exists v, gives L "sgn" PFunction w [x] v /\ number v (if Rlt_bool a 0 then -1 else if Rlt_bool 0 a then 1 else 0)).
Proof.
  intros L w x a (Vx & Fx & <-). destruct d0_Z as (V0 & F0 & E0).
  assert (S : dgeb x d0 = Rle_bool 0 (val x)) by (unfold dgeb; change (SFleb d0 x) with (dleb d0 x); rewrite dleb_val, E0; auto).
  assert (T1 : dltb x d0 = Rlt_bool (val x) 0) by (rewrite dltb_val, E0; auto).
  assert (T2 : dgtb x d0 = Rlt_bool 0 (val x)) by (unfold dgtb; change (SFltb d0 x) with (dltb d0 x); rewrite dltb_val, E0; auto).
  split; [|split; [|split; [|split; [|split; [|split; [|split]]]]]].
  - exists (dneg x). split; [by_id 12%nat; exists O; reflexivity|]. destruct x as [|[]| |[]]; try destruct Fx; (split; [exact Vx|]); (split; [exact I|]); cbn [val dneg SFopp negb]; try (cbn; ring).
    + change (Zneg m) with (- Zpos m). rewrite opp_IZR. ring.
    + change (Zneg m) with (- Zpos m). rewrite opp_IZR. ring.
  - by_id 11%nat. exists O. reflexivity.
  - by_id 0%nat. exists O. reflexivity.
  - exists (fabs x). split; [by_id 36%nat; exists O; reflexivity|].
    destruct x as [|[]| |s m e]; try destruct Fx; (split; [exact Vx|]); (split; [exact I|]).
    + cbn. rewrite Rabs_R0. reflexivity.
    + cbn [val fabs SFabs]. pose proof (bpow_ge_0 radix2 e). rewrite Rabs_mult, (Rabs_pos_eq (bpow radix2 e)) by auto. f_equal. rewrite <- abs_IZR. destruct s; reflexivity.
  - assert (H : isZ (of_Z 100) 100) by (apply of_Z_Z; unfold small; lia). destruct H as (Vh & Fh & Eh).
    exists (ddiv x (of_Z 100)). split; [by_id 14%nat; exists O; reflexivity|]. rewrite <- Eh. apply ddiv_val; auto; [rewrite Eh; lra|].
    unfold fits_double. destruct (key_finite x Vx Fx) as [B K]. rewrite K in B. rewrite Eh.
    apply Rle_lt_trans with (Rabs (val x)); auto.
    rewrite rnd_eq. apply Generic_fmt.abs_round_le_generic; [apply FLT.FLT_exp_valid; reflexivity|apply Generic_fmt.valid_rnd_N| |].
    + apply Generic_fmt.generic_format_abs. destruct (to_B x Vx) as [b Hb]. rewrite <- Hb, B_val. apply BinarySingleNaN.generic_format_B2R.
    + unfold Rdiv. rewrite Rabs_mult, (Rabs_pos_eq (/ 100)) by lra. pose proof (Rabs_pos (val x)). nra.
  - intros P. exists (dsqrt x). split; [|apply dsqrt_val; auto]. by_id 17%nat. exists O. intros fuel _. cbn [with1]. rewrite S, Rle_bool_true by auto. reflexivity.
  - intros P. split; [discriminate|]. by_id 17%nat. exists O. intros fuel _. exists d0. cbn [with1]. rewrite S, Rle_bool_false by auto. reflexivity.
  - eexists. split; [by_id 42%nat; exists O; reflexivity|]. rewrite T1, T2. destruct (Rlt_bool (val x) 0); [apply (of_Z_Z (-1)); unfold small; lia|].
    destruct (Rlt_bool 0 (val x)); [apply d1_Z|apply d0_Z].
Qed.
(** The functions to integers are exact: floor, ceil, trunc, and round to the nearest, halves away from zero. *)
Theorem C61_to_integers : forall L w x a, number x a ->
  (exists v, gives L "floor" PFunction w [x] v /\ isZ v (Zfloor a))
  /\ (exists v, gives L "ceil" PFunction w [x] v /\ isZ v (Zceil a))
  /\ (exists v, gives L "trunc" PFunction w [x] v /\ isZ v (Ztrunc a))
  /\ (exists v z, gives L "round" PFunction w [x] v /\ isZ v z /\ (Rabs (a - IZR z) <= / 2)%R
       /\ ((Rabs (a - IZR z) = / 2)%R -> (Rabs a < Rabs (IZR z))%R)).
Proof.
  intros L w x a (Vx & Fx & <-). split; [|split; [|split]].
  - exists (floor x). split; [by_id 38%nat; exists O; reflexivity|]. apply floor_Z; auto.
  - exists (ceil x). split; [by_id 37%nat; exists O; reflexivity|]. apply ceil_Z; auto.
  - exists (trunc x). split; [by_id 40%nat; exists O; reflexivity|]. apply trunc_int. exists (val x). repeat split; auto.
  - destruct (round_Z x Vx Fx) as (z & A & B & C). exists (round x), z. split; [by_id 39%nat; exists O; reflexivity|]. auto.
Qed.
(** frac(x) is x - floor(x), rounded: 1 for small negative numbers, so it is not always less than 1. *)
Theorem C61_frac_partial : forall L w x a, number x a ->
  exists v, gives L "frac" PFunction w [x] v /\ number v (rnd (a - IZR (Zfloor a))) /\ (0 <= rnd (a - IZR (Zfloor a)) <= 1)%R.
Proof.
  intros L w x a (Vx & Fx & <-). destruct (floor_Z x Vx Fx) as (Vf & Ff & Ef). exists (dsub x (floor x)).
  split; [by_id 41%nat; exists O; reflexivity|].
  pose proof (Zfloor_lb (val x)). pose proof (Zfloor_ub (val x)).
  assert (B : (0 <= rnd (val x - IZR (Zfloor (val x))) <= 1)%R).
  { rewrite rnd_eq. split.
    - apply Generic_fmt.round_ge_generic; [apply FLT.FLT_exp_valid; reflexivity|apply Generic_fmt.valid_rnd_N|apply Generic_fmt.generic_format_0|lra].
    - apply Generic_fmt.round_le_generic; [apply FLT.FLT_exp_valid; reflexivity|apply Generic_fmt.valid_rnd_N|apply (small_format 1); unfold small; lia|lra]. }
  split; auto. rewrite <- Ef in *. apply dsub_val; auto. unfold fits_double. rewrite Rabs_pos_eq by lra.
  apply Rle_lt_trans with 1%R; [lra|]. change 1%R with (bpow radix2 0). apply bpow_lt. lia.
Qed.
Theorem C61_frac_refuted : forall L, ~ (forall w x a, number x a -> exists v r, gives L "frac" PFunction w [x] v /\ number v r /\ (0 <= r < 1)%R).
Proof.
  intros L H. set (x := S754_finite true 4503599627370496 (-112)).
  destruct (H e0 x (val x)) as (v & r & G & V & B). { split; [vm_compute; reflexivity|]. split; [exact I|reflexivity]. }
  assert (G2 : gives L "frac" PFunction e0 [x] d1) by (by_id 41%nat; exists O; intros fuel _; vm_compute; reflexivity).
  destruct (gives_unique _ _ _ _ _ _ _ _ _ G G2) as [_ ->]. destruct V as (_ & _ & V). destruct d1_Z as (_ & _ & E). lra.
Qed.
Example C61_case : number (ratio 15 (pow10 1)) (3 / 2) /\ Zfloor (3 / 2) = 1.
Proof.
  split. { apply (C54_error_refuted (mkLibm (fun x _ => x) (fun x _ => x) (fun x => x) (fun x => x) (fun x => x) (fun x => x) (fun x => x) (fun x => x) (fun x => x)
    (fun x => x) (fun x => x) (fun x => x) (fun x => x) (fun x => x) (fun x => x) (fun x => x) (fun x => x) (fun x => x) (fun x => x)) e0). }
  apply Zfloor_imp. simpl. lra.
Qed.
Print Assumptions C61_rounded.
Print Assumptions C61_unary.
Print Assumptions C61_to_integers.
Print Assumptions C61_frac_partial.
Print Assumptions C61_frac_refuted.
