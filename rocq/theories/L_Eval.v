(** Proofs about the loops of arith_evaluation.c. *)
From Coq Require Import List Ascii String NArith ZArith Bool Lia Reals Lra Znumtheory.
From Coq.Floats Require Import SpecFloat.
From Flocq Require Import Core.
From Verif Require Import M_Base M_Tree M_TreeUtil M_Context M_Strtod M_Double M_Eval M_ArithCtx L_ArithCtx S_Eval L_Float.
Import ListNotations.
Open Scope Z_scope.

Lemma d0_Z : isZ d0 0. Proof. apply isZ_zero. Qed.
Lemma d1_Z : isZ d1 1. Proof. apply of_Z_Z. unfold small. lia. Qed.
Lemma dneb_Z : forall x y a b, isZ x a -> isZ y b -> dneb x y = negb (a =? b).
Proof. intros. unfold dneb. erewrite deqb_Z; eauto. Qed.
Lemma dgtb_Z : forall x y a b, isZ x a -> isZ y b -> dgtb x y = (b <? a).
Proof. intros. unfold dgtb. change (SFltb y x) with (dltb y x). erewrite dltb_Z; eauto. Qed.
Lemma dgeb_Z : forall x y a b, isZ x a -> isZ y b -> dgeb x y = (b <=? a).
Proof. intros. unfold dgeb. change (SFleb y x) with (dleb y x). erewrite dleb_Z; eauto. Qed.
Lemma isZ_finite : forall x z, isZ x z -> valid x /\ finite x. Proof. intros x z (A & B & _). auto. Qed.

(** ** gcd *)
Lemma euclid_loop_gcd : forall fuel x y a b, isZ x a -> isZ y b -> 0 < a <= 2 ^ 53 -> 0 <= b <= 2 ^ 53 ->
  a + b < Z.of_nat fuel -> exists v, euclid_loop fuel x y = Done v /\ isZ v (Z.gcd a b).
Proof.
  induction fuel as [|f IH]; intros x y a b X Y A B F; [lia|]. cbn [euclid_loop].
  rewrite (dneb_Z y d0 b 0 Y d0_Z). destruct (Z.eqb_spec b 0) as [->|N]; cbn [negb].
  - exists x. split; auto. rewrite Z.gcd_0_r, Z.abs_eq by lia. auto.
  - rewrite (dgtb_Z x y a b X Y). destruct (Z.ltb_spec b a) as [G|G].
    + destruct (IH (dsub x y) y (a - b) b) as (v & E & V); auto; try lia. { apply dsub_Z; auto. unfold small. lia. }
      exists v. split; auto. rewrite Z.gcd_comm, Z.gcd_sub_diag_r, Z.gcd_comm in V. auto.
    + destruct (IH x (dsub y x) a (b - a)) as (v & E & V); auto; try lia. { apply dsub_Z; auto. unfold small. lia. }
      exists v. split; auto. rewrite Z.gcd_sub_diag_r in V. auto.
Qed.
Lemma euclid_loop_more : forall n x y v, euclid_loop n x y = Done v -> forall m, (n <= m)%nat -> euclid_loop m x y = Done v.
Proof.
  induction n as [|n IH]; intros x y v H m Lm; [discriminate|]. destruct m as [|m]; [lia|]. cbn [euclid_loop] in *.
  destruct (dneb y d0); auto. destruct (dgtb x y); apply IH; auto; lia.
Qed.
Lemma euclid_gcd : forall x y a b, int_part x a -> int_part y b -> small a -> small b ->
  exists v n, isZ v (Z.gcd a b) /\ forall fuel, (n <= fuel)%nat -> euclid fuel x y = Done v.
Proof.
  intros x y a b X Y A B. apply trunc_int, fabs_Z in X. apply trunc_int, fabs_Z in Y. unfold small in *.
  unfold euclid. rewrite (deqb_Z _ d0 _ 0 X d0_Z). destruct (Z.eqb_spec (Z.abs a) 0) as [E|N].
  - exists (fabs (trunc y)), O. split; auto. assert (a = 0) by lia. subst a. rewrite Z.gcd_0_l. auto.
  - destruct (euclid_loop_gcd (Z.to_nat (Z.abs a + Z.abs b + 1)) _ _ _ _ X Y) as (v & E & V); try lia.
    exists v, (Z.to_nat (Z.abs a + Z.abs b + 1)). split.
    + rewrite Z.gcd_abs_l, Z.gcd_abs_r in V. auto.
    + intros fuel F. apply euclid_loop_more with (Z.to_nat (Z.abs a + Z.abs b + 1)); auto.
Qed.
Lemma euclid_stuck : forall x y, deqb (fabs (trunc x)) d0 = false -> dneb (fabs (trunc y)) d0 = true ->
  dgtb (fabs (trunc x)) (fabs (trunc y)) = true -> dsub (fabs (trunc x)) (fabs (trunc y)) = fabs (trunc x) ->
  forall fuel, euclid fuel x y = Forever.
Proof.
  intros x y A B C D fuel. unfold euclid. rewrite A. induction fuel as [|f IH]; auto. cbn [euclid_loop]. rewrite B, C, D. auto.
Qed.

Lemma even_spec_rem : forall z, Z.even z = (Z.rem z 2 =? 0).
Proof.
  intros z. rewrite Zeven_mod. destruct (Z.eqb_spec (Z.rem z 2) 0) as [E|E].
  - apply Z.rem_divide in E; [|lia]. apply Z.mod_divide in E; [|lia]. rewrite E. reflexivity.
  - unfold Zeq_bool. destruct (z mod 2 ?= 0) eqn:C; auto. apply Z.compare_eq in C. exfalso. apply E. apply Z.rem_divide; [lia|]. apply Z.mod_divide; [lia|auto].
Qed.

(** ** Pascal's triangle *)
Lemma choose_n_0 : forall n, choose n 0 = 1. Proof. destruct n; reflexivity. Qed.
Lemma choose_SS : forall n k, choose (S n) (S k) = choose n k + choose n (S k). Proof. reflexivity. Qed.
Lemma choose_gt : forall n k, (n < k)%nat -> choose n k = 0.
Proof. induction n as [|n IH]; intros [|k] H; try lia; auto. rewrite choose_SS, !IH by lia. reflexivity. Qed.
Lemma choose_nonneg : forall n k, 0 <= choose n k.
Proof. induction n as [|n IH]; intros [|k]; try (rewrite ?choose_n_0; cbn; lia). rewrite choose_SS. pose proof (IH k). pose proof (IH (S k)). lia. Qed.
Lemma choose_pos : forall n k, (k <= n)%nat -> 0 < choose n k.
Proof.
  induction n as [|n IH]; intros [|k] H; try (rewrite ?choose_n_0; cbn; lia). rewrite choose_SS.
  pose proof (IH k ltac:(lia)). pose proof (choose_nonneg n (S k)). lia.
Qed.
Lemma choose_n_n : forall n, choose n n = 1.
Proof. induction n as [|n IH]; auto. rewrite choose_SS, IH, choose_gt by lia. reflexivity. Qed.
Lemma choose_absorb : forall n k, Z.of_nat (S k) * choose (S n) (S k) = Z.of_nat (S n) * choose n k.
Proof.
  induction n as [|n IH]; intros k.
  - destruct k as [|k]; [reflexivity|]. rewrite !choose_gt by lia. lia.
  - rewrite choose_SS. destruct k as [|k].
    + rewrite !choose_n_0. specialize (IH O). rewrite choose_n_0 in IH. lia.
    + rewrite (Z.mul_add_distr_l (Z.of_nat (S (S k)))). rewrite IH. rewrite (choose_SS n k).
      pose proof (IH k) as I1. replace (Z.of_nat (S (S k)) * (choose n k + choose n (S k))) with (Z.of_nat (S k) * choose (S n) (S k) + (choose n k + choose n (S k))) by (rewrite (choose_SS n k); lia).
      rewrite I1. lia.
Qed.
Lemma choose_sym : forall n k, (k <= n)%nat -> choose n (n - k) = choose n k.
Proof.
  induction n as [|n IH]; intros k H; [replace k with O by lia; reflexivity|].
  destruct k as [|k]. { rewrite Nat.sub_0_r, choose_n_n, choose_n_0. reflexivity. }
  destruct (Nat.eq_dec k n) as [->|N]. { rewrite Nat.sub_diag, choose_n_0, choose_n_n. reflexivity. }
  replace (S n - S k)%nat with (S (n - S k)) by lia. rewrite !choose_SS.
  rewrite IH by lia. replace (S (n - S k)) with (n - k)%nat by lia. rewrite IH by lia. lia.
Qed.
(** j * C(m + j, j) grows with j *)
Lemma choose_grow : forall m i j, (i <= j)%nat -> choose (m + i) i <= choose (m + j) j.
Proof.
  intros m i j H. induction H as [|j H IH]; [lia|]. replace (m + S j)%nat with (S (m + j)) by lia. rewrite choose_SS.
  pose proof (choose_nonneg (m + j) (S j)). lia.
Qed.

Lemma binomial_loop_choose : forall fuel m k i xn xk xi xr,
  isZ xn (Z.of_nat (m + k)) -> isZ xk (Z.of_nat k) -> isZ xi (Z.of_nat (S i)) -> isZ xr (choose (m + i) i) ->
  (i <= k)%nat -> Z.of_nat k * choose (m + k) k <= 2 ^ 53 -> Z.of_nat (m + k) <= 2 ^ 53 -> Z.of_nat k + 1 <= 2 ^ 53 ->
  (k - i < fuel)%nat -> exists v, binomial_loop fuel xn xk xi xr = Done v /\ isZ v (choose (m + k) k).
Proof.
  induction fuel as [|f IH]; intros m k i xn xk xi xr N K I R Li Bd Bn Bk Lf; [lia|]. cbn [binomial_loop].
  rewrite (dleb_Z _ _ _ _ I K). destruct (Z.leb_spec (Z.of_nat (S i)) (Z.of_nat k)) as [G|G].
  - apply (IH m k (S i)); auto; try lia.
    + replace (Z.of_nat (S (S i))) with (Z.of_nat (S i) + 1) by lia. apply dadd_Z; auto using d1_Z. unfold small. lia.
    + apply ddiv_Z with (Z.of_nat (S i)); auto; try lia.
      * replace (choose (m + S i) (S i) * Z.of_nat (S i)) with (choose (m + i) i * (Z.of_nat (m + S i))).
        2:{ replace (m + S i)%nat with (S (m + i)) by lia. pose proof (choose_absorb (m + i) i). lia. }
        apply dmul_Z; auto.
        -- replace (Z.of_nat (m + S i)) with ((Z.of_nat (m + k) - Z.of_nat k) + Z.of_nat (S i)) by lia.
           apply dadd_Z; auto; [|unfold small; lia]. apply dsub_Z; auto. unfold small. lia.
        -- unfold small. replace (choose (m + i) i * Z.of_nat (m + S i)) with (Z.of_nat (S i) * choose (m + S i) (S i)).
           2:{ replace (m + S i)%nat with (S (m + i)) by lia. pose proof (choose_absorb (m + i) i). lia. }
           pose proof (choose_grow m (S i) k ltac:(lia)). pose proof (choose_nonneg (m + S i) (S i)). rewrite Z.abs_eq by nia. nia.
      * unfold small. pose proof (choose_grow m (S i) k ltac:(lia)). pose proof (choose_nonneg (m + S i) (S i)). rewrite Z.abs_eq by lia. nia.
  - exists xr. split; auto. replace k with i by lia. auto.
Qed.
Lemma binomial_loop_more : forall a n k i r v, binomial_loop a n k i r = Done v -> forall b, (a <= b)%nat -> binomial_loop b n k i r = Done v.
Proof.
  induction a as [|a IH]; intros n k i r v H b Lb; [discriminate|]. destruct b as [|b]; [lia|]. cbn [binomial_loop] in *.
  destruct (dleb i k); auto. apply IH; auto; lia.
Qed.
Lemma two_Z : isZ (of_Z 2) 2. Proof. apply of_Z_Z. unfold small. lia. Qed.
Lemma binomial_choose : forall x y n k, int_part x (Z.of_nat n) -> int_part y (Z.of_nat k) -> (k <= n)%nat ->
  Z.of_nat (Nat.min k (n - k)) * choose n k <= 2 ^ 53 -> Z.of_nat n <= 2 ^ 53 ->
  exists v r, isZ v (choose n k) /\ forall fuel, (r <= fuel)%nat -> binomial fuel x y = Done v.
Proof.
  intros x y n k X Y Lk Bd Bn. apply trunc_int, fabs_Z in X. apply trunc_int, fabs_Z in Y. rewrite Z.abs_eq in X, Y by lia.
  unfold binomial. rewrite (deqb_Z _ d0 _ 0 Y d0_Z). destruct (Z.eqb_spec (Z.of_nat k) 0) as [E|N].
  - exists d1, O. split; auto. replace k with O by lia. rewrite choose_n_0. apply d1_Z.
  - assert (M : dgtb (dmul (of_Z 2) (fabs (trunc y))) (fabs (trunc x)) = (Z.of_nat n <? 2 * Z.of_nat k)).
    { destruct (Z.le_gt_cases (2 * Z.of_nat k) (2 ^ 53)) as [S|S].
      - apply dgtb_Z; auto. apply dmul_Z; auto using two_Z. unfold small. lia.
      - (* 2k is a double too: only its magnitude matters *)
        assert (small (Z.of_nat k)) as Sk by (unfold small; lia).
        assert (Q : isZ (dmul (of_Z 2) (fabs (trunc y))) (2 * Z.of_nat k)).
        { destruct two_Z as (V2 & F2 & E2). destruct Y as (Vy & Fy & Ey).
          assert (G : Generic_fmt.generic_format radix2 (SpecFloat.fexp prec emax) (IZR (2 * Z.of_nat k))).
          { rewrite mult_IZR. rewrite Rmult_comm. change 2%R with (bpow radix2 1).
            change (SpecFloat.fexp prec emax) with (FLT.FLT_exp (SpecFloat.emin prec emax) prec).
            apply FLT.generic_format_FLT. destruct (Z.eq_dec (Z.of_nat k) (2 ^ 53)) as [E|N2].
            - exists (Float radix2 1 54); [|vm_compute; reflexivity|vm_compute; discriminate]. rewrite E. unfold F2R. cbn [Fnum Fexp].
              change (IZR (2 ^ 53)) with (bpow radix2 53). rewrite <- bpow_plus. change (53 + 1) with 54. ring.
            - exists (Float radix2 (Z.of_nat k) 1); [reflexivity| |vm_compute; discriminate]. cbn [Fnum]. change (radix2 ^ prec)%Z with (2 ^ 53). lia. }
          destruct (dmul_val _ _ V2 Vy F2 Fy) as (A & B & C).
          { rewrite E2, Ey, <- mult_IZR. unfold fits_double. rewrite rnd_eq, Generic_fmt.round_generic; [|apply Generic_fmt.valid_rnd_N|auto].
            apply Rle_lt_trans with (bpow radix2 54); [|apply bpow_lt; lia]. rewrite <- abs_IZR. change (bpow radix2 54) with (IZR (2 ^ 54)). apply IZR_le. lia. }
          split; [auto|]. split; [auto|]. rewrite C, E2, Ey, <- mult_IZR, rnd_eq. apply Generic_fmt.round_generic; [apply Generic_fmt.valid_rnd_N|auto]. }
        apply dgtb_Z; auto. }
    rewrite M.
    assert (go : forall k' yk, isZ yk (Z.of_nat k') -> (k' <= n)%nat -> (2 * k' <= n)%nat -> choose n k' = choose n k ->
      Z.of_nat k' * choose n k' <= 2 ^ 53 ->
      exists v r, isZ v (choose n k) /\ forall fuel, (r <= fuel)%nat -> binomial_loop fuel (fabs (trunc x)) yk d1 d1 = Done v).
    { intros k' yk Yk L1 L2 Ck B2. pose proof (binomial_loop_choose (S k') (n - k') k' 0 (fabs (trunc x)) yk d1 d1) as G.
      replace (n - k' + k')%nat with n in G by lia. rewrite choose_n_0 in G.
      destruct G as (v & E & V); auto using d1_Z; try lia. exists v, (S k'). split; [congruence|]. intros fuel F. eapply binomial_loop_more; eauto. }
    destruct (Z.ltb_spec (Z.of_nat n) (2 * Z.of_nat k)) as [G|G].
    + apply (go (n - k)%nat); auto; try lia.
      * replace (Z.of_nat (n - k)) with (Z.of_nat n - Z.of_nat k) by lia. apply dsub_Z; auto. unfold small. lia.
      * apply choose_sym; auto.
      * rewrite choose_sym by auto. rewrite Nat.min_r in Bd by lia. auto.
    + apply (go k); auto; try lia. rewrite Nat.min_l in Bd by lia. auto.
Qed.

(** ** Factorial *)
Lemma factorial_loop_more : forall a i r v, factorial_loop a i r = Done v -> forall b, (a <= b)%nat -> factorial_loop b i r = Done v.
Proof.
  induction a as [|a IH]; intros i r v H b Lb; [discriminate|]. destruct b as [|b]; [lia|]. cbn [factorial_loop] in *.
  destruct (dgtb i d1); auto. apply IH; auto; lia.
Qed.
Lemma factorial_loop_ends : forall fuel x r z, isZ x z -> small z -> (0 < fuel)%nat -> z < Z.of_nat fuel + 1 ->
  exists v, factorial_loop fuel x r = Done v.
Proof.
  induction fuel as [|f IH]; intros x r z X S P F; [lia|]. cbn [factorial_loop]. rewrite (dgtb_Z _ _ _ _ X d1_Z).
  destruct (Z.ltb_spec 1 z) as [G|G]; [|eauto]. apply IH with (z - 1); try lia; [|unfold small in *; lia].
  apply dsub_Z; auto using d1_Z. unfold small in *. lia.
Qed.
Lemma factorial_ends : forall x z r, int_part x z -> small z ->
  exists v n, forall fuel, (n <= fuel)%nat -> factorial_loop fuel (trunc x) r = Done v.
Proof.
  intros x z r X S. apply trunc_int in X. destruct (factorial_loop_ends (Datatypes.S (Z.to_nat z)) _ r _ X S) as (v & E); try lia.
  exists v, (Datatypes.S (Z.to_nat z)). intros fuel F. eapply factorial_loop_more; eauto.
Qed.
Lemma factorial_stuck : forall i r, dgtb i d1 = true -> dsub i d1 = i -> forall fuel, factorial_loop fuel i r = Forever.
Proof. intros i r A B fuel. revert r. induction fuel as [|f IH]; intros r; auto. cbn [factorial_loop]. rewrite A, B. auto. Qed.
Lemma factorial_pos : forall n, 0 < factorial n.
Proof. induction n as [|n IH]; [cbn; lia|]. change (factorial (S n)) with (Z.of_nat (S n) * factorial n). lia. Qed.
(** n!, for n! that is a double, by running the loop on the numbers 0 to 22: 23! needs 56 bits. *)
Definition computes (z : Z) : bool :=
  match factorial_loop 30 (of_Z z) d1 with Done v => deqb v (of_Z (factorial (Z.to_nat z))) && (match v with S754_finite false _ _ => true | _ => false end) | Forever => false end.
Lemma factorial_computed : forall z, 0 <= z <= 22 -> computes z = true.
Proof.
  intros z H. assert (F : forallb computes (map Z.of_nat (seq 0 23)) = true) by (vm_compute; reflexivity).
  rewrite forallb_forall in F. apply F. apply in_map_iff. exists (Z.to_nat z). split; [lia|]. apply in_seq. lia.
Qed.
Lemma factorial_double : forall z, 0 <= z <= 22 -> isZ (of_Z (factorial (Z.to_nat z))) (factorial (Z.to_nat z)).
Proof.
  intros z H.
  assert (F : forall n, (n <= 22)%nat -> cut (of_Z (factorial n)) = Some (factorial n) /\ trunc (of_Z (factorial n)) = of_Z (factorial n)
     /\ finite (of_Z (factorial n)) /\ valid (of_Z (factorial n))).
  { intros n L. do 23 (destruct n as [|n]; [refine (conj _ (conj _ (conj _ _))); vm_compute; first [reflexivity|exact I]|]). lia. }
  destruct (F (Z.to_nat z) ltac:(lia)) as (A & B & C & D). rewrite <- B. apply trunc_int.
  exists (val (of_Z (factorial (Z.to_nat z)))). split; [repeat split; auto|].
  rewrite cut_Ztrunc in A by auto. congruence.
Qed.
Lemma factorial_exact : forall x z, int_part x z -> 0 <= z <= 22 ->
  exists v n, isZ v (factorial (Z.to_nat z)) /\ forall fuel, (n <= fuel)%nat -> factorial_loop fuel (trunc x) d1 = Done v.
Proof.
  intros x z X B. apply trunc_int in X. destruct (Z.eq_dec z 0) as [->|N].
  - exists d1, 1%nat. split; [apply d1_Z|]. intros fuel F. destruct fuel as [|f]; [lia|]. cbn [factorial_loop].
    rewrite (dgtb_Z _ _ _ _ X d1_Z). reflexivity.
  - assert (E : trunc x = of_Z z). { eapply isZ_unique; eauto. apply of_Z_Z. unfold small. lia. } rewrite E.
    pose proof (factorial_computed z B) as C. unfold computes in C. destruct (factorial_loop 30 (of_Z z) d1) as [v|] eqn:R; [|discriminate].
    exists v, 30%nat. split.
    2:{ intros fuel F. eapply factorial_loop_more; eauto. }
    apply andb_true_iff in C. destruct C as [C S]. pose proof (factorial_double z B) as D.
    assert (v = of_Z (factorial (Z.to_nat z))); [|congruence].
    unfold deqb, SFeqb in C. destruct (SFcompare v (of_Z (factorial (Z.to_nat z)))) as [[]|] eqn:Cm; try discriminate C.
    assert (Vv : valid v -> v = of_Z (factorial (Z.to_nat z))).
    { intros Vv. destruct D as (Vd & Fd & Ed). eapply isZ_unique with (a := factorial (Z.to_nat z)).
      - split; [auto|]. assert (Fv : finite v) by (destruct v; try discriminate S; exact I). split; auto.
        pose proof (compare_val v _ Vv Vd Fv Fd) as K. rewrite Cm in K. injection K as K. symmetry in K. apply Rcompare_Eq_inv in K. rewrite K. exact Ed.
      - split; auto.
      - pose proof (factorial_pos (Z.to_nat z)). lia. }
    apply Vv. clear - R B N.
    assert (F : forall n, (1 <= n <= 22)%nat -> match factorial_loop 30 (of_Z (Z.of_nat n)) d1 with Done v => valid v | Forever => False end).
    { intros n L. do 23 (destruct n as [|n]; [first [lia|vm_compute; reflexivity]|]). lia. }
    specialize (F (Z.to_nat z) ltac:(lia)). rewrite Z2Nat.id in F by lia. rewrite R in F. exact F.
Qed.

(** ** Fibonacci *)
Lemma fibo_SS : forall n, fibo (S (S n)) = fibo (S n) + fibo n. Proof. reflexivity. Qed.
Lemma fibo_nonneg : forall n, 0 <= fibo n /\ 0 <= fibo (S n).
Proof. induction n as [|n [A B]]; [cbn; lia|]. split; auto. rewrite fibo_SS. lia. Qed.
Lemma fibo_mono : forall n m, (n <= m)%nat -> fibo n <= fibo m.
Proof.
  intros n m H. induction H as [|m H IH]; [lia|]. destruct m as [|m]; [replace n with O by lia; cbn; lia|].
  rewrite fibo_SS. pose proof (fibo_nonneg m). lia.
Qed.
Fixpoint fib_pair (n : nat) : Z * Z := match n with O => (0, 1) | S m => let '(a, b) := fib_pair m in (b, b + a) end.
Lemma fib_pair_spec : forall n, fib_pair n = (fibo n, fibo (S n)).
Proof. induction n as [|n IH]; [reflexivity|]. cbn [fib_pair]. rewrite IH. rewrite (fibo_SS n). reflexivity. Qed.
Lemma fibo_fast : forall n, fibo n = fst (fib_pair n). Proof. intros n. rewrite fib_pair_spec. reflexivity. Qed.
Lemma fib_SS : forall m, fib (S (S m)) = match fib (S m) with Ok a => match fib m with Ok b => if a + b <=? 2 ^ 63 - 1 then Ok (a + b) else Ub | Ub => Ub | Halt => Halt end | Ub => Ub | Halt => Halt end.
Proof. reflexivity. Qed.
Lemma fib_fibo : forall n, fib n = (if fibo n <=? 2 ^ 63 - 1 then Ok (fibo n) else Ub)
  /\ fib (S n) = (if fibo (S n) <=? 2 ^ 63 - 1 then Ok (fibo (S n)) else Ub).
Proof.
  induction n as [|n [A B]]; [split; reflexivity|]. split; auto. rewrite fib_SS, A, B, fibo_SS.
  pose proof (fibo_nonneg n) as [P Q]. pose proof (fibo_mono n (S n) ltac:(lia)).
  destruct (Z.leb_spec (fibo (S n)) (2 ^ 63 - 1)).
  - destruct (Z.leb_spec (fibo n) (2 ^ 63 - 1)); [reflexivity|lia].
  - destruct (Z.leb_spec (fibo (S n) + fibo n) (2 ^ 63 - 1)); [lia|reflexivity].
Qed.
Lemma fib_ok : forall n, (n <= 92)%nat -> fib n = Ok (fibo n) /\ 0 <= fibo n <= 2 ^ 63 - 1.
Proof.
  intros n H. pose proof (fibo_mono n 92 H) as M. assert (E : fibo 92 <= 2 ^ 63 - 1) by (rewrite fibo_fast; vm_compute; discriminate).
  pose proof (fib_fibo n) as [F _]. pose proof (fibo_nonneg n) as [P _]. rewrite F. destruct (Z.leb_spec (fibo n) (2 ^ 63 - 1)); [split; auto; lia|lia].
Qed.
Lemma fib_overflow : forall n, (93 <= n)%nat -> fib n = Ub.
Proof.
  intros n H. pose proof (fibo_mono 93 n H) as M. assert (E : 2 ^ 63 - 1 < fibo 93) by (rewrite fibo_fast; vm_compute; reflexivity).
  pose proof (fib_fibo n) as [F _]. rewrite F. destruct (Z.leb_spec (fibo n) (2 ^ 63 - 1)); [lia|reflexivity].
Qed.
Lemma fibonacci_ok : forall x z, int_part x z -> -92 <= z <= 92 -> fibonacci x = Ok (of_Z (fiboZ z)) /\ Z.abs (fiboZ z) <= 2 ^ 63 - 1.
Proof.
  intros x z X B. unfold fibonacci, to_long. rewrite (to_range_int _ _ x z X) by lia. cbn [rbind]. unfold fiboZ.
  destruct (Z.ltb_spec z 0) as [N|N].
  - replace (z =? - 2 ^ 63) with false by lia. replace (0 <=? z) with false by lia.
    destruct (fib_ok (Z.to_nat (- z)) ltac:(lia)) as [-> R]. cbn [rbind].
    rewrite (even_spec_rem z). destruct (Z.rem z 2 =? 0); split; auto; lia.
  - replace (0 <=? z) with true by lia. destruct (fib_ok (Z.to_nat z) ltac:(lia)) as [-> R]. cbn [rbind]. split; auto. lia.
Qed.

(** ** rand *)
Lemma random_in : forall r x y a b, int_part x a -> int_part y b -> small a -> small b -> small (b - a) -> a < b -> 0 <= r ->
  exists v, random_between r x y = Ok (true, v) /\ isZ v (a + r mod (b - a)).
Proof.
  intros r x y a b X Y A B D L R. apply trunc_int in X. apply trunc_int in Y. unfold random_between, to_long.
  pose proof (dsub_Z _ _ _ _ Y X D) as Z. unfold small in *.
  rewrite (to_range_int _ _ _ (b - a) (isZ_int_part _ _ Z)) by lia. cbn [rbind]. replace (b - a <? 1) with false by lia.
  eexists. split; [reflexivity|]. pose proof (Z.mod_pos_bound r (b - a) ltac:(lia)). rewrite Z.rem_mod_nonneg by lia.
  rewrite Z.add_comm. apply dadd_Z; auto; [apply of_Z_Z|]; unfold small; lia.
Qed.
Lemma random_total : forall r x y a b, int_part x a -> int_part y b -> small a -> small b ->
  exists c v, random_between r x y = Ok (c, v).
Proof.
  intros r x y a b X Y A B. apply trunc_int in X. apply trunc_int in Y. unfold random_between, to_long. unfold small in *.
  destruct X as (Vx & Fx & Ex). destruct Y as (Vy & Fy & Ey).
  assert (Bd : (Rabs (val (trunc y) - val (trunc x)) <= bpow radix2 54)%R).
  { rewrite Ex, Ey, <- minus_IZR, <- abs_IZR. change (bpow radix2 54) with (IZR (2 ^ 54)). apply IZR_le. lia. }
  destruct (dsub_val _ _ Vy Vx Fy Fx) as (V & F & E). { apply fits_le with 54; auto. lia. }
  assert (Rn : (Rabs (val (dsub (trunc y) (trunc x))) <= bpow radix2 54)%R).
  { rewrite E, rnd_eq. apply Generic_fmt.abs_round_le_generic; auto; [apply FLT.FLT_exp_valid; reflexivity|apply Generic_fmt.valid_rnd_N|].
    apply Generic_fmt.generic_format_bpow. unfold SpecFloat.fexp, SpecFloat.emin, prec, emax. lia. }
  change (bpow radix2 54) with (IZR (2 ^ 54)) in Rn.
  assert (Q : Z.abs (Ztrunc (val (dsub (trunc y) (trunc x)))) <= 2 ^ 54).
  { rewrite <- Ztrunc_abs. rewrite <- (Ztrunc_IZR (2 ^ 54)). apply Ztrunc_le; auto. }
  assert (I : int_part (dsub (trunc y) (trunc x)) (Ztrunc (val (dsub (trunc y) (trunc x))))) by (exists (val (dsub (trunc y) (trunc x))); repeat split; auto).
  rewrite (to_range_int _ _ _ _ I) by lia.
  cbn [rbind]. destruct (_ <? 1); eauto.
Qed.

(** ** max, min *)
Definition num_or_inf (d : double) : Prop := valid d /\ d <> S754_nan.
Lemma key_inf : forall d, num_or_inf d -> (key dninf <= key d <= key dinf)%R /\ (key d = key dninf -> d = dninf) /\ (key d = key dinf -> d = dinf).
Proof.
  intros d [V N]. assert (P : (0 < bpow radix2 1024)%R) by apply bpow_gt_0.
  assert (K : finite d \/ exists s, d = S754_infinity s) by (destruct d; simpl; eauto; congruence).
  destruct K as [F|[s ->]].
  - destruct (key_finite d V F) as [B _]. apply Rabs_def2 in B. unfold dinf, dninf. cbn [key] in *. repeat split; intros; lra.
  - unfold dinf, dninf. destruct s; cbn [key]; repeat split; intros; auto; lra.
Qed.
Lemma max_fold : forall args r, Forall num_or_inf args -> num_or_inf r ->
  let m := fold_left (fun r x => if dgtb x r then x else r) args r in
  num_or_inf m /\ (key r <= key m)%R /\ Forall (fun x => (key x <= key m)%R) args /\ (m = r \/ In m args).
Proof.
  induction args as [|x args IH]; intros r F R; cbv zeta in *; [cbn; split; [auto|]; split; [lra|]; auto|]. inversion F as [|? ? Fx Fr]; subst.
  cbn [fold_left]. assert (G : dgtb x r = Rlt_bool (key r) (key x)) by (destruct R, Fx; apply dltb_key; auto).
  rewrite G. destruct (Rlt_bool_spec (key r) (key x)) as [H|H].
  - destruct (IH x Fr Fx) as (A & B & C & D). split; [auto|]. split; [lra|]. split.
    + constructor; auto.
    + right. destruct D as [->|D]; [left|right]; auto.
  - destruct (IH r Fr R) as (A & B & C & D). split; [auto|]. split; [auto|]. split.
    + constructor; auto. lra.
    + destruct D as [D|D]; [left|right; right]; auto.
Qed.
Lemma min_fold : forall args r, Forall num_or_inf args -> num_or_inf r ->
  let m := fold_left (fun r x => if dltb x r then x else r) args r in
  num_or_inf m /\ (key m <= key r)%R /\ Forall (fun x => (key m <= key x)%R) args /\ (m = r \/ In m args).
Proof.
  induction args as [|x args IH]; intros r F R; cbv zeta in *; [cbn; split; [auto|]; split; [lra|]; auto|]. inversion F as [|? ? Fx Fr]; subst.
  cbn [fold_left]. assert (G : dltb x r = Rlt_bool (key x) (key r)) by (destruct R, Fx; apply dltb_key; auto).
  rewrite G. destruct (Rlt_bool_spec (key x) (key r)) as [H|H].
  - destruct (IH x Fr Fx) as (A & B & C & D). split; [auto|]. split; [lra|]. split.
    + constructor; auto.
    + right. destruct D as [->|D]; [left|right]; auto.
  - destruct (IH r Fr R) as (A & B & C & D). split; [auto|]. split; [auto|]. split.
    + constructor; auto. lra.
    + destruct D as [D|D]; [left|right; right]; auto.
Qed.
Lemma max_spec : forall args, args <> [] -> Forall num_or_inf args ->
  let m := fold_left (fun r x => if dgtb x r then x else r) args dninf in
  In m args /\ Forall (fun x => dleb x m = true) args.
Proof.
  intros args N F m. destruct (max_fold args dninf F) as (A & _ & C & D). { split; [reflexivity|discriminate]. } fold m in A, C, D. split.
  - destruct D as [D|D]; auto. destruct args as [|x l]; [congruence|]. inversion F; subst. inversion C; subst. left.
    destruct (key_inf x) as (B & E & _); auto. rewrite D in *. apply E. lra.
  - rewrite Forall_forall in *. intros x H. destruct (F x H) as [V1 N1]. destruct A as [V2 N2]. rewrite dleb_key by auto. rewrite dltb_key by auto.
    rewrite Rlt_bool_false; auto.
Qed.
Lemma min_spec : forall args, args <> [] -> Forall num_or_inf args ->
  let m := fold_left (fun r x => if dltb x r then x else r) args dinf in
  In m args /\ Forall (fun x => dleb m x = true) args.
Proof.
  intros args N F m. destruct (min_fold args dinf F) as (A & _ & C & D). { split; [reflexivity|discriminate]. } fold m in A, C, D. split.
  - destruct D as [D|D]; auto. destruct args as [|x l]; [congruence|]. inversion F; subst. inversion C; subst. left.
    destruct (key_inf x) as (B & _ & E); auto. rewrite D in *. apply E. lra.
  - rewrite Forall_forall in *. intros x H. destruct (F x H) as [V1 N1]. destruct A as [V2 N2]. rewrite dleb_key by auto. rewrite dltb_key by auto.
    rewrite Rlt_bool_false; auto.
Qed.

(** Sums and products of integers *)
Definition zsum (l : list Z) : Z := fold_left Z.add l 0.
Lemma fold_sum_Z : forall xs zs x z, Forall2 isZ xs zs -> isZ x z ->
  Z.abs z + fold_left (fun s y => s + Z.abs y) zs 0 <= 2 ^ 53 -> isZ (fold_left dadd xs x) (fold_left Z.add zs z).
Proof.
  intros xs zs x z F. revert x z. induction F as [|y u xs zs Y F IH]; intros x z X B; auto. cbn [fold_left] in *.
  assert (G : forall l k, fold_left (fun s y => s + Z.abs y) l k = k + fold_left (fun s y => s + Z.abs y) l 0).
  { clear. induction l as [|a l IH]; intros k; cbn [fold_left]; [lia|]. rewrite IH, (IH (0 + Z.abs a)). lia. }
  rewrite G in B. assert (P : forall l, 0 <= fold_left (fun s y => s + Z.abs y) l 0).
  { clear - G. induction l as [|a l IH]; cbn [fold_left]; [lia|]. rewrite G. lia. }
  specialize (P zs). apply IH; [|lia]. apply dadd_Z; auto. unfold small. lia.
Qed.
Lemma fold_prod_Z : forall xs zs x z, Forall2 isZ xs zs -> isZ x z ->
  (forall k, Z.abs (fold_left Z.mul (firstn k zs) z) <= 2 ^ 53) -> isZ (fold_left dmul xs x) (fold_left Z.mul zs z).
Proof.
  intros xs zs x z F. revert x z. induction F as [|y u xs zs Y F IH]; intros x z X B; auto. cbn [fold_left].
  apply IH; [apply dmul_Z; auto; apply (B 1%nat)|]. intros k. apply (B (S k)).
Qed.

(** ** floor, ceil, round *)
Lemma neg_exp : forall m e, e < 0 -> (IZR (Zpos m) * bpow radix2 e = IZR (Zpos m) / IZR (2 ^ (- e)))%R.
Proof.
  intros m e H. change (2 ^ (- e)) with (Zpower radix2 (- e)). rewrite (IZR_Zpower radix2 (- e)) by lia. rewrite bpow_opp. unfold Rdiv. rewrite Rinv_inv. reflexivity.
Qed.
Lemma val_div : forall s m e, e < 0 -> val (S754_finite s m e) = (IZR (cond_Zopp s (Zpos m)) / IZR (2 ^ (- e)))%R.
Proof.
  intros s m e H. rewrite val_finite. change (2 ^ (- e)) with (Zpower radix2 (- e)). rewrite (IZR_Zpower radix2 (- e)) by lia. rewrite bpow_opp. unfold Rdiv. rewrite Rinv_inv. reflexivity.
Qed.
Lemma val_int : forall s m e, 0 <= e -> exists z, val (S754_finite s m e) = IZR z.
Proof. intros s m e H. rewrite val_finite. rewrite <- IZR_Zpower by auto. rewrite <- mult_IZR. eauto. Qed.
Lemma integral : forall s m e z, valid (S754_finite s m e) -> val (S754_finite s m e) = IZR z -> isZ (S754_finite s m e) z.
Proof. intros. repeat split; auto. Qed.
Lemma div_small : forall s m e, valid (S754_finite s m e) -> e < 0 ->
  - 2 ^ 53 <= cond_Zopp s (Zpos m) / 2 ^ (- e) <= 2 ^ 53.
Proof.
  intros s m e V H. apply valid_mantissa in V. assert (0 < 2 ^ (- e)) by (apply Z.pow_pos_nonneg; lia). split.
  - apply Z.div_le_lower_bound; auto. destruct s; cbn [cond_Zopp]; nia.
  - apply Z.div_le_upper_bound; auto. destruct s; cbn [cond_Zopp]; nia.
Qed.
Lemma floor_Z : forall x, valid x -> finite x -> isZ (floor x) (Zfloor (val x)).
Proof.
  intros [s|s| |s m e] V F; try destruct F.
  - cbn [floor]. cbn [val]. rewrite (Zfloor_IZR 0). apply isZ_zero.
  - cbn [floor]. destruct (Z.leb_spec 0 e) as [P|P].
    + destruct (val_int s m e P) as [z E]. rewrite E, Zfloor_IZR. apply integral; auto.
    + rewrite val_div by auto. assert (0 < 2 ^ (- e)) by (apply Z.pow_pos_nonneg; lia). rewrite Zfloor_div by lia.
      apply of_Zs_Z. pose proof (div_small s m e V P). unfold small. lia.
Qed.
Lemma ceil_Z : forall x, valid x -> finite x -> isZ (ceil x) (Zceil (val x)).
Proof.
  intros [s|s| |s m e] V F; try destruct F.
  - cbn [ceil]. cbn [val]. rewrite (Zceil_IZR 0). apply isZ_zero.
  - cbn [ceil]. destruct (Z.leb_spec 0 e) as [P|P].
    + destruct (val_int s m e P) as [z E]. rewrite E, Zceil_IZR. apply integral; auto.
    + unfold Zceil. replace (- val (S754_finite s m e))%R with (val (S754_finite (negb s) m e)).
      2:{ rewrite !val_finite. destruct s; cbn [negb cond_Zopp]; change (Zneg m) with (- Zpos m); rewrite ?opp_IZR; ring. }
      rewrite val_div by auto. assert (0 < 2 ^ (- e)) by (apply Z.pow_pos_nonneg; lia). rewrite Zfloor_div by lia.
      apply of_Zs_Z. assert (V' : valid (S754_finite (negb s) m e)) by exact V. pose proof (div_small (negb s) m e V' P). unfold small. lia.
Qed.
(** nearest integer, halves away from zero *)
Lemma round_Z : forall x, valid x -> finite x -> exists z, isZ (round x) z
  /\ (Rabs (val x - IZR z) <= / 2)%R /\ ((Rabs (val x - IZR z) = / 2)%R -> (Rabs (val x) < Rabs (IZR z))%R).
Proof.
  intros [s|s| |s m e] V F; try destruct F.
  - exists 0. cbn [round val]. split; [apply isZ_zero|]. replace (0 - 0)%R with 0%R by ring. rewrite Rabs_R0. split; [lra|intros; lra].
  - cbn [round]. destruct (Z.leb_spec 0 e) as [P|P].
    + destruct (val_int s m e P) as [z E]. exists z. split; [apply integral; auto|]. rewrite E. replace (IZR z - IZR z)%R with 0%R by ring. rewrite Rabs_R0. split; [lra|intros; lra].
    + set (k := 2 ^ (- e)). assert (0 < k) by (apply Z.pow_pos_nonneg; lia). set (q := (2 * Zpos m + k) / (2 * k)).
      exists (cond_Zopp s q). pose proof (valid_mantissa s m e V) as M.
      assert (Q : 0 <= q <= 2 ^ 53). { split; [apply Z.div_pos; lia|]. apply Z.div_le_upper_bound; nia. }
      split. { apply of_Zs_Z. unfold small. destruct s; cbn [cond_Zopp]; lia. }
      assert (Kp : (0 < IZR k)%R) by (apply IZR_lt; auto).
      pose proof (Z.div_mod (2 * Zpos m + k) (2 * k) ltac:(lia)) as DM. pose proof (Z.mod_pos_bound (2 * Zpos m + k) (2 * k) ltac:(lia)) as MB. fold q in DM.
      set (r := (2 * Zpos m + k) mod (2 * k)) in *.
      assert (E : (IZR (Zpos m) / IZR k - IZR q = (IZR r - IZR k) / (2 * IZR k))%R).
      { assert (D2 : (2 * IZR (Zpos m) + IZR k = 2 * IZR k * IZR q + IZR r)%R) by (rewrite <- !mult_IZR, <- !plus_IZR; f_equal; lia).
        apply Rmult_eq_reg_r with (2 * IZR k)%R; [|lra]. field_simplify; [lra|lra|lra]. }
      assert (R1 : (0 <= IZR r)%R) by (apply IZR_le; lia). assert (R2 : (IZR r < 2 * IZR k)%R) by (rewrite <- mult_IZR; apply IZR_lt; lia).
      assert (B1 : (- / 2 <= IZR (Zpos m) / IZR k - IZR q)%R).
      { rewrite E. apply Rmult_le_reg_r with (2 * IZR k)%R; [lra|]. field_simplify; [lra|lra]. }
      assert (B2 : (IZR (Zpos m) / IZR k - IZR q < / 2)%R).
      { rewrite E. apply Rmult_lt_reg_r with (2 * IZR k)%R; [lra|]. field_simplify; [lra|lra]. }
      assert (Mp : (0 < IZR (Zpos m) / IZR k)%R) by (apply Rdiv_lt_0_compat; auto; apply IZR_lt; lia).
      assert (Vl : val (S754_finite s m e) = (if s then - (IZR (Zpos m) / IZR k) else IZR (Zpos m) / IZR k)%R).
      { rewrite val_div by auto. fold k. destruct s; cbn [cond_Zopp]; auto. change (Zneg m) with (- Zpos m). rewrite opp_IZR. unfold Rdiv. ring. }
      assert (Ql : IZR (cond_Zopp s q) = (if s then - IZR q else IZR q)%R) by (destruct s; cbn [cond_Zopp]; auto; apply opp_IZR).
      rewrite Vl, Ql. clear Vl Ql.
      assert (Ab : (Rabs ((if s then - (IZR (Zpos m) / IZR k) else IZR (Zpos m) / IZR k) - (if s then - IZR q else IZR q)) = Rabs (IZR (Zpos m) / IZR k - IZR q))%R).
      { destruct s; auto. rewrite <- Rabs_Ropp. f_equal. ring. }
      rewrite Ab. split. { apply Rabs_le. lra. }
      intros T. assert (T2 : (IZR (Zpos m) / IZR k - IZR q = - / 2)%R) by (unfold Rabs in T; destruct (Rcase_abs _); lra).
      assert (Qn : (0 <= IZR q)%R) by (apply IZR_le; lia).
      destruct s; rewrite ?Rabs_Ropp, !Rabs_pos_eq; lra.
Qed.

(** ** Operators by name *)
Definition has_id (name : string) (p : placement) (id : nat) : bool :=
  match ctx_lookup_op the_arith_ctx (str name) p with Ok (Some op) => Nat.eqb (o_id op) id | _ => false end.
Lemma applies_id : forall name p id (P : operator -> Prop), has_id name p id = true -> (forall op, o_id op = id -> P op) -> applies name p P.
Proof.
  intros name p id P H F. unfold has_id in H. unfold applies. destruct (ctx_lookup_op the_arith_ctx (str name) p) as [[op|]| |]; try discriminate H.
  exists op. split; auto. apply F. apply Nat.eqb_eq. auto.
Qed.
Lemma applies_both : forall name p P Q, applies name p P -> applies name p Q -> exists op, P op /\ Q op.
Proof. intros name p P Q (o1 & E1 & H1) (o2 & E2 & H2). rewrite E1 in E2. injection E2 as <-. eauto. Qed.
Lemma gives_unique : forall L name p w args w1 v1 w2 v2,
  gives_in L name p w args w1 v1 -> gives_in L name p w args w2 v2 -> w1 = w2 /\ v1 = v2.
Proof.
  intros L name p w args w1 v1 w2 v2 H1 H2. destruct (applies_both _ _ _ _ H1 H2) as (op & (n & A) & (m & B)).
  specialize (A (n + m)%nat ltac:(lia)). specialize (B (n + m)%nat ltac:(lia)). rewrite A in B. injection B as -> ->. auto.
Qed.
Lemma gives_not_forever : forall L name p w args w1 v1, gives_in L name p w args w1 v1 -> runs_forever L name p w args -> False.
Proof.
  intros L name p w args w1 v1 H1 H2. destruct (applies_both _ _ _ _ H1 H2) as (op & (n & A) & B).
  specialize (A n ltac:(lia)). rewrite B in A. discriminate A.
Qed.
Lemma gives_not_reports : forall L name p w args w1 v1 e, gives_in L name p w args w1 v1 -> reports L name p w args e -> False.
Proof.
  intros L name p w args w1 v1 e H1 (N & H2). destruct (applies_both _ _ _ _ H1 H2) as (op & (n & A) & (m & B)).
  specialize (A (n + m)%nat ltac:(lia)). destruct (B (n + m)%nat ltac:(lia)) as (v & B'). rewrite A in B'. injection B' as _ E _. congruence.
Qed.
Lemma gives_not_undefined : forall L name p w args w1 v1, gives_in L name p w args w1 v1 -> undefined L name p w args -> False.
Proof.
  intros L name p w args w1 v1 H1 H2. destruct (applies_both _ _ _ _ H1 H2) as (op & (n & A) & (m & B)).
  specialize (A (n + m)%nat ltac:(lia)). specialize (B (n + m)%nat ltac:(lia)). congruence.
Qed.
Lemma reports_not_undefined : forall L name p w args e, reports L name p w args e -> undefined L name p w args -> False.
Proof.
  intros L name p w args e (N & H1) H2. destruct (applies_both _ _ _ _ H1 H2) as (op & (n & A) & (m & B)).
  destruct (A (n + m)%nat ltac:(lia)) as (v & A'). specialize (B (n + m)%nat ltac:(lia)). congruence.
Qed.

(** Binomial coefficients by factorials *)
Lemma choose_factorial : forall n k, (k <= n)%nat -> choose n k * (factorial k * factorial (n - k)) = factorial n.
Proof.
  induction n as [|n IH]; intros [|k] H; try lia; try reflexivity.
  - rewrite choose_n_0, Nat.sub_0_r. change (factorial 0) with 1. lia.
  - change (factorial (S k)) with (Z.of_nat (S k) * factorial k). change (factorial (S n)) with (Z.of_nat (S n) * factorial n).
    replace (S n - S k)%nat with (n - k)%nat by lia. rewrite <- (IH k) by lia. pose proof (choose_absorb n k) as A. 
    replace (choose (S n) (S k) * (Z.of_nat (S k) * factorial k * factorial (n - k))) with (Z.of_nat (S k) * choose (S n) (S k) * (factorial k * factorial (n - k))) by ring.
    rewrite A. ring.
Qed.
