(** Proofs about printf("%-.10g") and strtod (C53). *)
From Coq Require Import Reals.
From Flocq Require Import Core BinarySingleNaN.
From Flocq Require Relative.
From Coq Require Import List Ascii String NArith ZArith Bool Lia Lra Arith.
From Coq.Floats Require Import SpecFloat.
From Verif Require Import M_Base M_Tree M_Printf M_Strtod M_Double S_Engine S_Eval S_Printf L_Float L_TableNum.
Import ListNotations.
Open Scope Z_scope.

(** ** Decimal exponents *)
Lemma log10_loop_spec : forall f n, 0 < n < 2 ^ (Z.of_nat f + 1) -> 0 <= log10_loop f n /\ 10 ^ log10_loop f n <= n < 10 ^ (log10_loop f n + 1).
Proof.
  induction f as [|f IH]; intros n H; cbn [log10_loop].
  - change (2 ^ (Z.of_nat 0 + 1)) with 2 in H. change (10 ^ 0) with 1. change (10 ^ (0 + 1)) with 10. lia.
  - destruct (Z.ltb_spec n 10) as [L|L]. { change (10 ^ 0) with 1. change (10 ^ (0 + 1)) with 10. lia. }
    assert (D : 0 < n / 10 < 2 ^ (Z.of_nat f + 1)).
    { split; [apply Z.div_str_pos; lia|]. replace (Z.of_nat (S f) + 1) with (1 + (Z.of_nat f + 1)) in H by lia. rewrite Z.pow_add_r in H by lia.
      apply Z.div_lt_upper_bound; lia. }
    destruct (IH _ D) as (A & B & C). split; [lia|]. rewrite <- Z.add_assoc, (Z.pow_add_r 10 1) by lia. rewrite (Z.pow_add_r 10 1) by lia. change (10 ^ 1) with 10.
    pose proof (Z.div_mod n 10 ltac:(lia)). pose proof (Z.mod_pos_bound n 10 ltac:(lia)). lia.
Qed.
Lemma log10_spec : forall n, 0 < n -> 0 <= log10 n /\ 10 ^ log10 n <= n < 10 ^ (log10 n + 1).
Proof.
  intros n H. apply log10_loop_spec. rewrite Z2Nat.id by apply Z.log2_nonneg. pose proof (Z.log2_spec n H). unfold Z.succ in *. lia.
Qed.

Open Scope R_scope.
Lemma ten_Z : forall k, (0 <= k)%Z -> bpow ten k = IZR (10 ^ k).
Proof. intros k H. change 10%Z with (radix_val ten). rewrite IZR_Zpower; auto. Qed.
Lemma ten_pos : forall k, 0 < bpow ten k.
Proof. intros. apply bpow_gt_0. Qed.
Lemma ten_step : forall k, bpow ten (k + 1) = 10 * bpow ten k.
Proof. intros k. rewrite bpow_plus. change (bpow ten 1) with 10. ring. Qed.
Lemma quotient_le : forall a b c, (0 < b)%Z -> (c * b <= a)%Z -> IZR c <= IZR a / IZR b.
Proof. intros a b c H L. apply IZR_lt in H. apply IZR_le in L. rewrite mult_IZR in L. apply Rmult_le_reg_r with (IZR b); auto. unfold Rdiv. rewrite Rmult_assoc, Rinv_l by lra. lra. Qed.
Lemma quotient_lt : forall a b c, (0 < b)%Z -> (a < c * b)%Z -> IZR a / IZR b < IZR c.
Proof. intros a b c H L. apply IZR_lt in H. apply IZR_lt in L. rewrite mult_IZR in L. apply Rmult_lt_reg_r with (IZR b); auto. unfold Rdiv. rewrite Rmult_assoc, Rinv_l by lra. lra. Qed.
Lemma exponent10_spec : forall num den, (0 < num)%Z -> (0 < den)%Z ->
  bpow ten (exponent10 num den) <= IZR num / IZR den < bpow ten (exponent10 num den + 1).
Proof.
  intros num den Hn Hd. unfold exponent10. destruct (Z.leb_spec den num) as [L|L].
  - assert (Q : (0 < num / den)%Z) by (apply Z.div_str_pos; lia). destruct (log10_spec _ Q) as (A & B & C). set (k := log10 (num / den)) in *.
    pose proof (Z.div_mod num den ltac:(lia)). pose proof (Z.mod_pos_bound num den Hd). rewrite !ten_Z by lia. split; [apply quotient_le|apply quotient_lt]; auto; nia.
  - assert (Q : (0 < (den - 1) / num)%Z) by (apply Z.div_str_pos; lia). destruct (log10_spec _ Q) as (A & B & C). set (k := log10 ((den - 1) / num)) in *.
    pose proof (Z.div_mod (den - 1) num ltac:(lia)). pose proof (Z.mod_pos_bound (den - 1) num Hn). rewrite !bpow_opp || idtac.
    replace (- (1 + k) + 1)%Z with (- k)%Z by lia. rewrite !bpow_opp. replace (1 + k)%Z with (k + 1)%Z by lia. rewrite !ten_Z by lia.
    assert (Pn : 0 < IZR num) by (apply IZR_lt; auto). assert (Pd : 0 < IZR den) by (apply IZR_lt; auto).
    assert (P1 : 0 < IZR (10 ^ k)) by (apply IZR_lt; apply Z.pow_pos_nonneg; lia). assert (P2 : 0 < IZR (10 ^ (k + 1))) by (apply IZR_lt; apply Z.pow_pos_nonneg; lia).
    replace (IZR num / IZR den) with (/ (IZR den / IZR num)) by (field; lra).
    assert (P3 : 0 < IZR den / IZR num) by (apply Rdiv_lt_0_compat; auto).
    split.
    + apply Rinv_le; auto. apply Rmult_le_reg_r with (IZR num); auto. unfold Rdiv. rewrite Rmult_assoc, Rinv_l by lra. rewrite Rmult_1_r, <- mult_IZR. apply IZR_le. nia.
    + apply Rinv_lt_contravar; [apply Rmult_lt_0_compat; auto|]. apply Rmult_lt_reg_r with (IZR num); auto. unfold Rdiv. rewrite (Rmult_assoc (IZR den)), Rinv_l by lra. rewrite Rmult_1_r, <- mult_IZR. apply IZR_lt. nia.
Qed.

(** ** The ten digits *)
Lemma nearest_spec : forall a b, (0 < b)%Z -> Rabs (IZR a / IZR b - IZR (nearest a b)) <= / 2.
Proof.
  intros a b H. pose proof (Z.div_mod a b ltac:(lia)) as E. pose proof (Z.mod_pos_bound a b H) as M. unfold nearest. set (q := (a / b)%Z) in *. set (m := (a mod b)%Z) in *.
  assert (Pb : 0 < IZR b) by (apply IZR_lt; auto).
  assert (V : IZR a / IZR b = IZR q + IZR m / IZR b). { rewrite E, plus_IZR, mult_IZR. field. lra. }
  assert (W : forall c, (2 * c <= b)%Z -> IZR c / IZR b <= / 2).
  { intros c Hc. apply IZR_le in Hc. rewrite mult_IZR in Hc. apply Rmult_le_reg_r with (IZR b); auto. unfold Rdiv. rewrite Rmult_assoc, Rinv_l by lra. lra. }
  assert (U : forall c, (0 <= c)%Z -> 0 <= IZR c / IZR b). { intros c Hc. apply IZR_le in Hc. apply Rmult_le_pos; auto. apply Rlt_le, Rinv_0_lt_compat. auto. }
  assert (Lo : (2 * m <= b)%Z -> Rabs (IZR a / IZR b - IZR q) <= / 2).
  { intros L. rewrite V. replace (IZR q + IZR m / IZR b - IZR q) with (IZR m / IZR b) by ring. rewrite Rabs_pos_eq; [apply W; auto|apply U; lia]. }
  assert (Hi : (b <= 2 * m)%Z -> Rabs (IZR a / IZR b - IZR (q + 1)) <= / 2).
  { intros L. rewrite V, plus_IZR. replace (IZR q + IZR m / IZR b - (IZR q + 1)) with (- (IZR (b - m) / IZR b)) by (rewrite minus_IZR; field; lra).
    rewrite Rabs_Ropp, Rabs_pos_eq; [apply W; lia|apply U; lia]. }
  destruct (Z.compare_spec (2 * m) b); [destruct (Z.even q)| |]; auto; [apply Lo|apply Hi|apply Lo|apply Hi]; lia.
Qed.
Lemma nearest_unique : forall a b d, (0 < b)%Z -> Rabs (IZR a / IZR b - IZR d) < / 2 -> nearest a b = d.
Proof.
  intros a b d H E. pose proof (nearest_spec a b H) as N. apply Rabs_le_inv in N. apply Rabs_lt_inv in E.
  assert (X : IZR (nearest a b) - 1 < IZR d < IZR (nearest a b) + 1) by lra.
  rewrite <- minus_IZR, <- plus_IZR in X. destruct X as [X1 X2]. apply lt_IZR in X1, X2. lia.
Qed.
Definition scaled (num den : Z) : Z :=
  let x := exponent10 num den in if (x <=? 9)%Z then nearest (num * 10 ^ (9 - x)) den else nearest num (den * 10 ^ (x - 9)).
Lemma scaled_form : forall num den, (0 < num)%Z -> (0 < den)%Z -> exists a b, (0 < b)%Z /\ scaled num den = nearest a b
  /\ IZR a / IZR b = IZR num / IZR den * bpow ten (9 - exponent10 num den).
Proof.
  intros num den Hn Hd. unfold scaled. set (x := exponent10 num den). assert (Pd : 0 < IZR den) by (apply IZR_lt; auto).
  destruct (Z.leb_spec x 9) as [L|L].
  - exists (num * 10 ^ (9 - x))%Z, den. split; auto. split; auto. rewrite mult_IZR, ten_Z by lia. field. lra.
  - assert (P : (0 < 10 ^ (x - 9))%Z) by (apply Z.pow_pos_nonneg; lia). exists num, (den * 10 ^ (x - 9))%Z. split; [lia|]. split; auto.
    replace (9 - x)%Z with (- (x - 9))%Z by lia. rewrite bpow_opp, ten_Z, mult_IZR by lia. apply IZR_lt in P. field. lra.
Qed.
Lemma scale_back : forall a x, a * bpow ten (9 - x) * bpow ten (x - 9) = a.
Proof. intros a x. rewrite Rmult_assoc, <- bpow_plus. replace (9 - x + (x - 9))%Z with 0%Z by lia. change (bpow ten 0) with 1. ring. Qed.
Lemma scaled_range : forall num den, (0 < num)%Z -> (0 < den)%Z -> 10 ^ 9 <= IZR num / IZR den * bpow ten (9 - exponent10 num den) < 10 ^ 10.
Proof.
  intros num den Hn Hd. destruct (exponent10_spec num den Hn Hd) as [A B]. set (x := exponent10 num den) in *. set (a := IZR num / IZR den) in *.
  assert (E0 : bpow ten x * bpow ten (9 - x) = bpow ten 9) by (rewrite <- bpow_plus; f_equal; lia).
  assert (E1 : bpow ten (x + 1) * bpow ten (9 - x) = bpow ten 10) by (rewrite <- bpow_plus; f_equal; lia).
  pose proof (ten_pos (9 - x)) as P. split.
  - replace (10 ^ 9) with (bpow ten 9) by (change (bpow ten 9) with 1000000000; lra). rewrite <- E0. apply Rmult_le_compat_r; lra.
  - replace (10 ^ 10) with (bpow ten 10) by (change (bpow ten 10) with 10000000000; lra). rewrite <- E1. apply Rmult_lt_compat_r; lra.
Qed.
Lemma ten_digits_spec : forall num den, (0 < num)%Z -> (0 < den)%Z -> let '(d, x) := ten_digits num den in
  (10 ^ 9 <= d < 10 ^ 10)%Z /\ Rabs (IZR num / IZR den - IZR d * bpow ten (x - 9)) <= bpow ten (exponent10 num den - 9) / 2
  /\ (x = exponent10 num den \/ x = (exponent10 num den + 1)%Z /\ d = (10 ^ 9)%Z).
Proof.
  intros num den Hn Hd. destruct (scaled_form num den Hn Hd) as (a & b & Hb & E & V). pose proof (scaled_range num den Hn Hd) as R. pose proof (nearest_spec a b Hb) as N.
  rewrite <- E, V in N. unfold ten_digits. fold (scaled num den). set (x := exponent10 num den) in *. set (r := IZR num / IZR den) in *. cbv zeta.
  assert (B : (10 ^ 9 <= scaled num den <= 10 ^ 10)%Z).
  { apply Rabs_le_inv in N. assert (X : IZR (10 ^ 9 - 1) < IZR (scaled num den) < IZR (10 ^ 10 + 1)).
    { rewrite minus_IZR, plus_IZR. change (IZR (10 ^ 9)) with 1000000000. change (IZR (10 ^ 10)) with 10000000000. lra. }
    destruct X as [X1 X2]. apply lt_IZR in X1, X2. lia. }
  assert (Cl : Rabs (r - IZR (scaled num den) * bpow ten (x - 9)) <= bpow ten (x - 9) / 2).
  { rewrite <- (scale_back r x) at 1. rewrite <- Rmult_minus_distr_r, Rabs_mult, (Rabs_pos_eq (bpow ten (x - 9))) by (apply Rlt_le, ten_pos).
    pose proof (ten_pos (x - 9)). unfold Rdiv. rewrite Rmult_comm. apply Rmult_le_compat_l; lra. }
  destruct (Z.eqb_spec (scaled num den) (10 ^ 10)) as [T|T].
  - split; [lia|]. split; [|auto]. rewrite T in Cl. replace (IZR (10 ^ 9) * bpow ten (x + 1 - 9)) with (IZR (10 ^ 10) * bpow ten (x - 9)); auto.
    replace (x + 1 - 9)%Z with (x - 9 + 1)%Z by lia. rewrite ten_step. change (IZR (10 ^ 9)) with 1000000000. change (IZR (10 ^ 10)) with 10000000000. ring.
  - split; [lia|]. auto.
Qed.
Lemma exponent_unique : forall a x y, bpow ten x <= a < bpow ten (x + 1) -> bpow ten y <= a < bpow ten (y + 1) -> x = y.
Proof.
  intros a x y [A B] [C D]. assert (X : bpow ten x < bpow ten (y + 1)) by lra. assert (Y : bpow ten y < bpow ten (x + 1)) by lra. apply lt_bpow in X, Y. lia.
Qed.
Lemma ten_digits_unique : forall num den d j, (0 < num)%Z -> (0 < den)%Z -> (10 ^ 9 <= d < 10 ^ 10)%Z ->
  Rabs (IZR num / IZR den - IZR d * bpow ten j) < bpow ten j / 20 -> ten_digits num den = (d, (j + 9)%Z).
Proof.
  intros num den d j Hn Hd D C. destruct (scaled_form num den Hn Hd) as (p & q & Hq & E & V). pose proof (exponent10_spec num den Hn Hd) as X.
  unfold ten_digits. fold (scaled num den). cbv zeta. set (x := exponent10 num den) in *. set (a := IZR num / IZR den) in *. pose proof (ten_pos j) as P.
  assert (T8 : bpow ten (j + 8) = 100000000 * bpow ten j) by (rewrite bpow_plus; change (bpow ten 8) with 100000000; ring).
  assert (T9 : bpow ten (j + 9) = 1000000000 * bpow ten j) by (rewrite bpow_plus; change (bpow ten 9) with 1000000000; ring).
  assert (T10 : bpow ten (j + 10) = 10000000000 * bpow ten j) by (rewrite bpow_plus; change (bpow ten 10) with 10000000000; ring).
  assert (Dr : 1000000000 <= IZR d <= 9999999999). { split; apply IZR_le; change (10 ^ 9)%Z with 1000000000%Z in D; change (10 ^ 10)%Z with 10000000000%Z in D; lia. }
  apply Rabs_lt_inv in C. set (t := bpow ten j) in *. destruct (Rle_lt_dec (bpow ten (j + 9)) a) as [L|L].
  - assert (Y : x = (j + 9)%Z). { apply (exponent_unique a); auto. split; auto. replace (j + 9 + 1)%Z with (j + 10)%Z by lia. rewrite T10. nra. }
    assert (S : scaled num den = d).
    { rewrite E. apply nearest_unique; auto. rewrite V, Y. replace (9 - (j + 9))%Z with (- j)%Z by lia. rewrite bpow_opp. fold t. replace (IZR d) with (IZR d * t * / t) by (field; lra).
      rewrite <- Rmult_minus_distr_r, Rabs_mult, (Rabs_pos_eq (/ t)) by (apply Rlt_le, Rinv_0_lt_compat; auto). apply Rmult_lt_reg_r with t; auto.
      rewrite Rmult_assoc, Rinv_l by lra. rewrite Rmult_1_r. apply Rabs_lt. lra. }
    rewrite S. destruct (Z.eqb_spec d (10 ^ 10)); [lia|]. rewrite Y. reflexivity.
  - assert (N : d = (10 ^ 9)%Z). { assert (Z1 : IZR d < IZR (1000000000 + 1)) by (rewrite plus_IZR; nra). apply lt_IZR in Z1. change (10 ^ 9)%Z with 1000000000%Z in *. lia. }
    assert (Y : x = (j + 8)%Z). { apply (exponent_unique a); auto. split; [rewrite T8; nra|]. replace (j + 8 + 1)%Z with (j + 9)%Z by lia. auto. }
    assert (S : scaled num den = (10 ^ 10)%Z).
    { rewrite E. apply nearest_unique; auto. rewrite V, Y. replace (9 - (j + 8))%Z with (1 + - j)%Z by lia. rewrite bpow_plus, bpow_opp. fold t. change (bpow ten 1) with 10.
      rewrite N in C. change (IZR (10 ^ 9)) with 1000000000 in C. replace (IZR (10 ^ 10)) with (1000000000 * t * (10 * / t)) by (change (IZR (10 ^ 10)) with 10000000000; field; lra).
      rewrite <- Rmult_minus_distr_r, Rabs_mult. rewrite (Rabs_pos_eq (10 * / t)) by (apply Rlt_le, Rmult_lt_0_compat; [lra|apply Rinv_0_lt_compat; auto]).
      apply Rmult_lt_reg_r with t; auto. rewrite Rmult_assoc, (Rmult_assoc 10), Rinv_l by lra. assert (Rabs (a - 1000000000 * t) < t / 20) by (apply Rabs_lt; lra). lra. }
    rewrite S. rewrite Z.eqb_refl. rewrite N, Y. f_equal. lia.
Qed.

(** ** Numerals *)
Open Scope Z_scope.
Definition step10 (a : Z) (c : ascii) : Z := 10 * a + (Z.of_nat (nat_of_ascii c) - 48).
Lemma number_acc : forall s a, fold_left step10 s a = a * 10 ^ Z.of_nat (List.length s) + number_of s.
Proof.
  assert (H : forall s a b, fold_left step10 s (a + b) = a * 10 ^ Z.of_nat (List.length s) + fold_left step10 s b).
  { induction s as [|c s IH]; intros a b; cbn [fold_left List.length]; [lia|]. replace (step10 (a + b) c) with (10 * a + step10 b c) by (unfold step10; lia). rewrite IH.
    rewrite Nat2Z.inj_succ, Z.pow_succ_r by lia. ring. }
  intros s a. rewrite <- (Z.add_0_r a) at 1. rewrite H. reflexivity.
Qed.
Lemma number_app : forall s t, number_of (s ++ t) = number_of s * 10 ^ Z.of_nat (List.length t) + number_of t.
Proof. intros s t. unfold number_of. rewrite fold_left_app. fold step10. rewrite number_acc. reflexivity. Qed.
Lemma digit_code : forall d, 0 <= d < 10 -> nat_of_ascii (digit_of d) = (48 + Z.to_nat d)%nat.
Proof. intros d H. unfold digit_of. apply nat_ascii_embedding. lia. Qed.
Lemma last_digits_length : forall k n, List.length (last_digits k n) = k.
Proof. induction k as [|k IH]; intros n; cbn [last_digits]; auto. rewrite app_length, IH. simpl. lia. Qed.
Lemma last_digits_digits : forall k n, 0 <= n -> digits (last_digits k n).
Proof.
  induction k as [|k IH]; intros n H; cbn [last_digits]; [constructor|]. apply Forall_app. split; [apply IH; apply Z.div_pos; lia|]. constructor; [|constructor].
  unfold in_range. pose proof (Z.mod_pos_bound n 10 ltac:(lia)). rewrite digit_code by lia. lia.
Qed.
Lemma last_digits_value : forall k n, 0 <= n -> number_of (last_digits k n) = n mod 10 ^ Z.of_nat k.
Proof.
  induction k as [|k IH]; intros n H; cbn [last_digits]. { rewrite Z.mod_1_r. reflexivity. }
  rewrite number_app, IH by (apply Z.div_pos; lia). cbn [List.length]. change (10 ^ Z.of_nat 1) with 10.
  pose proof (Z.mod_pos_bound n 10 ltac:(lia)) as M. unfold number_of. cbn [fold_left]. rewrite digit_code by lia.
  rewrite Nat2Z.inj_succ, Z.pow_succ_r, Z.rem_mul_r by lia. lia.
Qed.
Lemma number_zeros : forall k, number_of (repeat "0"%char k) = 0.
Proof. induction k as [|k IH]; auto. Qed.
Lemma drop_zeros_app : forall s, exists k, s = repeat "0"%char k ++ drop_zeros s.
Proof.
  induction s as [|c s [k IH]]; [exists 0%nat; auto|]. cbn [drop_zeros]. destruct (ceqb c "0") eqn:E.
  - exists (S k). apply Ascii.eqb_eq in E. subst c. cbn [repeat app]. f_equal. exact IH.
  - exists 0%nat. reflexivity.
Qed.
Lemma rev_repeat : forall k (c : ascii), rev (repeat c k) = repeat c k.
Proof. induction k as [|k IH]; intros c; auto. cbn [repeat rev]. rewrite IH. symmetry. apply repeat_cons. Qed.
Lemma trimmed_app : forall s, exists k, s = trimmed s ++ repeat "0"%char k.
Proof.
  intros s. unfold trimmed. destruct (drop_zeros_app (rev s)) as [k E]. exists k. rewrite <- (rev_involutive s) at 1. rewrite E at 1. rewrite rev_app_distr, rev_repeat. reflexivity.
Qed.
Lemma zeros_digits : forall k, digits (repeat "0"%char k).
Proof. induction k; constructor; auto. unfold in_range. cbn. lia. Qed.
Lemma fraction_decimal : forall ip fp, ip <> [] -> digits ip -> digits fp -> decimal (ip ++ fraction fp) (IZR (number_of (ip ++ fp)) * bpow ten (- Z.of_nat (List.length fp)))%R.
Proof.
  intros ip fp N Di Df. destruct (trimmed_app fp) as [k E].
  assert (Dt : digits (trimmed fp)). { rewrite E in Df. apply Forall_app in Df. tauto. }
  assert (V : (IZR (number_of (ip ++ fp)) * bpow ten (- Z.of_nat (List.length fp)) = IZR (number_of (ip ++ trimmed fp)) / IZR (10 ^ Z.of_nat (List.length (trimmed fp))))%R).
  { rewrite E at 1 2. rewrite app_assoc, number_app, number_zeros, app_length, repeat_length, Z.add_0_r, mult_IZR, <- !ten_Z by lia.
    rewrite Nat2Z.inj_add. replace (- (Z.of_nat (List.length (trimmed fp)) + Z.of_nat k)) with (- Z.of_nat (List.length (trimmed fp)) + - Z.of_nat k) by lia.
    rewrite bpow_plus, !bpow_opp. pose proof (ten_pos (Z.of_nat (List.length (trimmed fp)))). pose proof (ten_pos (Z.of_nat k)). field. lra. }
  rewrite V. unfold fraction. destruct (trimmed fp) as [|c f] eqn:T.
  - rewrite app_nil_r. cbn [List.length]. change (10 ^ Z.of_nat 0) with 1. replace (IZR (number_of ip) / 1)%R with (IZR (number_of ip)) by field. apply dec_whole; auto.
  - apply dec_frac; auto. discriminate.
Qed.
Lemma text_decimal : forall num den d x, ten_digits num den = (d, x) -> 10 ^ 9 <= d < 10 ^ 10 -> -4 <= x <= 9 ->
  decimal (positive_text num den) (IZR d * bpow ten (x - 9))%R.
Proof.
  intros num den d x E D X. unfold positive_text. rewrite E. cbv zeta. destruct (Z.leb_spec (-4) x); [|lia]. destruct (Z.leb_spec x 9); [|lia]. cbn [andb].
  pose proof (last_digits_length 10 d) as Ln. pose proof (last_digits_digits 10 d ltac:(lia)) as Dg. pose proof (last_digits_value 10 d ltac:(lia)) as Vl.
  rewrite Z.mod_small in Vl by (change (Z.of_nat 10) with 10; lia). destruct (Z.leb_spec 0 x) as [P|P].
  - set (ip := firstn (Z.to_nat (x + 1)) (last_digits 10 d)). set (fp := skipn (Z.to_nat (x + 1)) (last_digits 10 d)).
    assert (A : ip ++ fp = last_digits 10 d) by apply firstn_skipn. assert (Lf : Z.of_nat (List.length fp) = 9 - x) by (unfold fp; rewrite skipn_length, Ln; lia).
    replace (x - 9) with (- Z.of_nat (List.length fp)) by lia. rewrite <- Vl, <- A. rewrite <- A in Dg. apply Forall_app in Dg. apply fraction_decimal; try apply Dg.
    intro N. apply (f_equal (@List.length _)) in N. unfold ip in N. rewrite firstn_length, Ln in N. simpl in N. lia.
  - set (fp := repeat "0"%char (Z.to_nat (- x - 1)) ++ last_digits 10 d).
    assert (Lf : Z.of_nat (List.length fp) = 9 - x) by (unfold fp; rewrite app_length, repeat_length, Ln; lia).
    replace (x - 9) with (- Z.of_nat (List.length fp)) by lia. replace d with (number_of (["0"%char] ++ fp)) at 1.
    + apply (fraction_decimal ["0"%char] fp); [discriminate|apply (zeros_digits 1)|]. apply Forall_app. split; auto. apply zeros_digits.
    + rewrite number_app. unfold fp. rewrite number_app, number_zeros, Vl. change (number_of ["0"%char]) with 0. lia.
Qed.

(** ** strtod *)
Lemma digit_val_in : forall c, in_range c 48 57 -> digit_val c = Some (N.of_nat (nat_of_ascii c - 48)).
Proof. intros c H. unfold digit_val, in_range in *. destruct (Nat.leb_spec 48 (nat_of_ascii c)); [|lia]. destruct (Nat.leb_spec (nat_of_ascii c) 57); [|lia]. reflexivity. Qed.
Lemma number_nonneg : forall s a, digits s -> 0 <= a -> 0 <= fold_left step10 s a.
Proof. induction s as [|c s IH]; intros a D H; cbn [fold_left]; auto. inversion D as [|? ? B D']; subst. apply IH; auto. unfold step10, in_range in *. lia. Qed.
Lemma scan_spec : forall s rest, digits s -> (rest = [] \/ exists c r, rest = c :: r /\ digit_val c = None) -> forall acc cnt,
  scan_digits (s ++ rest) acc cnt = (Z.to_N (fold_left step10 s (Z.of_N acc)), (cnt + List.length s)%nat, rest).
Proof.
  induction s as [|c s IH]; intros rest D R acc cnt; cbn [app fold_left List.length].
  - rewrite N2Z.id, Nat.add_0_r. destruct R as [->|(c & r & -> & E)]; cbn [scan_digits]; auto. rewrite E. reflexivity.
  - inversion D as [|? ? B D']; subst. cbn [scan_digits]. rewrite (digit_val_in c B). rewrite IH by auto. f_equal. f_equal; [|lia]. f_equal. f_equal.
    unfold step10. unfold in_range in B. rewrite N2Z.inj_add, N2Z.inj_mul. change (Z.of_N 10) with 10. rewrite nat_N_Z. lia.
Qed.
Lemma pow10_Z : forall k, Zpos (pow10 k) = 10 ^ Z.of_nat k.
Proof. induction k as [|k IH]; auto. cbn [pow10]. rewrite Nat2Z.inj_succ, Z.pow_succ_r by lia. rewrite <- IH. reflexivity. Qed.
Open Scope R_scope.
Lemma ratio_number : forall n d, (0 <= n)%Z -> IZR n / IZR (Zpos d) <= bpow radix2 1000 -> number (ratio (Z.to_N n) d) (rnd (IZR n / IZR (Zpos d))).
Proof.
  intros n d Hn B. destruct n as [|p|p]; [| |lia]; cbn [Z.to_N ratio].
  - replace (0 / IZR (Zpos d)) with 0 by (unfold Rdiv; ring). unfold rnd. rewrite Generic_fmt.round_0 by auto with typeclass_instances. split; [reflexivity|]. split; [exact Logic.I|reflexivity].
  - pose proof (Bdiv_correct_aux 53 1024 Hprec Hmax mode_NE false p 0 false d 0) as H. cbv zeta in H. cbn [cond_Zopp xorb] in H. unfold F2R in H. cbn [Fnum Fexp] in H.
    change (bpow radix2 0) with 1 in H. rewrite !Rmult_1_r in H.
    assert (E : SFdiv prec emax (S754_finite false p 0) (S754_finite false d 0) = (let '(mz, ez, lz) := SFdiv_core_binary 53 1024 (Z.pos p) 0 (Z.pos d) 0 in BinarySingleNaN.binary_round_aux 53 1024 mode_NE false mz ez lz)).
    { unfold SFdiv, prec, emax. cbn [xorb]. destruct (SFdiv_core_binary 53 1024 (Z.pos p) 0 (Z.pos d) 0) as [[mz ez] lz]. apply round_aux_equiv. }
    rewrite E. set (z := let '(mz, ez, lz) := SFdiv_core_binary 53 1024 (Z.pos p) 0 (Z.pos d) 0 in BinarySingleNaN.binary_round_aux 53 1024 mode_NE false mz ez lz) in *.
    assert (Pd : 0 < IZR (Z.pos d)) by (apply IZR_lt; lia). assert (Pp : 0 < IZR (Z.pos p)) by (apply IZR_lt; lia).
    assert (Q : 0 < IZR (Z.pos p) / IZR (Z.pos d)) by (apply Rdiv_lt_0_compat; auto).
    assert (Ft : Rabs (Generic_fmt.round radix2 (SpecFloat.fexp 53 1024) (round_mode mode_NE) (IZR (Z.pos p) / IZR (Z.pos d))) < bpow radix2 1024).
    { apply (fits_below (IZR (Z.pos p) / IZR (Z.pos d))). rewrite Rabs_pos_eq; lra. }
    destruct H as [V H]. rewrite Rlt_bool_true in H by exact Ft. destruct H as (H1 & H2 & _). split; [exact V|]. split.
    + destruct z; try discriminate H2; exact Logic.I.
    + rewrite rnd_eq. unfold prec, emax. rewrite <- H1. destruct z as [|[]| |[]]; reflexivity.
Qed.
Lemma digits_nonneg : forall s, digits s -> (0 <= number_of s)%Z.
Proof. intros s D. unfold number_of. fold step10. apply number_nonneg; auto. lia. Qed.
Lemma strtod_decimal : forall s r, decimal s r -> r <= bpow radix2 1000 -> exists x, strtod s = Some x /\ number x (rnd r).
Proof.
  intros s r H B. destruct H as [ip N D|ip fp N Nf D Df].
  - exists (ratio (Z.to_N (number_of ip)) 1). split.
    + unfold strtod. destruct (Nat.eqb_spec (List.length ip) 0) as [Z|Z]. { destruct ip; [congruence|discriminate Z]. }
      rewrite <- (app_nil_r ip) at 1. rewrite (scan_spec ip [] D (or_introl eq_refl)). cbn [Z.of_N]. fold (number_of ip). change (fold_left step10 ip 0%Z) with (number_of ip).
      destruct (Nat.eqb_spec (0 + List.length ip) 0); [lia|]. reflexivity.
    + replace (IZR (number_of ip)) with (IZR (number_of ip) / 1) in * by field. apply ratio_number; auto. apply digits_nonneg; auto.
  - exists (ratio (Z.to_N (number_of (ip ++ fp))) (pow10 (List.length fp))). split.
    + unfold strtod. rewrite app_length. cbn [List.length]. destruct (Nat.eqb_spec (List.length ip + S (List.length fp)) 0) as [Z|Z]; [lia|].
      rewrite (scan_spec ip ("."%char :: fp) D) by (right; exists "."%char, fp; split; reflexivity). change (ceqb "." ".") with true. cbv iota.
      rewrite <- (app_nil_r fp) at 1. rewrite (scan_spec fp [] Df (or_introl eq_refl)). rewrite Z2N.id by (apply number_nonneg; [auto|lia]).
      change (Z.of_N 0) with 0%Z. rewrite <- fold_left_app. change (fold_left step10 (ip ++ fp) 0%Z) with (number_of (ip ++ fp)).
      destruct (Nat.eqb_spec (0 + List.length ip + (0 + List.length fp)) 0) as [Z'|Z']; [|reflexivity]. destruct ip; [congruence|simpl in Z'; lia].
    + rewrite <- pow10_Z in *. apply ratio_number; auto. apply digits_nonneg. apply Forall_app. auto.
Qed.
Lemma number_unique : forall x y a, number x a -> number y a -> a <> 0 -> x = y.
Proof.
  intros x y a (Vx & Fx & Ex) (Vy & Fy & Ey) N. destruct (to_B x Vx) as [b <-]. destruct (to_B y Vy) as [c <-]. f_equal.
  rewrite B_val in *. apply B2R_inj; [apply is_finite_strict_B2R; congruence..|congruence].
Qed.
Lemma printf_positive : forall v a, number v a -> 0 < a ->
  exists num den, (0 < num)%Z /\ (0 < den)%Z /\ IZR num / IZR den = a /\ printf_g v = positive_text num den.
Proof.
  intros v a (V & F & E) P. destruct v as [|s| |s m e]; try contradiction; cbn [val] in E; [lra|]. destruct s.
  - exfalso. assert (0 < bpow radix2 e) by apply bpow_gt_0. assert (IZR (Z.neg m) < 0) by (apply (IZR_lt _ 0); lia). nra.
  - cbn [printf_g sign_text app]. destruct (Z.leb_spec 0 e) as [L|L].
    + exists (Z.pos m * 2 ^ e)%Z, 1%Z. assert (0 < 2 ^ e)%Z by (apply Z.pow_pos_nonneg; lia). split; [lia|]. split; [lia|]. split; auto.
      rewrite mult_IZR, <- E. rewrite (IZR_Zpower radix2) by auto. field.
    + exists (Z.pos m), (2 ^ - e)%Z. assert (0 < 2 ^ - e)%Z by (apply Z.pow_pos_nonneg; lia). split; [lia|]. split; [lia|]. split; auto.
      rewrite (IZR_Zpower radix2) by lia. rewrite <- E. rewrite bpow_opp. field. apply Rgt_not_eq. apply bpow_gt_0.
Qed.
Lemma positive_text_eq : forall n1 d1 n2 d2, ten_digits n1 d1 = ten_digits n2 d2 -> positive_text n1 d1 = positive_text n2 d2.
Proof. intros n1 d1 n2 d2 E. unfold positive_text. rewrite E. reflexivity. Qed.
Lemma rnd_relative : forall r, bpow radix2 (-100) <= r -> Rabs (rnd r - r) <= r / 9000000000000000.
Proof.
  intros r H. pose proof (bpow_gt_0 radix2 (-100)) as P. pose proof (Relative.relative_error_N_FLT radix2 (-1074) 53 eq_refl (fun x => negb (Z.even x)) r) as R.
  rewrite (Rabs_pos_eq r) in R by lra. unfold rnd. eapply Rle_trans; [apply R|].
  - eapply Rle_trans; [|exact H]. apply bpow_le. lia.
  - change (bpow radix2 (- (53) + 1)) with (/ 4503599627370496). lra.
Qed.
Lemma ten_low : bpow ten (-4) = / 10000. Proof. reflexivity. Qed.
Lemma low_binary : bpow radix2 (-100) <= bpow ten (-4) / 2.
Proof. rewrite ten_low. replace (/ 10000 / 2) with (/ 20000) by field. change (bpow radix2 (-100)) with (/ IZR (2 ^ 100)). apply Rinv_le; [lra|]. apply IZR_le. vm_compute. discriminate. Qed.

(** The printed number *)
Lemma printed_form : forall v a, number v a -> bpow ten (-4) <= a <= 9999999999 ->
  exists num den d x, (0 < num)%Z /\ (0 < den)%Z /\ IZR num / IZR den = a /\ printf_g v = positive_text num den /\ ten_digits num den = (d, x)
    /\ (10 ^ 9 <= d < 10 ^ 10)%Z /\ (-4 <= x <= 9)%Z
    /\ (exists k, bpow ten k <= a < bpow ten (k + 1) /\ Rabs (a - IZR d * bpow ten (x - 9)) <= bpow ten (k - 9) / 2).
Proof.
  intros v a N [L H]. pose proof (ten_pos (-4)) as T4. destruct (printf_positive v a N ltac:(lra)) as (num & den & Hn & Hd & E & P).
  pose proof (ten_digits_spec num den Hn Hd) as S. pose proof (exponent10_spec num den Hn Hd) as X. rewrite E in *.
  destruct (ten_digits num den) as [d x] eqn:D. destruct S as (S1 & S2 & S3). set (k := exponent10 num den) in *.
  assert (K1 : (-4 < k + 1)%Z) by (apply (lt_bpow ten); lra). assert (K2 : (k < 10)%Z). { apply (lt_bpow ten). change (bpow ten 10) with 10000000000. lra. }
  exists num, den, d, x. repeat (split; [solve [auto]|]). split.
  - destruct S3 as [->|[-> ->]]; [lia|]. split; [lia|]. destruct (Z.eq_dec k 9) as [K|K]; [|lia]. exfalso. rewrite K in S2.
    change (bpow ten (9 + 1 - 9)) with 10 in S2. change (bpow ten (9 - 9)) with 1 in S2. apply Rabs_le_inv in S2. change (10 ^ 9)%Z with 1000000000%Z in S2. lra.
  - exists k. split; auto.
Qed.
Lemma printed_range : forall d x, (10 ^ 9 <= d < 10 ^ 10)%Z -> (-4 <= x <= 9)%Z -> bpow ten (-4) <= IZR d * bpow ten (x - 9) < 10000000000.
Proof.
  intros d x D X. pose proof (ten_pos (x - 9)) as P. assert (D' : IZR (10 ^ 9) <= IZR d < IZR (10 ^ 10)) by (split; [apply IZR_le|apply IZR_lt]; lia).
  change (IZR (10 ^ 9)) with 1000000000 in D'. change (IZR (10 ^ 10)) with 10000000000 in D'.
  assert (A : bpow ten (-13) <= bpow ten (x - 9)) by (apply bpow_le; lia). assert (B : bpow ten (x - 9) <= bpow ten 0) by (apply bpow_le; lia).
  change (bpow ten 0) with 1 in B. assert (C : bpow ten (-4) = 1000000000 * bpow ten (-13)). { replace (-4)%Z with (9 + -13)%Z by lia. rewrite bpow_plus. reflexivity. }
  nra.
Qed.
Lemma small_decimal : 10000000000 <= bpow radix2 1000.
Proof. apply Rle_trans with (bpow radix2 100); [|apply bpow_le; lia]. change (bpow radix2 100) with (IZR (2 ^ 100)). apply IZR_le. vm_compute. discriminate. Qed.
Lemma decimal_digits : forall s r, decimal s r -> s <> [] /\ Forall digit_char s.
Proof.
  assert (D : forall s, digits s -> Forall digit_char s). { intros s. apply Forall_impl. intros c H. left. exact H. }
  intros s r [ip N Di|ip fp N Nf Di Df]; split; auto. { destruct ip; discriminate. } apply Forall_app. split; auto. constructor; [right; reflexivity|auto].
Qed.
(** Numbers near one with ten digits print as that one. *)
Lemma prints_as : forall v a d x, number v a -> 0 < a -> (10 ^ 9 <= d < 10 ^ 10)%Z -> Rabs (a - IZR d * bpow ten (x - 9)) < bpow ten (x - 9) / 20 ->
  exists num den, printf_g v = positive_text num den /\ ten_digits num den = (d, x).
Proof.
  intros v a d x N P D C. destruct (printf_positive v a N P) as (num & den & Hn & Hd & E & T). exists num, den. split; auto. rewrite <- E in C.
  rewrite (ten_digits_unique num den d (x - 9) Hn Hd D C). f_equal. lia.
Qed.
Lemma rounded_near : forall d x, (10 ^ 9 <= d < 10 ^ 10)%Z -> bpow radix2 (-100) <= IZR d * bpow ten (x - 9) ->
  0 < rnd (IZR d * bpow ten (x - 9)) /\ Rabs (rnd (IZR d * bpow ten (x - 9)) - IZR d * bpow ten (x - 9)) < bpow ten (x - 9) / 20.
Proof.
  intros d x D H. pose proof (rnd_relative _ H) as R. pose proof (ten_pos (x - 9)) as P. assert (D' : IZR d < IZR (10 ^ 10)) by (apply IZR_lt; lia).
  change (IZR (10 ^ 10)) with 10000000000 in D'. pose proof (bpow_gt_0 radix2 (-100)). split.
  - apply Rabs_le_inv in R. lra.
  - eapply Rle_lt_trans; [exact R|]. nra.
Qed.
(** Every number with at most ten digits, as one with exactly ten *)
Lemma ten_normal : forall r, ten_digit_number r -> exists d x, (10 ^ 9 <= d < 10 ^ 10)%Z /\ r = IZR d * bpow ten (x - 9).
Proof.
  intros r (d & j & H & ->). destruct (log10_spec d ltac:(lia)) as (A & B). set (k := log10 d) in *.
  assert (K : (k <= 9)%Z). { destruct (Z.le_gt_cases k 9); auto. assert (10 ^ 10 <= 10 ^ k)%Z by (apply Z.pow_le_mono_r; lia). lia. }
  exists (d * 10 ^ (9 - k))%Z, (j + k)%Z. assert (E1 : (10 ^ k * 10 ^ (9 - k) = 10 ^ 9)%Z) by (rewrite <- Z.pow_add_r by lia; f_equal; lia).
  assert (E2 : (10 ^ (k + 1) * 10 ^ (9 - k) = 10 ^ 10)%Z) by (rewrite <- Z.pow_add_r by lia; f_equal; lia).
  assert (Q : (0 < 10 ^ (9 - k))%Z) by (apply Z.pow_pos_nonneg; lia). split; [nia|].
  rewrite mult_IZR, (IZR_Zpower ten) by lia. rewrite Rmult_assoc, <- bpow_plus. f_equal. f_equal. lia.
Qed.
