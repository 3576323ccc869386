(** Numbers of the table command: repeated addition of the step ends. *)
From Coq Require Import Reals Lra.
From Flocq Require Import Core BinarySingleNaN Relative Plus_error.
From Coq Require Import List ZArith Bool Lia Arith.
From Coq.Floats Require Import SpecFloat.
From Verif Require Import M_Base M_Tree M_Strtod M_Double M_Eval M_Simplify M_Session S_Eval L_Float L_Eval S_TableCmd.
Import ListNotations.
Open Scope R_scope.
Local Instance Hprec' : FLX.Prec_gt_0 53 := eq_refl.

Lemma number_format : forall x a, number x a -> generic_format radix2 (FLT_exp (-1074) 53) a.
Proof.
  intros x a (V & F & <-). destruct (to_B x V) as [b <-]. rewrite B_val. exact (generic_format_B2R 53 1024 b).
Qed.
Lemma fits_below : forall r, Rabs r <= bpow radix2 1000 -> fits_double r.
Proof.
  intros r H. unfold fits_double, rnd. apply Rle_lt_trans with (bpow radix2 1000); [|apply bpow_lt; lia].
  apply abs_round_le_generic; auto with typeclass_instances. apply generic_format_bpow. vm_compute. discriminate.
Qed.
Lemma rnd_near : forall a c, generic_format radix2 (FLT_exp (-1074) 53) a -> generic_format radix2 (FLT_exp (-1074) 53) c -> Rabs a <= bpow radix2 52 * Rabs c ->
  Rabs (rnd (a + c) - (a + c)) <= 2 / 3 * Rabs c.
Proof.
  intros a c Fa Fc H. assert (Pc : 0 <= Rabs c) by apply Rabs_pos.
  destruct (Rle_or_lt (Rabs (a + c)) (bpow radix2 (53 + -1074))) as [S|B].
  - assert (G : generic_format radix2 (FLT_exp (-1074) 53) (a + c)) by (apply FLT_format_plus_small; auto with typeclass_instances).
    unfold rnd. rewrite round_generic by auto with typeclass_instances. rewrite Rminus_diag_eq by reflexivity. rewrite Rabs_R0. lra.
  - assert (E : Rabs (rnd (a + c) - (a + c)) <= / 2 * bpow radix2 (-53 + 1) * Rabs (a + c)).
    { unfold rnd. apply relative_error_N_FLT; [reflexivity|]. apply Rlt_le. apply Rle_lt_trans with (2 := B). apply bpow_le. lia. }
    apply Rle_trans with (1 := E). apply Rle_trans with (/ 2 * bpow radix2 (-53 + 1) * ((bpow radix2 52 + 1) * Rabs c)).
    + apply Rmult_le_compat_l. { assert (0 < bpow radix2 (-53 + 1)) by apply bpow_gt_0. lra. }
      apply Rle_trans with (1 := Rabs_triang a c). lra.
    + replace (/ 2 * bpow radix2 (-53 + 1) * ((bpow radix2 52 + 1) * Rabs c)) with ((/ 2 * (bpow radix2 (-53 + 1) * bpow radix2 52) + / 2 * bpow radix2 (-53 + 1)) * Rabs c) by ring.
      rewrite <- bpow_plus. replace (bpow radix2 (-53 + 1 + 52)) with 1 by reflexivity. apply Rmult_le_compat_r; auto.
      assert (bpow radix2 (-53 + 1) <= / 8). { apply Rle_trans with (bpow radix2 (-3)); [apply bpow_le; lia|]. replace (bpow radix2 (-3)) with (/ 8); [lra|]. simpl. lra. }
      lra.
Qed.
Lemma add_near : forall x y a c, number x a -> number y c -> Rabs a <= bpow radix2 52 * Rabs c -> Rabs c <= bpow radix2 900 ->
  exists r, number (dadd x y) r /\ Rabs (r - (a + c)) <= 2 / 3 * Rabs c.
Proof.
  intros x y a c Nx Ny H Hc. pose proof (number_format _ _ Nx) as Fa. pose proof (number_format _ _ Ny) as Fc. destruct Nx as (Vx & Fx & Ex). destruct Ny as (Vy & Fy & Ey).
  destruct (dadd_val x y Vx Vy Fx Fy) as (A & B & C).
  { rewrite Ex, Ey. apply fits_below. apply Rle_trans with (1 := Rabs_triang a c). apply Rle_trans with (bpow radix2 52 * bpow radix2 900 + bpow radix2 900).
    - apply Rplus_le_compat; auto. apply Rle_trans with (1 := H). apply Rmult_le_compat_l; auto. apply bpow_ge_0.
    - rewrite <- bpow_plus. apply Rle_trans with (bpow radix2 999 + bpow radix2 999).
      + apply Rplus_le_compat; apply bpow_le; lia.
      + replace 1000%Z with (1 + 999)%Z by lia. rewrite bpow_plus. replace (bpow radix2 1) with 2 by reflexivity. lra. }
  exists (rnd (a + c)). split; [split; [auto|split; [auto|rewrite C, Ex, Ey; reflexivity]]|]. apply rnd_near; auto.
Qed.
Lemma neg_number : forall y c, number y c -> Rabs c <= bpow radix2 900 -> number (dmul y (dneg d1)) (- c).
Proof.
  intros y c N Hc. pose proof (number_format _ _ N) as Fc. destruct N as (Vy & Fy & Ey). destruct (dneg_Z _ _ d1_Z) as (V1 & F1 & E1).
  assert (P : (val y * val (dneg d1) = - c)%R) by (rewrite Ey, E1; simpl; ring). destruct (dmul_val y (dneg d1) Vy V1 Fy F1) as (A & B & C).
  { rewrite P. apply fits_below. rewrite Rabs_Ropp. apply Rle_trans with (1 := Hc). apply bpow_le. lia. }
  split; auto. split; auto. rewrite C, P. unfold rnd. apply round_generic; [auto with typeclass_instances|]. apply generic_format_opp. exact Fc.
Qed.
Lemma Rlt_bool_b : forall x y, Rlt_bool x y = true <-> x < y.
Proof. intros x y. destruct (Rlt_bool_spec x y); split; intros; auto; [discriminate|lra]. Qed.
Lemma Rle_bool_b : forall x y, Rle_bool x y = true <-> x <= y.
Proof. intros x y. destruct (Rle_bool_spec x y); split; intros; auto; [discriminate|lra]. Qed.
Lemma number_lt : forall x y a b, number x a -> number y b -> dltb x y = Rlt_bool a b.
Proof. intros x y a b (V & F & <-) (V' & F' & <-). apply dltb_val; auto. Qed.
Lemma number_le : forall x y a b, number x a -> number y b -> dleb x y = Rle_bool a b.
Proof. intros x y a b (V & F & <-) (V' & F' & <-). apply dleb_val; auto. Qed.
Lemma zero_number : number d0 0. Proof. exact d0_Z. Qed.
(** The step after turning *)
Lemma turned_number : forall start stop step a b c, number start a -> number stop b -> number step c -> c <> 0 -> Rabs c <= bpow radix2 900 ->
  exists c', number (turned start stop step) c' /\ Rabs c' = Rabs c /\ (a < b -> 0 < c') /\ (b < a -> c' < 0) /\ (c' = c \/ c' = - c).
Proof.
  intros start stop step a b c Na Nb Nc Z Hc. unfold turned. rewrite (number_lt _ _ _ _ Na Nb), (number_lt _ _ _ _ Nb Na), (number_lt _ _ _ _ Nc zero_number), (number_lt _ _ _ _ zero_number Nc).
  destruct (Rlt_bool_spec a b), (Rlt_bool_spec b a), (Rlt_bool_spec c 0), (Rlt_bool_spec 0 c); cbn [andb orb]; try lra;
    try (exists c; split; [exact Nc|]; split; [reflexivity|]; split; [intros; lra|]; split; [intros; lra|auto]);
    exists (- c); (split; [apply neg_number; auto|]); (split; [apply Rabs_Ropp|]); (split; [intros; lra|]); split; [intros; lra|auto| intros; lra|auto].
Qed.
Lemma within_number : forall stop step x b c r, number stop b -> number step c -> number x r -> c <> 0 ->
  within stop step x = true <-> (0 < c /\ r <= b) \/ (c < 0 /\ b <= r).
Proof.
  intros stop step x b c r Nb Nc Nx Z. unfold within. change (dgtb step d0) with (dltb d0 step). change (dgeb x stop) with (dleb stop x).
  rewrite (number_lt _ _ _ _ zero_number Nc), (number_le _ _ _ _ Nx Nb), (number_le _ _ _ _ Nb Nx). destruct (Rlt_bool_spec 0 c).
  - rewrite Rle_bool_b. split; intros; [left; auto|]. destruct H0 as [[_ ?]|[? _]]; [auto|lra].
  - rewrite Rle_bool_b. split; intros; [right; split; [lra|auto]|]. destruct H0 as [[? _]|[_ ?]]; [lra|auto].
Qed.
Lemma least_false : forall (p : nat -> bool) m, (exists n, p n = false /\ forall k, (k < n)%nat -> p k = true) \/ forall k, (k <= m)%nat -> p k = true.
Proof.
  intros p. induction m as [|m [IH|IH]].
  - destruct (p 0%nat) eqn:E; [right; intros k K; replace k with 0%nat by lia; auto|left; exists 0%nat; split; auto; intros; lia].
  - left. exact IH.
  - destruct (p (S m)) eqn:E.
    + right. intros k K. destruct (Nat.eq_dec k (S m)) as [->|]; auto. apply IH. lia.
    + left. exists (S m). split; auto. intros k K. apply IH. lia.
Qed.
(** Repeated addition passes the end. *)
Lemma steps_end : forall start stop step a b c (xs : nat -> double), number start a -> number stop b -> number step c -> c <> 0 ->
  (a <= b /\ 0 < c \/ b <= a /\ c < 0) -> Rabs a <= bpow radix2 52 * Rabs c -> Rabs b <= bpow radix2 52 * Rabs c -> Rabs c <= bpow radix2 900 ->
  xs 0%nat = start -> (forall k, xs (S k) = dadd (xs k) step) ->
  exists n, (forall k, (k < n)%nat -> within stop step (xs k) = true) /\ within stop step (xs n) = false /\ (0 < n)%nat /\ INR n <= 3 * (Rabs (b - a) / Rabs c) + 1.
Proof.
  intros start stop step a b c xs Na Nb Nc Z D Ha Hb Hc X0 Xs.
  assert (Pc : 0 < Rabs c) by (apply Rabs_pos_lt; auto).
  assert (K : forall k, (forall j, (j < k)%nat -> within stop step (xs j) = true) ->
    exists r, number (xs k) r /\ (0 < c -> a + INR k * (Rabs c / 3) <= r) /\ (c < 0 -> r <= a - INR k * (Rabs c / 3))).
  { induction k as [|k IH]; intros W.
    - exists a. rewrite X0. split; auto. simpl. split; intros; lra.
    - destruct IH as (r & Nr & P1 & P2). { intros j J. apply W. lia. }
      assert (Wk : within stop step (xs k) = true) by (apply W; lia). apply (within_number _ _ _ _ _ _ Nb Nc Nr Z) in Wk.
      assert (Pk : 0 <= INR k * (Rabs c / 3)). { apply Rmult_le_pos; [apply pos_INR|lra]. }
      assert (Hr : Rabs r <= bpow radix2 52 * Rabs c). { apply Rabs_le. apply Rabs_le_inv in Ha, Hb. destruct Wk as [[C W1]|[C W1]]; [specialize (P1 C)|specialize (P2 C)]; lra. }
      destruct (add_near _ _ _ _ Nr Nc Hr Hc) as (r' & Nr' & Er). exists r'. rewrite Xs. split; auto. apply Rabs_le_inv in Er. rewrite S_INR. split; intros C.
      + specialize (P1 C). rewrite (Rabs_pos_eq c) in * by lra. lra.
      + specialize (P2 C). rewrite (Rabs_left c) in * by lra. lra. }
  assert (Bound : forall k, (forall j, (j <= k)%nat -> within stop step (xs j) = true) -> INR k <= 3 * (Rabs (b - a) / Rabs c)).
  { intros k W. destruct (K k) as (r & Nr & P1 & P2). { intros j J. apply W. lia. }
    assert (Wk : within stop step (xs k) = true) by (apply W; lia). apply (within_number _ _ _ _ _ _ Nb Nc Nr Z) in Wk.
    assert (M : INR k * (Rabs c / 3) <= Rabs (b - a)).
    { destruct Wk as [[C W1]|[C W1]]; [specialize (P1 C); apply Rle_trans with (b - a); [lra|apply Rle_abs]|specialize (P2 C); rewrite Rabs_minus_sym; apply Rle_trans with (a - b); [lra|apply Rle_abs]]. }
    apply Rmult_le_reg_r with (Rabs c / 3); [lra|]. replace (3 * (Rabs (b - a) / Rabs c) * (Rabs c / 3)) with (Rabs (b - a)) by (field; lra). exact M. }
  assert (Q0 : 0 <= Rabs (b - a) / Rabs c). { apply Rmult_le_pos; [apply Rabs_pos|]. apply Rlt_le, Rinv_0_lt_compat. lra. }
  destruct (archimed_cor1 (/ (3 * (Rabs (b - a) / Rabs c) + 1))) as (N & A & B). { apply Rinv_0_lt_compat. lra. }
  assert (PN : 0 < INR N) by (apply lt_0_INR; auto). apply Rinv_lt_contravar in A; [|apply Rmult_lt_0_compat; apply Rinv_0_lt_compat; lra]. rewrite !Rinv_involutive in A by lra.
  destruct (least_false (fun k => within stop step (xs k)) N) as [(n & F & Wn)|W].
  2:{ specialize (Bound N W). lra. }
  exists n. split; auto. split; auto. destruct n as [|n].
  - exfalso. rewrite X0 in F. assert (T : within stop step start = true) by (apply (within_number _ _ _ _ _ _ Nb Nc Na Z); lra). congruence.
  - split; [lia|]. rewrite S_INR. apply Rplus_le_compat_r. apply Bound. intros j J. apply Wn. lia.
Qed.

(** Integers *)
Open Scope Z_scope.
Lemma steps_Z : forall start stop step a b c (xs : nat -> double), isZ start a -> isZ stop b -> isZ step c -> c <> 0 ->
  (a <= b /\ 0 < c \/ b <= a /\ c < 0) -> small a -> Z.abs b + Z.abs c <= 2 ^ 53 ->
  xs 0%nat = start -> (forall k, xs (S k) = dadd (xs k) step) ->
  exists n, (forall k, (k < n)%nat -> within stop step (xs k) = true) /\ within stop step (xs n) = false /\ Z.of_nat n = Z.abs (b - a) / Z.abs c + 1 /\
    forall k, (k <= n)%nat -> isZ (xs k) (a + Z.of_nat k * c).
Proof.
  intros start stop step a b c xs Na Nb Nc Z D Ha Hb X0 Xs. set (q := Z.abs (b - a) / Z.abs c).
  assert (Q0 : 0 <= q) by (apply Z.div_pos; lia). assert (Q1 : q * Z.abs c <= Z.abs (b - a)) by (rewrite Z.mul_comm; apply Z.mul_div_le; lia).
  assert (Q2 : Z.abs (b - a) < (q + 1) * Z.abs c). { rewrite Z.mul_comm. replace (q + 1) with (Z.succ q) by lia. apply Z.mul_succ_div_gt. lia. }
  assert (K : forall k, Z.of_nat k <= q + 1 -> isZ (xs k) (a + Z.of_nat k * c)).
  { induction k as [|k IH]; intros Hk. { rewrite X0. replace (a + Z.of_nat 0 * c) with a by lia. auto. }
    rewrite Xs. replace (a + Z.of_nat (S k) * c) with ((a + Z.of_nat k * c) + c) by lia. apply dadd_Z; auto. { apply IH. lia. }
    unfold small in *. assert (J : Z.of_nat k * Z.abs c <= q * Z.abs c) by (apply Z.mul_le_mono_nonneg_r; lia). assert (J0 : 0 <= Z.of_nat k * Z.abs c) by lia.
    destruct D as [[D1 D2]|[D1 D2]]; rewrite ?(Z.abs_eq c), ?(Z.abs_neq c) in * by lia; lia. }
  assert (W : forall k, Z.of_nat k <= q + 1 -> within stop step (xs k) = true <-> Z.of_nat k <= q).
  { intros k Hk. pose proof (K k Hk) as Ik. assert (Zr : IZR c <> 0%R) by (intro; apply Z; apply eq_IZR; auto). rewrite (within_number _ _ _ _ _ _ Nb Nc Ik Zr).
    assert (J1 : Z.of_nat k <= q -> Z.of_nat k * Z.abs c <= Z.abs (b - a)). { intros. apply Z.le_trans with (2 := Q1). apply Z.mul_le_mono_nonneg_r; lia. }
    assert (J2 : q < Z.of_nat k -> Z.abs (b - a) < Z.of_nat k * Z.abs c). { intros. apply Z.lt_le_trans with (1 := Q2). apply Z.mul_le_mono_nonneg_r; lia. }
    split.
    - intros H. destruct (Z.le_gt_cases (Z.of_nat k) q) as [|G]; auto. exfalso. assert (G' : q < Z.of_nat k) by lia. apply J2 in G'.
      destruct H as [[A B]|[A B]]; apply lt_IZR in A; apply le_IZR in B; destruct D as [[D1 D2]|[D1 D2]]; rewrite ?(Z.abs_eq c), ?(Z.abs_neq c) in * by lia; lia.
    - intros L. apply J1 in L. destruct D as [[D1 D2]|[D1 D2]]; [left|right]; (split; [apply IZR_lt; auto|apply IZR_le]); rewrite ?(Z.abs_eq c), ?(Z.abs_neq c) in * by lia; lia. }
  exists (Z.to_nat (q + 1)). split. { intros k Hk. apply W; lia. } split.
  { destruct (within stop step (xs (Z.to_nat (q + 1)))) eqn:E; auto. apply W in E; lia. }
  split; [lia|]. intros k Hk. apply K. lia.
Qed.
