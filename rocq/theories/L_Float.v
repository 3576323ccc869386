(** Binary64 arithmetic of the model (SpecFloat) and the real numbers: the operations are those of
    Flocq's BinarySingleNaN, so that its correctness theorems apply. Exactness on integers up to 2^53. *)
From Coq Require Import List ZArith Bool Lia Reals Lra.
From Coq.Floats Require Import SpecFloat.
From Flocq Require Import Core BinarySingleNaN.
From Verif Require Import M_Base M_Tree M_Strtod M_Double S_Eval.
Import ListNotations.
Open Scope Z_scope.

Local Notation bf := (binary_float 53 1024).
Local Instance Hprec : FLX.Prec_gt_0 53 := eq_refl.
Local Instance Hmax : Prec_lt_emax 53 1024 := eq_refl.

Lemma to_B : forall d, valid d -> exists b : bf, B2SF b = d.
Proof. intros d H. exists (SF2B d H). apply B2SF_SF2B. Qed.
Lemma B_valid : forall b : bf, valid (B2SF b).
Proof. intros b. apply valid_binary_B2SF. Qed.
Lemma B_finite : forall b : bf, finite (B2SF b) <-> is_finite b = true.
Proof. intros b. destruct b; simpl; intuition discriminate. Qed.
Lemma B_val : forall b : bf, val (B2SF b) = B2R b.
Proof. intros b. destruct b as [|[]| |[]]; reflexivity. Qed.

(** SpecFloat's rounding is Flocq's with mode_NE (cf. Flocq.IEEE754.PrimFloat). *)
Lemma rne_equiv : forall s m l, round_nearest_even m l = choice_mode mode_NE s m l.
Proof. intros s m l. case l; [reflexivity|intro c]. case c; [|reflexivity..]. simpl. unfold Round.cond_incr. case Z.even; reflexivity. Qed.
Lemma round_aux_equiv : forall sx mx ex lx,
  SpecFloat.binary_round_aux 53 1024 sx mx ex lx = binary_round_aux 53 1024 mode_NE sx mx ex lx.
Proof.
  intros. unfold SpecFloat.binary_round_aux, binary_round_aux. set (m1 := shr_fexp _ _ _). case m1; intros mrs' e'. simpl.
  rewrite (rne_equiv sx). reflexivity.
Qed.
Lemma round_equiv : forall s m e, SpecFloat.binary_round 53 1024 s m e = binary_round 53 1024 mode_NE s m e.
Proof.
  intros. unfold SpecFloat.binary_round, binary_round, shl_align_fexp. set (mez := shl_align _ _ _). case mez as [mz ez].
  apply round_aux_equiv.
Qed.
Lemma normalize_equiv : forall m e sz,
  SpecFloat.binary_normalize 53 1024 m e sz = B2SF (binary_normalize 53 1024 Hprec Hmax mode_NE m e sz).
Proof. intros m e sz. case m as [|p|p]; simpl; auto; rewrite B2SF_SF2B; apply round_equiv. Qed.

Lemma dadd_B : forall x y : bf, dadd (B2SF x) (B2SF y) = B2SF (Bplus mode_NE x y).
Proof.
  intros x y. unfold dadd, prec, emax. case x as [sx|sx| |sx mx ex Bx]; case y as [sy|sy| |sy my ey By];
  [now (trivial || simpl; case Bool.eqb).. | ]. apply normalize_equiv.
Qed.
Lemma dsub_B : forall x y : bf, dsub (B2SF x) (B2SF y) = B2SF (Bminus mode_NE x y).
Proof.
  intros x y. unfold dsub, prec, emax. case x as [sx|sx| |sx mx ex Bx]; case y as [sy|sy| |sy my ey By];
  [now (trivial || simpl; case Bool.eqb).. | ]. simpl. unfold Zminus. rewrite <- cond_Zopp_negb. apply normalize_equiv.
Qed.
Lemma dmul_B : forall x y : bf, dmul (B2SF x) (B2SF y) = B2SF (Bmult mode_NE x y).
Proof.
  intros x y. unfold dmul, prec, emax. case x as [sx|sx| |sx mx ex Bx]; case y as [sy|sy| |sy my ey By];
  [now trivial.. | ]. simpl. rewrite B2SF_SF2B. apply round_aux_equiv.
Qed.
Lemma ddiv_B : forall x y : bf, ddiv (B2SF x) (B2SF y) = B2SF (Bdiv mode_NE x y).
Proof.
  intros x y. unfold ddiv, prec, emax. case x as [sx|sx| |sx mx ex Bx]; case y as [sy|sy| |sy my ey By];
  [now (trivial || simpl; case Bool.eqb).. | ]. simpl. rewrite B2SF_SF2B.
  set (melz := SFdiv_core_binary _ _ _ _ _ _). case melz as [[mz ez] lz]. apply round_aux_equiv.
Qed.
Lemma compare_B : forall x y : bf, SFcompare (B2SF x) (B2SF y) = Bcompare x y.
Proof. intros x y. case x as [sx|sx| |sx mx ex Bx]; case y as [sy|sy| |sy my ey By]; reflexivity. Qed.

(** ** The four operations on finite numbers *)
Definition fits_double (r : R) : Prop := (Rabs (rnd r) < bpow radix2 1024)%R.

Lemma dadd_val : forall x y, valid x -> valid y -> finite x -> finite y -> fits_double (val x + val y) ->
  valid (dadd x y) /\ finite (dadd x y) /\ val (dadd x y) = rnd (val x + val y).
Proof.
  intros x y Vx Vy Fx Fy Ft. destruct (to_B x Vx) as [b <-]. destruct (to_B y Vy) as [c <-]. rewrite dadd_B.
  apply B_finite in Fx, Fy. rewrite !B_val in *. pose proof (Bplus_correct 53 1024 _ _ mode_NE b c Fx Fy) as H.
  unfold fits_double, rnd in Ft. rewrite Rlt_bool_true in H by exact Ft. destruct H as (H1 & H2 & _).
  split; [apply B_valid|]. split; [apply B_finite; auto|]. exact H1.
Qed.
Lemma dsub_val : forall x y, valid x -> valid y -> finite x -> finite y -> fits_double (val x - val y) ->
  valid (dsub x y) /\ finite (dsub x y) /\ val (dsub x y) = rnd (val x - val y).
Proof.
  intros x y Vx Vy Fx Fy Ft. destruct (to_B x Vx) as [b <-]. destruct (to_B y Vy) as [c <-]. rewrite dsub_B.
  apply B_finite in Fx, Fy. rewrite !B_val in *. pose proof (Bminus_correct 53 1024 _ _ mode_NE b c Fx Fy) as H.
  unfold fits_double, rnd in Ft. rewrite Rlt_bool_true in H by exact Ft. destruct H as (H1 & H2 & _).
  split; [apply B_valid|]. split; [apply B_finite; auto|]. exact H1.
Qed.
Lemma dmul_val : forall x y, valid x -> valid y -> finite x -> finite y -> fits_double (val x * val y) ->
  valid (dmul x y) /\ finite (dmul x y) /\ val (dmul x y) = rnd (val x * val y).
Proof.
  intros x y Vx Vy Fx Fy Ft. destruct (to_B x Vx) as [b <-]. destruct (to_B y Vy) as [c <-]. rewrite dmul_B.
  apply B_finite in Fx, Fy. rewrite !B_val in *. pose proof (Bmult_correct 53 1024 _ _ mode_NE b c) as H.
  unfold fits_double, rnd in Ft. rewrite Rlt_bool_true in H by exact Ft. destruct H as (H1 & H2 & _). rewrite Fx, Fy in H2.
  split; [apply B_valid|]. split; [apply B_finite; auto|]. exact H1.
Qed.
Lemma ddiv_val : forall x y, valid x -> valid y -> finite x -> finite y -> val y <> 0%R -> fits_double (val x / val y) ->
  valid (ddiv x y) /\ finite (ddiv x y) /\ val (ddiv x y) = rnd (val x / val y).
Proof.
  intros x y Vx Vy Fx Fy Nz Ft. destruct (to_B x Vx) as [b <-]. destruct (to_B y Vy) as [c <-]. rewrite ddiv_B.
  apply B_finite in Fx, Fy. rewrite !B_val in *. pose proof (Bdiv_correct 53 1024 _ _ mode_NE b c Nz) as H.
  unfold fits_double, rnd in Ft. rewrite Rlt_bool_true in H by exact Ft. destruct H as (H1 & H2 & _). rewrite Fx in H2.
  split; [apply B_valid|]. split; [apply B_finite; auto|]. exact H1.
Qed.
Lemma compare_val : forall x y, valid x -> valid y -> finite x -> finite y -> SFcompare x y = Some (Rcompare (val x) (val y)).
Proof.
  intros x y Vx Vy Fx Fy. destruct (to_B x Vx) as [b <-]. destruct (to_B y Vy) as [c <-]. apply B_finite in Fx, Fy.
  rewrite compare_B, !B_val. apply Bcompare_correct; auto.
Qed.
Lemma dltb_val : forall x y, valid x -> valid y -> finite x -> finite y -> dltb x y = Rlt_bool (val x) (val y).
Proof. intros. unfold dltb, SFltb. rewrite compare_val by auto. unfold Rlt_bool. destruct (Rcompare (val x) (val y)); reflexivity. Qed.
Lemma dleb_val : forall x y, valid x -> valid y -> finite x -> finite y -> dleb x y = Rle_bool (val x) (val y).
Proof. intros. unfold dleb, SFleb. rewrite compare_val by auto. unfold Rle_bool. destruct (Rcompare (val x) (val y)); reflexivity. Qed.
Lemma deqb_val : forall x y, valid x -> valid y -> finite x -> finite y -> deqb x y = Req_bool (val x) (val y).
Proof. intros. unfold deqb, SFeqb. rewrite compare_val by auto. unfold Req_bool. destruct (Rcompare (val x) (val y)); reflexivity. Qed.

(** ** Integers *)
Lemma small_format : forall z, small z -> Generic_fmt.generic_format radix2 (SpecFloat.fexp prec emax) (IZR z).
Proof.
  intros z H. unfold small in H. change (SpecFloat.fexp prec emax) with (FLT.FLT_exp (SpecFloat.emin prec emax) prec).
  apply FLT.generic_format_FLT. destruct (Z.eq_dec (Z.abs z) (2 ^ 53)) as [E|N].
  - exists (Float radix2 (Z.sgn z) 53); cbn [Fnum Fexp].
    + unfold F2R. cbn [Fnum Fexp]. change (bpow radix2 53) with (IZR (2 ^ 53)). rewrite <- mult_IZR, <- E. f_equal. rewrite Z.mul_comm. symmetry. apply Z.abs_sgn.
    + assert (Z.abs (Z.sgn z) <= 1) by (destruct z; simpl; lia). cbn. unfold prec. lia.
    + vm_compute. discriminate.
  - exists (Float radix2 z 0); cbn [Fnum Fexp].
    + unfold F2R. cbn [Fnum Fexp]. change (bpow radix2 0) with 1%R. ring.
    + cbn. unfold prec. lia.
    + vm_compute. discriminate.
Qed.
Lemma rnd_small : forall z, small z -> rnd (IZR z) = IZR z.
Proof.
  intros z H. unfold rnd. apply Generic_fmt.round_generic; [apply Generic_fmt.valid_rnd_N|]. apply small_format; auto.
Qed.
Lemma fits_small : forall z, small z -> fits_double (IZR z).
Proof.
  intros z H. unfold fits_double. rewrite rnd_small by auto. rewrite <- abs_IZR.
  apply Rle_lt_trans with (IZR (2 ^ 53)). { apply IZR_le. exact H. }
  change (IZR (2 ^ 53)) with (bpow radix2 53). apply bpow_lt. lia.
Qed.

Lemma dadd_Z : forall x y a b, isZ x a -> isZ y b -> small (a + b) -> isZ (dadd x y) (a + b).
Proof.
  intros x y a b (Vx & Fx & Ex) (Vy & Fy & Ey) S. destruct (dadd_val x y Vx Vy Fx Fy) as (A & B & C).
  { rewrite Ex, Ey, <- plus_IZR. apply fits_small; auto. }
  split; [auto|]. split; [auto|]. rewrite C, Ex, Ey, <- plus_IZR. apply rnd_small; auto.
Qed.
Lemma dsub_Z : forall x y a b, isZ x a -> isZ y b -> small (a - b) -> isZ (dsub x y) (a - b).
Proof.
  intros x y a b (Vx & Fx & Ex) (Vy & Fy & Ey) S. destruct (dsub_val x y Vx Vy Fx Fy) as (A & B & C).
  { rewrite Ex, Ey, <- minus_IZR. apply fits_small; auto. }
  split; [auto|]. split; [auto|]. rewrite C, Ex, Ey, <- minus_IZR. apply rnd_small; auto.
Qed.
Lemma dmul_Z : forall x y a b, isZ x a -> isZ y b -> small (a * b) -> isZ (dmul x y) (a * b).
Proof.
  intros x y a b (Vx & Fx & Ex) (Vy & Fy & Ey) S. destruct (dmul_val x y Vx Vy Fx Fy) as (A & B & C).
  { rewrite Ex, Ey, <- mult_IZR. apply fits_small; auto. }
  split; [auto|]. split; [auto|]. rewrite C, Ex, Ey, <- mult_IZR. apply rnd_small; auto.
Qed.
Lemma ddiv_Z : forall x y b q, isZ x (q * b) -> isZ y b -> b <> 0 -> small q -> isZ (ddiv x y) q.
Proof.
  intros x y b q (Vx & Fx & Ex) (Vy & Fy & Ey) N S.
  assert (IZR b <> 0%R) by (intros H; apply eq_IZR in H; auto).
  assert (Q : (val x / val y = IZR q)%R) by (rewrite Ex, Ey, mult_IZR; field; auto).
  destruct (ddiv_val x y Vx Vy Fx Fy) as (A & B & C).
  { rewrite Ey. auto. }
  { rewrite Q. apply fits_small; auto. }
  split; [auto|]. split; [auto|]. rewrite C, Q. apply rnd_small; auto.
Qed.
Lemma of_Z_Z : forall z, small z -> isZ (of_Z z) z.
Proof.
  intros z S. unfold of_Z, isZ, number, prec, emax. rewrite normalize_equiv. rewrite B_val.
  pose proof (binary_normalize_correct 53 1024 Hprec Hmax mode_NE z 0 false) as H. cbv zeta in H.
  assert (F : F2R (Float radix2 z 0) = IZR z) by (unfold F2R; cbn [Fnum Fexp]; change (bpow radix2 0) with 1%R; ring).
  rewrite F in H. pose proof (fits_small z S) as Ft. unfold fits_double, rnd in Ft. rewrite Rlt_bool_true in H by exact Ft.
  destruct H as (H1 & H2 & _). split; [apply B_valid|]. split; [apply B_finite; exact H2|].
  etransitivity; [exact H1|]. apply rnd_small; auto.
Qed.
Lemma of_Zs_Z : forall s z, small z -> isZ (of_Z_signed s z) z.
Proof.
  intros s z S. unfold of_Z_signed, isZ, number, prec, emax. rewrite normalize_equiv. rewrite B_val.
  pose proof (binary_normalize_correct 53 1024 Hprec Hmax mode_NE z 0 s) as H. cbv zeta in H.
  assert (F : F2R (Float radix2 z 0) = IZR z) by (unfold F2R; cbn [Fnum Fexp]; change (bpow radix2 0) with 1%R; ring).
  rewrite F in H. pose proof (fits_small z S) as Ft. unfold fits_double, rnd in Ft. rewrite Rlt_bool_true in H by exact Ft.
  destruct H as (H1 & H2 & _). split; [apply B_valid|]. split; [apply B_finite; exact H2|].
  etransitivity; [exact H1|]. apply rnd_small; auto.
Qed.
Lemma dneg_Z : forall x a, isZ x a -> isZ (dneg x) (- a).
Proof.
  intros x a (V & F & E). destruct (to_B x V) as [b <-]. assert (K : dneg (B2SF b) = B2SF (Bopp b)) by (destruct b; reflexivity).
  rewrite K. split; [apply B_valid|]. split; [apply B_finite; rewrite is_finite_Bopp; apply B_finite; auto|].
  rewrite B_val, B2R_Bopp, opp_IZR. rewrite B_val in E. rewrite E. reflexivity.
Qed.
Lemma fabs_Z : forall x a, isZ x a -> isZ (fabs x) (Z.abs a).
Proof.
  intros x a (V & F & E). destruct (to_B x V) as [b <-]. assert (K : fabs (B2SF b) = B2SF (Babs b)) by (destruct b; reflexivity).
  rewrite K. split; [apply B_valid|]. split; [apply B_finite; rewrite is_finite_Babs; apply B_finite; auto|].
  rewrite B_val, B2R_Babs, abs_IZR. rewrite B_val in E. rewrite E. reflexivity.
Qed.
Lemma dltb_Z : forall x y a b, isZ x a -> isZ y b -> dltb x y = (a <? b).
Proof.
  intros x y a b (Vx & Fx & Ex) (Vy & Fy & Ey). rewrite dltb_val, Ex, Ey by auto. destruct (Z.ltb_spec a b).
  - apply Rlt_bool_true. apply IZR_lt; auto.
  - apply Rlt_bool_false. apply IZR_le; auto.
Qed.
Lemma dleb_Z : forall x y a b, isZ x a -> isZ y b -> dleb x y = (a <=? b).
Proof.
  intros x y a b (Vx & Fx & Ex) (Vy & Fy & Ey). rewrite dleb_val, Ex, Ey by auto. destruct (Z.leb_spec a b).
  - apply Rle_bool_true. apply IZR_le; auto.
  - apply Rle_bool_false. apply IZR_lt; auto.
Qed.
Lemma deqb_Z : forall x y a b, isZ x a -> isZ y b -> deqb x y = (a =? b).
Proof.
  intros x y a b (Vx & Fx & Ex) (Vy & Fy & Ey). rewrite deqb_val, Ex, Ey by auto. destruct (Z.eqb_spec a b).
  - apply Req_bool_true. congruence.
  - apply Req_bool_false. intros H. apply eq_IZR in H. auto.
Qed.
(** A double is determined by its value, up to the sign of zero. *)
Lemma isZ_unique : forall x y a, isZ x a -> isZ y a -> a <> 0 -> x = y.
Proof.
  intros x y a (Vx & Fx & Ex) (Vy & Fy & Ey) N. destruct (to_B x Vx) as [b <-]. destruct (to_B y Vy) as [c <-]. f_equal.
  rewrite B_val in *. assert (IZR a <> 0%R) by (intros H; apply eq_IZR in H; auto).
  apply B2R_inj; [apply is_finite_strict_B2R; congruence..|congruence].
Qed.
Lemma isZ_fun : forall x a b, isZ x a -> isZ x b -> a = b.
Proof. intros x a b (_ & _ & E) (_ & _ & F). apply eq_IZR. congruence. Qed.
Lemma isZ_zero : forall s, isZ (S754_zero s) 0.
Proof. intros s. repeat split. Qed.

(** ** trunc *)
Lemma val_finite : forall s m e, val (S754_finite s m e) = (IZR (cond_Zopp s (Zpos m)) * bpow radix2 e)%R.
Proof. intros [] m e; reflexivity. Qed.
Lemma cut_Ztrunc : forall x, finite x -> cut x = Some (Ztrunc (val x)).
Proof.
  intros [s|s| |s m e] F; try destruct F.
  - cbn. rewrite (Ztrunc_IZR 0). reflexivity.
  - cbn [cut]. f_equal. rewrite val_finite. destruct (Z.leb_spec 0 e) as [P|P].
    + rewrite <- IZR_Zpower by auto. rewrite <- mult_IZR, Ztrunc_IZR. change (Zpower radix2 e) with (2 ^ e).
      generalize (2 ^ e). intros k. destruct s; cbn [cond_Zopp]; ring.
    + assert (0 < 2 ^ (- e)) by (apply Z.pow_pos_nonneg; lia).
      assert (Q : (IZR (Zpos m) * bpow radix2 e = IZR (Zpos m) / IZR (2 ^ (- e)))%R).
      { change (2 ^ (- e)) with (Zpower radix2 (- e)). rewrite (IZR_Zpower radix2 (- e)) by lia. rewrite bpow_opp. unfold Rdiv. rewrite Rinv_inv. reflexivity. }
      assert (G : Zfloor (IZR (Zpos m) * bpow radix2 e) = Zpos m / 2 ^ (- e)) by (rewrite Q; apply Zfloor_div; lia).
      assert (0 <= IZR (Zpos m) * bpow radix2 e)%R by (apply Rmult_le_pos; [apply IZR_le; lia|apply bpow_ge_0]).
      assert (T : Ztrunc (IZR (Zpos m) * bpow radix2 e) = Zpos m / 2 ^ (- e)) by (rewrite Ztrunc_floor; auto).
      destruct s; cbn [cond_Zopp]; auto. change (Zneg m) with (- Zpos m). rewrite opp_IZR, Ropp_mult_distr_l_reverse, Ztrunc_opp, T. reflexivity.
Qed.
Lemma int_part_cut : forall x z, int_part x z -> valid x /\ finite x /\ cut x = Some z.
Proof. intros x z (r & (V & F & E) & T). repeat split; auto. rewrite cut_Ztrunc by auto. congruence. Qed.
Lemma isZ_int_part : forall x z, isZ x z -> int_part x z.
Proof. intros x z H. exists (IZR z). split; auto. apply Ztrunc_IZR. Qed.
Lemma cut_val : forall x a, isZ x a -> cut x = Some a.
Proof. intros x a H. apply int_part_cut. apply isZ_int_part. auto. Qed.
Lemma valid_mantissa : forall s m e, valid (S754_finite s m e) -> Zpos m < 2 ^ 53.
Proof.
  intros s m e V. unfold valid, valid_binary, bounded in V. apply andb_true_iff in V. destruct V as [V _]. apply Zeq_bool_eq in V.
  unfold SpecFloat.fexp, prec, emax in V. pose proof (Zdigits2_Zdigits (Zpos m)) as D.
  assert (H : Zpos (digits2_pos m) <= 53) by lia. clear V.
  change (Zdigits2 (Zpos m)) with (Zpos (digits2_pos m)) in D.
  pose proof (Digits.Zpower_gt_Zdigits radix2 53 (Zpos m)) as G.
  rewrite <- D in G. specialize (G H). rewrite Z.abs_eq in G by lia. exact G.
Qed.
Lemma trunc_int : forall x z, int_part x z -> isZ (trunc x) z.
Proof.
  intros x z H. apply int_part_cut in H. destruct H as (V & F & C). destruct x as [s|s| |s m e]; try destruct F.
  - cbn in C. injection C as <-. apply isZ_zero.
  - cbn [trunc]. unfold cut in C. apply (f_equal (fun o => match o with Some y => y | None => 0 end)) in C. cbv beta iota in C. destruct (Z.leb_spec 0 e) as [P|P].
    + split; [auto|]. split; [exact I|]. rewrite val_finite. rewrite <- IZR_Zpower by auto. rewrite <- mult_IZR. f_equal.
      rewrite <- C. change (Zpower radix2 e) with (2 ^ e). generalize (2 ^ e). intros k. destruct s; cbn [cond_Zopp]; ring.
    + rewrite C. apply of_Zs_Z. unfold small. rewrite <- C. apply valid_mantissa in V.
      assert (0 < 2 ^ (- e)) by (apply Z.pow_pos_nonneg; lia).
      assert (0 <= Zpos m / 2 ^ (- e) <= Zpos m) by (split; [apply Z.div_pos; lia|apply Z.div_le_upper_bound; nia]).
      destruct s; simpl; lia.
Qed.
Lemma to_range_int : forall lo hi x z, int_part x z -> lo <= z <= hi -> to_range lo hi x = Ok z.
Proof.
  intros lo hi x z H B. apply int_part_cut in H. destruct H as (_ & _ & C). unfold to_range. rewrite C.
  replace (lo <=? z) with true by lia. replace (z <=? hi) with true by lia. reflexivity.
Qed.
Lemma to_range_out : forall lo hi x z, int_part x z -> z < lo \/ hi < z -> to_range lo hi x = Ub.
Proof.
  intros lo hi x z H B. apply int_part_cut in H. destruct H as (_ & _ & C). unfold to_range. rewrite C.
  destruct (Z.leb_spec lo z), (Z.leb_spec z hi); auto; lia.
Qed.
Lemma rnd_eq : forall r, rnd r = Generic_fmt.round radix2 (SpecFloat.fexp prec emax) (round_mode mode_NE) r.
Proof. reflexivity. Qed.
Lemma of_Z_rnd : forall z, (Rabs (rnd (IZR z)) < bpow radix2 1024)%R -> number (of_Z z) (rnd (IZR z)).
Proof.
  intros z Ft. unfold of_Z, number, prec, emax. rewrite normalize_equiv. rewrite B_val.
  pose proof (binary_normalize_correct 53 1024 Hprec Hmax mode_NE z 0 false) as H. cbv zeta in H.
  assert (F : F2R (Float radix2 z 0) = IZR z) by (unfold F2R; cbn [Fnum Fexp]; change (bpow radix2 0) with 1%R; ring).
  rewrite F in H. rewrite rnd_eq in Ft. rewrite Rlt_bool_true in H by exact Ft.
  destruct H as (H1 & H2 & _). split; [apply B_valid|]. split; [apply B_finite; exact H2|]. exact H1.
Qed.
Lemma fits_le : forall r k, (Rabs r <= bpow radix2 k)%R -> -1074 <= k < 1024 -> (Rabs (rnd r) < bpow radix2 1024)%R.
Proof.
  intros r k H K. apply Rle_lt_trans with (bpow radix2 k); [|apply bpow_lt; lia].
  rewrite rnd_eq. apply Generic_fmt.abs_round_le_generic; auto; [apply FLT.FLT_exp_valid; exact Hprec|apply Generic_fmt.valid_rnd_N|].
  apply Generic_fmt.generic_format_bpow. unfold SpecFloat.fexp, SpecFloat.emin, prec, emax. lia.
Qed.

(** ** Order of all doubles but NaN: infinities lie beyond 2^1024. *)
Definition key (d : double) : R :=
  match d with S754_infinity false => bpow radix2 1024 | S754_infinity true => (- bpow radix2 1024)%R | _ => val d end.
Lemma key_finite : forall d, valid d -> finite d -> (Rabs (key d) < bpow radix2 1024)%R /\ key d = val d.
Proof.
  intros d V F. destruct (to_B d V) as [b <-]. apply B_finite in F.
  assert (K : key (B2SF b) = val (B2SF b)) by (destruct b; try discriminate F; reflexivity). split; auto.
  rewrite K, B_val. apply abs_B2R_lt_emax.
Qed.
Lemma dltb_key : forall x y, valid x -> valid y -> x <> S754_nan -> y <> S754_nan -> dltb x y = Rlt_bool (key x) (key y).
Proof.
  intros x y Vx Vy Nx Ny.
  assert (P : (0 < bpow radix2 1024)%R) by apply bpow_gt_0.
  assert (Kx : finite x \/ exists s, x = S754_infinity s) by (destruct x; simpl; eauto; congruence).
  assert (Ky : finite y \/ exists s, y = S754_infinity s) by (destruct y; simpl; eauto; congruence).
  destruct Kx as [Fx|[s ->]], Ky as [Fy|[t ->]].
  - rewrite dltb_val by auto. destruct (key_finite x Vx Fx) as [_ ->]. destruct (key_finite y Vy Fy) as [_ ->]. reflexivity.
  - destruct (key_finite x Vx Fx) as [B _]. apply Rabs_def2 in B. destruct B.
    destruct t; [rewrite Rlt_bool_false by (cbn [key]; lra)|rewrite Rlt_bool_true by (cbn [key]; lra)]; destruct x as [|[]| |[]]; try destruct Fx; reflexivity.
  - destruct (key_finite y Vy Fy) as [B _]. apply Rabs_def2 in B. destruct B.
    destruct s; [rewrite Rlt_bool_true by (cbn [key]; lra)|rewrite Rlt_bool_false by (cbn [key]; lra)]; destruct y as [|[]| |[]]; try destruct Fy; reflexivity.
  - destruct s, t; [rewrite Rlt_bool_false by (cbn [key]; lra)|rewrite Rlt_bool_true by (cbn [key]; lra)|rewrite Rlt_bool_false by (cbn [key]; lra)|rewrite Rlt_bool_false by (cbn [key]; lra)]; reflexivity.
Qed.
Lemma dleb_key : forall x y, valid x -> valid y -> x <> S754_nan -> y <> S754_nan -> dleb x y = negb (dltb y x).
Proof.
  intros x y Vx Vy Nx Ny. unfold dleb, dltb, SFleb, SFltb.
  assert (Kx : finite x \/ exists s, x = S754_infinity s) by (destruct x; simpl; eauto; congruence).
  assert (Ky : finite y \/ exists s, y = S754_infinity s) by (destruct y; simpl; eauto; congruence).
  destruct Kx as [Fx|[s ->]], Ky as [Fy|[t ->]].
  - rewrite !compare_val by auto. rewrite (Rcompare_sym (val y) (val x)). destruct (Rcompare (val x) (val y)); reflexivity.
  - destruct x as [|[]| |[]], t; try destruct Fx; reflexivity.
  - destruct y as [|[]| |[]], s; try destruct Fy; reflexivity.
  - destruct s, t; reflexivity.
Qed.

(** ** sqrt *)
Lemma dsqrt_B : forall x : bf, dsqrt (B2SF x) = B2SF (Bsqrt mode_NE x).
Proof.
  intros x. unfold dsqrt, prec, emax. case x as [sx|sx| |sx mx ex Bx]; [now (trivial || case sx).. | ].
  case sx; [reflexivity | ]. simpl. rewrite B2SF_SF2B. set (melz := SFsqrt_core_binary _ _ _ _). case melz as [[mz ez] lz].
  apply round_aux_equiv.
Qed.
Lemma dsqrt_val : forall x, valid x -> finite x -> (0 <= val x)%R -> number (dsqrt x) (rnd (sqrt (val x))).
Proof.
  intros x V F P. destruct (to_B x V) as [b <-]. rewrite dsqrt_B. pose proof (Bsqrt_correct 53 1024 Hprec Hmax mode_NE b) as (A & B & _).
  split; [apply B_valid|]. split.
  - apply B_finite. rewrite B. destruct b as [s|s| |s m e Bd]; try reflexivity; try destruct F. destruct s; auto.
    exfalso. cbn [B2SF val] in P. pose proof (bpow_gt_0 radix2 e). assert (IZR (Zneg m) < 0)%R by (apply IZR_lt; lia). nra.
  - rewrite !B_val. exact A.
Qed.
(** A computable test for "is the integer z" *)
Lemma isZ_test : forall d z, valid_binary prec emax d = true -> cut d = Some z -> trunc d = d -> isZ d z.
Proof.
  intros d z V C T. assert (F : finite d) by (destruct d; simpl in *; auto; discriminate C). rewrite <- T. apply trunc_int.
  exists (val d). split; [repeat split; auto|]. rewrite cut_Ztrunc in C by auto. congruence.
Qed.
