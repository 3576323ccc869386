(** Lemmas for C74. *)
From Coq Require Import Reals Lra.
From Flocq Require Import Core.
From Coq Require Import List Ascii String NArith ZArith Bool Lia Arith.
From Coq.Floats Require Import SpecFloat.
From Verif Require Import M_Base M_StringUtil M_Tree M_Printer M_Printf M_Table M_TableOut M_Session
  S_Util S_Engine S_Tree S_Eval S_Table S_TableApi S_Printf S_TableOut L_StringUtil L_Tree L_Printf.
Import ListNotations.
Open Scope string_scope.
Open Scope list_scope.
Open Scope nat_scope.
Open Scope res_scope.

(** ** Colours are closed again *)
Definition solid (s : cstr) : Prop := s <> [] /\ Forall (fun c => c <> S_Table.ESC /\ c <> LF) s.
Fixpoint scan (p : place) (s : cstr) : option place :=
  match s with
  | [] => Some p
  | c :: s' =>
    match p with
    | Plain => scan (if ceqb c S_Table.ESC then Inside else Plain) s'
    | Inside => scan (if ceqb c "m" then Behind else Inside) s'
    | Behind => if ceqb c S_Table.ESC then None else scan Plain s'
    end
  end.
Lemma scan_app : forall s t p, scan p (s ++ t) = match scan p s with Some q => scan q t | None => None end.
Proof. induction s as [|c s IH]; intros t p; cbn [app scan]; auto. destruct p; auto. destruct (ceqb c S_Table.ESC); auto. Qed.
Lemma scan_tidy : forall s p q, scan p s = Some q -> q <> Inside -> tidy p s.
Proof.
  induction s as [|c s IH]; intros p q E N; cbn [scan tidy] in *; [injection E as <-; exact N|]. destruct p; eauto.
  destruct (ceqb c S_Table.ESC) eqn:C; [discriminate E|]. split; [|eauto]. intros ->. discriminate C.
Qed.
Lemma ceqb_no : forall a b, a <> b -> ceqb a b = false.
Proof. intros a b N. destruct (ceqb a b) eqn:E; auto. apply Ascii.eqb_eq in E. contradiction. Qed.
Lemma scan_plain : forall s, Forall (fun c => c <> S_Table.ESC /\ c <> LF) s -> scan Plain s = Some Plain.
Proof. intros s F. induction F as [|c s [N _] F IH]; cbn [scan]; auto. rewrite ceqb_no by auto. exact IH. Qed.
Lemma scan_solid : forall s p, solid s -> p <> Inside -> scan p s = Some Plain.
Proof. intros [|c s] p [N F] P; [congruence|]. inversion F as [|? ? [Nc _] F']; subst. cbn [scan]. destruct p; [|congruence|]; rewrite ceqb_no by auto; apply scan_plain; auto. Qed.
(** Read from outside a sequence, ends outside; no line ends *)
Definition calm (s : cstr) : Prop := (exists q, scan Plain s = Some q /\ q <> Inside) /\ Forall (fun c => c <> LF) s.
Lemma calm_nil : calm []. Proof. split; [exists Plain; split; [reflexivity|discriminate]|constructor]. Qed.
Lemma solid_lf : forall s, solid s -> Forall (fun c => c <> LF) s.
Proof. intros s [_ F]. eapply Forall_impl; [|exact F]. intros c H. apply H. Qed.
Lemma calm_mid : forall a n b, calm a -> solid n -> calm b -> calm (a ++ n ++ b).
Proof.
  intros a n b [(p & Ep & Np) La] S [(q & Eq & Nq) Lb]. split.
  - exists q. split; auto. rewrite scan_app, Ep, scan_app, (scan_solid n p S Np). exact Eq.
  - apply Forall_app. split; auto. apply Forall_app. split; auto. apply solid_lf. auto.
Qed.
Lemma calm_solid : forall n, solid n -> calm n.
Proof. intros n S. rewrite <- (app_nil_r n). apply (calm_mid [] n []); auto using calm_nil. Qed.
Lemma calm_color : forall c n, c = VAR_COLOR \/ c = CONST_COLOR -> solid n -> calm (c ++ n ++ COL_RESET).
Proof.
  intros c n C S. split.
  - exists Behind. split; [|discriminate]. assert (E : scan Plain c = Some Behind) by (destruct C as [->| ->]; reflexivity). rewrite scan_app, E, scan_app, (scan_solid n Behind S) by discriminate. reflexivity.
  - apply Forall_app. split; [destruct C as [->| ->]; repeat constructor; discriminate|]. apply Forall_app. split; [apply solid_lf; auto|repeat constructor; discriminate].
Qed.
Lemma one_line : forall s, Forall (fun c => c <> LF) s -> text_lines s = [s].
Proof. induction s as [|c s IH]; intros F; [reflexivity|]. inversion F; subst. cbn [text_lines]. rewrite IH by auto. rewrite ceqb_no by auto. reflexivity. Qed.
Lemma calm_tidy : forall s, calm s -> tidy_text s.
Proof.
  intros s [(q & E & N) F]. split.
  - rewrite one_line by auto. constructor; [|constructor]. eapply scan_tidy; eauto.
  - destruct s as [|c s]; [discriminate|]. inversion F; subst. cbn. congruence.
Qed.
(** ** Texts of trees *)
Lemma printf_solid : forall n s r, List.length s <= n -> Forall (fun c => c <> S_Table.ESC /\ c <> LF) s -> printf_no_args s = Ok r ->
  Forall (fun c => c <> S_Table.ESC /\ c <> LF) r /\ (s <> [] -> r <> []).
Proof.
  induction n as [|n IH]; intros [|c s] r Ln F E; cbn [List.length printf_no_args] in *; try lia; try (injection E as <-; split; [constructor|auto]; fail).
  inversion F as [|? ? Fc Fs]; subst. destruct (ceqb c "%"%char).
  - destruct s as [|d s]; [discriminate E|]. destruct (ceqb d "%"%char); [|discriminate E]. destruct (printf_no_args s) as [r'| |] eqn:E'; cbn [rbind] in E; try discriminate E. injection E as <-.
    inversion Fs; subst. cbn [List.length] in Ln. destruct (IH s r' ltac:(lia) ltac:(auto) E') as [A _]. split; [constructor; auto; split; discriminate|discriminate].
  - destruct (printf_no_args s) as [r'| |] eqn:E'; cbn [rbind] in E; try discriminate E. injection E as <-. destruct (IH s r' ltac:(lia) Fs E') as [A _]. split; [constructor; auto|discriminate].
Qed.
Lemma literal_solid : solid (str "(") /\ solid (str ")") /\ solid (str ",") /\ solid (str " ").
Proof. repeat split; try discriminate; repeat constructor; discriminate. Qed.
Section Text.
Variable fmt : double -> cstr.
Hypothesis FS : forall v, solid (fmt v).
Lemma wrap_calm : forall b ps, calm (List.concat ps) -> calm (List.concat (wrap_if b ps)).
Proof.
  intros [|] ps C; auto. unfold wrap_if. rewrite !concat_app. cbn [List.concat]. rewrite !app_nil_r. destruct literal_solid as (A & B & _).
  apply (calm_mid [] OPENING_P); auto using calm_nil. rewrite <- (app_nil_r CLOSING_P). apply calm_mid; auto using calm_nil.
Qed.
Lemma text_calm : forall t l r ps, Forall (fun op => solid (o_name op)) (operators_of t) -> Forall solid (var_names t) -> to_str fmt true t l r = Ok ps -> calm (List.concat ps).
Proof.
  destruct literal_solid as (Po & Pc & Cm & Bl).
  induction t as [v k|x i k|op cs k IH] using node_ind'; intros l r ps O V E; cbn [operators_of var_names to_str] in *.
  - injection E as <-. cbn [colored List.concat]. rewrite app_nil_r. apply calm_color; auto.
  - injection E as <-. cbn [colored List.concat]. rewrite app_nil_r. apply calm_color; auto. inversion V; auto.
  - inversion O as [|? ? On Oc]; subst. apply Forall_flat_map in Oc, V.
    assert (K : forall c, In c cs -> forall l r ps, to_str fmt true c l r = Ok ps -> calm (List.concat ps)).
    { intros c I l' r' ps'. rewrite Forall_forall in IH, Oc, V. apply IH; auto. }
    clear IH O Oc V.
    assert (W : forall c (b : bool) l r ps, In c cs -> (if b then b <- to_str fmt true c false false ;; Ok (wrap_if true b) else to_str fmt true c l r) = Ok ps -> calm (List.concat ps)).
    { intros c [|] l' r' ps' I E'; [|eauto]. destruct (to_str fmt true c false false) as [b| |] eqn:Eb; cbn [rbind] in E'; try discriminate E'. injection E' as <-. apply (wrap_calm true). eauto. }
    destruct (o_place op).
    + destruct cs as [|c0 cs]; [discriminate E|]. destruct (printf_no_args (o_name op)) as [nm| |] eqn:En; cbn [rbind] in E; try discriminate E.
      match type of E with rbind ?x _ = _ => destruct x as [body| |] eqn:Eb end; cbn [rbind] in E; try discriminate E. injection E as <-.
      apply wrap_calm. cbn [List.concat]. apply (calm_mid [] nm); [apply calm_nil| |eapply W; [|exact Eb]; left; auto].
      destruct On as [N F]. destruct (printf_solid _ _ _ (le_n _) F En) as [A B]. split; auto.
    + destruct cs as [|c0 [|c1 cs]]; try discriminate E.
      match type of E with rbind ?x _ = _ => destruct x as [a| |] eqn:Ea end; cbn [rbind] in E; try discriminate E.
      match type of E with rbind ?x _ = _ => destruct x as [b| |] eqn:Eb end; cbn [rbind] in E; try discriminate E. injection E as <-.
      apply W in Ea; [|left; auto]. apply W in Eb; [|right; left; auto]. rewrite !concat_app. apply calm_mid; auto.
      destruct (is_letter (hd NUL (o_name op))); cbn [List.concat]; rewrite !app_nil_r; auto. split; [discriminate|]. constructor; [split; discriminate|]. apply Forall_app. split; [apply On|]. repeat constructor; discriminate.
    + destruct cs as [|c0 cs]; [discriminate E|]. match type of E with rbind ?x _ = _ => destruct x as [body| |] eqn:Eb end; cbn [rbind] in E; try discriminate E. injection E as <-.
      apply wrap_calm. rewrite concat_app. cbn [List.concat]. apply calm_mid; auto using calm_nil. eapply W; [|exact Eb]. left; auto.
    + destruct (arity_zero (o_arity op)); [injection E as <-; cbn [List.concat]; rewrite app_nil_r; apply calm_solid; auto|].
      match type of E with rbind ?x _ = _ => destruct x as [args| |] eqn:Ea end; cbn [rbind] in E; try discriminate E. injection E as <-.
      cbn [app List.concat]. rewrite concat_app. cbn [List.concat]. apply (calm_mid [] (o_name op)); auto using calm_nil. apply (calm_mid [] OPENING_P); auto using calm_nil.
      apply calm_mid; auto using calm_nil. clear On W. revert args Ea. induction cs as [|c cs IHc]; intros args Ea; [injection Ea as <-; apply calm_nil|]. destruct cs as [|c' cs].
      * eapply K; [|exact Ea]. left; auto.
      * destruct (to_str fmt true c false false) as [a| |] eqn:Ec; cbn [rbind] in Ea; try discriminate Ea.
        match type of Ea with rbind ?x _ = _ => destruct x as [b| |] eqn:Eb end; cbn [rbind] in Ea; try discriminate Ea. injection Ea as <-.
        rewrite !concat_app. change (List.concat [str ","]) with (str ","). apply calm_mid; auto. { eapply K; [|exact Ec]. left; auto. }
        apply IHc; auto. intros d I. apply K. right. auto.
Qed.
End Text.

(** ** Texts of numbers *)
Lemma digit_solid : forall c, in_range c 48 57 -> c <> S_Table.ESC /\ c <> LF.
Proof. intros c H. split; intros ->; unfold in_range in H; cbn in H; lia. Qed.
Lemma digits_plain : forall s, digits s -> Forall (fun c => c <> S_Table.ESC /\ c <> LF) s.
Proof. intros s D. eapply Forall_impl; [|exact D]. intros c. apply digit_solid. Qed.
Lemma app_solid : forall s t, Forall (fun c => c <> S_Table.ESC /\ c <> LF) s -> solid t -> solid (s ++ t).
Proof. intros s t F [N G]. split; [intros E; apply app_eq_nil in E; destruct E; auto|apply Forall_app; auto]. Qed.
Lemma solid_app : forall s t, solid s -> Forall (fun c => c <> S_Table.ESC /\ c <> LF) t -> solid (s ++ t).
Proof. intros s t [N G] F. split; [intros E; apply app_eq_nil in E; destruct E; auto|apply Forall_app; auto]. Qed.
Lemma sign_plain : forall b, Forall (fun c => c <> S_Table.ESC /\ c <> LF) (sign_text b).
Proof. intros [|]; repeat constructor; discriminate. Qed.
Lemma padded_calm : forall s, solid s -> calm (str " " ++ s ++ str " ").
Proof. intros s S. destruct literal_solid as (_ & _ & _ & B). apply (calm_mid [] (str " ")); auto using calm_nil. rewrite <- (app_nil_r (str " ")). apply (calm_mid s (str " ") []); auto using calm_nil, calm_solid. Qed.

Notation plain_chars := (Forall (fun c => c <> S_Table.ESC /\ c <> LF)).
Lemma last_digits_plain : forall k n, plain_chars (last_digits k n).
Proof.
  induction k as [|k IH]; intros n; cbn [last_digits]; [constructor|]. apply Forall_app. split; auto. constructor; [|constructor].
  apply digit_solid. unfold in_range. pose proof (Z.mod_pos_bound n 10 ltac:(lia)) as B. rewrite digit_code by auto. lia.
Qed.
Lemma sub_plain : forall (s t : cstr), (forall c, In c t -> In c s) -> plain_chars s -> plain_chars t.
Proof. intros s t I F. rewrite Forall_forall in *. auto. Qed.
Lemma fraction_plain : forall s, plain_chars s -> plain_chars (fraction s).
Proof.
  intros s F. unfold fraction. assert (T : plain_chars (M_Printf.trimmed s)).
  { destruct (trimmed_app s) as (k & E). rewrite E in F. apply Forall_app in F. apply F. }
  destruct (M_Printf.trimmed s); [constructor|]. constructor; auto. split; discriminate.
Qed.
Lemma firstn_plain : forall k s, plain_chars s -> plain_chars (firstn k s).
Proof. intros k s. apply sub_plain. intros c I. rewrite <- (firstn_skipn k s). apply in_or_app. auto. Qed.
Lemma skipn_plain : forall k s, plain_chars s -> plain_chars (skipn k s).
Proof. intros k s. apply sub_plain. intros c I. rewrite <- (firstn_skipn k s). apply in_or_app. auto. Qed.
Lemma positive_solid : forall num den, solid (positive_text num den).
Proof.
  intros num den. unfold positive_text. destruct (ten_digits num den) as [d x]. pose proof (last_digits_plain 10 d) as P. pose proof (last_digits_length 10 d) as Ln. set (ds := last_digits 10 d) in *. clearbody ds.
  assert (Q : forall k, 1 <= k -> solid (firstn k ds)). { intros [|k] K; [lia|]. split; [|apply firstn_plain; auto]. destruct ds; [discriminate Ln|discriminate]. }
  destruct (_ && _).
  - destruct (Z.leb_spec 0 x).
    + apply solid_app; [apply Q; lia|]. apply fraction_plain, skipn_plain. auto.
    + apply (solid_app (str "0")). { split; [discriminate|repeat constructor; discriminate]. } apply fraction_plain. apply Forall_app. split; auto.
      apply Forall_forall. intros c I. apply repeat_spec in I. subst c. split; discriminate.
  - apply solid_app; [apply Q; lia|]. apply Forall_app. split; [apply fraction_plain, skipn_plain; auto|]. unfold exponent_text.
    constructor; [split; discriminate|]. constructor; [destruct (x <? 0)%Z; split; discriminate|]. destruct (_ <? _)%Z; apply last_digits_plain.
Qed.
Lemma printf_g_solid : forall v, solid (printf_g v).
Proof.
  intros [s|s| |s m e]; cbn [printf_g].
  - apply app_solid; [apply sign_plain|]. split; [discriminate|repeat constructor; discriminate].
  - apply app_solid; [apply sign_plain|]. split; [discriminate|repeat constructor; discriminate].
  - split; [discriminate|repeat constructor; discriminate].
  - apply app_solid; [apply sign_plain|]. destruct (0 <=? e)%Z; apply positive_solid.
Qed.
Lemma whole_solid : forall n, solid (whole_text n).
Proof. intros n. split; [|apply last_digits_plain]. intros E. apply (f_equal (@List.length ascii)) in E. unfold whole_text in E. rewrite last_digits_length in E. discriminate E. Qed.
Lemma fixed_solid : forall num den, solid (fixed_text num den).
Proof. intros num den. unfold fixed_text. apply solid_app; [apply whole_solid|]. constructor; [split; discriminate|apply last_digits_plain]. Qed.
Lemma printf_f_solid : forall v, solid (printf_f v).
Proof.
  intros [s|s| |s m e]; cbn [printf_f].
  - apply app_solid; [apply sign_plain|]. split; [discriminate|repeat constructor; discriminate].
  - apply app_solid; [apply sign_plain|]. split; [discriminate|repeat constructor; discriminate].
  - split; [discriminate|repeat constructor; discriminate].
  - apply app_solid; [apply sign_plain|]. destruct (0 <=? e)%Z; apply fixed_solid.
Qed.
(** Numerals *)
Lemma log10_0 : log10 0 = 0%Z. Proof. reflexivity. Qed.
Lemma whole_value : forall n, (0 <= n)%Z -> proper_numeral (whole_text n) /\ number_of (whole_text n) = n.
Proof.
  intros n H. destruct (Z.eq_dec n 0) as [->|N]; [split; [split; [discriminate|]; split; [repeat constructor; vm_compute; lia|reflexivity]|reflexivity]|].
  destruct (log10_spec n ltac:(lia)) as (A & B & C). unfold whole_text. set (k := Z.to_nat (log10 n)). assert (K : Z.of_nat k = log10 n) by (unfold k; lia).
  assert (D : digits (last_digits (S k) n)) by (apply last_digits_digits; auto). split; [split; [|split; auto]|].
  - intros E. apply (f_equal (@List.length ascii)) in E. rewrite last_digits_length in E. discriminate E.
  - intros Z0. exfalso. assert (V : number_of (last_digits (S k) n) = n). { rewrite last_digits_value by auto. apply Z.mod_small. rewrite Nat2Z.inj_succ, K. unfold Z.succ. lia. }
    pose proof (last_digits_length (S k) n) as Ln. destruct (last_digits (S k) n) as [|c s] eqn:E; [discriminate Ln|]. cbn [hd] in Z0. subst c. injection Ln as Ln.
    change ("0"%char :: s) with (["0"%char] ++ s) in V. rewrite number_app in V. change (number_of ["0"%char]) with 0%Z in V. rewrite Z.mul_0_l, Z.add_0_l in V.
    assert (U : (number_of s < 10 ^ Z.of_nat k)%Z).
    { rewrite <- Ln. inversion D as [|? ? _ Ds]; subst. clear - Ds. induction s as [|c s IH] using rev_ind; [reflexivity|]. apply Forall_app in Ds. destruct Ds as [Ds Dc]. specialize (IH Ds). inversion Dc as [|? ? [C1 C2] _]; subst.
      rewrite number_app, app_length. cbn [List.length]. rewrite Nat2Z.inj_add, Z.pow_add_r by lia. change (10 ^ Z.of_nat 1)%Z with 10%Z. unfold number_of at 2. cbn [fold_left]. change (Z.of_nat 1) with 1%Z. lia. }
    rewrite K, V in U. lia.
  - rewrite last_digits_value by auto. apply Z.mod_small. rewrite Nat2Z.inj_succ, K. unfold Z.succ. lia.
Qed.
Lemma fixed_value : forall num den, (0 < num)%Z -> (0 < den)%Z -> exists ip fp, fixed_text num den = ip ++ str "." ++ fp /\ proper_numeral ip /\ digits fp /\ List.length fp = 10 /\
  (Rabs (IZR num / IZR den - IZR (number_of (ip ++ fp)) / 10000000000) <= 5 / 100000000000)%R.
Proof.
  intros num den Hn Hd. unfold fixed_text. set (n := nearest (num * 10 ^ 10) den).
  assert (N0 : (0 <= n)%Z).
  { unfold n, nearest. assert (0 <= num * 10 ^ 10 / den)%Z by (apply Z.div_pos; lia). destruct (_ ?= _)%Z; [destruct (Z.even _)| |]; lia. }
  assert (Q : (0 <= n / 10 ^ 10)%Z) by (apply Z.div_pos; lia). destruct (whole_value _ Q) as [W V].
  exists (whole_text (n / 10 ^ 10)), (last_digits 10 n). split; [reflexivity|]. split; [exact W|]. split; [apply last_digits_digits; auto|]. split; [apply last_digits_length|].
  rewrite number_app, V, last_digits_length, last_digits_value by auto. change (Z.of_nat 10) with 10%Z. rewrite (Z.mul_comm (n / 10 ^ 10)), <- Z.div_mod by lia.
  pose proof (nearest_spec (num * 10 ^ 10) den Hd) as S. fold n in S. rewrite mult_IZR in S. change (IZR (10 ^ 10)) with 10000000000%R in S.
  assert (Pd : (0 < IZR den)%R) by (apply IZR_lt; auto).
  replace (IZR num / IZR den - IZR n / 10000000000)%R with ((IZR num * 10000000000 / IZR den - IZR n) * / 10000000000)%R by (field; lra).
  rewrite Rabs_mult, (Rabs_pos_eq (/ 10000000000)) by lra. lra.
Qed.
Lemma printf_f_value : forall v a, number v a -> ten_places (printf_f v) v a.
Proof.
  intros v a (V & F & E). destruct v as [s|s| |s m e]; try contradiction; cbn [val] in E; subst a.
  - exists (str "0"), (str "0000000000"). split; [destruct s; reflexivity|]. split; [split; [discriminate|]; split; [repeat constructor; vm_compute; lia|reflexivity]|].
    split; [repeat constructor; vm_compute; lia|]. split; [reflexivity|]. change (number_of (str "0" ++ str "0000000000")) with 0%Z.
    replace (Rabs 0 - 0 / 10000000000)%R with 0%R by (rewrite Rabs_R0; field). rewrite Rabs_R0. lra.
  - assert (X : exists num den, (0 < num)%Z /\ (0 < den)%Z /\ (IZR num / IZR den = Rabs (IZR (if s then Z.neg m else Z.pos m) * bpow radix2 e))%R /\ printf_f (S754_finite s m e) = sign_text s ++ fixed_text num den).
    { assert (Ab : (Rabs (IZR (if s then Z.neg m else Z.pos m) * bpow radix2 e) = IZR (Z.pos m) * bpow radix2 e)%R).
      { rewrite Rabs_mult, (Rabs_pos_eq (bpow radix2 e)) by (apply Rlt_le, bpow_gt_0). f_equal. rewrite <- abs_IZR. destruct s; reflexivity. }
      rewrite Ab. cbn [printf_f]. destruct (Z.leb_spec 0 e) as [Le|Le].
      + exists (Z.pos m * 2 ^ e)%Z, 1%Z. assert (0 < 2 ^ e)%Z by (apply Z.pow_pos_nonneg; lia). split; [lia|]. split; [lia|]. split; auto. rewrite mult_IZR. rewrite (IZR_Zpower radix2) by auto. field.
      + exists (Z.pos m), (2 ^ - e)%Z. assert (0 < 2 ^ - e)%Z by (apply Z.pow_pos_nonneg; lia). split; [lia|]. split; [lia|]. split; auto.
        rewrite (IZR_Zpower radix2) by lia. rewrite bpow_opp. field. apply Rgt_not_eq. apply bpow_gt_0. }
    destruct X as (num & den & Hn & Hd & Q & T). destruct (fixed_value num den Hn Hd) as (ip & fp & T2 & Wp & D & Ln & B). exists ip, fp.
    split; [rewrite T, T2; destruct s; reflexivity|]. split; auto. split; auto. split; auto. rewrite <- Q. exact B.
Qed.

(** ** The grid *)
Lemma grid_calls_app : forall M, grid_calls (M ++ [[]]) = flat_map (fun r => row_calls r ++ [CNextRow]) M.
Proof.
  induction M as [|r M IH]; [reflexivity|]. cbn [app flat_map]. rewrite <- IH. destruct (M ++ [[]]) as [|r' M'] eqn:E; [apply app_eq_nil in E; destruct E; discriminate|].
  cbn [grid_calls]. rewrite <- app_assoc. reflexivity.
Qed.
Lemma maximum_app : forall a b, maximum (a ++ b) = Nat.max (maximum a) (maximum b).
Proof. intros a b. unfold maximum. induction a as [|x a IH]; cbn [app fold_right]; [reflexivity|]. rewrite IH. lia. Qed.
Lemma picture_end : forall hs M, grid_picture hs (M ++ [[]]) = grid_picture hs M.
Proof.
  intros hs M. unfold grid_picture. rewrite flat_map_app. cbn [flat_map]. change (row_height []) with 0. cbn [List.seq map app]. rewrite app_nil_r.
  assert (C : forall x, column_width (M ++ [[]]) x = column_width M x). { intros x. unfold column_width. rewrite map_app, maximum_app. cbn [map]. rewrite (proj2 (nth_error_None _ _)) by (cbn; lia). cbn. lia. }
  rewrite map_app, maximum_app. cbn [map List.length]. change (maximum [0]) with 0. rewrite Nat.max_0_r.
  apply flat_map_ext. intros r. apply map_ext. intros k. apply flat_map_ext. intros x. rewrite C. reflexivity.
Qed.
