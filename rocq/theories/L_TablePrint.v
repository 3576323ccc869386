(** Widths and printed lines (for C50, C51, C66). *)
From Coq Require Import List Ascii String NArith ZArith Bool Lia Arith.
From Verif Require Import M_Base M_StringUtil M_Eval M_Table S_Util S_Table L_Table L_TableWf.
Import ListNotations.
Open Scope nat_scope.
Open Scope res_scope.

(** ** Columns *)
Fixpoint after (esc : bool) (l : list seg) : bool := match l with [] => esc | Box _ _ :: l' => after esc l' | Bytes s :: l' => after (escaped esc s) l' end.
Lemma columns_app : forall a b e, columns e (a ++ b) = columns e a + columns (after e a) b.
Proof. induction a as [|[d i|s] a IH]; intros b e; cbn [app columns after]; auto; rewrite IH; lia. Qed.
Lemma after_app : forall a b e, after e (a ++ b) = after (after e a) b.
Proof. induction a as [|[d i|s] a IH]; intros b e; cbn [app after]; auto. Qed.
(** A piece of a line that takes [n] columns and leaves no colour sequence open *)
Definition takes (l : list seg) (n : nat) : Prop := columns false l = n /\ after false l = false.
Lemma takes_nil : takes [] 0. Proof. split; reflexivity. Qed.
Lemma takes_app : forall a b n m, takes a n -> takes b m -> takes (a ++ b) (n + m).
Proof. intros a b n m [A1 A2] [B1 B2]. split; [rewrite columns_app, A2|rewrite after_app, A2]; auto. Qed.
Lemma takes_spaces : forall n, takes [Bytes (spaces n)] n.
Proof. intros n. destruct (spaces_visible n) as [A B]. split; cbn [columns after]; [lia|auto]. Qed.
Lemma takes_boxes : forall d i n, takes (repeat (Box d i) n) n.
Proof. induction n as [|n [A B]]; [apply takes_nil|]. split; cbn [repeat columns after]; auto. Qed.
Lemma takes_hline : forall b w, takes (hline b w) w.
Proof. intros [] w; [apply takes_spaces|apply takes_boxes|apply takes_boxes]. Qed.
Lemma takes_vline : forall b, takes [vline b] 1.
Proof. intros []; split; reflexivity. Qed.
Lemma takes_text : forall l a b, tidy Plain l -> takes [Bytes (spaces a); Bytes l; Bytes (spaces b)] (a + visible false l + b) /\ takes [Bytes (spaces a ++ l)] (a + visible false l) /\ takes [Bytes (l ++ spaces b)] (visible false l + b).
Proof.
  intros l a b T. pose proof (tidy_closed _ _ T) as C. cbv iota in C. destruct (spaces_visible a) as [A1 A2]. destruct (spaces_visible b) as [B1 B2]. unfold takes. cbn [columns after].
  rewrite !visible_app, !escaped_app, A1, A2, C, B1, B2. repeat split; auto; lia.
Qed.
Lemma visible_length : forall s e, visible e s <= List.length s.
Proof. induction s as [|c s IH]; intros e; cbn [visible List.length]; auto. destruct e; [specialize (IH (negb (ceqb c "m")))|destruct (ceqb c ESC); [specialize (IH true)|specialize (IH false)]]; lia. Qed.

(** ** Cells *)
Definition fits (c : cell) (w : nat) : Prop := forall s l, c_text c = Some s -> In l (text_lines s) -> visible false l <= w.
Lemma print_text_takes : forall t c0 p dh dv line w h, base t c0 = Ok p -> text_ok p -> fits p w -> exists segs, print_text t c0 dh dv line w h = Ok segs /\ takes segs w.
Proof.
  intros t c0 p dh dv line w h B T F. unfold print_text. rewrite B. cbn [rbind]. cbv zeta.
  set (actual := match get_v_align t dv p with VTop => _ | _ => _ end).
  assert (Bl : takes [blank (Z.of_nat w)] w). { unfold blank. rewrite Z.abs_eq, Nat2Z.id by lia. apply takes_spaces. }
  destruct (0 <=? actual)%Z; [|eauto]. destruct (c_text p) as [s|] eqn:Et; [|eauto]. destruct T as (Ti & _). rewrite Et in Ti. pose proof (tidy_lines s (Z.to_nat actual) Ti) as H.
  destruct (nth_error (text_lines s) (Z.to_nat actual)) as [l|] eqn:El; [|rewrite H; eauto]. destruct H as (r & H1 & H2 & H3 & H4). rewrite H1, H4, H2. cbn [rbind].
  specialize (F s l Et (nth_error_In _ _ El)). pose proof (visible_length l false) as VL.
  assert (Ad : Z.to_nat (Z.abs (Z.of_nat w + Z.of_nat (List.length l) - Z.of_nat (visible false l))) - List.length l = w - visible false l) by lia.
  destruct (get_h_align t dh p).
  - eexists. split; [reflexivity|]. unfold padded. cbn [orb]. rewrite Ad. destruct (takes_text l 0 (w - visible false l) H3) as (_ & _ & X). replace w with (visible false l + (w - visible false l)) at 2 by lia. exact X.
  - eexists. split; [reflexivity|]. unfold padded. cbn [orb]. replace (_ <? 0)%Z with false by (symmetry; apply Z.ltb_ge; lia). rewrite Ad. destruct (takes_text l (w - visible false l) 0 H3) as (_ & X & _). replace w with (w - visible false l + visible false l) at 2 by lia. exact X.
  - eexists. split; [reflexivity|]. unfold blank. set (f := (Z.of_nat w - Z.of_nat (visible false l))%Z). assert (Hf : (0 <= f)%Z) by lia.
    set (a := Z.to_nat (Z.abs (Z.quot f 2))). set (b := Z.to_nat (Z.abs _)). destruct (takes_text l a b H3) as (X & _). replace w with (a + visible false l + b); auto. unfold a, b.
    rewrite Z.quot_div_nonneg, Z.rem_mod_nonneg by lia. pose proof (Z.div_mod f 2 ltac:(lia)). pose proof (Z.mod_pos_bound f 2 ltac:(lia)). destruct (Z.eqb_spec (f mod 2) 0); rewrite !Z.abs_eq by lia; lia.
Qed.

(** ** Sums *)
Lemma how_many_step : forall p from to, from < to -> how_many p from to = (if p from then 1 else 0) + how_many p (S from) to.
Proof. intros p from to H. unfold how_many. destruct (to - from) as [|k] eqn:E; [lia|]. replace (to - S from) with k by lia. cbn [List.seq filter]. destruct (p from); reflexivity. Qed.
Lemma how_many_none : forall p from to, to <= from -> how_many p from to = 0.
Proof. intros p from to H. unfold how_many. replace (to - from) with 0 by lia. reflexivity. Qed.
Lemma how_many_split : forall p a b c, a <= b <= c -> how_many p a c = how_many p a b + how_many p b c.
Proof. intros p a b c H. unfold how_many. replace (c - a) with ((b - a) + (c - b)) by lia. rewrite seq_app, filter_app, app_length. replace (a + (b - a)) with b by lia. reflexivity. Qed.
Lemma total_split : forall w a b c, a <= b <= c -> total w a c = total w a b + total w b c.
Proof. intros w a b c H. unfold total. replace (c - a) with ((b - a) + (c - b)) by lia. rewrite seq_app, map_app, fold_right_app. replace (a + (b - a)) with b by lia. generalize (fold_right Nat.add 0 (map (fun j => nth j w 0) (List.seq b (c - b)))) as k. intros k. induction (map (fun j => nth j w 0) (List.seq a (b - a))); cbn [fold_right]; auto. rewrite IHl. lia. Qed.
Lemma how_many_shift : forall p a b, a <= b -> p a = p b -> how_many (fun j => p (S j)) a b = how_many p a b.
Proof.
  intros p a b L E. assert (G : forall n a, how_many (fun j => p (S j)) a (a + n) + (if p a then 1 else 0) = how_many p a (a + n) + (if p (a + n) then 1 else 0)).
  { induction n as [|n IH]; intros a0. - rewrite Nat.add_0_r, !how_many_none by lia. reflexivity. - rewrite !(how_many_step _ a0 (a0 + S n)) by lia. specialize (IH (S a0)). replace (S a0 + n) with (a0 + S n) in IH by lia. lia. }
  specialize (G (b - a) a). replace (a + (b - a)) with b in G by lia. rewrite E in G. lia.
Qed.
Lemma has_vline_at : forall t j, j < List.length (t_counts t) -> exists n, nth_error (t_counts t) j = Some n /\ has_vline t j = (0 <? n).
Proof. intros t j H. unfold has_vline. destruct (nth_error (t_counts t) j) as [n|] eqn:E; [eauto|]. apply nth_error_None in E. lia. Qed.
Lemma at_ok : forall A (l : list A) n (d : A), n < List.length l -> at_ l n = Ok (nth n l d).
Proof. intros A l n d H. unfold at_. rewrite (nth_error_nth' l d) by auto. reflexivity. Qed.

Lemma add_widths_ok : forall t ws x n i0, List.length (t_counts t) = TABLE_MAX_COLS -> x + i0 + n <= List.length ws -> (0 < n -> 1 < i0 + n -> x + i0 + n < TABLE_MAX_COLS) ->
  add_widths t ws x (List.seq i0 n) = Ok (total ws (x + i0) (x + i0 + n) + how_many (fun j => has_vline t (S j)) (x + (if i0 =? 0 then 1 else i0)) (x + i0 + n)).
Proof.
  intros t ws x. induction n as [|n IH]; intros i0 Lc Lw M; cbn [List.seq add_widths].
  - rewrite total_none, how_many_none by (destruct (Nat.eqb_spec i0 0); lia). reflexivity.
  - assert (Eb : (if i0 =? 0 then Ok 0 else n <- at_ (t_counts t) (x + i0 + 1) ;; Ok (if 0 <? n then 1 else 0)) = Ok (if i0 =? 0 then 0 else if has_vline t (S (x + i0)) then 1 else 0)).
    { destruct (Nat.eqb_spec i0 0); auto. destruct (has_vline_at t (S (x + i0))) as (k & K1 & K2); [rewrite Lc; specialize (M ltac:(lia) ltac:(lia)); lia|]. unfold at_. replace (x + i0 + 1) with (S (x + i0)) by lia. rewrite K1, K2. reflexivity. }
    rewrite Eb. cbn [rbind]. rewrite (at_ok _ ws (x + i0) 0) by lia. cbn [rbind]. rewrite IH; auto; [|lia|intros; specialize (M ltac:(lia) ltac:(lia)); lia]. cbn [rbind Nat.eqb]. f_equal.
    replace (x + S i0 + n) with (x + i0 + S n) by lia. rewrite (total_step ws (x + i0)) by lia. replace (x + S i0) with (S (x + i0)) by lia. destruct (Nat.eqb_spec i0 0) as [->|N].
    + replace (S (x + 0)) with (x + 1) by lia. lia.
    + rewrite (how_many_step _ (x + i0)) by lia. lia.
Qed.
Lemma add_heights_ok : forall t hs y n i0, y + i0 + n <= List.length hs -> y + i0 + n <= num_rows t -> exists k, add_heights t hs y (List.seq i0 n) = Ok k.
Proof.
  intros t hs y. induction n as [|n IH]; intros i0 Lh Lr; cbn [List.seq add_heights]; [eauto|].
  assert (Eb : exists b, (if i0 =? 0 then Ok 0 else r <- at_ (t_rows t) (y + i0) ;; Ok (if 0 <? r_count r then 1 else 0)) = Ok b).
  { destruct (i0 =? 0); [eauto|]. rewrite (at_ok _ (t_rows t) (y + i0) (malloc_row 0)) by (unfold num_rows in Lr; lia). cbn [rbind]. eauto. }
  destruct Eb as (b & ->). cbn [rbind]. rewrite (at_ok _ hs (y + i0) 0) by lia. cbn [rbind]. destruct (IH (S i0)) as (k & ->); [lia|lia|]. cbn [rbind]. eauto.
Qed.

(** ** Lines *)
(** Every cell without a parent has room for its text, with the borders inside it as printing counts them. *)
Definition roomy (t : table) (ws : list nat) : Prop := forall y x c, getc t y x = Some c -> c_parent c = None -> x < t_cols t ->
  (1 < c_sx c -> x + c_sx c < TABLE_MAX_COLS /\ has_vline t (S x) = has_vline t (x + c_sx c)) /\
  fits c (total ws x (x + c_sx c) + how_many (has_vline t) (S x) (x + c_sx c)).
Record printable (t : table) (ws hs : list nat) : Prop := { pr_wf : wf t; pr_ws : List.length ws = t_cols t; pr_hs : List.length hs = num_rows t; pr_room : roomy t ws }.

Lemma in_cols : forall t y x c, wf t -> getc t y x = Some c -> c_parent c = None -> x < t_cols t -> x + c_sx c <= t_cols t.
Proof. intros t y x c [_ L] H P X. destruct (L _ _ _ H) as (_ & _ & _ & _ & O). unfold owned in O. rewrite P in O. destruct O as (_ & _ & _ & [[O _]|O] & _); lia. Qed.
Lemma cell_takes : forall t ws hs y x c dh dv l, printable t ws hs -> getc t y x = Some c -> fst (owner c) = x -> x < t_cols t ->
  exists p w h segs, base t c = Ok p /\ get_total_width t ws c = Ok w /\ get_total_height t hs c = Ok h /\ print_text t c dh dv l w h = Ok segs /\ get_span_x t c = Ok (c_sx p) /\ 1 <= c_sx p /\ x + c_sx p <= t_cols t
  /\ takes segs (total ws x (x + c_sx p) + how_many (has_vline t) (S x) (x + c_sx p)).
Proof.
  intros t ws hs y x c dh dv l [W Lw Lh R] H St X. destruct (owner_ok _ _ _ _ W H) as (p & B & G & P & P1 & P2 & P3 & P4). rewrite St in *. destruct (R _ _ _ G P X) as [R1 R2]. pose proof (in_cols _ _ _ _ W G P X) as Ic.
  assert (K : how_many (fun j => has_vline t (S j)) (x + 1) (x + c_sx p) = how_many (has_vline t) (S x) (x + c_sx p)).
  { replace (x + 1) with (S x) by lia. destruct (Nat.eq_dec (c_sx p) 1) as [->|N]; [rewrite !how_many_none by lia; reflexivity|]. apply how_many_shift; [lia|]. destruct R1 as [_ R1]; [lia|exact R1]. }
  assert (Aw : add_widths t ws x (List.seq 0 (c_sx p)) = Ok (total ws x (x + c_sx p) + how_many (has_vline t) (S x) (x + c_sx p))).
  { rewrite add_widths_ok; [|apply sh_counts, W|lia|intros A B'; destruct R1; lia]. cbn [Nat.eqb]. rewrite Nat.add_0_r, K. reflexivity. }
  destruct W as [Sh L]. destruct (L _ _ _ G) as (_ & _ & T & _ & O). unfold owned in O. rewrite P in O. destruct O as (_ & _ & O & _).
  destruct (add_heights_ok t hs (c_y p) (c_sy p) 0) as (h & Ah); [rewrite P2; lia|rewrite P2; lia|].
  destruct (print_text_takes t c p dh dv l _ h B T R2) as (segs & S1 & S2).
  exists p, (total ws x (x + c_sx p) + how_many (has_vline t) (S x) (x + c_sx p)), h, segs. split; auto. split; [unfold get_total_width; rewrite B; cbn [rbind]; rewrite P1; exact Aw|]. split; [unfold get_total_height; rewrite B; exact Ah|]. split; auto. split; [unfold get_span_x; rewrite B; reflexivity|]. split; [lia|]. split; auto.
Qed.
Definition bars (t : table) (x : nat) : nat := if has_vline t x then 1 else 0.
Lemma row_cell : forall t y r x, nth_error (t_rows t) y = Some r -> nth_error (r_cells r) x = getc t y x.
Proof. intros t y r x H. unfold getc. rewrite H. reflexivity. Qed.
Lemma content_takes : forall t ws hs y r, printable t ws hs -> nth_error (t_rows t) y = Some r ->
  forall fuel k lines, t_cols t - k <= fuel -> k <= t_cols t -> List.length lines = t_cols t -> starts t y k ->
  exists line lines', content_loop t ws hs fuel r lines k = Done (Ok (line, lines')) /\ takes line (total ws k (t_cols t) + how_many (has_vline t) k (t_cols t)) /\ List.length lines' = t_cols t.
Proof.
  intros t ws hs y r Pr Hr. pose proof (pr_wf _ _ _ Pr) as W. pose proof W as [Sh L]. assert (Hy : y < num_rows t) by (apply nth_error_Some; congruence). pose proof (sh_cols t Sh) as Hc.
  induction fuel as [|f IH]; intros k lines F K Ll St; cbn [content_loop].
  - exists [], lines. rewrite total_none, how_many_none by lia. split; auto. split; auto. apply takes_nil.
  - destruct (Nat.ltb_spec k (t_cols t)) as [Lt|Ge]; [|exists [], lines; rewrite total_none, how_many_none by lia; split; auto; split; auto; apply takes_nil].
    destruct (getc_some t y k Sh Hy ltac:(lia)) as (c & Hk). unfold at_ at 1. rewrite (row_cell _ _ _ _ Hr), Hk. cbn [lift then_].
    destruct (has_vline_at t k) as (n & N1 & N2); [rewrite (sh_counts t Sh); lia|]. unfold at_ at 1. rewrite N1. cbn [rbind]. rewrite (at_ok _ (t_left t) k BNone) by (rewrite (sh_left t Sh); lia). cbn [rbind lift then_]. rewrite <- N2.
    rewrite (at_ok _ (t_h t) k HLeft) by (rewrite (sh_h t Sh); lia). rewrite (at_ok _ (t_v t) k VTop) by (rewrite (sh_v t Sh); lia). rewrite (at_ok _ lines k 0) by lia. cbn [rbind].
    destruct (cell_takes t ws hs y k c (nth k (t_h t) HLeft) (nth k (t_v t) VTop) (nth k lines 0) Pr Hk (St c Hk) Lt) as (p & w & h & segs & B & E1 & E2 & E3 & E4 & E5 & E6 & E7).
    rewrite E1. cbn [rbind]. rewrite E2. cbn [rbind]. rewrite E3. cbn [lift then_]. rewrite E4. cbn [lift then_]. destruct (c_sx p) as [|sx] eqn:Es; [lia|].
    destruct (IH (k + S sx) (update k S lines)) as (rest & lines' & I1 & I2 & I3); [lia|lia|rewrite update_length; auto| |].
    { rewrite <- Es. eapply starts_next; eauto. }
    rewrite I1. cbn [then_]. eexists _, lines'. split; [reflexivity|]. split; auto.
    replace (total ws k (t_cols t) + how_many (has_vline t) k (t_cols t)) with (bars t k + ((total ws k (k + S sx) + how_many (has_vline t) (S k) (k + S sx)) + (total ws (k + S sx) (t_cols t) + how_many (has_vline t) (k + S sx) (t_cols t)))).
    2:{ rewrite (total_split ws k (k + S sx) (t_cols t)), (how_many_step _ k), (how_many_split _ (S k) (k + S sx) (t_cols t)) by lia. unfold bars. lia. }
    apply takes_app; [|apply takes_app; auto]. unfold bars. destruct (has_vline t k); [apply takes_vline|apply takes_nil].
Qed.
Lemma border_takes : forall t ws hs y r above, printable t ws hs -> nth_error (t_rows t) y = Some r ->
  forall fuel k lines, t_cols t - k <= fuel -> k <= t_cols t -> List.length lines = t_cols t -> begins t y k ->
  exists line lines', border_loop t ws hs fuel above r lines k = Done (Ok (line, lines')) /\ takes line (total ws k (t_cols t) + how_many (has_vline t) k (t_cols t)) /\ List.length lines' = t_cols t.
Proof.
  intros t ws hs y r above Pr Hr. pose proof (pr_wf _ _ _ Pr) as W. pose proof W as [Sh L]. assert (Hy : y < num_rows t) by (apply nth_error_Some; congruence). pose proof (sh_cols t Sh) as Hc. pose proof (pr_ws _ _ _ Pr) as Lw.
  induction fuel as [|f IH]; intros k lines F K Ll St; cbn [border_loop].
  - exists [], lines. rewrite total_none, how_many_none by lia. split; auto. split; auto. apply takes_nil.
  - destruct (Nat.ltb_spec k (t_cols t)) as [Lt|Ge]; [|exists [], lines; rewrite total_none, how_many_none by lia; split; auto; split; auto; apply takes_nil].
    destruct (getc_some t y k Sh Hy ltac:(lia)) as (c & Hk). unfold at_ at 1. rewrite (row_cell _ _ _ _ Hr), Hk. cbn [lift then_].
    destruct (has_vline_at t k) as (n & N1 & N2); [rewrite (sh_counts t Sh); lia|]. unfold at_ at 1. rewrite N1. cbn [rbind]. rewrite (at_ok _ (t_left t) k BNone) by (rewrite (sh_left t Sh); lia). cbn [rbind lift then_]. rewrite <- N2.
    set (cross := if has_vline t k then [intersection _ _ _ _ _] else []). assert (Cr : takes cross (bars t k)) by (unfold cross, bars; destruct (has_vline t k); [split; reflexivity|apply takes_nil]). clearbody cross.
    rewrite (at_ok _ ws k 0) by lia. cbn [lift then_].
    assert (One : snd (owner c) = y -> exists line lines', then_ (border_loop t ws hs f above r lines (S k)) (fun '(rest, lines') => Done (Ok (cross ++ hline (get_border_above (r_above r) c) (nth k ws 0) ++ rest, lines'))) = Done (Ok (line, lines'))
       /\ takes line (total ws k (t_cols t) + how_many (has_vline t) k (t_cols t)) /\ List.length lines' = t_cols t).
    { intros Oy. destruct (IH (S k) lines) as (rest & lines' & I1 & I2 & I3); [lia|lia|auto|eapply begins_one; eauto|]. rewrite I1. cbn [then_]. eexists _, lines'. split; [reflexivity|]. split; auto.
      replace (total ws k (t_cols t) + how_many (has_vline t) k (t_cols t)) with (bars t k + (nth k ws 0 + (total ws (S k) (t_cols t) + how_many (has_vline t) (S k) (t_cols t)))).
      2:{ rewrite (total_step ws k), (how_many_step _ k) by lia. unfold bars. lia. }
      apply takes_app; auto. apply takes_app; auto. apply takes_hline. }
    pose proof (L _ _ _ Hk) as (_ & Yc & _ & _ & _). pose proof (owner_ok _ _ _ _ W Hk) as (p & B & G & P & P1 & P2 & P3 & P4). unfold owner in One, G, P1, P2. pose proof B as B0. unfold base in B0. destruct (c_parent c) as [[px py]|] eqn:Pc; cbn [fst snd] in *; [|apply One; auto].
    destruct (Nat.eqb_spec py (c_y c)) as [Ep|Ep]; [apply One; congruence|]. rewrite B0. cbn [lift then_].
    assert (Px : px = k). { specialize (St c Hk). unfold owner in St. rewrite Pc in St. cbn [fst snd] in St. apply St. congruence. } rewrite Px in *. clear Px px.
    rewrite (at_ok _ (t_h t) k HLeft) by (rewrite (sh_h t Sh); lia). rewrite (at_ok _ (t_v t) k VTop) by (rewrite (sh_v t Sh); lia). rewrite (at_ok _ lines k 0) by lia. cbn [rbind].
    assert (Fp : fst (owner p) = k) by (unfold owner; rewrite P; exact P1).
    destruct (cell_takes t ws hs py k p (nth k (t_h t) HLeft) (nth k (t_v t) VTop) (nth k lines 0) Pr G Fp Lt) as (p' & w & h & segs & Bp & E1 & E2 & E3 & E4 & E5 & E6 & E7).
    unfold base in Bp. rewrite P in Bp. inversion Bp; subst p'. rewrite E1. cbn [rbind]. rewrite E2. cbn [rbind]. rewrite E3. cbn [lift then_]. destruct (c_sx p) as [|sx] eqn:Es; [lia|].
    destruct (IH (k + S sx) (update k S lines)) as (rest & lines' & I1 & I2 & I3); [lia|lia|rewrite update_length; auto| |].
    { rewrite <- Es. eapply begins_next; eauto. unfold owner. rewrite Pc. cbn [snd]. congruence. }
    rewrite I1. cbn [then_]. eexists _, lines'. split; [reflexivity|]. split; auto.
    replace (total ws k (t_cols t) + how_many (has_vline t) k (t_cols t)) with (bars t k + ((total ws k (k + S sx) + how_many (has_vline t) (S k) (k + S sx)) + (total ws (k + S sx) (t_cols t) + how_many (has_vline t) (k + S sx) (t_cols t)))).
    2:{ rewrite (total_split ws k (k + S sx) (t_cols t)), (how_many_step _ k), (how_many_split _ (S k) (k + S sx) (t_cols t)) by lia. unfold bars. lia. }
    apply takes_app; auto. apply takes_app; auto.
Qed.
Lemma lines_take : forall t ws hs y r, printable t ws hs -> nth_error (t_rows t) y = Some r -> forall n lines, List.length lines = t_cols t ->
  exists out lines', content_lines t ws hs n r lines = Done (Ok (out, lines')) /\ Forall (fun l => takes l (table_width t ws)) out /\ List.length out = n /\ List.length lines' = t_cols t.
Proof.
  intros t ws hs y r Pr Hr. induction n as [|n IH]; intros lines Ll; cbn [content_lines]; [eexists _, _; split; [reflexivity|auto]|].
  destruct (content_takes t ws hs y r Pr Hr (t_cols t) 0 lines) as (line & l1 & C1 & C2 & C3); [lia|lia|auto|apply starts_zero, (pr_wf _ _ _ Pr)|]. rewrite C1. cbn [then_]. destruct (IH l1 C3) as (out & l2 & I1 & I2 & I3 & I4). rewrite I1. cbn [then_].
  eexists _, l2. split; [reflexivity|]. split; [constructor; auto|]. cbn [List.length]. auto.
Qed.
Lemma restart_length : forall r lines n, List.length (r_cells r) = TABLE_MAX_COLS -> List.length lines = n -> n <= TABLE_MAX_COLS -> List.length (restart r lines) = n.
Proof. intros. unfold restart. rewrite map_length, combine_length. lia. Qed.
Lemma skipn_head : forall l y h hs, skipn y l = h :: hs -> h = nth y l 0 /\ hs = skipn (S y) l.
Proof.
  induction l as [|a l IH]; intros y h hs H; destruct y as [|y]; cbn [skipn nth] in *; try discriminate; [inversion H; auto|]. apply IH in H. exact H.
Qed.
Lemma rows_take : forall t ws hs, printable t ws hs -> forall rs y prev lines, t_rows t = firstn y (t_rows t) ++ rs -> y + List.length rs = num_rows t -> List.length lines = t_cols t ->
  exists out, print_rows t ws hs prev rs (skipn y hs) lines = Done (Ok out) /\ Forall (fun l => takes l (table_width t ws)) out /\ List.length out = total hs y (num_rows t) + how_many (has_hline t) y (num_rows t).
Proof.
  intros t ws hs Pr. pose proof (pr_wf _ _ _ Pr) as W. pose proof W as [Sh L]. pose proof (pr_hs _ _ _ Pr) as Lh. induction rs as [|r rs IH]; intros y prev lines E N Ll; cbn [List.length] in N.
  - cbn [print_rows]. exists []. rewrite total_none, how_many_none by lia. destruct (skipn y hs); auto.
  - destruct (skipn y hs) as [|h hs'] eqn:Eh. { apply (f_equal (@List.length nat)) in Eh. rewrite skipn_length in Eh. cbn [List.length] in Eh. lia. } cbn [print_rows].
    assert (Hr : nth_error (t_rows t) y = Some r). { rewrite E. rewrite nth_error_app2 by (rewrite firstn_length; lia). rewrite firstn_length. unfold num_rows in N. replace (y - Nat.min y (List.length (t_rows t))) with 0 by lia. reflexivity. }
    destruct (skipn_head _ _ _ _ Eh) as [Hh Hs].
    assert (Hl : has_hline t y = (0 <? r_count r)) by (unfold has_hline; rewrite Hr; reflexivity).
    assert (Top : exists top l1, (if 0 <? r_count r then then_ (border_loop t ws hs (t_cols t) prev r lines 0) (fun '(line, l) => Done (Ok ([line], l))) else Done (Ok ([], lines))) = Done (Ok (top, l1))
      /\ Forall (fun l => takes l (table_width t ws)) top /\ List.length top = (if has_hline t y then 1 else 0) /\ List.length l1 = t_cols t).
    { rewrite Hl. destruct (0 <? r_count r); [|eexists _, _; split; [reflexivity|auto]]. destruct (border_takes t ws hs y r prev Pr Hr (t_cols t) 0 lines) as (line & l1 & C1 & C2 & C3); [lia|lia|auto|apply begins_zero; auto|]. rewrite C1. cbn [then_]. eexists _, l1. split; [reflexivity|]. auto. }
    destruct Top as (top & l1 & T1 & T2 & T3 & T4). rewrite T1. cbn [then_].
    destruct (lines_take t ws hs y r Pr Hr h (restart r l1)) as (body & l2 & B1 & B2 & B3 & B4). { apply restart_length; auto; [eapply nth_rows; eauto|apply (sh_cols t Sh)]. } rewrite B1. cbn [then_].
    destruct (IH (S y) (Some r) l2) as (rest & R1 & R2 & R3); [|lia|auto|].
    { rewrite E at 1. rewrite E at 2. rewrite firstn_app. assert (Lf : List.length (firstn y (t_rows t)) = y) by (rewrite firstn_length; unfold num_rows in N; lia). rewrite Lf. rewrite (@firstn_all2 _ (S y) (firstn y (t_rows t))) by lia. replace (S y - y) with 1 by lia. cbn [firstn]. rewrite <- app_assoc. reflexivity. }
    rewrite Hs, R1. cbn [then_]. eexists. split; [reflexivity|]. split; [apply Forall_app; split; [exact T2|apply Forall_app; split; [exact B2|exact R2]]|].
    rewrite !app_length, T3, B3, R3, (total_step hs y), (how_many_step _ y), Hh by lia. lia.
Qed.

(** ** Widths and heights *)
Lemma in_combine_seq : forall A (l : list A) n k i c, In (i, c) (combine (List.seq k n) l) <-> k <= i < k + n /\ nth_error l (i - k) = Some c.
Proof.
  induction l as [|a l IH]; intros n k i c.
  - destruct n; cbn [List.seq combine]; (split; [intros []|intros [_ H]; destruct (i - k); discriminate]).
  - destruct n as [|n]; cbn [List.seq combine In]; [split; [intros []|lia]|]. rewrite IH. split.
    + intros [H|[R H]]; [inversion H; subst; rewrite Nat.sub_diag; split; [lia|reflexivity]|]. split; [lia|]. replace (i - k) with (S (i - S k)) by lia. exact H.
    + intros [R H]. destruct (Nat.eq_dec i k) as [->|N]; [rewrite Nat.sub_diag in H; inversion H; auto|]. right. split; [lia|]. replace (i - k) with (S (i - S k)) in H by lia. exact H.
Qed.
Lemma in_places : forall t y x c, In (y, x, c) (places t) <-> getc t y x = Some c /\ constrained c = true /\ x < t_cols t.
Proof.
  intros t y x c. unfold places. rewrite in_concat. split.
  - intros (l & Hl & Hc). apply in_map_iff in Hl. destruct Hl as ([y' r] & <- & Hr). apply in_combine_seq in Hr. destruct Hr as [R Hr]. rewrite Nat.sub_0_r in Hr. unfold row_places in Hc. apply in_map_iff in Hc. destruct Hc as ([x' c'] & E & Hc). inversion E; subst y' x' c'.
    apply filter_In in Hc. destruct Hc as [Hc K]. apply in_combine_seq in Hc. destruct Hc as [Rx Hc]. rewrite Nat.sub_0_r in Hc. unfold getc. rewrite Hr. repeat split; auto. lia.
  - intros (G & K & X). unfold getc in G. destruct (nth_error (t_rows t) y) as [r|] eqn:Hr; [|discriminate]. exists (row_places (t_cols t) y r). split.
    + apply in_map_iff. exists (y, r). split; auto. apply in_combine_seq. rewrite Nat.sub_0_r. split; auto. assert (y < num_rows t) by (apply nth_error_Some; congruence). lia.
    + unfold row_places. apply in_map_iff. exists (x, c). split; auto. apply filter_In. split; auto. apply in_combine_seq. rewrite Nat.sub_0_r. split; auto. lia.
Qed.
Lemma weaken_spec : forall l m, weaken m l = m - List.length (filter (fun b => b) l).
Proof. induction l as [|b l IH]; intros m; destruct m as [|m]; cbn [weaken filter List.length]; auto. rewrite IH. destruct b; cbn [List.length]; lia. Qed.
Lemma filter_map_id : forall (p : nat -> bool) l, List.length (filter (fun b => b) (map p l)) = List.length (filter p l).
Proof. induction l as [|x l IH]; cbn [map filter]; auto. destruct (p x); cbn [List.length]; auto. Qed.
Lemma k_min_width : forall t x c, k_min (width_constraint t x c) = c_width c - how_many (has_vline t) (S x) (x + c_sx c).
Proof. intros. unfold width_constraint, how_many. cbn [k_min]. rewrite weaken_spec, filter_map_id. replace (x + c_sx c - S x) with (c_sx c - 1) by lia. reflexivity. Qed.
Lemma k_min_height : forall t y c, y + c_sy c <= num_rows t -> k_min (height_constraint t y c) = c_height c - how_many (has_hline t) (S y) (y + c_sy c).
Proof. intros t y c H. unfold height_constraint, how_many. cbn [k_min]. rewrite weaken_spec, filter_map_id. replace (y + c_sy c - S y) with (Nat.min (c_sy c - 1) (num_rows t - S y)) by lia. reflexivity. Qed.
Lemma dims_satisfied : forall t ws hs, get_dimensions t = Ok (ws, hs) -> List.length ws = t_cols t /\ List.length hs = num_rows t /\
  forall y x c, In (y, x, c) (places t) ->
    (1 <= c_sx c -> c_width c <= total ws x (x + c_sx c) + how_many (has_vline t) (S x) (x + c_sx c)) /\
    (1 <= c_sy c -> c_height c <= total hs y (y + c_sy c) + how_many (has_hline t) (S y) (y + c_sy c)).
Proof.
  intros t ws hs H. unfold get_dimensions in H. set (kw := map (fun '(_, i, c) => width_constraint t i c) (places t)) in *. set (kh := map (fun '(y, _, c) => height_constraint t y c) (places t)) in *. cbv zeta in H.
  destruct (forallb (fun k => k_to k <=? t_cols t) kw && forallb (fun k => k_to k <=? num_rows t) kh) eqn:E; [|discriminate]. apply andb_true_iff in E. destruct E as [Ew Eh]. rewrite forallb_forall in Ew, Eh. inversion H; subst ws hs. clear H.
  destruct (all_satisfied kw (repeat 0 (t_cols t))) as [[Lw _] Sw]. { apply Forall_forall. intros k I. rewrite repeat_length. specialize (Ew k I). apply Nat.leb_le in Ew. split; auto. unfold kw in I. apply in_map_iff in I. destruct I as ([[y x] c] & <- & _). cbn. lia. }
  destruct (all_satisfied kh (repeat 0 (num_rows t))) as [[Lh _] Sw']. { apply Forall_forall. intros k I. rewrite repeat_length. specialize (Eh k I). apply Nat.leb_le in Eh. split; auto. unfold kh in I. apply in_map_iff in I. destruct I as ([[y x] c] & <- & _). cbn. lia. }
  rewrite repeat_length in Lw, Lh. split; auto. split; auto. intros y x c I. split; intros G.
  - assert (K : In (width_constraint t x c) kw) by (unfold kw; apply in_map_iff; exists (y, x, c); auto). specialize (Sw _ K). rewrite k_min_width in Sw. cbn [k_from k_to width_constraint] in Sw. specialize (Sw ltac:(lia)). lia.
  - assert (K : In (height_constraint t y c) kh) by (unfold kh; apply in_map_iff; exists (y, x, c); auto). specialize (Sw' _ K). specialize (Eh _ K). apply Nat.leb_le in Eh. cbn [k_to height_constraint] in Eh. rewrite k_min_height in Sw' by auto. cbn [k_from k_to height_constraint] in Sw'. specialize (Sw' ltac:(lia)). lia.
Qed.
Lemma dims_exist : forall t, wf t -> exists ws hs, get_dimensions t = Ok (ws, hs).
Proof.
  intros t W. unfold get_dimensions. cbv zeta. match goal with |- context [if ?b then _ else _] => replace b with true end; [eauto|]. symmetry. apply andb_true_iff. rewrite !forallb_forall. split; intros k I; apply in_map_iff in I; destruct I as ([[y x] c] & <- & I); apply in_places in I; destruct I as (G & K & X); apply Nat.leb_le; cbn.
  - unfold constrained in K. destruct (c_parent c) eqn:P; [rewrite andb_false_r in K; discriminate|]. eapply in_cols; eauto.
  - unfold constrained in K. destruct (c_parent c) eqn:P; [rewrite andb_false_r in K; discriminate|]. destruct W as [_ L]. destruct (L _ _ _ G) as (_ & _ & _ & _ & O). unfold owned in O. rewrite P in O. tauto.
Qed.

(** ** Printing a table *)
Lemma fits_width : forall c w, text_ok c -> c_width c <= w -> fits c w.
Proof. intros c w (T & W & _) L s l E I. rewrite E in *. destruct (width_ok s T) as (w' & A & B & _). rewrite A in W. inversion W; subst. specialize (B l I). lia. Qed.
Definition bare (t : table) : Prop := forall y x c, getc t y x = Some c -> overridden (c_left c) = BNone.
(** Only lines of single cells changed *)
Definition retouched (t t' : table) : Prop := wf t' /\ alike (getc t) (getc t') /\ t_cols t' = t_cols t /\ num_rows t' = num_rows t /\ (bare t -> bare t' /\ t_counts t' = t_counts t).
Lemma retouched_refl : forall t, wf t -> retouched t t.
Proof. intros t W. split; auto. split; [intros y x; reflexivity|auto]. Qed.
Lemma retouched_trans : forall a b c, retouched a b -> retouched b c -> retouched a c.
Proof.
  intros a b c (A1 & A2 & A3 & A4 & A5) (B1 & B2 & B3 & B4 & B5). split; auto. split; [eapply alike_trans; eauto|]. split; [congruence|]. split; [congruence|]. intros H. destruct (A5 H) as [K1 K2]. destruct (B5 K1) as [K3 K4]. split; auto. congruence.
Qed.
Lemma curr_exists : forall t, wf t -> t_col t < TABLE_MAX_COLS -> exists c, curr_cell t = Ok c /\ getc t (t_row t) (t_col t) = Some c.
Proof. intros t [Sh L] H. destruct (getc_some t (t_row t) (t_col t) Sh (sh_row t Sh) H) as (c & E). exists c. split; auto. unfold curr_cell. rewrite the_cell_getc, E. reflexivity. Qed.
Lemma retouch_position : forall t y x, wf t -> y < num_rows t -> x <= TABLE_MAX_COLS -> retouched t (at_position y x t).
Proof. intros t y x W Y X. split; [apply wf_position; auto|]. split; [intros y' x'; reflexivity|auto]. Qed.
Lemma retouch_one_above : forall t, wf t -> t_col t < TABLE_MAX_COLS -> exists t', override_above_border t BNone = Ok t' /\ retouched t t'.
Proof.
  intros t W C. destruct (curr_exists t W C) as (c & E1 & E2). destruct (override_above_border t BNone) as [t'| |] eqn:E; unfold override_above_border in E; rewrite E1 in E; cbn [rbind] in E; try discriminate. exists t'. split; auto. split; [eapply wf_override_above; [exact W|]; unfold override_above_border; rewrite E1; exact E|].
  apply Ok_inj in E. subst t'. assert (A : alike (getc t) (getc (with_rows (update (t_row t) (count_above (overridden (c_above c)) BNone)) t))). { intros y x. rewrite getc_row. destruct (Nat.eqb_spec y (t_row t)) as [->|]; reflexivity. }
  split; [eapply alike_trans; [exact A|apply alike_set; reflexivity]|]. split; auto. split; [rewrite rows_set; unfold num_rows, with_rows; cbn [t_rows]; apply update_length|]. intros B. split; auto.
  intros y x d G. rewrite getc_set in G. assert (Gr : forall y' x', getc (with_rows (update (t_row t) (count_above (overridden (c_above c)) BNone)) t) y' x' = getc t y' x'). { intros y' x'. rewrite getc_row. destruct (Nat.eqb_spec y' (t_row t)) as [->|]; reflexivity. }
  rewrite !Gr in G. destruct ((y =? t_row t) && (x =? t_col t)); [|eapply B; eauto]. rewrite E2 in G. cbn [option_map] in G. inversion G; subst d. cbn. eapply B; eauto.
Qed.
Lemma retouch_one_left : forall t, wf t -> t_col t < TABLE_MAX_COLS -> exists t', override_left_border t BNone = Ok t' /\ retouched t t'.
Proof.
  intros t W C. destruct (curr_exists t W C) as (c & E1 & E2). destruct (override_left_border t BNone) as [t'| |] eqn:E; unfold override_left_border in E; rewrite E1 in E; cbn [rbind] in E; try discriminate. exists t'. split; auto. split; [eapply wf_override_left; [exact W|]; unfold override_left_border; rewrite E1; exact E|].
  apply Ok_inj in E. subst t'. set (t1 := with_counts _ t). assert (A : alike (getc t) (getc t1)) by (intros y x; reflexivity).
  split; [eapply alike_trans; [exact A|apply alike_set; reflexivity]|]. split; auto. split; [rewrite rows_set; reflexivity|]. intros B. split.
  - intros y x d G. rewrite getc_set in G. change (getc t1) with (getc t) in G. destruct ((y =? t_row t) && (x =? t_col t)); [|eapply B; eauto]. rewrite E2 in G. cbn [option_map] in G. inversion G; subst d. reflexivity.
  - change (t_counts (set_cell (t_row t) (t_col t) (put_left BNone) t1)) with (update (t_col t) (recount (overridden (c_left c)) BNone) (t_counts t)). rewrite (B _ _ _ E2). unfold update. destruct (nth_error (t_counts t) (t_col t)) as [n|] eqn:En; auto.
    change (recount BNone BNone n) with n. rewrite <- (firstn_skipn (t_col t) (t_counts t)) at 3. f_equal. rewrite <- (firstn_skipn (t_col t) (t_counts t)) in En. rewrite nth_error_app2 in En by (rewrite firstn_length; lia). rewrite firstn_length in En.
    assert (t_col t < List.length (t_counts t)) by (destruct W as [Sh _]; rewrite (sh_counts t Sh); auto). replace (t_col t - Nat.min (t_col t) (List.length (t_counts t))) with 0 in En by lia.
    destruct (skipn (t_col t) (t_counts t)) as [|a r] eqn:Es; [discriminate|]. destruct (skipn_head _ _ _ _ Es) as [_ <-]. inversion En. reflexivity.
Qed.
Lemma retouch_above : forall ys t, wf t -> Forall (fun y => y < num_rows t) ys -> 1 <= t_cols t -> exists t', blank_above t ys = Ok t' /\ retouched t t'.
Proof.
  induction ys as [|y ys IH]; intros t W F C; cbn [blank_above]; [exists t; split; auto; apply retouched_refl; auto|]. inversion F as [|? ? Fy F']; subst. pose proof (sh_cols t (proj1 W)) as Hc.
  pose proof (retouch_position t y (t_cols t - 1) W Fy ltac:(lia)) as Rp. destruct (retouch_one_above (at_position y (t_cols t - 1) t)) as (t1 & E1 & R1); [apply Rp|cbn; lia|]. rewrite E1. cbn [rbind].
  pose proof (retouched_trans _ _ _ Rp R1) as R. destruct R as (W1 & A1 & C1 & N1 & B1). destruct (IH t1 W1) as (t2 & E2 & R2); [rewrite N1; auto|lia|]. exists t2. split; auto. eapply retouched_trans; [|exact R2]. split; auto.
Qed.
Lemma retouch_left : forall xs t, wf t -> Forall (fun x => x < TABLE_MAX_COLS) xs -> exists t', blank_left t xs = Ok t' /\ retouched t t'.
Proof.
  induction xs as [|x xs IH]; intros t W F; cbn [blank_left]; [exists t; split; auto; apply retouched_refl; auto|]. inversion F as [|? ? Fx F']; subst.
  pose proof (retouch_position t (t_row t) x W (sh_row t (proj1 W)) ltac:(lia)) as Rp. destruct (retouch_one_left (at_position (t_row t) x t)) as (t1 & E1 & R1); [apply Rp|cbn; lia|]. rewrite E1. cbn [rbind].
  pose proof (retouched_trans _ _ _ Rp R1) as R. destruct (IH t1) as (t2 & E2 & R2); [apply R|auto|]. exists t2. split; auto. eapply retouched_trans; eauto.
Qed.
Lemma superfluous : forall t w h, wf t -> 1 <= t_cols t -> exists t', override_superfluous_lines t w h = Ok t' /\ retouched t t'.
Proof.
  intros t w h W C. unfold override_superfluous_lines. pose proof (sh_cols t (proj1 W)) as Hc.
  assert (One : exists t1, (if w =? 0 then blank_above t (List.seq 0 (num_rows t)) else Ok (at_position (num_rows t - 1) (t_col t) t)) = Ok t1 /\ retouched t t1).
  { destruct (w =? 0); [apply retouch_above; auto; apply Forall_forall; intros y I; apply in_seq in I; lia|]. eexists. split; [reflexivity|]. pose proof (sh_row t (proj1 W)). apply retouch_position; auto; [lia|]. apply (sh_col t (proj1 W)). }
  destruct One as (t1 & E1 & R1). rewrite E1. cbn [rbind]. destruct (h =? 0); [|eauto]. destruct (retouch_left (List.seq 0 (t_cols t1)) t1) as (t2 & E2 & R2).
  - apply R1. - apply Forall_forall. intros x I. apply in_seq in I. destruct R1 as (_ & _ & C1 & _). lia. - exists t2. split; auto. eapply retouched_trans; eauto.
Qed.
(** Borders inside a spanning cell are counted the same before and after *)
Definition spans_kept (t t' : table) : Prop := forall y x c, getc t y x = Some c -> c_parent c = None -> 1 < c_sx c ->
  x + c_sx c < TABLE_MAX_COLS /\ has_vline t (S x) = has_vline t (x + c_sx c) /\ forall j, x < j <= x + c_sx c -> has_vline t' j = has_vline t j.
Lemma how_many_ext : forall p q a b, (forall j, a <= j < b -> p j = q j) -> how_many p a b = how_many q a b.
Proof. intros p q a b H. unfold how_many. f_equal. apply filter_ext_in. intros j I. apply in_seq in I. apply H. lia. Qed.
Lemma fprint_aligned : forall t, wf t -> 1 <= t_cols t -> exists ws hs t', get_dimensions t = Ok (ws, hs) /\ retouched t t' /\
  (spans_kept t t' -> exists out, fprint_table t = Done (Ok (t', out)) /\ Forall (fun l => takes l (table_width t' ws)) out
     /\ List.length out = total hs 0 (num_rows t') + how_many (has_hline t') 0 (num_rows t')).
Proof.
  intros t W C. destruct (dims_exist t W) as (ws & hs & D). destruct (dims_satisfied t ws hs D) as (Lw & Lh & Sat). pose proof (sh_row t (proj1 W)) as Hr.
  destruct (superfluous t (nth (t_cols t - 1) ws 0) (nth (num_rows t - 1) hs 0) W C) as (t' & E & R). exists ws, hs, t'. split; auto. split; auto. intros K. pose proof R as (W' & A & C' & N' & _).
  assert (Pr : printable t' ws hs).
  { constructor; auto; [congruence|congruence|]. intros y x c' G P X. destruct (alike_some _ _ _ _ _ (alike_sym _ _ A) G) as (c & G0 & Cc). apply core_fields in Cc. destruct Cc as (_ & _ & Sx & Sy & St & Pa & Te & _ & Wi). rewrite C' in X.
    assert (P0 : c_parent c = None) by congruence. destruct W as [Sh L]. destruct (L _ _ _ G0) as (_ & _ & T & _ & O). unfold owned in O. rewrite P0 in O. destruct O as (O1 & O2 & _).
    assert (Hm : how_many (has_vline t') (S x) (x + c_sx c) = how_many (has_vline t) (S x) (x + c_sx c)).
    { destruct (le_lt_dec (c_sx c) 1); [rewrite !how_many_none by lia; reflexivity|]. destruct (K _ _ _ G0 P0 l) as (_ & _ & K3). apply how_many_ext. intros j J. apply K3. lia. }
    rewrite <- Sx. split.
    - intros S1. destruct (K _ _ _ G0 P0 S1) as (K1 & K2 & K3). split; auto. rewrite !K3 by lia. exact K2.
    - rewrite Hm. unfold fits. rewrite <- Te. fold (fits c (total ws x (x + c_sx c) + how_many (has_vline t) (S x) (x + c_sx c))). destruct T as (T1 & T2 & T3 & [T4|T4]).
      + intros s l Es. congruence.
      + apply fits_width; [repeat (split; auto)|]. apply (Sat y x c); auto. apply in_places. split; auto. split; auto. unfold constrained. rewrite T4, P0. reflexivity. }
  destruct (rows_take t' ws hs Pr (t_rows t') 0 None (repeat 0 (t_cols t'))) as (out & O1 & O2 & O3); [reflexivity|reflexivity|apply repeat_length|]. exists out. cbn [skipn] in O1. split; [|auto].
  unfold fprint_table. replace (t_cols t =? 0) with false by (symmetry; apply Nat.eqb_neq; lia). rewrite D. cbn [lift then_]. rewrite (at_ok _ ws (t_cols t - 1) 0) by lia. rewrite (at_ok _ hs (num_rows t - 1) 0) by lia. cbn [rbind]. rewrite E. cbn [then_]. rewrite O1. reflexivity.
Qed.

(** ** Properties of all cells *)
Definition everywhere (P : cell -> Prop) (t : table) : Prop := forall y x c, getc t y x = Some c -> P c.
Lemma every_set : forall (P : cell -> Prop) t y x f, everywhere P t -> (forall c, P c -> P (f c)) -> everywhere P (set_cell y x f t).
Proof. intros P t y x f H F y' x' c G. rewrite getc_set in G. destruct ((y' =? y) && (x' =? x)); [|eapply H; eauto]. destruct (getc t y x) eqn:E; inversion G; subst. apply F. eapply H; eauto. Qed.
Lemma every_append : forall (P : cell -> Prop) t, everywhere P t -> (forall y x, P (fresh_cell y x)) -> everywhere P (append_row t).
Proof. intros P t H F y x c G. rewrite getc_append in G. destruct (y =? num_rows t); [|eapply H; eauto]. destruct (x <? TABLE_MAX_COLS); inversion G; auto. Qed.
Lemma every_row : forall (P : cell -> Prop) t y g, everywhere P t -> (forall r, Forall P (r_cells r) -> Forall P (r_cells (g r))) -> everywhere P (with_rows (update y g) t).
Proof.
  intros P t y g H F y' x c G. rewrite getc_row in G. destruct (Nat.eqb_spec y' y) as [->|]; [|eapply H; eauto]. destruct (nth_error (t_rows t) y) as [r|] eqn:E; [|discriminate].
  assert (K : Forall P (r_cells r)). { apply Forall_forall. intros d I. apply In_nth_error in I. destruct I as (k & I). apply (H y k). unfold getc. rewrite E. exact I. } specialize (F r K). rewrite Forall_forall in F. apply F. eapply nth_error_In; eauto.
Qed.
Lemma every_iter : forall (P : cell -> Prop) k t, everywhere P t -> (forall y x, P (fresh_cell y x)) -> everywhere P (Nat.iter k append_row t).
Proof. induction k as [|k IH]; intros t H F; auto. cbn [Nat.iter nat_rect]. apply every_append; auto. apply IH; auto. Qed.
Lemma every_position : forall (P : cell -> Prop) t x y t', everywhere P t -> (forall y x, P (fresh_cell y x)) -> set_position t x y = Ok t' -> everywhere P t'.
Proof. intros P t x y t' H F E. unfold set_position in E. destruct (x <? TABLE_MAX_COLS); [|discriminate]. destruct (y <? num_rows t); apply Ok_inj in E; subst t'; [exact H|]. apply (every_iter P (S y - num_rows t) t H F). Qed.
Lemma every_vline : forall (P : cell -> Prop) t i b t', everywhere P t -> set_vline t i b = Ok t' -> everywhere P t'.
Proof. intros P t i b t' H E. unfold set_vline in E. destruct (i <? TABLE_MAX_COLS); [|discriminate]. destruct (at_ (t_left t) i); try discriminate. cbn [rbind] in E. apply Ok_inj in E. subst t'. destruct (t_cols t <=? i); exact H. Qed.
Lemma every_hline : forall (P : cell -> Prop) t b t', everywhere P t -> set_hline t b = Ok t' -> everywhere P t'.
Proof. intros P t b t' H E. unfold set_hline in E. destruct (at_ (t_rows t) (t_row t)); try discriminate. cbn [rbind] in E. apply Ok_inj in E. subst t'. apply every_row; auto. Qed.
Lemma every_vlines : forall (P : cell -> Prop) is t b t', everywhere P t -> set_vlines t is b = Ok t' -> everywhere P t'.
Proof. induction is as [|i is IH]; intros t b t' H E; cbn [set_vlines] in E; [inversion E; subst; auto|]. destruct (set_vline t i b) as [t1| |] eqn:E1; try discriminate. cbn [rbind] in E. eapply IH; [|eauto]. eapply every_vline; eauto. Qed.
Lemma every_span_cols : forall (P : cell -> Prop) y x i, (forall i j p c, P c -> P (child_borders i j (put_child p c))) -> forall js t t1 r, everywhere P t -> span_cols t y x i js = Ok (t1, r) -> everywhere P t1.
Proof.
  intros P y x i F. induction js as [|j js IH]; intros t t1 r H E; cbn [span_cols] in E; [inversion E; subst; auto|]. destruct ((i =? 0) && (j =? 0)); [eauto|]. destruct (the_cell t (y + i) (x + j)) as [c| |]; try discriminate. cbn [rbind] in E. destruct (c_set c); [inversion E; subst; auto|].
  eapply IH; [|exact E]. apply every_set; auto.
Qed.
Lemma every_span_rows : forall (P : cell -> Prop) y x sx sy, (forall y x, P (fresh_cell y x)) -> (forall i j p c, P c -> P (child_borders i j (put_child p c))) -> (forall a b c, P c -> P (put_span a b c)) ->
  forall is t t1, everywhere P t -> span_rows t y x sx sy is = Ok t1 -> everywhere P t1.
Proof.
  intros P y x sx sy F0 F1 F2. induction is as [|i is IH]; intros t t1 H E; cbn [span_rows] in E; [inversion E; subst; auto|]. destruct (span_cols t y x i (List.seq 0 sx)) as [[t2 [j|]]| |] eqn:E1; try discriminate; cbn [rbind] in E; pose proof (every_span_cols P y x i F1 _ _ _ _ H E1) as H2.
  - inversion E; subst. apply every_set; auto.
  - eapply IH; [|exact E]. destruct (_ && _); auto. apply every_append; auto.
Qed.
Lemma every_call : forall (P : cell -> Prop) t k t', (forall y x, P (fresh_cell y x)) -> (forall s h w c, P c -> P (put_text s h w c)) -> (forall h c, P c -> P (put_h h c)) -> (forall v c, P c -> P (put_v v c)) ->
  match k with CLeft b => forall c, P c -> P (put_left b c) | CAbove b => forall c, P c -> P (put_above b c) | CSpan _ _ => (forall i j p c, P c -> P (child_borders i j (put_child p c))) /\ (forall a b c, P c -> P (put_span a b c)) | _ => True end ->
  everywhere P t -> exec_call t k = Ok t' -> everywhere P t'.
Proof.
  intros P t k t' F0 F1 F2 F3 Fk H E. destruct k; cbn [exec_call] in E.
  - eapply every_position; eauto.
  - unfold next_row in E. destruct (nth_error (t_rows t) (S (t_row t))); apply Ok_inj in E; subst t'; [exact H|]. exact (every_append P t H F0).
  - unfold add_text_cell in E. destruct (curr_cell t); try discriminate. cbn [rbind] in E. destruct (get_text_width text) as [w| |]; try discriminate. cbn [rbind] in E. cbv zeta in E. destruct (at_ _ _) as [r| |]; try discriminate. cbn [rbind] in E. apply Ok_inj in E. subst t'.
    assert (K : everywhere P (set_cell (t_row t) (t_col t) (put_text text (get_text_height text) w) t)) by (apply every_set; auto). destruct (_ <=? _); exact K.
  - unfold set_default_alignments in E. destruct (n <=? TABLE_MAX_COLS); [|discriminate]. destruct (match hs with None => Ok (t_h t) | Some l => _ end); try discriminate. cbn [rbind] in E. destruct (match vs with None => Ok (t_v t) | Some l => _ end); try discriminate. cbn [rbind] in E. apply Ok_inj in E. subst t'. exact H.
  - unfold override_vertical_alignment, override in E. destruct (curr_cell t); try discriminate. cbn [rbind] in E. apply Ok_inj in E. subst t'. apply every_set; auto.
  - unfold override_horizontal_alignment, override in E. destruct (curr_cell t); try discriminate. cbn [rbind] in E. apply Ok_inj in E. subst t'. apply every_set; auto.
  - apply Ok_inj in E. subst t'. apply every_row; auto. intros r Fr. unfold with_cells. cbn [r_cells]. apply Forall_map. eapply Forall_impl; [|exact Fr]. intros c. apply F3.
  - apply Ok_inj in E. subst t'. apply every_row; auto. intros r Fr. unfold with_cells. cbn [r_cells]. apply Forall_map. eapply Forall_impl; [|exact Fr]. intros c. apply F2.
  - eapply every_hline; eauto.
  - eapply every_vline; eauto.
  - unfold make_boxed in E. destruct (set_position t 0 0) as [t1| |] eqn:E1; try discriminate. cbn [rbind] in E. destruct (set_vline t1 0 b) as [t2| |] eqn:E2; try discriminate. cbn [rbind] in E.
    destruct (set_hline t2 b) as [t3| |] eqn:E3; try discriminate. cbn [rbind] in E. destruct (set_position t3 (t_cols t3) (num_rows t3 - 1)) as [t4| |] eqn:E4; try discriminate. cbn [rbind] in E.
    destruct (set_vline t4 (t_cols t4) b) as [t5| |] eqn:E5; try discriminate. cbn [rbind] in E. eapply every_hline; [|eauto]. eapply every_vline; [|eauto]. eapply every_position; [|auto|eauto]. eapply every_hline; [|eauto]. eapply every_vline; [|eauto]. eapply every_position; eauto.
  - eapply every_vlines; eauto.
  - unfold override_left_border in E. destruct (curr_cell t); try discriminate. cbn [rbind] in E. apply Ok_inj in E. subst t'. apply every_set; auto.
  - unfold override_above_border in E. destruct (curr_cell t); try discriminate. cbn [rbind] in E. apply Ok_inj in E. subst t'. apply every_set; auto. apply every_row; auto.
  - destruct Fk as [Fk1 Fk2]. unfold set_span in E. destruct (_ || _); [discriminate|]. destruct (curr_cell t) as [c| |]; try discriminate. cbn [rbind] in E. destruct (_ && _); [|discriminate]. eapply every_span_rows; [auto|auto|auto| |exact E]. assert (K : everywhere P (set_cell (t_row t) (t_col t) (put_span sx sy) t)) by (apply every_set; auto). exact K.
Qed.
Lemma every_empty : forall (P : cell -> Prop), (forall y x, P (fresh_cell y x)) -> everywhere P get_empty_table.
Proof. intros P F y x c H. unfold getc in H. destruct y as [|y]; cbn [get_empty_table t_rows nth_error] in H; [|destruct y; discriminate H]. apply nth_error_In in H. cbn [malloc_row r_cells] in H. apply in_map_iff in H. destruct H as (i & <- & _). apply F. Qed.
Lemma built_bare : forall t, built (fun t k => clean_call t k /\ no_left_line k) t -> bare t.
Proof.
  intros t B. apply (fun H => H : everywhere (fun c => overridden (c_left c) = BNone) t). induction B as [|t k t' B IH [C N] E]; [apply every_empty; reflexivity|]. eapply every_call; [..|exact IH|exact E]; auto.
  destruct k; auto. split; auto. intros i j p c H. unfold child_borders. destruct (j =? 0), (i =? 0); auto.
Qed.
Lemma built_single : forall t, built (fun t k => clean_call t k /\ no_span k) t -> everywhere (fun c => c_sx c = 1 /\ c_sy c = 1 /\ c_parent c = None) t.
Proof.
  intros t B. induction B as [|t k t' B IH [C N] E]; [apply every_empty; auto|]. eapply every_call; [..|exact IH|exact E]; auto. destruct k; auto. destruct N.
Qed.
