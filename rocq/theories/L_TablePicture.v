(** The printed lines of a table are its picture (for C66). *)
From Coq Require Import List Ascii String NArith ZArith Bool Lia Arith.
From Verif Require Import M_Base M_StringUtil M_Eval M_Table S_Util S_Table L_Table L_TableWf L_TablePrint.
Import ListNotations.
Open Scope nat_scope.
Open Scope res_scope.

Lemma glyphs_app : forall a b, glyphs (a ++ b) = glyphs a ++ glyphs b.
Proof. intros. unfold glyphs. apply flat_map_app. Qed.
Lemma glyphs_vline : forall b, glyphs [vline b] = [stroke 10 b].
Proof. intros []; reflexivity. Qed.
Lemma glyphs_hline : forall b w, glyphs (hline b w) = repeat (stroke 9 b) w.
Proof.
  intros b w. destruct b; cbn [hline stroke].
  - cbn [glyphs flat_map]. rewrite app_nil_r. unfold spaces. induction w; cbn [repeat map]; [reflexivity|]. f_equal. exact IHw.
  - induction w; cbn [repeat glyphs flat_map app]; [reflexivity|]. f_equal. exact IHw.
  - induction w; cbn [repeat glyphs flat_map app]; [reflexivity|]. f_equal. exact IHw.
Qed.
Lemma look_getc : forall t y x c, getc t y x = Some c -> look t y x = c.
Proof. intros. unfold look. rewrite the_cell_getc, H. reflexivity. Qed.

(** ** One field *)
Lemma size_diff : forall a b, a < Nat.pow 2 31 -> b < Nat.pow 2 31 -> size_to_int (size_sub (Z.of_nat a) (Z.of_nat b)) = (Z.of_nat a - Z.of_nat b)%Z.
Proof.
  intros a b A B. assert (A' : (Z.of_nat a < 2 ^ 31)%Z) by (replace (2 ^ 31)%Z with (Z.of_nat (Nat.pow 2 31)) by (rewrite Nat2Z.inj_pow; reflexivity); lia). assert (B' : (Z.of_nat b < 2 ^ 31)%Z) by (replace (2 ^ 31)%Z with (Z.of_nat (Nat.pow 2 31)) by (rewrite Nat2Z.inj_pow; reflexivity); lia).
  clear A B. unfold size_to_int, size_sub. cbv zeta. pose proof (Nat2Z.is_nonneg a). pose proof (Nat2Z.is_nonneg b). set (d := (Z.of_nat a - Z.of_nat b)%Z) in *. assert (D : (- 2 ^ 31 < d < 2 ^ 31)%Z) by lia. clearbody d.
  assert (E : ((d mod 2 ^ 64) mod 2 ^ 32 = d mod 2 ^ 32)%Z). { replace (2 ^ 64)%Z with (2 ^ 32 * 2 ^ 32)%Z by reflexivity. rewrite Z.rem_mul_r by lia. rewrite (Z.mul_comm (2 ^ 32) ((d / 2 ^ 32) mod 2 ^ 32)), Z_mod_plus_full. apply Z.mod_mod. lia. }
  rewrite E. change (2 ^ 31)%Z with 2147483648%Z in *. change (2 ^ 32)%Z with 4294967296%Z in *. destruct (Z.leb_spec 0 d).
  - rewrite Z.mod_small by lia. destruct (Z.ltb_spec d 2147483648); lia.
  - replace (d mod 4294967296)%Z with (d + 4294967296)%Z; [destruct (Z.ltb_spec (d + 4294967296) 2147483648); lia|]. symmetry. rewrite <- (Z_mod_plus_full d 1). rewrite Z.mul_1_l. apply Z.mod_small. lia.
Qed.
Lemma size_same : forall a, a < Nat.pow 2 31 -> size_to_int (Z.of_nat a) = Z.of_nat a.
Proof.
  intros a A. assert (A' : (Z.of_nat a < 2 ^ 31)%Z) by (replace (2 ^ 31)%Z with (Z.of_nat (Nat.pow 2 31)) by (rewrite Nat2Z.inj_pow; reflexivity); lia). clear A. unfold size_to_int. cbv zeta.
  rewrite Z.mod_small by (split; [lia|]; apply Z.lt_trans with (2 ^ 31)%Z; [exact A'|reflexivity]). destruct (Z.ltb_spec (Z.of_nat a) (2 ^ 31)); lia.
Qed.
Lemma blanks_add : forall a b, blanks a ++ blanks b = blanks (a + b).
Proof. intros. unfold blanks. rewrite repeat_app. reflexivity. Qed.
Lemma aligned_nil : forall h w, aligned h w [] = blanks w.
Proof. intros h w. unfold aligned. cbn [visible app]. rewrite Nat.sub_0_r. destruct h; auto; [rewrite app_nil_r; reflexivity|]. rewrite blanks_add. f_equal. pose proof (Nat.div_le_upper_bound w 2 w ltac:(lia) ltac:(lia)). lia. Qed.
Lemma print_text_exact : forall t c0 p dh dv line w h, base t c0 = Ok p -> c_parent p = None -> text_ok p -> fits p w -> c_height p <= h -> h < Nat.pow 2 31 -> line < Nat.pow 2 31 ->
  exists segs, print_text t c0 dh dv line w h = Ok segs /\ glyphs segs = map Char (aligned (setting (c_h p) dh) w (line_of (setting (c_v p) dv) h (match c_text p with Some s => text_lines s | None => [] end) line)).
Proof.
  intros t c0 p dh dv line w h B P T F Hh Hb Lb. unfold print_text. rewrite B. cbn [rbind]. cbv zeta.
  assert (Vh : get_v_align t dv p = setting (c_v p) dv). { unfold get_v_align. cbn [outermost]. rewrite P. reflexivity. } assert (Vv : get_h_align t dh p = setting (c_h p) dh). { unfold get_h_align. cbn [outermost]. rewrite P. reflexivity. } rewrite Vh, Vv. clear Vh Vv.
  set (ls := match c_text p with Some s => text_lines s | None => [] end). assert (Ln : List.length ls = c_height p). { destruct T as (_ & _ & T & _). rewrite T. unfold ls. destruct (c_text p); [apply text_lines_height|reflexivity]. }
  set (v := setting (c_v p) dv). set (hh := setting (c_h p) dh).
  set (above := match v with VTop => 0 | VBottom => h - List.length ls | VCenter => (h - List.length ls) / 2 end).
  assert (Ab : above <= h). { unfold above. destruct v; [lia|lia|]. apply Nat.div_le_upper_bound; lia. }
  assert (Ac : match v with VTop => size_to_int (Z.of_nat line) | VBottom => size_to_int (size_sub (Z.of_nat line) (size_sub (Z.of_nat h) (Z.of_nat (c_height p)))) | VCenter => size_to_int (size_sub (Z.of_nat line) (size_sub (Z.of_nat h) (Z.of_nat (c_height p)) / 2)) end = (Z.of_nat line - Z.of_nat above)%Z).
  { assert (E : size_sub (Z.of_nat h) (Z.of_nat (c_height p)) = Z.of_nat (h - List.length ls)). { unfold size_sub. rewrite Z.mod_small; [lia|]. assert ((Z.of_nat h < 2 ^ 31)%Z) by (replace (2 ^ 31)%Z with (Z.of_nat (Nat.pow 2 31)) by (rewrite Nat2Z.inj_pow; reflexivity); lia). change (2 ^ 31)%Z with 2147483648%Z in *. change (2 ^ 64)%Z with 18446744073709551616%Z. lia. }
    rewrite E. unfold above. destruct v; [rewrite size_same by lia; lia|apply size_diff; lia|]. replace (Z.of_nat (h - List.length ls) / 2)%Z with (Z.of_nat ((h - List.length ls) / 2)) by (rewrite Nat2Z.inj_div; reflexivity). apply size_diff; auto. unfold above in Ab. lia. }
  match goal with |- context [if (0 <=? ?a)%Z then _ else _] => replace a with (Z.of_nat line - Z.of_nat above)%Z end.
  assert (Bl : glyphs [blank (Z.of_nat w)] = map Char (aligned hh w [])). { rewrite aligned_nil. unfold blank. rewrite Z.abs_eq, Nat2Z.id by lia. cbn [glyphs flat_map]. rewrite app_nil_r. reflexivity. }
  unfold line_of. fold ls. cbv zeta. fold above. destruct (Z.leb_spec 0 (Z.of_nat line - Z.of_nat above)) as [Ge|Lt].
  2:{ destruct (Nat.ltb_spec line above); [|lia]. eauto. }
  destruct (Nat.ltb_spec line above); [lia|]. replace (Z.to_nat (Z.of_nat line - Z.of_nat above)) with (line - above) by lia. unfold ls. destruct (c_text p) as [s|] eqn:Et; [|rewrite (nth_overflow (@nil cstr)) by (cbn; lia); eauto].
  destruct T as (Ti & _). rewrite Et in Ti. pose proof (tidy_lines s (line - above) Ti) as TL. destruct (nth_error (text_lines s) (line - above)) as [l|] eqn:El.
  2:{ rewrite TL. rewrite nth_overflow by (apply nth_error_None; exact El). eauto. }
  destruct TL as (r & H1 & H2 & H3 & H4). rewrite H1, H4, H2. cbn [rbind]. rewrite (nth_error_nth _ _ _ El). specialize (F s l Et (nth_error_In _ _ El)). pose proof (visible_length l false) as VL.
  assert (Ad : Z.to_nat (Z.abs (Z.of_nat w + Z.of_nat (List.length l) - Z.of_nat (visible false l))) - List.length l = w - visible false l) by lia. unfold aligned. cbv zeta.
  destruct hh.
  - eexists. split; [reflexivity|]. unfold padded. cbn [orb]. rewrite Ad. cbn [glyphs flat_map]. rewrite app_nil_r. reflexivity.
  - eexists. split; [reflexivity|]. unfold padded. cbn [orb]. replace (_ <? 0)%Z with false by (symmetry; apply Z.ltb_ge; lia). rewrite Ad. cbn [glyphs flat_map]. rewrite app_nil_r. reflexivity.
  - eexists. split; [reflexivity|]. unfold blank. set (f := (Z.of_nat w - Z.of_nat (visible false l))%Z). assert (Hf : (0 <= f)%Z) by lia. cbn [glyphs flat_map]. rewrite app_nil_r, !map_app. unfold spaces, blanks.
    assert (Q : Z.quot f 2 = Z.of_nat ((w - visible false l) / 2)). { rewrite Z.quot_div_nonneg by lia. rewrite Nat2Z.inj_div. f_equal. lia. } rewrite Q. rewrite Z.rem_mod_nonneg by lia. replace (f mod 2)%Z with (Z.of_nat ((w - visible false l) mod 2)) by (rewrite Nat2Z.inj_mod; f_equal; lia).
    pose proof (Nat.div_mod (w - visible false l) 2 ltac:(lia)) as DM. pose proof (Nat.mod_upper_bound (w - visible false l) 2 ltac:(lia)) as MB. rewrite Z.abs_eq, Nat2Z.id by lia. f_equal. f_equal. f_equal. f_equal. destruct (Z.eqb_spec (Z.of_nat ((w - visible false l) mod 2)) 0); rewrite Z.abs_eq by lia; lia.
Qed.
Lemma add_heights_exact : forall t hs y n i0, y + i0 + n <= List.length hs -> y + i0 + n <= num_rows t ->
  add_heights t hs y (List.seq i0 n) = Ok (total hs (y + i0) (y + i0 + n) + how_many (has_hline t) (y + (if i0 =? 0 then 1 else i0)) (y + i0 + n)).
Proof.
  intros t hs y. induction n as [|n IH]; intros i0 Lh Lr; cbn [List.seq add_heights].
  - rewrite total_none, how_many_none by (destruct (Nat.eqb_spec i0 0); lia). reflexivity.
  - assert (Eb : (if i0 =? 0 then Ok 0 else r <- at_ (t_rows t) (y + i0) ;; Ok (if 0 <? r_count r then 1 else 0)) = Ok (if i0 =? 0 then 0 else if has_hline t (y + i0) then 1 else 0)).
    { destruct (Nat.eqb_spec i0 0); auto. unfold at_, has_hline. destruct (nth_error (t_rows t) (y + i0)) as [r|] eqn:E; [reflexivity|]. apply nth_error_None in E. unfold num_rows in Lr. lia. }
    rewrite Eb. cbn [rbind]. rewrite (at_ok _ hs (y + i0) 0) by lia. cbn [rbind]. rewrite IH by lia. cbn [rbind Nat.eqb]. f_equal.
    replace (y + S i0 + n) with (y + i0 + S n) by lia. rewrite (total_step hs (y + i0)) by lia. replace (y + S i0) with (S (y + i0)) by lia. destruct (Nat.eqb_spec i0 0) as [->|N].
    + replace (S (y + 0)) with (y + 1) by lia. lia.
    + rewrite (how_many_step _ (y + i0)) by lia. lia.
Qed.
(** Every cell without a parent has room for all lines of its text. *)
Definition tall (t : table) (hs : list nat) : Prop := forall y x c, getc t y x = Some c -> c_parent c = None -> c_height c <= total hs y (y + c_sy c) + how_many (has_hline t) (S y) (y + c_sy c).
Definition small (t : table) (hs : list nat) : Prop := total hs 0 (num_rows t) + num_rows t < Nat.pow 2 31.
Lemma how_many_le : forall p a b, how_many p a b <= b - a.
Proof. intros. unfold how_many. rewrite <- (seq_length (b - a) a) at 2. generalize (List.seq a (b - a)). induction l; cbn [filter List.length]; [lia|]. destruct (p a0); cbn [List.length]; lia. Qed.
Lemma total_part : forall w a b m, a <= b <= m -> total w a b <= total w 0 m.
Proof. intros w a b m H. rewrite (total_split w 0 a m), (total_split w a b m) by lia. lia. Qed.
Lemma cell_field : forall t ws hs y x c l, printable t ws hs -> tall t hs -> small t hs -> getc t y x = Some c -> fst (owner c) = x -> x < t_cols t -> l < Nat.pow 2 31 ->
  exists p w h segs, base t c = Ok p /\ look t (snd (owner c)) x = p /\ get_total_width t ws c = Ok w /\ get_total_height t hs c = Ok h /\ print_text t c (nth x (t_h t) HLeft) (nth x (t_v t) VTop) l w h = Ok segs
  /\ get_span_x t c = Ok (c_sx p) /\ 1 <= c_sx p /\ x + c_sx p <= t_cols t /\ glyphs segs = field t ws hs p l.
Proof.
  intros t ws hs y x c l [W Lw Lh R] Ta Sm H St X Ll. destruct (owner_ok _ _ _ _ W H) as (p & B & G & P & P1 & P2 & P3 & P4). rewrite St in *. destruct (R _ _ _ G P X) as [R1 R2]. pose proof (in_cols _ _ _ _ W G P X) as Ic.
  assert (K : how_many (fun j => has_vline t (S j)) (x + 1) (x + c_sx p) = how_many (has_vline t) (S x) (x + c_sx p)).
  { replace (x + 1) with (S x) by lia. destruct (Nat.eq_dec (c_sx p) 1) as [->|N]; [rewrite !how_many_none by lia; reflexivity|]. apply how_many_shift; [lia|]. destruct R1 as [_ R1]; [lia|exact R1]. }
  assert (Aw : add_widths t ws x (List.seq 0 (c_sx p)) = Ok (total ws x (x + c_sx p) + how_many (has_vline t) (S x) (x + c_sx p))).
  { rewrite add_widths_ok; [|apply sh_counts, W|lia|intros A B'; destruct R1; lia]. cbn [Nat.eqb]. rewrite Nat.add_0_r, K. reflexivity. }
  destruct W as [Sh L]. destruct (L _ _ _ G) as (_ & _ & T & _ & O). unfold owned in O. rewrite P in O. destruct O as (_ & _ & O & _).
  pose proof (add_heights_exact t hs (c_y p) (c_sy p) 0 ltac:(rewrite P2; lia) ltac:(rewrite P2; lia)) as Ah. cbn [Nat.eqb] in Ah. rewrite Nat.add_0_r in Ah.
  pose proof (Ta _ _ _ G P) as Tp. rewrite <- P2 in Tp. replace (S (c_y p)) with (c_y p + 1) in Tp by lia. set (h := total hs (c_y p) (c_y p + c_sy p) + how_many (has_hline t) (c_y p + 1) (c_y p + c_sy p)) in *.
  assert (Hh : h < Nat.pow 2 31). { unfold h. pose proof (total_part hs (c_y p) (c_y p + c_sy p) (num_rows t) ltac:(lia)). pose proof (how_many_le (has_hline t) (c_y p + 1) (c_y p + c_sy p)). unfold small in Sm. lia. }
  destruct (print_text_exact t c p (nth x (t_h t) HLeft) (nth x (t_v t) VTop) l _ h B P T R2 Tp Hh Ll) as (segs & S1 & S2).
  exists p, (total ws x (x + c_sx p) + how_many (has_vline t) (S x) (x + c_sx p)), h, segs. split; auto. split; [apply look_getc; exact G|]. split; [unfold get_total_width; rewrite B; cbn [rbind]; rewrite P1; exact Aw|]. split; [unfold get_total_height; rewrite B; exact Ah|]. split; auto. split; [unfold get_span_x; rewrite B; reflexivity|]. split; [lia|]. split; [lia|].
  rewrite S2. unfold field. cbv zeta. rewrite P1. replace (x + 1) with (S x) by lia. reflexivity.
Qed.

(** ** Lines *)
Lemma corner_exact : forall t y x r c, wf t -> nth_error (t_rows t) y = Some r -> getc t y x = Some c -> x < TABLE_MAX_COLS ->
  glyphs [intersection (nth x (t_left t) BNone) (r_above r) (match (match y with 0 => None | S y' => nth_error (t_rows t) y' end) with Some r => nth_error (r_cells r) x | None => None end)
     (match x with 0 => None | S x' => nth_error (r_cells r) x' end) (Some c)] = [corner t y x].
Proof.
  intros t y x r c W Hr Hc Hx. unfold intersection, corner. cbv zeta.
  assert (E1 : match (match (match y with 0 => None | S y' => nth_error (t_rows t) y' end) with Some r => nth_error (r_cells r) x | None => None end) with Some c0 => get_border_left (nth x (t_left t) BNone) c0 | None => BNone end = match y with 0 => BNone | S y' => left_line t y' x end).
  { destruct y as [|y]; auto. pose proof (nth_rows _ _ _ W Hr) as [_ Ly]. destruct (getc_some t y x (proj1 W) ltac:(lia) Hx) as (d & Hd). unfold left_line. rewrite (look_getc _ _ _ _ Hd). unfold getc in Hd. destruct (nth_error (t_rows t) y); [|discriminate]. rewrite Hd. reflexivity. }
  assert (E2 : get_border_above (r_above r) c = above_line t y x). { unfold above_line. rewrite (look_getc _ _ _ _ Hc), Hr. reflexivity. }
  assert (E3 : get_border_left (nth x (t_left t) BNone) c = left_line t y x). { unfold left_line. rewrite (look_getc _ _ _ _ Hc). reflexivity. }
  assert (E4 : match (match x with 0 => None | S x' => nth_error (r_cells r) x' end) with Some c0 => get_border_above (r_above r) c0 | None => BNone end = match x with 0 => BNone | S x' => above_line t y x' end).
  { destruct x as [|x]; auto. pose proof (nth_rows _ _ _ W Hr) as [_ Ly]. destruct (getc_some t y x (proj1 W) ltac:(lia) ltac:(lia)) as (d & Hd). unfold above_line. rewrite (look_getc _ _ _ _ Hd), Hr. rewrite (row_cell _ _ _ _ Hr), Hd. reflexivity. }
  rewrite E1, E2, E3, E4. generalize (match y with 0 => BNone | S y' => left_line t y' x end) as u, (above_line t y x) as ri, (left_line t y x) as d, (match x with 0 => BNone | S x' => above_line t y x' end) as l. intros u ri d l. destruct u, ri, d, l; reflexivity.
Qed.
Lemma flat_map_nil : forall A B (f : A -> list B) l, (forall a, In a l -> f a = []) -> flat_map f l = [].
Proof. induction l as [|a l IH]; intros H; cbn [flat_map]; auto. rewrite H by (left; reflexivity). apply IH. intros. apply H. right. auto. Qed.
Lemma nth_update_nat : forall (l : list nat) n f m, n < List.length l -> nth m (update n f l) 0 = if m =? n then f (nth n l 0) else nth m l 0.
Proof. intros l n f m L. pose proof (nth_error_update _ n f l m) as E. destruct (Nat.eqb_spec m n) as [->|N].
  - destruct (nth_error l n) as [a|] eqn:A; [|apply nth_error_None in A; lia]. cbn [option_map] in E. rewrite (nth_error_nth _ _ _ A), (nth_error_nth _ _ _ E). reflexivity.
  - destruct (nth_error l m) as [a|] eqn:A; [rewrite (nth_error_nth _ _ _ A), (nth_error_nth _ _ _ E); reflexivity|]. rewrite !nth_overflow; auto; apply nth_error_None; auto.
Qed.
(** Other columns of the cell that begins in column [k] *)
Lemma inner_columns : forall t y k c p j, wf t -> getc t y k = Some c -> fst (owner c) = k -> base t c = Ok p -> k < j < k + c_sx p -> exists d, getc t y j = Some d /\ owner d = owner c.
Proof.
  intros t y k c p j W H F B J. destruct (owner_ok _ _ _ _ W H) as (p' & B' & G & P & P1 & P2 & P3 & P4). rewrite B in B'. apply Ok_inj in B'. subst p'. rewrite F in *. destruct (owner_of t (snd (owner c)) k p y j W G P) as (d & D1 & D2); [lia|lia|]. exists d. split; auto. rewrite D2, <- F. destruct (owner c); reflexivity.
Qed.
Definition lines_at (t : table) (hs : list nat) (y i k : nat) (lines : list nat) : Prop := forall x c, k <= x -> x < t_cols t -> getc t y x = Some c -> fst (owner c) = x -> nth x lines 0 = printed_before t hs (snd (owner c)) y + i.
Lemma content_exact : forall t ws hs y i r, printable t ws hs -> tall t hs -> small t hs -> nth_error (t_rows t) y = Some r -> i < nth y hs 0 ->
  forall fuel k lines, t_cols t - k <= fuel -> k <= t_cols t -> List.length lines = t_cols t -> starts t y k -> lines_at t hs y i k lines ->
  exists line lines', content_loop t ws hs fuel r lines k = Done (Ok (line, lines')) /\ glyphs line = flat_map (content_piece t ws hs y i) (List.seq k (t_cols t - k)) /\ List.length lines' = t_cols t
    /\ lines_at t hs y (S i) k lines' /\ (forall x, x < k -> nth x lines' 0 = nth x lines 0).
Proof.
  intros t ws hs y i r Pr Ta Sm Hr Hi. pose proof (pr_wf _ _ _ Pr) as W. pose proof W as [Sh L]. assert (Hy : y < num_rows t) by (apply nth_error_Some; congruence). pose proof (sh_cols t Sh) as Hc.
  assert (Bd : forall py, py <= y -> printed_before t hs py y + i < Nat.pow 2 31).
  { intros py Hp. unfold printed_before. pose proof (how_many_le (has_hline t) (py + 1) (y + 1)). unfold small in Sm. rewrite (total_split hs 0 py (num_rows t)), (total_split hs py y (num_rows t)), (total_step hs y) in Sm by lia. lia. }
  induction fuel as [|f IH]; intros k lines F K Ll St La; cbn [content_loop].
  - exists [], lines. replace (t_cols t - k) with 0 by lia. split; auto. split; auto. split; auto. split; auto. intros x c A B. lia.
  - destruct (Nat.ltb_spec k (t_cols t)) as [Lt|Ge]; [|exists [], lines; replace (t_cols t - k) with 0 by lia; split; auto; split; auto; split; auto; split; auto; intros x c A B; lia].
    destruct (getc_some t y k Sh Hy ltac:(lia)) as (c & Hk). unfold at_ at 1. rewrite (row_cell _ _ _ _ Hr), Hk. cbn [lift then_].
    destruct (has_vline_at t k) as (n & N1 & N2); [rewrite (sh_counts t Sh); lia|]. unfold at_ at 1. rewrite N1. cbn [rbind]. rewrite (at_ok _ (t_left t) k BNone) by (rewrite (sh_left t Sh); lia). cbn [rbind lift then_]. rewrite <- N2.
    rewrite (at_ok _ (t_h t) k HLeft) by (rewrite (sh_h t Sh); lia). rewrite (at_ok _ (t_v t) k VTop) by (rewrite (sh_v t Sh); lia). rewrite (at_ok _ lines k 0) by lia. cbn [rbind].
    pose proof (St c Hk) as Fo. destruct (owner_ok _ _ _ _ W Hk) as (p0 & _ & _ & _ & _ & Py & _ & Pb).
    assert (Lk : nth k lines 0 = printed_before t hs (snd (owner c)) y + i) by (apply La; auto).
    destruct (cell_field t ws hs y k c (nth k lines 0) Pr Ta Sm Hk Fo Lt) as (p & w & h & segs & B & Lo & E1 & E2 & E3 & E4 & E5 & E6 & E7); [rewrite Lk; apply Bd; lia|].
    rewrite E1. cbn [rbind]. rewrite E2. cbn [rbind]. rewrite E3. cbn [lift then_]. rewrite E4. cbn [lift then_]. destruct (c_sx p) as [|sx] eqn:Es; [lia|].
    destruct (IH (k + S sx) (update k S lines)) as (rest & lines' & I1 & I2 & I3 & I4 & I5); [lia|lia|rewrite update_length; auto| | |].
    { rewrite <- Es. eapply starts_next; eauto. }
    { intros x d A1 A2 A3 A4. rewrite nth_update_nat by lia. destruct (Nat.eqb_spec x k); [lia|]. apply La; auto; lia. }
    rewrite I1. cbn [then_]. eexists _, lines'. split; [reflexivity|]. split.
    + rewrite !glyphs_app, I2. replace (t_cols t - k) with (1 + (sx + (t_cols t - (k + S sx)))) by lia. rewrite !seq_app, !flat_map_app. cbn [List.seq flat_map]. rewrite app_nil_r.
      rewrite (flat_map_nil _ _ _ (List.seq (k + 1) sx)).
      2:{ intros j J. apply in_seq in J. destruct (inner_columns t y k c p j W Hk Fo B) as (d & D1 & D2); [lia|]. unfold content_piece. rewrite (look_getc _ _ _ _ D1), D2. destruct (owner c) as [px py]. cbn [fst] in Fo. subst px. destruct (Nat.eqb_spec k j); [lia|reflexivity]. }
      replace (k + 1 + sx) with (k + S sx) by lia. cbn [app]. set (tl := flat_map _ (List.seq (k + S sx) _)). unfold content_piece. rewrite (look_getc _ _ _ _ Hk). destruct (owner c) as [px py]. cbn [fst snd] in *. subst px. rewrite Nat.eqb_refl, <- app_assoc. f_equal.
      * destruct (has_vline t k); [|reflexivity]. rewrite glyphs_vline. unfold left_line. rewrite (look_getc _ _ _ _ Hk). reflexivity.
      * f_equal. rewrite Lo, <- Lk. exact E7.
    + split; auto. split.
      * intros x d A1 A2 A3 A4. destruct (le_lt_dec (k + S sx) x); [apply I4; auto|]. destruct (Nat.eq_dec x k) as [->|N].
        -- rewrite I5 by lia. rewrite nth_update_nat by lia. rewrite Nat.eqb_refl. assert (d = c) by congruence. subst d. rewrite Lk. lia.
        -- destruct (inner_columns t y k c p x W Hk Fo B) as (d' & D1 & D2); [lia|]. assert (d' = d) by congruence. subst d'. rewrite D2 in A4. congruence.
      * intros x Hx. rewrite I5 by lia. rewrite nth_update_nat by lia. destruct (Nat.eqb_spec x k); [lia|reflexivity].
Qed.
(** Lines of cells that began above, before (after) the line above row [y] *)
Definition lines_above (t : table) (hs : list nat) (y to k : nat) (lines : list nat) : Prop := forall x c, k <= x -> x < t_cols t -> getc t y x = Some c -> fst (owner c) = x -> snd (owner c) < y -> nth x lines 0 = total hs (snd (owner c)) y + how_many (has_hline t) (snd (owner c) + 1) to.
Lemma border_exact : forall t ws hs y r, printable t ws hs -> tall t hs -> small t hs -> nth_error (t_rows t) y = Some r -> has_hline t y = true ->
  forall fuel k lines, t_cols t - k <= fuel -> k <= t_cols t -> List.length lines = t_cols t -> begins t y k -> lines_above t hs y y k lines ->
  exists line lines', border_loop t ws hs fuel (match y with 0 => None | S y' => nth_error (t_rows t) y' end) r lines k = Done (Ok (line, lines')) /\ glyphs line = flat_map (border_piece t ws hs y) (List.seq k (t_cols t - k)) /\ List.length lines' = t_cols t
    /\ lines_above t hs y (S y) k lines' /\ (forall x, x < k -> nth x lines' 0 = nth x lines 0).
Proof.
  intros t ws hs y r Pr Ta Sm Hr Hl. pose proof (pr_wf _ _ _ Pr) as W. pose proof W as [Sh L]. assert (Hy : y < num_rows t) by (apply nth_error_Some; congruence). pose proof (sh_cols t Sh) as Hc. pose proof (pr_ws _ _ _ Pr) as Lw.
  assert (Bd : forall py, py < y -> total hs py y + how_many (has_hline t) (py + 1) y < Nat.pow 2 31).
  { intros py Hp. pose proof (how_many_le (has_hline t) (py + 1) y). pose proof (total_part hs py y (num_rows t) ltac:(lia)). unfold small in Sm. lia. }
  set (above := match y with 0 => None | S y' => nth_error (t_rows t) y' end).
  induction fuel as [|f IH]; intros k lines F K Ll St La; cbn [border_loop].
  - exists [], lines. replace (t_cols t - k) with 0 by lia. split; auto. split; auto. split; auto. split; auto. intros x c A B. lia.
  - destruct (Nat.ltb_spec k (t_cols t)) as [Lt|Ge]; [|exists [], lines; replace (t_cols t - k) with 0 by lia; split; auto; split; auto; split; auto; split; auto; intros x c A B; lia].
    destruct (getc_some t y k Sh Hy ltac:(lia)) as (c & Hk). unfold at_ at 1. rewrite (row_cell _ _ _ _ Hr), Hk. cbn [lift then_].
    destruct (has_vline_at t k) as (n & N1 & N2); [rewrite (sh_counts t Sh); lia|]. unfold at_ at 1. rewrite N1. cbn [rbind]. rewrite (at_ok _ (t_left t) k BNone) by (rewrite (sh_left t Sh); lia). cbn [rbind lift then_]. rewrite <- N2.
    set (cross := if has_vline t k then [intersection _ _ _ _ _] else []). assert (Cr : glyphs cross = if has_vline t k then [corner t y k] else []).
    { unfold cross. destruct (has_vline t k); [|reflexivity]. apply corner_exact; auto. lia. } clearbody cross.
    rewrite (at_ok _ ws k 0) by lia. cbn [lift then_].
    assert (One : snd (owner c) = y -> exists line lines', then_ (border_loop t ws hs f above r lines (S k)) (fun '(rest, lines') => Done (Ok (cross ++ hline (get_border_above (r_above r) c) (nth k ws 0) ++ rest, lines'))) = Done (Ok (line, lines'))
       /\ glyphs line = flat_map (border_piece t ws hs y) (List.seq k (t_cols t - k)) /\ List.length lines' = t_cols t /\ lines_above t hs y (S y) k lines' /\ (forall x, x < k -> nth x lines' 0 = nth x lines 0)).
    { intros Oy. destruct (IH (S k) lines) as (rest & lines' & I1 & I2 & I3 & I4 & I5); [lia|lia|auto|eapply begins_one; eauto|intros x d A1 A2 A3 A4 A5; apply La; auto; lia|]. rewrite I1. cbn [then_]. eexists _, lines'. split; [reflexivity|]. split; [|split; auto; split].
      - rewrite !glyphs_app, I2. replace (t_cols t - k) with (1 + (t_cols t - S k)) by lia. cbn [List.seq flat_map Nat.add]. set (tl := flat_map _ (List.seq (S k) _)). unfold border_piece. rewrite (look_getc _ _ _ _ Hk). destruct (owner c) as [px py]. cbn [snd] in Oy. subst py. rewrite Nat.eqb_refl, <- app_assoc, Cr. f_equal. rewrite glyphs_hline. unfold above_line. rewrite (look_getc _ _ _ _ Hk), Hr. reflexivity.
      - intros x d A1 A2 A3 A4 A5. destruct (Nat.eq_dec x k) as [->|N]; [assert (d = c) by congruence; subst d; lia|]. apply I4; auto. lia.
      - intros x Hx. apply I5. lia. }
    pose proof (L _ _ _ Hk) as (_ & Yc & _ & _ & _). pose proof (owner_ok _ _ _ _ W Hk) as (p & B & G & P & P1 & P2 & P3 & P4). pose proof B as B0. unfold base in B0. destruct (c_parent c) as [[px py]|] eqn:Pc; [|apply One; unfold owner; rewrite Pc; auto].
    assert (Ow : owner c = (px, py)) by (unfold owner; rewrite Pc; reflexivity). rewrite Ow in *. cbn [fst snd] in *.
    destruct (Nat.eqb_spec py (c_y c)) as [Ep|Ep]; [apply One; congruence|]. rewrite B0. cbn [lift then_].
    assert (Px : px = k). { specialize (St c Hk). rewrite Ow in St. cbn [fst snd] in St. apply St. congruence. } rewrite Px in *. clear Px px.
    rewrite (at_ok _ (t_h t) k HLeft) by (rewrite (sh_h t Sh); lia). rewrite (at_ok _ (t_v t) k VTop) by (rewrite (sh_v t Sh); lia). rewrite (at_ok _ lines k 0) by lia. cbn [rbind].
    assert (Fp : fst (owner p) = k) by (unfold owner; rewrite P; exact P1).
    assert (Lk : nth k lines 0 = total hs py y + how_many (has_hline t) (py + 1) y). { pose proof (La k c (le_n _) Lt Hk) as Q. rewrite Ow in Q. cbn [fst snd] in Q. apply Q; auto. lia. }
    destruct (cell_field t ws hs py k p (nth k lines 0) Pr Ta Sm G Fp Lt) as (p' & w & h & segs & Bp & Lo & E1 & E2 & E3 & E4 & E5 & E6 & E7); [rewrite Lk; apply Bd; lia|].
    unfold base in Bp. rewrite P in Bp. apply Ok_inj in Bp. subst p'. rewrite E1. cbn [rbind]. rewrite E2. cbn [rbind]. rewrite E3. cbn [lift then_]. destruct (c_sx p) as [|sx] eqn:Es; [lia|].
    assert (Fo : fst (owner c) = k) by (rewrite Ow; reflexivity).
    destruct (IH (k + S sx) (update k S lines)) as (rest & lines' & I1 & I2 & I3 & I4 & I5); [lia|lia|rewrite update_length; auto| | |].
    { rewrite <- Es. eapply begins_next; eauto. rewrite Ow. cbn [snd]. congruence. }
    { intros x d A1 A2 A3 A4 A5. rewrite nth_update_nat by lia. destruct (Nat.eqb_spec x k); [lia|]. apply La; auto; lia. }
    rewrite I1. cbn [then_]. eexists _, lines'. split; [reflexivity|]. split; [|split; auto; split].
    + rewrite !glyphs_app, I2. replace (t_cols t - k) with (1 + (sx + (t_cols t - (k + S sx)))) by lia. rewrite !seq_app, !flat_map_app. cbn [List.seq flat_map]. rewrite app_nil_r.
      rewrite (flat_map_nil _ _ _ (List.seq (k + 1) sx)).
      2:{ intros j J. apply in_seq in J. destruct (inner_columns t y k c p j W Hk Fo B) as (d & D1 & D2); [lia|]. unfold border_piece. rewrite (look_getc _ _ _ _ D1), D2, Ow. destruct (Nat.eqb_spec py y); [congruence|]. destruct (Nat.eqb_spec k j); [lia|reflexivity]. }
      replace (k + 1 + sx) with (k + S sx) by lia. cbn [app]. set (tl := flat_map _ (List.seq (k + S sx) _)). unfold border_piece. rewrite (look_getc _ _ _ _ Hk), Ow. destruct (Nat.eqb_spec py y); [congruence|]. rewrite Nat.eqb_refl, <- app_assoc, Cr. f_equal. f_equal. rewrite (look_getc _ _ _ _ G), <- Lk. exact E7.
    + intros x d A1 A2 A3 A4 A5. destruct (le_lt_dec (k + S sx) x); [apply I4; auto|]. destruct (Nat.eq_dec x k) as [->|N].
      * rewrite I5 by lia. rewrite nth_update_nat by lia. rewrite Nat.eqb_refl. assert (d = c) by congruence. subst d. rewrite Ow, Lk in *. cbn [snd] in *. rewrite (how_many_split _ (py + 1) y (S y)), (how_many_step _ y (S y)), (how_many_none _ (S y)), Hl by lia. lia.
      * destruct (inner_columns t y k c p x W Hk Fo B) as (d' & D1 & D2); [lia|]. assert (d' = d) by congruence. subst d'. rewrite D2 in A4. congruence.
    + intros x Hx. rewrite I5 by lia. rewrite nth_update_nat by lia. destruct (Nat.eqb_spec x k); [lia|reflexivity].
Qed.
Lemma lines_exact : forall t ws hs y r, printable t ws hs -> tall t hs -> small t hs -> nth_error (t_rows t) y = Some r ->
  forall n i lines, i + n = nth y hs 0 -> List.length lines = t_cols t -> lines_at t hs y i 0 lines ->
  exists out lines', content_lines t ws hs n r lines = Done (Ok (out, lines')) /\ map glyphs out = map (fun i => flat_map (content_piece t ws hs y i) (List.seq 0 (t_cols t))) (List.seq i n) /\ List.length lines' = t_cols t /\ lines_at t hs y (i + n) 0 lines'.
Proof.
  intros t ws hs y r Pr Ta Sm Hr. induction n as [|n IH]; intros i lines N Ll La; cbn [content_lines].
  - exists [], lines. rewrite Nat.add_0_r. auto.
  - destruct (content_exact t ws hs y i r Pr Ta Sm Hr ltac:(lia) (t_cols t) 0 lines) as (line & l1 & C1 & C2 & C3 & C4 & _); [lia|lia|auto|apply starts_zero, (pr_wf _ _ _ Pr)|auto|]. rewrite C1. cbn [then_].
    destruct (IH (S i) l1 ltac:(lia) C3 C4) as (out & l2 & I1 & I2 & I3 & I4). rewrite I1. cbn [then_]. eexists _, l2. split; [reflexivity|]. split; [|split; auto; replace (i + S n) with (S i + n) by lia; exact I4].
    cbn [map List.seq]. rewrite C2, I2, Nat.sub_0_r. reflexivity.
Qed.
Lemma restart_nth : forall t y r lines x c, wf t -> nth_error (t_rows t) y = Some r -> List.length lines = t_cols t -> getc t y x = Some c -> x < t_cols t -> nth x (restart r lines) 0 = if snd (owner c) =? y then 0 else nth x lines 0.
Proof.
  intros t y r lines x c W Hr Ll Hc Hx. pose proof W as [Sh L]. destruct (L _ _ _ Hc) as (_ & Yc & _). pose proof (nth_rows _ _ _ W Hr) as [Lr _]. pose proof (sh_cols t Sh) as Hm.
  assert (E : nth_error (restart r lines) x = Some (if snd (owner c) =? y then 0 else nth x lines 0)).
  { unfold restart. rewrite nth_error_map. assert (Ec : nth_error (combine (r_cells r) lines) x = Some (c, nth x lines 0)).
    { rewrite (nth_error_nth' _ (c, 0)) by (rewrite combine_length; lia). f_equal.
      assert (G : forall (a : list cell) (b : list nat) n d e, n < List.length a -> n < List.length b -> nth n (combine a b) (d, e) = (nth n a d, nth n b e)). { induction a as [|u a IHa]; intros [|v b] [|n] d e A B; cbn [List.length combine nth] in *; try lia; auto. apply IHa; lia. }
      rewrite G by lia. f_equal. apply nth_error_nth. rewrite (row_cell _ _ _ _ Hr). exact Hc. }
    rewrite Ec. cbn [option_map]. f_equal. unfold owner. destruct (c_parent c) as [[px py]|]; cbn [snd]; rewrite Yc; [reflexivity|]. rewrite Nat.eqb_refl. reflexivity. }
  apply nth_error_nth. exact E.
Qed.
Lemma rows_exact : forall t ws hs, printable t ws hs -> tall t hs -> small t hs -> forall rs y lines, t_rows t = firstn y (t_rows t) ++ rs -> y + List.length rs = num_rows t -> List.length lines = t_cols t -> lines_above t hs y y 0 lines ->
  exists out, print_rows t ws hs (match y with 0 => None | S y' => nth_error (t_rows t) y' end) rs (skipn y hs) lines = Done (Ok out) /\
  map glyphs out = flat_map (fun y => (if has_hline t y then [flat_map (border_piece t ws hs y) (List.seq 0 (t_cols t))] else []) ++
    map (fun k => flat_map (content_piece t ws hs y k) (List.seq 0 (t_cols t))) (List.seq 0 (nth y hs 0))) (List.seq y (num_rows t - y)).
Proof.
  intros t ws hs Pr Ta Sm. pose proof (pr_wf _ _ _ Pr) as W. pose proof W as [Sh L]. pose proof (pr_hs _ _ _ Pr) as Lh. induction rs as [|r rs IH]; intros y lines E N Ll La; cbn [List.length] in N.
  - cbn [print_rows]. exists []. replace (num_rows t - y) with 0 by lia. destruct (skipn y hs); auto.
  - destruct (skipn y hs) as [|h hs'] eqn:Eh. { apply (f_equal (@List.length nat)) in Eh. rewrite skipn_length in Eh. cbn [List.length] in Eh. lia. } cbn [print_rows].
    assert (Hr : nth_error (t_rows t) y = Some r). { rewrite E. rewrite nth_error_app2 by (rewrite firstn_length; lia). rewrite firstn_length. unfold num_rows in N. replace (y - Nat.min y (List.length (t_rows t))) with 0 by lia. reflexivity. }
    destruct (skipn_head _ _ _ _ Eh) as [Hh Hs]. set (prev := match y with 0 => None | S y' => nth_error (t_rows t) y' end) in *.
    assert (Hl : has_hline t y = (0 <? r_count r)) by (unfold has_hline; rewrite Hr; reflexivity).
    assert (Top : exists top l1, (if 0 <? r_count r then then_ (border_loop t ws hs (t_cols t) prev r lines 0) (fun '(line, l) => Done (Ok ([line], l))) else Done (Ok ([], lines))) = Done (Ok (top, l1))
      /\ map glyphs top = (if has_hline t y then [flat_map (border_piece t ws hs y) (List.seq 0 (t_cols t))] else []) /\ List.length l1 = t_cols t /\ lines_above t hs y (S y) 0 l1).
    { rewrite <- Hl. destruct (has_hline t y) eqn:Hy.
      - destruct (border_exact t ws hs y r Pr Ta Sm Hr Hy (t_cols t) 0 lines) as (line & l1 & C1 & C2 & C3 & C4 & _); [lia|lia|auto|apply begins_zero; auto|auto|]. fold prev in C1. rewrite C1. cbn [then_]. eexists _, l1. split; [reflexivity|]. cbn [map]. rewrite C2, Nat.sub_0_r. auto.
      - eexists _, _. split; [reflexivity|]. split; auto. split; auto. intros x c A1 A2 A3 A4 A5. rewrite (La x c A1 A2 A3 A4 A5). rewrite (how_many_split _ (snd (owner c) + 1) y (S y)), (how_many_step _ y (S y)), (how_many_none _ (S y)), Hy by lia. lia. }
    destruct Top as (top & l1 & T1 & T2 & T3 & T4). rewrite T1. cbn [then_].
    destruct (lines_exact t ws hs y r Pr Ta Sm Hr h 0 (restart r l1)) as (body & l2 & B1 & B2 & B3 & B4); [auto| |intros x c A1 A2 A3 A4|].
    { apply restart_length; auto; [eapply nth_rows; eauto|apply (sh_cols t Sh)]. }
    { rewrite (restart_nth t y r l1 x c W Hr T3 A3 A2). unfold printed_before. destruct (Nat.eqb_spec (snd (owner c)) y) as [Eo|No]; [rewrite Eo, total_none, how_many_none by lia; reflexivity|].
      destruct (owner_ok _ _ _ _ W A3) as (p & _ & _ & _ & _ & Py & _ & Pb). rewrite (T4 x c A1 A2 A3 A4 ltac:(lia)). replace (y + 1) with (S y) by lia. lia. }
    rewrite B1. cbn [then_].
    destruct (IH (S y) l2) as (rest & R1 & R2); [|lia|auto|intros x c A1 A2 A3 A4 A5|].
    { rewrite E at 1. rewrite E at 2. rewrite firstn_app. assert (Lf : List.length (firstn y (t_rows t)) = y) by (rewrite firstn_length; unfold num_rows in N; lia). rewrite Lf. rewrite (@firstn_all2 _ (S y) (firstn y (t_rows t))) by lia. replace (S y - y) with 1 by lia. cbn [firstn]. rewrite <- app_assoc. reflexivity. }
    { destruct (owner_ok _ _ _ _ W A3) as (p & _ & G & P & _ & Py & Px & Pb). destruct (owner_of t _ _ p y x W G P) as (d & D1 & D2); [lia|lia|]. rewrite A4 in D2. assert (Fd : fst (owner d) = x) by (rewrite D2; reflexivity). rewrite (B4 x d A1 A2 D1 Fd), D2. cbn [snd].
      unfold printed_before. rewrite (total_split hs (snd (owner c)) y (S y)), (total_step hs y (S y)), (total_none hs (S y)), <- Hh by lia. replace (y + 1) with (S y) by lia. lia. }
    rewrite Hr in R1. rewrite Hs, R1. cbn [then_]. eexists. split; [reflexivity|]. rewrite !map_app, T2, B2, R2. replace (num_rows t - y) with (S (num_rows t - S y)) by lia. cbn [List.seq flat_map]. rewrite <- app_assoc, Hh. reflexivity.
Qed.
Lemma picture_exact : forall t ws hs, printable t ws hs -> tall t hs -> small t hs -> exists out, print_rows t ws hs None (t_rows t) hs (repeat 0 (t_cols t)) = Done (Ok out) /\ map glyphs out = picture t ws hs.
Proof.
  intros t ws hs Pr Ta Sm. destruct (rows_exact t ws hs Pr Ta Sm (t_rows t) 0 (repeat 0 (t_cols t))) as (out & O1 & O2); [reflexivity|reflexivity|apply repeat_length|intros x c A1 A2 A3 A4 A5; lia|]. exists out. split; [exact O1|]. rewrite O2, Nat.sub_0_r. reflexivity.
Qed.

(** ** Lines removed by printing *)
Definition frame (t : table) := (t_cols t, t_left t, t_h t, t_v t, map r_above (t_rows t)).
Lemma nth_error_ext' : forall A (l l' : list A), (forall n, nth_error l n = nth_error l' n) -> l = l'.
Proof. induction l as [|a l IH]; intros [|b l'] H; auto; [specialize (H 0); discriminate|specialize (H 0); discriminate|]. pose proof (H 0) as E. cbn in E. f_equal; [congruence|]. apply IH. intros n. apply (H (S n)). Qed.
Lemma map_update : forall A B (g : A -> B) n f l, (forall a, g (f a) = g a) -> map g (update n f l) = map g l.
Proof.
  intros A B g n f l H. apply nth_error_ext'. intros m. rewrite !nth_error_map, nth_error_update. destruct (Nat.eqb_spec m n) as [->|]; auto. destruct (nth_error l n); cbn [option_map]; auto. rewrite H. reflexivity.
Qed.
Definition bare_above (t : table) : Prop := forall y x c, getc t y x = Some c -> overridden (c_above c) = BNone.
Definition counts_above (t : table) := map r_count (t_rows t).
Lemma update_same : forall A n (f : A -> A) l, (forall a, nth_error l n = Some a -> f a = a) -> update n f l = l.
Proof. intros A n f l H. apply nth_error_ext'. intros m. rewrite nth_error_update. destruct (Nat.eqb_spec m n) as [->|]; auto. destruct (nth_error l n) as [a|]; cbn [option_map]; auto. rewrite (H a); auto. Qed.
Lemma one_above : forall t t', override_above_border t BNone = Ok t' ->
  frame t' = frame t /\ num_rows t' = num_rows t /\ (forall y x, getc t' y x = if (y =? t_row t) && (x =? t_col t) then option_map (put_above BNone) (getc t y x) else getc t y x)
  /\ (bare_above t -> counts_above t' = counts_above t).
Proof.
  intros t t' H. unfold override_above_border in H. destruct (curr_cell t) as [c| |] eqn:E; try discriminate. apply curr_ok in E. cbn [rbind] in H. apply Ok_inj in H. subst t'. set (t1 := with_rows _ t).
  assert (G : forall y x, getc t1 y x = getc t y x). { intros y x. unfold t1. rewrite getc_row. destruct (Nat.eqb_spec y (t_row t)) as [->|]; auto. }
  split; [|split; [rewrite rows_set; unfold num_rows, t1, with_rows; cbn [t_rows]; apply update_length|split]].
  - unfold frame, set_cell, t1, with_rows. cbn. rewrite !map_update; auto.
  - intros y x. rewrite getc_set. destruct ((y =? t_row t) && (x =? t_col t)) eqn:Eq; [|apply G]. apply andb_true_iff in Eq. destruct Eq as [E1 E2]. apply Nat.eqb_eq in E1, E2. subst. rewrite G. reflexivity.
  - intros B. unfold counts_above, set_cell, t1, with_rows. cbn [t_rows]. rewrite map_update by auto. rewrite (B _ _ _ E), map_update; auto.
Qed.
Lemma one_left : forall t t', override_left_border t BNone = Ok t' ->
  frame t' = frame t /\ num_rows t' = num_rows t /\ (forall y x, getc t' y x = if (y =? t_row t) && (x =? t_col t) then option_map (put_left BNone) (getc t y x) else getc t y x) /\ counts_above t' = counts_above t /\ t_row t' = t_row t.
Proof.
  intros t t' H. unfold override_left_border in H. destruct (curr_cell t) as [c| |] eqn:E; try discriminate. cbn [rbind] in H. apply Ok_inj in H. subst t'. set (t1 := with_counts _ t).
  split; [|split; [rewrite rows_set; reflexivity|split; [|split; [|reflexivity]]]].
  - unfold frame, set_cell, t1, with_rows. cbn. rewrite !map_update; auto.
  - intros y x. rewrite getc_set. change (getc t1) with (getc t). destruct ((y =? t_row t) && (x =? t_col t)) eqn:Eq; auto. apply andb_true_iff in Eq. destruct Eq as [E1 E2]. apply Nat.eqb_eq in E1, E2. subst. reflexivity.
  - unfold counts_above, set_cell, t1, with_rows. cbn [t_rows with_counts]. apply map_update. auto.
Qed.
Lemma bare_kept : forall t t', (forall y x, getc t' y x = getc t y x \/ getc t' y x = option_map (put_above BNone) (getc t y x)) -> bare_above t -> bare_above t'.
Proof. intros t t' H B y x c G. destruct (H y x) as [E|E]; rewrite E in G; [eapply B; eauto|]. destruct (getc t y x); inversion G; reflexivity. Qed.
Lemma trim_above : forall ys t t', blank_above t ys = Ok t' ->
  frame t' = frame t /\ num_rows t' = num_rows t /\ (forall y x, getc t' y x = if existsb (Nat.eqb y) ys && (x =? t_cols t - 1) then option_map (put_above BNone) (getc t y x) else getc t y x)
  /\ (bare_above t -> counts_above t' = counts_above t) /\ (forall y0, last ys y0 = t_row t' \/ ys = []).
Proof.
  induction ys as [|y ys IH]; intros t t' H; cbn [blank_above] in H.
  - apply Ok_inj in H. subst t'. repeat split; auto.
  - destruct (override_above_border (at_position y (t_cols t - 1) t) BNone) as [t1| |] eqn:E1; try discriminate. cbn [rbind] in H. destruct (one_above _ _ E1) as (A1 & A2 & A3 & A4). destruct (IH _ _ H) as (B1 & B2 & B3 & B4 & B5).
    assert (Cc : t_cols t1 = t_cols t) by (unfold frame in A1; cbn in A1; congruence).
    assert (G : forall y0 x, getc t1 y0 x = getc t y0 x \/ getc t1 y0 x = option_map (put_above BNone) (getc t y0 x)). { intros y0 x. rewrite A3. cbn [at_position t_row t_col]. change (getc (at_position y (t_cols t - 1) t)) with (getc t). destruct (_ && _); auto. }
    split; [rewrite B1, A1; reflexivity|]. split; [rewrite B2, A2; reflexivity|]. split; [|split].
    + intros y0 x. rewrite B3, A3, Cc. cbn [at_position t_row t_col existsb]. change (getc (at_position y (t_cols t - 1) t)) with (getc t). destruct (Nat.eqb_spec y0 y), (existsb (Nat.eqb y0) ys), (Nat.eqb_spec x (t_cols t - 1)); cbn [andb orb]; auto. destruct (getc t y0 x); reflexivity.
    + intros B. rewrite B4, A4; auto. eapply bare_kept; eauto.
    + intros y0. left. destruct ys as [|y2 ys].
      * cbn [blank_above] in H. apply Ok_inj in H. subst t'. cbn [last]. unfold override_above_border in E1. destruct (curr_cell _); try discriminate. cbn [rbind] in E1. apply Ok_inj in E1. subst t1. reflexivity.
      * destruct (B5 y0) as [B|B]; [|discriminate]. rewrite <- B. reflexivity.
Qed.
Lemma trim_left : forall xs t t', blank_left t xs = Ok t' ->
  frame t' = frame t /\ num_rows t' = num_rows t /\ (forall y x, getc t' y x = if (y =? t_row t) && existsb (Nat.eqb x) xs then option_map (put_left BNone) (getc t y x) else getc t y x) /\ counts_above t' = counts_above t.
Proof.
  induction xs as [|x xs IH]; intros t t' H; cbn [blank_left] in H.
  - apply Ok_inj in H. subst t'. split; [|split; [|split]]; auto. intros y x. cbn [existsb]. rewrite andb_false_r. reflexivity.
  - destruct (override_left_border (at_position (t_row t) x t) BNone) as [t1| |] eqn:E1; try discriminate. cbn [rbind] in H. destruct (one_left _ _ E1) as (A1 & A2 & A3 & A4 & A5). cbn [at_position t_row t_col] in A3, A5. change (getc (at_position (t_row t) x t)) with (getc t) in A3. destruct (IH _ _ H) as (B1 & B2 & B3 & B4).
    split; [rewrite B1, A1; reflexivity|]. split; [rewrite B2, A2; reflexivity|]. split; [|rewrite B4, A4; reflexivity].
    intros y x0. rewrite B3, A3, A5. cbn [existsb]. destruct (y =? t_row t), (x0 =? x), (existsb (Nat.eqb x0) xs); cbn [andb orb]; auto. destruct (getc t y x0); reflexivity.
Qed.
Lemma existsb_seq : forall n y, existsb (Nat.eqb y) (List.seq 0 n) = (y <? n).
Proof. intros n y. destruct (Nat.ltb_spec y n). - apply existsb_exists. exists y. split; [apply in_seq; lia|apply Nat.eqb_refl]. - apply not_true_is_false. intros E. apply existsb_exists in E. destruct E as (z & I & Z). apply in_seq in I. apply Nat.eqb_eq in Z. lia. Qed.
Lemma trim_all : forall t w h t', wf t -> 1 <= t_cols t -> override_superfluous_lines t w h = Ok t' -> trimmed t w h t' /\ (bare_above t -> counts_above t' = counts_above t).
Proof.
  intros t w h t' W C H. unfold override_superfluous_lines in H. pose proof (sh_row t (proj1 W)) as Hr. assert (Pos : 1 <= num_rows t) by lia.
  destruct (if w =? 0 then blank_above t (List.seq 0 (num_rows t)) else Ok (at_position (num_rows t - 1) (t_col t) t)) as [t1| |] eqn:E1; try discriminate. cbn [rbind] in H.
  assert (K1 : frame t1 = frame t /\ num_rows t1 = num_rows t /\ (forall y x, getc t1 y x = if (w =? 0) && (y <? num_rows t) && (x =? t_cols t - 1) then option_map (put_above BNone) (getc t y x) else getc t y x) /\ (bare_above t -> counts_above t1 = counts_above t) /\ t_row t1 = num_rows t - 1).
  { destruct (w =? 0); [|apply Ok_inj in E1; subst t1; repeat split; auto]. destruct (trim_above _ _ _ E1) as (A1 & A2 & A3 & A4 & A5). split; auto. split; auto. split; [intros y x; rewrite A3, existsb_seq; reflexivity|]. split; auto. destruct (A5 0) as [A5'|A5'].
    - rewrite <- A5'. replace (num_rows t) with (S (num_rows t - 1)) at 1 by lia. rewrite seq_S. apply last_last.
    - apply (f_equal (@List.length nat)) in A5'. rewrite seq_length in A5'. cbn in A5'. lia. }
  destruct K1 as (A1 & A2 & A3 & A4 & A5). assert (Cc : t_cols t1 = t_cols t) by (unfold frame in A1; cbn in A1; congruence).
  assert (K2 : frame t' = frame t1 /\ num_rows t' = num_rows t1 /\ (forall y x, getc t' y x = if (h =? 0) && (y =? num_rows t - 1) && (x <? t_cols t) then option_map (put_left BNone) (getc t1 y x) else getc t1 y x) /\ counts_above t' = counts_above t1).
  { destruct (h =? 0); [|apply Ok_inj in H; subst t'; repeat split; auto]. destruct (trim_left _ _ _ H) as (B1 & B2 & B3 & B4). split; auto. split; auto. split; auto. intros y x. rewrite B3, existsb_seq, A5, Cc. reflexivity. }
  destruct K2 as (B1 & B2 & B3 & B4). split; [|intros B; rewrite B4; auto]. rewrite A1 in B1. unfold frame in B1. split; [congruence|]. split; [congruence|]. split; [congruence|]. split; [congruence|]. split; [congruence|]. split; [congruence|].
  intros y x c G. apply cell_at_getc in G. pose proof (getc_range _ _ _ _ (proj1 W) G) as [Ry Rx]. assert (R : (y <? num_rows t) = true) by (apply Nat.ltb_lt; auto). assert (Ex : (x =? t_cols t - 1) = (S x =? t_cols t)) by (destruct (Nat.eqb_spec x (t_cols t - 1)), (Nat.eqb_spec (S x) (t_cols t)); auto; lia). assert (Ey : (y =? num_rows t - 1) = (S y =? num_rows t)) by (destruct (Nat.eqb_spec y (num_rows t - 1)), (Nat.eqb_spec (S y) (num_rows t)); auto; lia).
  specialize (B3 y x). rewrite A3, R, Ex, Ey, andb_true_r, G in B3.
  destruct ((w =? 0) && (S x =? t_cols t)), ((h =? 0) && (S y =? num_rows t) && (x <? t_cols t)); cbn [option_map] in B3; eexists; (split; [apply cell_at_getc; exact B3|]); cbn; repeat split.
Qed.

(** ** The whole table *)
Lemma fprint_picture : forall t ws hs, wf t -> 1 <= t_cols t -> get_dimensions t = Ok (ws, hs) -> small t hs ->
  exists t', override_superfluous_lines t (nth (t_cols t - 1) ws 0) (nth (num_rows t - 1) hs 0) = Ok t' /\
  (spans_kept t t' -> (forall y x c, getc t y x = Some c -> c_parent c = None -> 1 < c_sy c -> counts_above t' = counts_above t) ->
   exists out, fprint_table t = Done (Ok (t', out)) /\ map glyphs out = picture t' ws hs).
Proof.
  intros t ws hs W C D Sm. destruct (dims_satisfied t ws hs D) as (Lw & Lh & Sat). pose proof (sh_row t (proj1 W)) as Hr.
  destruct (superfluous t (nth (t_cols t - 1) ws 0) (nth (num_rows t - 1) hs 0) W C) as (t' & E & R). exists t'. split; auto. intros K Kh. pose proof R as (W' & A & C' & N' & _).
  assert (Hh : counts_above t' = counts_above t -> forall y, has_hline t' y = has_hline t y). { intros Hc y. unfold has_hline. unfold counts_above in Hc. apply (f_equal (fun l => nth_error l y)) in Hc. rewrite !nth_error_map in Hc. destruct (nth_error (t_rows t') y), (nth_error (t_rows t) y); cbn [option_map] in Hc; try discriminate; auto. congruence. }
  assert (Pr : printable t' ws hs /\ tall t' hs).
  { assert (Both : forall y x c', getc t' y x = Some c' -> c_parent c' = None -> exists c, getc t y x = Some c /\ c_parent c = None /\ c_sx c' = c_sx c /\ c_sy c' = c_sy c /\ c_text c' = c_text c /\ c_height c' = c_height c /\ text_ok c /\ 1 <= c_sx c /\ 1 <= c_sy c /\ (c_text c <> None -> x < t_cols t /\ In (y, x, c) (places t))).
    { intros y x c' G P. destruct (alike_some _ _ _ _ _ (alike_sym _ _ A) G) as (c & G0 & Cc). apply core_fields in Cc. destruct Cc as (_ & _ & Sx & Sy & St & Pa & Te & He & Wi). assert (P0 : c_parent c = None) by congruence. destruct W as [Sh L]. destruct (L _ _ _ G0) as (_ & _ & T & Xs & O). unfold owned in O. rewrite P0 in O. destruct O as (O1 & O2 & _).
      exists c. repeat (split; [auto; fail|]). intros Tn. destruct T as (_ & _ & _ & [T4|T4]); [congruence|]. split; auto. apply in_places. split; auto. split; auto. unfold constrained. rewrite T4, P0. reflexivity. }
    split; [constructor; auto; [congruence|congruence|]|].
    - intros y x c' G P X. destruct (Both _ _ _ G P) as (c & G0 & P0 & Sx & Sy & Te & He & T & O1 & O2 & Pl). 
      assert (Hm : how_many (has_vline t') (S x) (x + c_sx c) = how_many (has_vline t) (S x) (x + c_sx c)).
      { destruct (le_lt_dec (c_sx c) 1); [rewrite !how_many_none by lia; reflexivity|]. destruct (K _ _ _ G0 P0 l) as (_ & _ & K3). apply how_many_ext. intros j J. apply K3. lia. }
      rewrite Sx. split.
      + intros S1. destruct (K _ _ _ G0 P0 S1) as (K1 & K2 & K3). split; auto. rewrite !K3 by lia. exact K2.
      + rewrite Hm. intros s l Es. rewrite Te in Es. apply (fits_width c _ T); auto. apply (Sat y x c); auto. apply Pl. congruence.
    - intros y x c' G P. destruct (Both _ _ _ G P) as (c & G0 & P0 & Sx & Sy & Te & He & T & O1 & O2 & Pl). rewrite Sy, He. destruct (c_text c) eqn:Et; [|destruct T as (_ & _ & T & _); rewrite T, Et; cbn; lia].
      assert (Hm : how_many (has_hline t') (S y) (y + c_sy c) = how_many (has_hline t) (S y) (y + c_sy c)).
      { destruct (le_lt_dec (c_sy c) 1); [rewrite !how_many_none by lia; reflexivity|]. apply how_many_ext. intros j J. apply Hh. eapply Kh; eauto. }
      rewrite Hm. apply (Sat y x c); auto. apply Pl. congruence. }
  destruct Pr as [Pr Ta]. destruct (picture_exact t' ws hs Pr Ta) as (out & O1 & O2); [unfold small; rewrite N'; exact Sm|]. exists out. split; [|exact O2].
  unfold fprint_table. replace (t_cols t =? 0) with false by (symmetry; apply Nat.eqb_neq; lia). rewrite D. cbn [lift then_]. rewrite (at_ok _ ws (t_cols t - 1) 0) by lia. rewrite (at_ok _ hs (num_rows t - 1) 0) by lia. cbn [rbind]. rewrite E. cbn [then_]. rewrite O1. reflexivity.
Qed.
