(** The calls of table.h change the sheet as described (for C69). *)
From Coq Require Import List Ascii String NArith ZArith Bool Lia Arith.
From Verif Require Import M_Base M_StringUtil M_Eval M_Table S_Util S_Table S_TableApi L_Table L_TableWf L_TablePrint.
Import ListNotations.
Open Scope nat_scope.
Open Scope res_scope.

Lemma look_getc : forall t y x, look t y x = match getc t y x with Some c => c | None => fresh_cell y x end.
Proof. intros. unfold look. rewrite the_cell_getc. destruct (getc t y x); reflexivity. Qed.
Lemma look_set : forall t y x f i j, shape t -> y < num_rows t -> x < TABLE_MAX_COLS -> look (set_cell y x f t) i j = if (i =? y) && (j =? x) then f (look t i j) else look t i j.
Proof.
  intros t y x f i j Sh Y X. rewrite !look_getc, getc_set. destruct (Nat.eqb_spec i y) as [->|]; [|reflexivity]. destruct (Nat.eqb_spec j x) as [->|]; [|reflexivity]. cbn [andb].
  destruct (getc_some t y x Sh Y X) as (c & E). rewrite E. reflexivity.
Qed.
Lemma look_append : forall t i j, shape t -> look (append_row t) i j = look t i j.
Proof.
  intros t i j Sh. rewrite !look_getc, getc_append. destruct (Nat.eqb_spec i (num_rows t)) as [->|]; [|reflexivity]. rewrite (getc_none t (num_rows t) j Sh) by auto. destruct (j <? TABLE_MAX_COLS); reflexivity.
Qed.
Definition row_line (t : table) (y : nat) : border := match nth_error (t_rows t) y with Some r => r_above r | None => BNone end.
Lemma line_update : forall t y g i, (forall r, r_above (g r) = r_above r) -> row_line (with_rows (update y g) t) i = row_line t i.
Proof. intros t y g i H. unfold row_line. cbn [t_rows with_rows]. rewrite nth_error_update. destruct (Nat.eqb_spec i y) as [->|]; auto. destruct (nth_error (t_rows t) y); cbn [option_map]; auto. Qed.
Lemma line_set : forall t y x f i, row_line (set_cell y x f t) i = row_line t i.
Proof. intros. apply line_update. reflexivity. Qed.
Lemma line_append : forall t i, row_line (append_row t) i = row_line t i.
Proof.
  intros t i. unfold row_line, append_row. cbn [t_rows with_rows]. destruct (le_lt_dec (List.length (t_rows t)) i) as [L|L]; [|rewrite nth_error_app1; auto].
  rewrite nth_error_app2 by auto. pose proof L as L'. apply nth_error_None in L. rewrite L. destruct (i - List.length (t_rows t)) as [|k]; [reflexivity|]. cbn [nth_error]. destruct k; reflexivity.
Qed.
(** Everything but cells and rows is as before. *)
Definition beside (t t' : table) : Prop := t_left t' = t_left t /\ t_h t' = t_h t /\ t_v t' = t_v t /\ forall i, row_line t' i = row_line t i.
Lemma beside_refl : forall t, beside t t. Proof. intros. unfold beside. auto. Qed.
Lemma beside_trans : forall a b c, beside a b -> beside b c -> beside a c.
Proof. intros a b c (A & B & C & D) (E & F & G & H). unfold beside. repeat (split; [congruence|]). intros. rewrite H. apply D. Qed.
Lemma beside_set : forall t y x f, beside t (set_cell y x f t).
Proof. intros. unfold beside. split; [reflexivity|]. split; [reflexivity|]. split; [reflexivity|]. intros. apply line_set. Qed.
Lemma beside_append : forall t, beside t (append_row t).
Proof. intros. unfold beside. split; [reflexivity|]. split; [reflexivity|]. split; [reflexivity|]. intros. apply line_append. Qed.
Lemma beside_position : forall t y x, beside t (at_position y x t).
Proof. intros. unfold beside. auto. Qed.
Lemma same_view : forall t t' g, g_rows g = num_rows t' -> g_cols g = t_cols t' -> g_y g = t_row t' -> g_x g = t_col t' -> (forall y x, seen (look t' y x) = g_spot g y x) ->
  (forall y, row_line t' y = g_hline g y) -> (forall x, nth x (t_left t') BNone = g_vline g x) -> (forall x, nth x (t_h t') HLeft = g_h g x) -> (forall x, nth x (t_v t') VTop = g_v g x) -> view t = view t -> same g (view t').
Proof. intros. unfold same, view. cbn [g_rows g_cols g_y g_x g_spot g_hline g_vline g_h g_v]. repeat (split; [congruence||auto|]). auto. Qed.
Lemma beside_view : forall t t' g, beside t t' -> g_hline g = g_hline (view t) -> g_vline g = g_vline (view t) -> g_h g = g_h (view t) -> g_v g = g_v (view t) ->
  g_rows g = num_rows t' -> g_cols g = t_cols t' -> g_y g = t_row t' -> g_x g = t_col t' -> (forall y x, seen (look t' y x) = g_spot g y x) -> same g (view t').
Proof.
  intros t t' g (A & B & C & D) E F G H R1 R2 R3 R4 R5. apply (same_view t); auto.
  - intros y. rewrite D, E. reflexivity.
  - intros x. rewrite A, F. reflexivity.
  - intros x. rewrite B, G. reflexivity.
  - intros x. rewrite C, H. reflexivity.
Qed.

Definition follows (t : table) (k : call) : Prop :=
  match exec_call t k, does (view t) k with Ok t', Some g => same g (view t') | Ok _, None => False | _, Some _ => False | _, None => True end.

(** ** Positions *)
Lemma iter_view : forall k t, shape t -> shape (Nat.iter k append_row t) /\ num_rows (Nat.iter k append_row t) = k + num_rows t /\ t_cols (Nat.iter k append_row t) = t_cols t /\ beside t (Nat.iter k append_row t) /\ forall i j, look (Nat.iter k append_row t) i j = look t i j.
Proof.
  induction k as [|k IH]; intros t Sh; cbn [Nat.iter nat_rect]; [repeat (split; auto); apply beside_refl|]. destruct (IH t Sh) as (A & B & C & D & E). change (nat_rect (fun _ => table) t (fun _ => append_row) k) with (Nat.iter k append_row t).
  split; [apply shape_append; auto|]. split; [rewrite rows_append; lia|]. split; [exact C|]. split; [eapply beside_trans; [exact D|apply beside_append]|]. intros. rewrite look_append; auto.
Qed.
Lemma position_view : forall t x y, shape t -> x < TABLE_MAX_COLS -> exists t', set_position t x y = Ok t' /\ same (goto y x (view t)) (view t').
Proof.
  intros t x y Sh X. unfold set_position. apply Nat.ltb_lt in X. rewrite X. destruct (Nat.ltb_spec y (num_rows t)).
  - eexists. split; [reflexivity|]. apply (beside_view t); auto. { apply beside_position. } cbn [g_rows goto view]. change (num_rows (at_position y x t)) with (num_rows t). lia.
  - destruct (iter_view (S y - num_rows t) t Sh) as (A & B & C & D & E). eexists. split; [reflexivity|]. set (t1 := Nat.iter (S y - num_rows t) append_row t) in *. apply (beside_view t); auto.
    + cbn [g_rows goto view]. change (num_rows (at_position y x t1)) with (num_rows t1). lia.
    + intros i j. change (look (at_position y x t1) i j) with (look t1 i j). rewrite E. reflexivity.
Qed.
Lemma skip_find : forall cs x n g, List.length cs = n -> (forall i c, nth_error cs i = Some c -> c_set c = g (x + i)) ->
  skip_set cs x = match List.find (fun j => negb (g j)) (List.seq x n) with Some j => j | None => x + n end.
Proof.
  induction cs as [|c cs IH]; intros x n g L H; cbn [List.length] in L; subst n; cbn [skip_set List.seq List.find]; [lia|].
  rewrite (H 0 c eq_refl). rewrite Nat.add_0_r. destruct (g x); cbn [negb]; auto. rewrite (IH (S x) (List.length cs) g); auto.
  - destruct (List.find _ _); auto. lia.
  - intros i d E. rewrite (H (S i) d E). f_equal. lia.
Qed.
Lemma look_row : forall t y r i c, nth_error (t_rows t) y = Some r -> nth_error (r_cells r) i = Some c -> look t y i = c.
Proof. intros t y r i c R C. rewrite look_getc. unfold getc. rewrite R, C. reflexivity. Qed.
Lemma next_row_view : forall t, wf t -> follows t CNextRow.
Proof.
  intros t W. unfold follows. cbn [exec_call does]. unfold next_row. destruct (nth_error (t_rows t) (S (t_row t))) as [r|] eqn:E.
  - destruct (nth_rows _ _ _ W E) as [L R]. apply (beside_view t); auto; [apply beside_position| |].
    { cbn [g_rows goto view g_y]. change (num_rows (at_position _ _ t)) with (num_rows t). lia. }
    cbn [g_x goto t_col at_position]. unfold next_free. rewrite (skip_find (r_cells r) 0 TABLE_MAX_COLS (fun j => p_used (g_spot (view t) (S (t_row t)) j))); auto. intros i c C. cbn. rewrite (look_row _ _ _ _ _ E C). reflexivity.
  - assert (L : num_rows t <= S (t_row t)) by (apply nth_error_None; exact E). pose proof (sh_row t (proj1 W)) as Q. assert (S (t_row t) = num_rows t) as Eq by lia. apply (beside_view t); auto.
    + eapply beside_trans; [apply beside_append|apply beside_position].
    + cbn [g_rows goto view g_y]. change (num_rows (at_position _ _ ?t1)) with (num_rows t1). rewrite rows_append. lia.
    + cbn [g_x goto]. unfold next_free. cbn [view g_y g_spot]. rewrite Eq. cbn [TABLE_MAX_COLS Nat.sub List.seq List.find]. rewrite look_getc, getc_none by (auto; apply W). reflexivity.
    + intros i j. change (look (at_position _ _ ?t1) i j) with (look t1 i j). rewrite look_append by apply W. reflexivity.
Qed.

(** ** Single cells *)
Lemma curr_view : forall t, shape t -> if t_col t <? TABLE_MAX_COLS then curr_cell t = Ok (look t (t_row t) (t_col t)) else curr_cell t = Ub.
Proof.
  intros t Sh. unfold curr_cell. rewrite the_cell_getc, look_getc. destruct (Nat.ltb_spec (t_col t) TABLE_MAX_COLS).
  - destruct (getc_some t (t_row t) (t_col t) Sh (sh_row t Sh) H) as (c & E). rewrite E. reflexivity.
  - rewrite getc_none; auto.
Qed.
Lemma here_view : forall t t' f f', shape t -> t_col t < TABLE_MAX_COLS -> t_rows t' = t_rows (set_cell (t_row t) (t_col t) f t) -> beside t t' -> t_cols t' = t_cols t -> t_row t' = t_row t -> t_col t' = t_col t ->
  (forall c, seen (f c) = f' (seen c)) -> same (here (view t) f') (view t').
Proof.
  intros t t' f f' Sh X R B C1 C2 C3 F. apply (beside_view t); auto.
  - cbn. unfold num_rows at 2. rewrite R. symmetry. apply rows_set.
  - intros y x. assert (look t' y x = look (set_cell (t_row t) (t_col t) f t) y x) as -> by (unfold look, the_cell; rewrite R; reflexivity).
    rewrite look_set by (auto; apply Sh). cbn. destruct ((y =? t_row t) && (x =? t_col t)); auto.
Qed.
Lemma override_view : forall t f f', shape t -> (forall c, seen (f c) = f' (seen c)) ->
  match override f t, if_ (t_col t <? TABLE_MAX_COLS) (here (view t) f') with Ok t', Some g => same g (view t') | Ok _, None => False | _, Some _ => False | _, None => True end.
Proof.
  intros t f f' Sh F. pose proof (curr_view t Sh) as C. unfold override. destruct (Nat.ltb_spec (t_col t) TABLE_MAX_COLS); rewrite C; cbn [rbind if_]; auto.
  eapply here_view; eauto. apply beside_set.
Qed.
Lemma left_view : forall t b, shape t -> follows t (CLeft b).
Proof.
  intros t b Sh. pose proof (curr_view t Sh) as C. unfold follows. cbn [exec_call does]. unfold override_left_border. change (g_x (view t)) with (t_col t). destruct (Nat.ltb_spec (t_col t) TABLE_MAX_COLS); rewrite C; cbn [rbind if_]; auto.
  eapply here_view with (f := put_left b); eauto. unfold beside. split; [reflexivity|]. split; [reflexivity|]. split; [reflexivity|]. intros i. rewrite line_set. reflexivity.
Qed.
Lemma above_view : forall t b, shape t -> follows t (CAbove b).
Proof.
  intros t b Sh. pose proof (curr_view t Sh) as C. unfold follows. cbn [exec_call does]. unfold override_above_border. change (g_x (view t)) with (t_col t). destruct (Nat.ltb_spec (t_col t) TABLE_MAX_COLS); rewrite C; cbn [rbind if_]; auto.
  set (w := overridden (c_above (look t (t_row t) (t_col t)))). set (t1 := with_rows (update (t_row t) (count_above w b)) t).
  assert (B : beside t (set_cell (t_row t) (t_col t) (put_above b) t1)). { unfold beside. split; [reflexivity|]. split; [reflexivity|]. split; [reflexivity|]. intros i. rewrite line_set. apply line_update. reflexivity. }
  assert (G : forall i j, getc t1 i j = getc t i j). { intros i j. unfold t1. rewrite getc_row. destruct (Nat.eqb_spec i (t_row t)) as [->|]; auto. }
  assert (R1 : num_rows t1 = num_rows t) by (unfold num_rows, t1; cbn [t_rows with_rows]; apply update_length).
  apply (beside_view t); auto.
  - rewrite rows_set, R1. reflexivity.
  - intros y x. rewrite look_getc, getc_set, !G. cbn. rewrite look_getc. destruct (Nat.eqb_spec y (t_row t)) as [->|]; [|reflexivity]. destruct (Nat.eqb_spec x (t_col t)) as [->|]; [|reflexivity]. cbn [andb]. destruct (getc_some t (t_row t) (t_col t) Sh (sh_row t Sh) H) as (c & E). rewrite E. reflexivity.
Qed.
Lemma row_view : forall t f f', shape t -> (forall c, seen (f c) = f' (seen c)) -> same (in_row (view t) f') (view (with_rows (update (t_row t) (with_cells (map f))) t)).
Proof.
  intros t f f' Sh F. apply (beside_view t); auto.
  - unfold beside. split; [reflexivity|]. split; [reflexivity|]. split; [reflexivity|]. intros i. apply line_update. reflexivity.
  - cbn. unfold num_rows. cbn [t_rows with_rows]. symmetry. apply update_length.
  - intros y x. rewrite look_getc, getc_row. cbn [in_row spots g_spot view g_y]. rewrite look_getc. destruct (Nat.eqb_spec y (t_row t)) as [->|]; [|reflexivity]. cbn [andb]. unfold getc. pose proof (sh_row t Sh) as R. destruct (nth_error (t_rows t) (t_row t)) as [r|] eqn:E; [|apply nth_error_None in E; unfold num_rows in R; lia].
    unfold with_cells. cbn [r_cells]. rewrite nth_error_map. assert (L : List.length (r_cells r) = TABLE_MAX_COLS) by (pose proof (sh_rows t Sh) as A; rewrite Forall_forall in A; apply A; eapply nth_error_In; eauto).
    destruct (Nat.ltb_spec x TABLE_MAX_COLS).
    + destruct (nth_error (r_cells r) x) eqn:X; [|apply nth_error_None in X; lia]. cbn [option_map]. apply F.
    + replace (nth_error (r_cells r) x) with (@None cell) by (symmetry; apply nth_error_None; lia). reflexivity.
Qed.

(** ** Texts *)
Lemma nth_skip : forall A n (l : list A) i, nth_error (skipn n l) i = nth_error l (n + i).
Proof. induction n as [|n IH]; intros [|a l] i; cbn [skipn Nat.add nth_error]; auto. destruct i; reflexivity. Qed.
Lemma width_defined : forall text, match text with Some s => tidy_text s | None => True end -> exists w, get_text_width text = Ok w.
Proof. intros [s|] T; [|exists 0; reflexivity]. destruct (width_ok s T) as (w & E & _). eauto. Qed.
Lemma add_view : forall t text, wf t -> match text with Some s => tidy_text s | None => True end -> follows t (CAdd text).
Proof.
  intros t text W T. pose proof (curr_view t (proj1 W)) as C. unfold follows. cbn [exec_call does]. unfold add_text_cell. change (g_x (view t)) with (t_col t). change (g_y (view t)) with (t_row t). destruct (Nat.ltb_spec (t_col t) TABLE_MAX_COLS) as [X|X]; rewrite C; cbn [rbind if_]; auto.
  destruct (width_defined text T) as (w & Ew). rewrite Ew. cbn [rbind]. cbv zeta. set (f := put_text text (get_text_height text) w). set (t1 := set_cell (t_row t) (t_col t) f t).
  replace (if t_cols t1 <=? t_col t1 then with_cols (t_col t1 + 1) t1 else t1) with (with_cols (Nat.max (S (t_col t)) (t_cols t)) t1).
  2:{ change (t_cols t1) with (t_cols t). change (t_col t1) with (t_col t). destruct (Nat.leb_spec (t_cols t) (t_col t)); [f_equal; lia|]. replace (Nat.max (S (t_col t)) (t_cols t)) with (t_cols t1) by (change (t_cols t1) with (t_cols t); lia). destruct t1; reflexivity. }
  set (t2 := with_cols (Nat.max (S (t_col t)) (t_cols t)) t1). change (t_row t2) with (t_row t). change (t_col t2) with (t_col t).
  assert (Sh1 : shape t1) by (apply shape_set; apply W). assert (R1 : num_rows t1 = num_rows t) by apply rows_set. pose proof (sh_row t (proj1 W)) as Ry.
  unfold at_. change (t_rows t2) with (t_rows t1). destruct (nth_error (t_rows t1) (t_row t)) as [r|] eqn:R; [|apply nth_error_None in R; unfold num_rows in *; lia]. cbn [rbind].
  assert (L : List.length (r_cells r) = TABLE_MAX_COLS) by (pose proof (sh_rows t1 Sh1) as A; rewrite Forall_forall in A; apply A; eapply nth_error_In; eauto).
  apply (beside_view t); auto.
  - exact (beside_set t (t_row t) (t_col t) f).
  - cbn [g_rows goto view here spots wide]. change (num_rows (at_position _ _ t2)) with (num_rows t1). rewrite R1. lia.
  - cbn [g_x goto t_col at_position]. change (g_rows (view t)) with (num_rows t). unfold next_free.
    set (u := fun j => p_used (g_spot (view t) (t_row t) j)).
    rewrite (skip_find (skipn (t_col t) (r_cells r)) (t_col t) (TABLE_MAX_COLS - t_col t) (fun j => if j =? t_col t then true else u j)).
    + replace (TABLE_MAX_COLS - t_col t) with (S (TABLE_MAX_COLS - S (t_col t))) by lia. cbn [List.seq List.find]. rewrite Nat.eqb_refl. cbn [negb].
      assert (F : forall n x, t_col t < x -> List.find (fun j => negb (if j =? t_col t then true else u j)) (List.seq x n) = List.find (fun j => negb (u j)) (List.seq x n)).
      { induction n as [|n IH]; intros x Lx; cbn [List.seq List.find]; auto. replace (x =? t_col t) with false by (symmetry; apply Nat.eqb_neq; lia). rewrite IH by lia. reflexivity. }
      rewrite F by lia. destruct (List.find _ _); auto. lia.
    + rewrite skipn_length. lia.
    + intros i c E. rewrite nth_skip in E. assert (look t1 (t_row t) (t_col t + i) = c) as <- by (eapply look_row; eauto). unfold t1. rewrite look_set by (auto; apply W). rewrite Nat.eqb_refl. cbn [andb]. unfold u. destruct (t_col t + i =? t_col t); reflexivity.
  - intros y x. change (look (at_position _ _ t2) y x) with (look t1 y x). unfold t1. rewrite look_set by (auto; apply W). cbn. destruct ((y =? t_row t) && (x =? t_col t)); reflexivity.
Qed.

(** ** Alignments and lines *)
Lemma aligns_list : forall A (d : A) n new old, n <= List.length new -> n <= List.length old -> forall x, nth x (firstn n new ++ skipn n old) d = if x <? n then nth x new d else nth x old d.
Proof.
  intros A d n new old L1 L2 x. destruct (Nat.ltb_spec x n).
  - rewrite app_nth1 by (rewrite firstn_length; lia). rewrite <- (firstn_skipn n new) at 2. rewrite app_nth1 by (rewrite firstn_length; lia). reflexivity.
  - rewrite app_nth2 by (rewrite firstn_length; lia). rewrite firstn_length. rewrite Nat.min_l by lia. rewrite <- (firstn_skipn n old) at 2. rewrite app_nth2 by (rewrite firstn_length; lia). rewrite firstn_length, Nat.min_l by lia. reflexivity.
Qed.
Lemma aligns_view : forall t n hs vs, shape t -> follows t (CAlignments n hs vs).
Proof.
  intros t n hs vs Sh. unfold follows. cbn [exec_call does]. unfold set_default_alignments. destruct (Nat.leb_spec n TABLE_MAX_COLS); cbn [andb if_]; auto. cbv zeta beta.
  assert (K : forall A (new : option (list A)) (old : list A) d, n <= List.length old -> exists o, match new with None => Ok old | Some l => if List.length l <? n then Ub else Ok (firstn n l ++ skipn n old) end = (if enough n new then Ok o else Ub) /\ forall x, enough n new = true -> nth x o d = match new with Some l => if x <? n then nth x l d else nth x old d | None => nth x old d end).
  { intros A [l|] old d Lo; cbn [enough]; [|exists old; auto]. rewrite Nat.ltb_antisym. destruct (Nat.leb_spec n (List.length l)); cbn [negb]; [|exists old; split; auto; discriminate]. eexists. split; [reflexivity|]. intros x _. apply aligns_list; auto. }
  destruct (K _ hs (t_h t) HLeft) as (h & Eh & Kh); [rewrite (sh_h t Sh); auto|]. destruct (K _ vs (t_v t) VTop) as (v & Ev & Kv); [rewrite (sh_v t Sh); auto|].
  rewrite Eh. destruct (enough n hs) eqn:E1; cbn [rbind andb if_]; auto. rewrite Ev. destruct (enough n vs) eqn:E2; cbn [rbind andb if_]; auto.
  apply (same_view t); auto; intros x; cbn [g_h g_v aligns view t_h t_v with_aligns]; [apply Kh|apply Kv]; auto.
Qed.
Lemma hline_view : forall t b, shape t -> exists t', set_hline t b = Ok t' /\ same (hlines (Nat.eqb (t_row t)) b (view t)) (view t').
Proof.
  intros t b Sh. unfold set_hline, at_. pose proof (sh_row t Sh) as R. destruct (nth_error (t_rows t) (t_row t)) as [r|] eqn:E; [|apply nth_error_None in E; unfold num_rows in R; lia]. cbn [rbind]. eexists. split; [reflexivity|].
  apply (same_view t); auto.
  - cbn. unfold num_rows. cbn [t_rows with_rows]. symmetry. apply update_length.
  - intros y x. cbn. f_equal. rewrite !look_getc, getc_row. destruct (Nat.eqb_spec y (t_row t)) as [->|]; [|reflexivity]. unfold getc. rewrite E. reflexivity.
  - intros y. unfold row_line. cbn [t_rows with_rows g_hline hlines view]. rewrite nth_error_update. rewrite (Nat.eqb_sym (t_row t) y). destruct (Nat.eqb_spec y (t_row t)) as [->|]; [|reflexivity]. rewrite E. reflexivity.
Qed.
Lemma vline_view : forall t i b, shape t -> i < TABLE_MAX_COLS -> exists t', set_vline t i b = Ok t' /\ same (vlines (Nat.eqb i) b (wide (S i) (view t))) (view t').
Proof.
  intros t i b Sh I. unfold set_vline, at_. pose proof I as I'. apply Nat.ltb_lt in I. rewrite I. destruct (nth_error (t_left t) i) as [o|] eqn:E; [|apply nth_error_None in E; rewrite (sh_left t Sh) in E; lia]. cbn [rbind]. eexists. split; [reflexivity|].
  assert (Q : t_rows (if t_cols t <=? i then with_cols (i + 1) t else t) = t_rows t /\ t_left (if t_cols t <=? i then with_cols (i + 1) t else t) = t_left t /\ t_h (if t_cols t <=? i then with_cols (i + 1) t else t) = t_h t /\ t_v (if t_cols t <=? i then with_cols (i + 1) t else t) = t_v t /\ t_row (if t_cols t <=? i then with_cols (i + 1) t else t) = t_row t /\ t_col (if t_cols t <=? i then with_cols (i + 1) t else t) = t_col t /\ t_cols (if t_cols t <=? i then with_cols (i + 1) t else t) = Nat.max (S i) (t_cols t)).
  { destruct (Nat.leb_spec (t_cols t) i); repeat (split; [reflexivity|]); cbn [t_cols with_cols]; lia. }
  destruct Q as (Q1 & Q2 & Q3 & Q4 & Q5 & Q6 & Q7). set (t1 := if t_cols t <=? i then with_cols (i + 1) t else t) in *.
  apply (same_view t); auto; cbn [g_rows g_cols g_y g_x vlines wide view g_hline g_vline g_h g_v g_spot t_row t_col t_cols t_left t_h t_v with_left with_counts]; auto.
  - unfold num_rows. cbn [t_rows with_left with_counts]. congruence.
  - intros y x. unfold look, the_cell. cbn [t_rows with_left with_counts]. rewrite Q1. reflexivity.
  - intros y. unfold row_line. cbn [t_rows with_left with_counts]. rewrite Q1. reflexivity.
  - intros x. rewrite Q2. unfold nth at 1. pose proof (nth_error_update _ i (fun _ => b) (t_left t) x) as N. rewrite (Nat.eqb_sym i x). change (nth x (update i (fun _ => b) (t_left t)) BNone = if x =? i then b else nth x (t_left t) BNone).
    clearbody t1. destruct (Nat.eqb_spec x i) as [Ex|Nx]; [rewrite E in N; cbn [option_map] in N; apply nth_error_nth; exact N|].
    destruct (nth_error (t_left t) x) as [o'|] eqn:X; [rewrite (nth_error_nth _ _ _ N), (nth_error_nth _ _ _ X); reflexivity|]. apply nth_error_None in X. rewrite !nth_overflow; auto. rewrite update_length. auto.
  - intros x. rewrite Q3. reflexivity.
  - intros x. rewrite Q4. reflexivity.
Qed.

(** ** Sheets that look the same *)
Lemma same_refl_ : forall g, same g g. Proof. intros. unfold same. repeat (split; [reflexivity||auto|]). auto. Qed.
Lemma same_sym : forall g h, same g h -> same h g.
Proof. intros g h (A & B & C & D & E & F & G & H & K). unfold same. repeat (split; [congruence||auto|]). auto. Qed.
Lemma same_trans : forall g h k, same g h -> same h k -> same g k.
Proof.
  intros g h k (A & B & C & D & E & F & G & H & I) (A' & B' & C' & D' & E' & F' & G' & H' & I'). unfold same.
  repeat (split; [intros; congruence|]). intros; congruence.
Qed.
Lemma find_ext : forall (p q : nat -> bool) l, (forall j, p j = q j) -> List.find p l = List.find q l.
Proof. induction l as [|a l IH]; intros H; cbn [List.find]; auto. rewrite H, IH; auto. Qed.
Lemma next_free_same : forall g h y x, same g h -> next_free h y x = next_free g y x.
Proof. intros g h y x (_ & _ & _ & _ & E & _). unfold next_free. rewrite (find_ext _ (fun j => negb (p_used (g_spot g y j)))); auto. intros j. rewrite E. reflexivity. Qed.
Definition agree (a b : option sheet) : Prop := match a, b with Some g, Some h => same g h | None, None => True | _, _ => False end.
Lemma agree_if : forall b g h, same g h -> agree (if_ b g) (if_ b h).
Proof. intros [] g h H; cbn; auto. Qed.
Ltac field_by_field := unfold same; cbn [g_rows g_cols g_y g_x g_spot g_hline g_vline g_h g_v goto wide high spots hlines vlines aligns here in_row]; repeat (split; [solve [congruence | intros; repeat match goal with H : forall _, _ |- _ => rewrite H end; reflexivity]|]); intros; repeat match goal with H : forall _, _ |- _ => rewrite H end; reflexivity.
Lemma does_same : forall g h k, same g h -> agree (does g k) (does h k).
Proof.
  intros g h k Sa. pose proof (fun y x => next_free_same g h y x Sa) as Nf. destruct Sa as (A & B & C & D & E & F & G & H & I).
  destruct k; cbn [does]; unfold here, in_row; rewrite ?A, ?B, ?C, ?D, ?Nf, ?E; try apply agree_if; unfold agree; field_by_field.
Qed.
Lemma proper_same : forall g h k, same g h -> proper g k -> proper h k.
Proof.
  intros g h k (A & B & C & D & E & _) P. destruct k; cbn [proper] in *; auto. rewrite C, D, E. destruct P as [P1 P2]. split; auto. intros i j I J N. rewrite E. auto.
Qed.

Lemma view_eqs : forall g t, same g (view t) -> num_rows t = g_rows g /\ t_cols t = g_cols g /\ t_row t = g_y g /\ t_col t = g_x g /\ (forall y x, seen (look t y x) = g_spot g y x) /\
  (forall y, row_line t y = g_hline g y) /\ (forall x, nth x (t_left t) BNone = g_vline g x) /\ (forall x, nth x (t_h t) HLeft = g_h g x) /\ (forall x, nth x (t_v t) VTop = g_v g x).
Proof. intros g t H. exact H. Qed.
Lemma vlines_view : forall b n i t, wf t -> i + n <= TABLE_MAX_COLS -> i + n <= Nat.max 1 (t_cols t) -> 0 < i -> exists t', set_vlines t (List.seq i n) b = Ok t' /\ same (vlines (fun j => (i <=? j) && (j <? i + n)) b (view t)) (view t').
Proof.
  intros b. induction n as [|n IH]; intros i t W L1 L2 I0; cbn [List.seq set_vlines].
  - eexists. split; [reflexivity|]. apply (same_view t); auto. intros x. cbn [g_vline vlines view]. replace ((i <=? x) && (x <? i + 0)) with false; auto. symmetry. apply andb_false_iff. rewrite Nat.leb_gt, Nat.ltb_ge. lia.
  - destruct (vline_view t i b (proj1 W) ltac:(lia)) as (t1 & E1 & V1). rewrite E1. cbn [rbind]. pose proof (view_eqs _ _ V1) as (A & B & C & D & E & F & G & H & I). cbn [g_rows g_cols g_y g_x g_spot g_hline g_vline g_h g_v vlines wide view] in A, B, C, D, E, F, G, H, I.
    destruct (IH (S i) t1) as (t' & E' & V'); [eapply wf_vline; eauto|lia|lia|lia|]. exists t'. split; auto. pose proof (view_eqs _ _ V') as (A' & B' & C' & D' & E'' & F' & G' & H' & I'). cbn [g_rows g_cols g_y g_x g_spot g_hline g_vline g_h g_v vlines wide view] in A', B', C', D', E'', F', G', H', I'.
    apply (same_view t); auto; cbn [g_rows g_cols g_y g_x g_spot g_hline g_vline g_h g_v vlines view]; try lia; try (intros; congruence).
    + intros y. rewrite F'. apply F.
    + intros x. rewrite G', G. destruct (Nat.eqb_spec i x) as [->|].
      * replace (S x <=? x) with false by (symmetry; apply Nat.leb_gt; lia). replace (x <=? x) with true by (symmetry; apply Nat.leb_le; lia). replace (x <? x + S n) with true by (symmetry; apply Nat.ltb_lt; lia). reflexivity.
      * replace ((S i <=? x) && (x <? S i + n)) with ((i <=? x) && (x <? i + S n)); auto. apply eq_true_iff_eq. rewrite !andb_true_iff, !Nat.leb_le, !Nat.ltb_lt. lia.
Qed.
Lemma all_vlines_view : forall t b, wf t -> follows t (CAllVLines b).
Proof.
  intros t b W. unfold follows. cbn [exec_call does]. unfold set_all_vlines. pose proof (sh_cols t (proj1 W)) as Lc. destruct (vlines_view b (t_cols t - 1) 1 t W) as (t' & E & V); try lia. { unfold TABLE_MAX_COLS in *. lia. } rewrite E.
  eapply same_trans; [|exact V]. unfold same. cbn [g_rows g_cols g_y g_x g_spot g_hline g_vline g_h g_v vlines view]. repeat (split; [reflexivity|]). split; [|split; reflexivity].
  intros x. replace ((1 <=? x) && (x <? 1 + (t_cols t - 1))) with ((0 <? x) && (x <? t_cols t)); auto. apply eq_true_iff_eq. rewrite !andb_true_iff, !Nat.leb_le, !Nat.ltb_lt. lia.
Qed.
Lemma boxed_view : forall t b, wf t -> follows t (CBoxed b).
Proof.
  intros t b W. unfold follows. cbn [exec_call does]. unfold make_boxed. change (g_cols (view t)) with (t_cols t). change (g_rows (view t)) with (num_rows t).
  destruct (position_view t 0 0 (proj1 W) ltac:(unfold TABLE_MAX_COLS; lia)) as (t1 & E1 & V1). rewrite E1. cbn [rbind]. pose proof (proj1 (wf_set_position _ _ _ _ W E1)) as W1.
  destruct (vline_view t1 0 b (proj1 W1) ltac:(unfold TABLE_MAX_COLS; lia)) as (t2 & E2 & V2). rewrite E2. cbn [rbind]. pose proof (wf_vline _ _ _ _ W1 E2) as W2.
  destruct (hline_view t2 b (proj1 W2)) as (t3 & E3 & V3). rewrite E3. cbn [rbind]. pose proof (wf_hline _ _ _ W2 E3) as W3.
  apply view_eqs in V1, V2, V3. cbn [g_rows g_cols g_y g_x g_spot g_hline g_vline g_h g_v vlines hlines wide goto view] in V1, V2, V3.
  destruct V1 as (A1 & B1 & C1 & D1 & F1 & G1 & H1 & I1 & J1). destruct V2 as (A2 & B2 & C2 & D2 & F2 & G2 & H2 & I2 & J2). destruct V3 as (A3 & B3 & C3 & D3 & F3 & G3 & H3 & I3 & J3).
  pose proof (sh_row t (proj1 W)) as Rt. assert (R3 : num_rows t3 = num_rows t) by lia. assert (C03 : t_cols t3 = Nat.max 1 (t_cols t)) by congruence. rewrite R3, C03. set (right := Nat.max 1 (t_cols t)) in *. set (last := num_rows t - 1).
  destruct (Nat.ltb_spec right TABLE_MAX_COLS) as [L|L]; cbn [if_].
  2:{ unfold set_position. replace (right <? TABLE_MAX_COLS) with false by (symmetry; apply Nat.ltb_ge; auto). cbn [rbind]. auto. }
  destruct (position_view t3 right last (proj1 W3) L) as (t4 & E4 & V4). rewrite E4. cbn [rbind]. pose proof (proj1 (wf_set_position _ _ _ _ W3 E4)) as W4.
  apply view_eqs in V4. cbn [g_rows g_cols g_y g_x g_spot g_hline g_vline g_h g_v vlines hlines wide goto view] in V4. destruct V4 as (A4 & B4 & C4 & D4 & F4 & G4 & H4 & I4 & J4).
  assert (C04 : t_cols t4 = right) by congruence. rewrite C04.
  destruct (vline_view t4 right b (proj1 W4) L) as (t5 & E5 & V5). rewrite E5. cbn [rbind]. pose proof (wf_vline _ _ _ _ W4 E5) as W5.
  destruct (hline_view t5 b (proj1 W5)) as (t6 & E6 & V6). rewrite E6.
  apply view_eqs in V5, V6. cbn [g_rows g_cols g_y g_x g_spot g_hline g_vline g_h g_v vlines hlines wide goto view] in V5, V6.
  destruct V5 as (A5 & B5 & C5 & D5 & F5 & G5 & H5 & I5 & J5). destruct V6 as (A6 & B6 & C6 & D6 & F6 & G6 & H6 & I6 & J6).
  apply (same_view t); auto; cbn [g_rows g_cols g_y g_x g_spot g_hline g_vline g_h g_v vlines hlines wide goto view].
  - unfold last in *. lia.
  - lia.
  - congruence.
  - congruence.
  - intros. rewrite F6, F5, F4, F3, F2. apply F1.
  - intros y. rewrite G6. change (match nth_error (t_rows ?t) y with Some r => r_above r | None => BNone end) with (row_line t y). rewrite G5, C5, C4.
    change (match nth_error (t_rows ?t) y with Some r => r_above r | None => BNone end) with (row_line t y). rewrite G4. change (match nth_error (t_rows ?t) y with Some r => r_above r | None => BNone end) with (row_line t y). rewrite G3, C2, C1.
    change (match nth_error (t_rows ?t) y with Some r => r_above r | None => BNone end) with (row_line t y). rewrite G2. change (match nth_error (t_rows ?t) y with Some r => r_above r | None => BNone end) with (row_line t y). rewrite G1.
    rewrite (Nat.eqb_sym last y), (Nat.eqb_sym 0 y). destruct (y =? last), (y =? 0); reflexivity.
  - intros x. rewrite H6, H5, H4, H3, H2, H1. rewrite (Nat.eqb_sym right x), (Nat.eqb_sym 0 x). destruct (x =? right), (x =? 0); reflexivity.
  - intros. rewrite I6, I5, I4, I3, I2. apply I1.
  - intros. rewrite J6, J5, J4, J3, J2. apply J1.
Qed.

(** ** Spans *)
Definition cover (y x i0 i1 j0 j1 : nat) (c : cell) (i j : nat) : cell :=
  if in_span y x i0 i1 j0 j1 i j then child_borders (i - y) (j - x) (put_child (x, y) c) else c.
Definition alongside (t t' : table) : Prop := beside t t' /\ t_cols t' = t_cols t /\ t_row t' = t_row t /\ t_col t' = t_col t.
Lemma alongside_refl : forall t, alongside t t.
Proof. intros. split; [apply beside_refl|auto]. Qed.
Lemma alongside_trans : forall a b c, alongside a b -> alongside b c -> alongside a c.
Proof. intros a b c (A & B & C & D) (E & F & G & H). split; [eapply beside_trans; eauto|]. repeat split; congruence. Qed.
Lemma span_cols_view : forall y x i n j0 t, shape t -> y + i < num_rows t -> x + j0 + n <= TABLE_MAX_COLS -> (forall j, j0 <= j < j0 + n -> (i, j) <> (0, 0) -> c_set (look t (y + i) (x + j)) = false) ->
  exists t1, span_cols t y x i (List.seq j0 n) = Ok (t1, None) /\ shape t1 /\ num_rows t1 = num_rows t /\ alongside t t1 /\ forall y' x', look t1 y' x' = cover y x i (S i) j0 (j0 + n) (look t y' x') y' x'.
Proof.
  intros y x i. induction n as [|n IH]; intros j0 t Sh R L F; cbn [List.seq span_cols].
  - exists t. split; [reflexivity|]. split; [exact Sh|]. split; [reflexivity|]. split; [apply alongside_refl|]. intros y' x'. unfold cover. destruct (in_span _ _ _ _ _ _ _ _) eqn:E; auto. apply in_span_spec in E. lia.
  - destruct ((i =? 0) && (j0 =? 0)) eqn:Z.
    + apply andb_true_iff in Z. destruct Z as [Z1 Z2]. apply Nat.eqb_eq in Z1, Z2. subst i j0. destruct (IH 1 t Sh R ltac:(lia)) as (t1 & E & A & B & C & D). { intros j J. apply F. lia. } exists t1. repeat (split; auto). intros y' x'. rewrite D. unfold cover.
      replace (in_span y x 0 1 1 (1 + n) y' x') with (in_span y x 0 1 0 (0 + S n) y' x'); auto. apply eq_true_iff_eq. rewrite !in_span_spec. lia.
    + assert (Z' : (i, j0) <> (0, 0)). { intros X. inversion X; subst. discriminate Z. } rewrite the_cell_getc. pose proof (F j0 ltac:(lia) Z') as Fj. rewrite look_getc in Fj. destruct (getc_some t (y + i) (x + j0) Sh R ltac:(lia)) as (c & Ec). rewrite Ec in *. cbn [rbind]. rewrite Fj.
      set (f := fun c => child_borders i j0 (put_child (x, y) c)). pose proof (shape_set _ (y + i) (x + j0) f Sh) as Sh'. destruct (IH (S j0) (set_cell (y + i) (x + j0) f t) Sh') as (t1 & E & A & B & C & D); [rewrite rows_set; auto|lia| |].
      { intros j J N. rewrite look_set by (auto; lia). replace (x + j =? x + j0) with false by (symmetry; apply Nat.eqb_neq; lia). rewrite andb_false_r. apply F; auto. lia. }
      exists t1. split; auto. split; auto. rewrite rows_set in B. split; auto. split; [eapply alongside_trans; [|exact C]; split; [apply beside_set|auto]|]. intros y' x'. rewrite D, look_set by (auto; lia). unfold cover.
      destruct (Nat.eqb_spec y' (y + i)) as [->|N]; [destruct (Nat.eqb_spec x' (x + j0)) as [->|N]|]; cbn [andb].
      * replace (in_span y x i (S i) (S j0) (S j0 + n) (y + i) (x + j0)) with false by (symmetry; apply not_true_is_false; rewrite in_span_spec; lia).
        replace (in_span y x i (S i) j0 (j0 + S n) (y + i) (x + j0)) with true by (symmetry; apply in_span_spec; split; [lia|split; [lia|intros [X1 X2]; apply Z'; f_equal; lia]]).
        unfold f. f_equal; lia.
      * replace (in_span y x i (S i) (S j0) (S j0 + n) (y + i) x') with (in_span y x i (S i) j0 (j0 + S n) (y + i) x'); auto. apply eq_true_iff_eq. rewrite !in_span_spec. lia.
      * replace (in_span y x i (S i) (S j0) (S j0 + n) y' x') with (in_span y x i (S i) j0 (j0 + S n) y' x'); auto. apply eq_true_iff_eq. rewrite !in_span_spec. lia.
Qed.
Lemma span_rows_view : forall y x sx sy n i0 t, shape t -> i0 + n = sy -> 0 < n -> y + i0 < num_rows t -> x + sx <= TABLE_MAX_COLS ->
  (forall i j, i0 <= i < sy -> j < sx -> (i, j) <> (0, 0) -> c_set (look t (y + i) (x + j)) = false) ->
  exists t1, span_rows t y x sx sy (List.seq i0 n) = Ok t1 /\ shape t1 /\ num_rows t1 = Nat.max (num_rows t) (y + sy) /\ alongside t t1 /\ forall y' x', look t1 y' x' = cover y x i0 sy 0 sx (look t y' x') y' x'.
Proof.
  intros y x sx sy. induction n as [|n IH]; intros i0 t Sh Sy N R L F; [lia|]. cbn [List.seq span_rows].
  destruct (span_cols_view y x i0 sx 0 t Sh R ltac:(lia)) as (t2 & E & Sh2 & R2 & A2 & K). { intros j J. apply F; lia. } rewrite E. cbn [rbind]. cbn [Nat.add] in K.
  destruct n as [|n].
  - cbn [List.seq span_rows]. replace (S i0 <? sy) with false by (symmetry; apply Nat.ltb_ge; lia). cbn [andb]. exists t2. split; auto. split; auto. split; [lia|]. split; auto. intros y' x'. rewrite K. replace sy with (S i0) by lia. reflexivity.
  - set (t3 := if (S i0 <? sy) && (num_rows t2 <=? S (y + i0)) then append_row t2 else t2).
    assert (T3 : shape t3 /\ y + S i0 < num_rows t3 /\ Nat.max (num_rows t3) (y + sy) = Nat.max (num_rows t) (y + sy) /\ alongside t2 t3 /\ forall y' x', look t3 y' x' = look t2 y' x').
    { unfold t3. replace (S i0 <? sy) with true by (symmetry; apply Nat.ltb_lt; lia). cbn [andb]. destruct (Nat.leb_spec (num_rows t2) (S (y + i0))).
      - split; [apply shape_append; auto|]. rewrite rows_append, R2 in *. split; [lia|]. split; [lia|]. split; [split; [apply beside_append|auto]|]. intros. apply look_append; auto.
      - rewrite R2 in *. split; auto. split; [lia|]. split; auto. split; auto. apply alongside_refl. }
    destruct T3 as (Sh3 & R3 & R3' & A3 & G3). destruct (IH (S i0) t3 Sh3 ltac:(lia) ltac:(lia) R3 L) as (t1 & E1 & S1 & N1 & B1 & K1).
    { intros i j I J N0. rewrite G3, K. unfold cover. replace (in_span y x i0 (S i0) 0 sx (y + i) (x + j)) with false by (symmetry; apply not_true_is_false; rewrite in_span_spec; lia). apply F; auto. lia. }
    exists t1. split; auto. split; auto. split; [lia|]. split; [eapply alongside_trans; [exact A2|]; eapply alongside_trans; [exact A3|exact B1]|]. intros y' x'. rewrite K1, G3, K. unfold cover.
    destruct (in_span y x i0 sy 0 sx y' x') eqn:I1; destruct (in_span y x (S i0) sy 0 sx y' x') eqn:I2.
    + replace (in_span y x i0 (S i0) 0 sx y' x') with false; auto. symmetry. apply not_true_is_false. apply in_span_spec in I2. rewrite in_span_spec. lia.
    + replace (in_span y x i0 (S i0) 0 sx y' x') with true; auto. symmetry. apply in_span_spec. apply in_span_spec in I1. apply not_true_iff_false in I2. rewrite in_span_spec in I2. lia.
    + apply in_span_spec in I2. apply not_true_iff_false in I1. rewrite in_span_spec in I1. lia.
    + replace (in_span y x i0 (S i0) 0 sx y' x') with false; auto. symmetry. apply not_true_is_false. apply not_true_iff_false in I1. rewrite in_span_spec in I1. rewrite in_span_spec. lia.
Qed.
Lemma span_view : forall t sx sy, wf t -> proper (view t) (CSpan sx sy) -> follows t (CSpan sx sy).
Proof.
  intros t sx sy W [Po Pu]. unfold follows. cbn [exec_call does]. change (g_x (view t)) with (t_col t) in *. change (g_y (view t)) with (t_row t) in *. unfold set_span.
  replace ((0 <? sx) && (0 <? sy) && (t_col t + sx <=? TABLE_MAX_COLS)) with (negb ((sx =? 0) || (sy =? 0) || (TABLE_MAX_COLS <? t_col t + sx))).
  2:{ rewrite !negb_orb. rewrite <- (Nat.leb_antisym TABLE_MAX_COLS). destruct sx, sy; reflexivity. }
  destruct ((sx =? 0) || (sy =? 0) || (TABLE_MAX_COLS <? t_col t + sx)) eqn:E; cbn [negb andb if_]; auto.
  apply orb_false_iff in E. destruct E as [E E3]. apply orb_false_iff in E. destruct E as [E1 E2]. apply Nat.eqb_neq in E1, E2. apply Nat.ltb_ge in E3.
  pose proof (curr_view t (proj1 W)) as C. replace (t_col t <? TABLE_MAX_COLS) with true in C by (symmetry; apply Nat.ltb_lt; lia). rewrite C. cbn [rbind]. cbn [view g_spot seen p_sx p_sy].
  destruct ((c_sx (look t (t_row t) (t_col t)) =? 1) && (c_sy (look t (t_row t) (t_col t)) =? 1)) eqn:E4; cbn [if_]; auto.
  set (y := t_row t) in *. set (x := t_col t) in *. set (t0 := with_cols (Nat.max (x + sx) (t_cols t)) (set_cell y x (put_span sx sy) t)).
  pose proof (sh_row t (proj1 W)) as Ry. fold y in Ry.
  assert (Sh0 : shape t0). { pose proof (shape_set t y x (put_span sx sy) (proj1 W)) as S0. destruct S0. constructor; auto. cbn [t_cols t0 with_cols]. change (t_cols (set_cell y x (put_span sx sy) t)) with (t_cols t) in sh_cols. lia. }
  assert (R0 : num_rows t0 = num_rows t) by (change (num_rows t0) with (num_rows (set_cell y x (put_span sx sy) t)); apply rows_set).
  assert (G0 : forall y' x', look t0 y' x' = if (y' =? y) && (x' =? x) then put_span sx sy (look t y' x') else look t y' x') by (intros; change (look t0 y' x') with (look (set_cell y x (put_span sx sy) t) y' x'); apply look_set; [apply W|auto|lia]).
  destruct (span_rows_view y x sx sy sy 0 t0 Sh0 ltac:(lia) ltac:(lia) ltac:(lia) ltac:(lia)) as (t' & Et & Sh1 & R1 & (B1 & B2 & B3 & B4) & K).
  { intros i j I J N. rewrite G0. replace ((y + i =? y) && (x + j =? x)) with false; [|symmetry; apply andb_false_iff; rewrite !Nat.eqb_neq; assert (i <> 0 \/ j <> 0) by (destruct i, j; auto); lia]. destruct (Pu i j ltac:(lia) J N) as [Q _]. exact Q. }
  rewrite Et. apply (beside_view t); auto.
  - eapply beside_trans; [|exact B1]. exact (beside_set t y x (put_span sx sy)).
  - cbn [g_rows high wide spots view]. rewrite R1, R0. lia.
  - intros y' x'. rewrite K, G0. unfold cover. cbn [g_spot high wide spots view]. destruct (Nat.eqb_spec y' y) as [->|Ny]; [destruct (Nat.eqb_spec x' x) as [->|Nx]|]; cbn [andb].
    + replace (in_span y x 0 sy 0 sx y x) with false by (symmetry; apply not_true_is_false; rewrite in_span_spec; lia). reflexivity.
    + replace ((y <=? y) && (y <? y + sy) && (x <=? x') && (x' <? x + sx)) with (in_span y x 0 sy 0 sx y x') by (apply eq_true_iff_eq; rewrite in_span_spec, !andb_true_iff, !Nat.leb_le, !Nat.ltb_lt; lia).
      destruct (in_span y x 0 sy 0 sx y x') eqn:I; auto. apply in_span_spec in I. unfold child_borders, covered, seen. replace (x' - x =? 0) with false by (symmetry; apply Nat.eqb_neq; lia). replace (y - y =? 0) with true by (symmetry; apply Nat.eqb_eq; lia). replace (x' =? x) with false by (symmetry; apply Nat.eqb_neq; lia). rewrite Nat.eqb_refl. reflexivity.
    + replace ((y <=? y') && (y' <? y + sy) && (x <=? x') && (x' <? x + sx)) with (in_span y x 0 sy 0 sx y' x') by (apply eq_true_iff_eq; rewrite in_span_spec, !andb_true_iff, !Nat.leb_le, !Nat.ltb_lt; lia).
      destruct (in_span y x 0 sy 0 sx y' x') eqn:I; auto. apply in_span_spec in I. unfold child_borders, covered, seen. replace (y' - y =? 0) with false by (symmetry; apply Nat.eqb_neq; lia). replace (y' =? y) with false by (symmetry; apply Nat.eqb_neq; lia).
      destruct (Nat.eqb_spec (x' - x) 0); destruct (Nat.eqb_spec x' x); try lia; reflexivity.
Qed.
(** ** All calls *)
Theorem call_view : forall t k, wf t -> proper (view t) k -> follows t k.
Proof.
  intros t k W P. destruct k.
  - unfold follows. cbn [exec_call does]. destruct (Nat.ltb_spec x TABLE_MAX_COLS) as [X|X]; cbn [if_].
    + destruct (position_view t x y (proj1 W) X) as (t' & E & V). rewrite E. exact V.
    + unfold set_position. replace (x <? TABLE_MAX_COLS) with false by (symmetry; apply Nat.ltb_ge; auto). exact Logic.I.
  - apply next_row_view; auto.
  - apply add_view; auto.
  - apply aligns_view. apply W.
  - apply (override_view t (put_v v) (with_v v)); auto. apply W.
  - apply (override_view t (put_h h) (with_h h)); auto. apply W.
  - apply (row_view t (put_v v) (with_v v)); auto. apply W.
  - apply (row_view t (put_h h) (with_h h)); auto. apply W.
  - unfold follows. cbn [exec_call does]. destruct (hline_view t b (proj1 W)) as (t' & E & V). rewrite E. exact V.
  - unfold follows. cbn [exec_call does]. destruct (Nat.ltb_spec i TABLE_MAX_COLS) as [X|X]; cbn [if_].
    + destruct (vline_view t i b (proj1 W) X) as (t' & E & V). rewrite E. exact V.
    + unfold set_vline. replace (i <? TABLE_MAX_COLS) with false by (symmetry; apply Nat.ltb_ge; auto). exact Logic.I.
  - apply boxed_view; auto.
  - apply all_vlines_view; auto.
  - apply left_view. apply W.
  - apply above_view. apply W.
  - apply span_view; auto.
Qed.
Lemma proper_clean : forall t k, proper (view t) k -> clean_call t k.
Proof.
  intros t k P. destruct k; cbn [clean_call proper] in *; auto. destruct P as [P1 P2]. split.
  - intros c C. apply curr_ok in C. cbn in P1. rewrite look_getc, C in P1. exact P1.
  - intros i j c I J N C. apply cell_at_getc in C. specialize (P2 i j I J N). unfold unused in P2. cbn in P2. rewrite look_getc, C in P2. exact P2.
Qed.
Theorem calls_view : forall ks t g, wf t -> same g (view t) -> proper_all g ks ->
  match exec_calls t ks, does_all g ks with Ok t', Some g' => same g' (view t') | Ok _, None => False | _, Some _ => False | _, None => True end.
Proof.
  induction ks as [|k ks IH]; intros t g W Sa P; cbn [exec_calls does_all]; [exact Sa|]. destruct P as [P1 P2].
  pose proof (proper_same _ _ k Sa P1) as Pv. pose proof (call_view t k W Pv) as F. unfold follows in F. pose proof (does_same _ _ k Sa) as D. unfold agree in D.
  destruct (exec_call t k) as [t'| |] eqn:E; cbn [rbind].
  - destruct (does (view t) k) as [h|]; [|destruct F]. destruct (does g k) as [g'|]; [|destruct D]. apply IH; auto; [|eapply same_trans; eauto]. eapply wf_call; eauto. apply proper_clean. exact Pv.
  - destruct (does (view t) k); [destruct F|]. destruct (does g k); [destruct D|]. exact Logic.I.
  - destruct (does (view t) k); [destruct F|]. destruct (does g k); [destruct D|]. exact Logic.I.
Qed.
Lemma empty_view : same new_sheet (view get_empty_table).
Proof.
  unfold same, view, new_sheet. cbn [g_rows g_cols g_y g_x g_spot g_hline g_vline g_h g_v]. split; [reflexivity|]. split; [reflexivity|]. split; [reflexivity|]. split; [reflexivity|].
  split; [|split; [|split; [|split]]].
  - intros y x. rewrite look_getc. unfold getc. destruct y as [|y]; [|destruct y; reflexivity]. cbn [t_rows get_empty_table nth_error malloc_row r_cells]. rewrite nth_error_map. destruct (nth_error (List.seq 0 TABLE_MAX_COLS) x); reflexivity.
  - intros [|[|y]]; reflexivity.
  - intros x. do 12 (destruct x as [|x]; [reflexivity|]). reflexivity.
  - intros x. do 12 (destruct x as [|x]; [reflexivity|]). reflexivity.
  - intros x. do 12 (destruct x as [|x]; [reflexivity|]). reflexivity.
Qed.
