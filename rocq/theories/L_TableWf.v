(** What every table built by the calls of table.h looks like (for C51 and C66-C68). *)
From Coq Require Import List Ascii String NArith ZArith Bool Lia Arith.
From Verif Require Import M_Base M_StringUtil M_Eval M_Table S_Util S_Table L_Table.
Import ListNotations.
Open Scope nat_scope.
Open Scope res_scope.

Definition getc (t : table) (y x : nat) : option cell := match nth_error (t_rows t) y with Some r => nth_error (r_cells r) x | None => None end.
Lemma the_cell_getc : forall t y x, the_cell t y x = match getc t y x with Some c => Ok c | None => Ub end.
Proof. intros. unfold the_cell, getc, at_. destruct (nth_error (t_rows t) y); reflexivity. Qed.
Lemma cell_at_getc : forall t y x c, cell_at t y x c <-> getc t y x = Some c.
Proof. intros. unfold cell_at. rewrite the_cell_getc. destruct (getc t y x); split; congruence. Qed.

Lemma Ok_inj : forall A (a b : A), Ok a = Ok b -> a = b.
Proof. congruence. Qed.
(** ** Sizes *)
Record shape (t : table) : Prop := {
  sh_left : List.length (t_left t) = TABLE_MAX_COLS; sh_h : List.length (t_h t) = TABLE_MAX_COLS;
  sh_v : List.length (t_v t) = TABLE_MAX_COLS; sh_counts : List.length (t_counts t) = TABLE_MAX_COLS;
  sh_rows : Forall (fun r => List.length (r_cells r) = TABLE_MAX_COLS) (t_rows t);
  sh_cols : t_cols t <= TABLE_MAX_COLS; sh_row : t_row t < num_rows t; sh_col : t_col t <= TABLE_MAX_COLS }.
Lemma getc_some : forall t y x, shape t -> y < num_rows t -> x < TABLE_MAX_COLS -> exists c, getc t y x = Some c.
Proof.
  intros t y x S Y X. unfold getc. destruct (nth_error (t_rows t) y) as [r|] eqn:E; [|apply nth_error_None in E; unfold num_rows in Y; lia].
  pose proof (sh_rows t S) as F. rewrite Forall_forall in F. specialize (F r (nth_error_In _ _ E)). destruct (nth_error (r_cells r) x) eqn:G; eauto. apply nth_error_None in G. lia.
Qed.
Lemma getc_none : forall t y x, shape t -> num_rows t <= y \/ TABLE_MAX_COLS <= x -> getc t y x = None.
Proof.
  intros t y x S H. unfold getc. destruct (nth_error (t_rows t) y) as [r|] eqn:E; auto. pose proof (sh_rows t S) as F. rewrite Forall_forall in F. specialize (F r (nth_error_In _ _ E)). apply nth_error_None.
  assert (y < num_rows t) by (apply nth_error_Some; congruence). lia.
Qed.
Lemma getc_range : forall t y x c, shape t -> getc t y x = Some c -> y < num_rows t /\ x < TABLE_MAX_COLS.
Proof. intros t y x c S H. destruct (le_lt_dec (num_rows t) y). { rewrite getc_none in H; auto. discriminate. } destruct (le_lt_dec TABLE_MAX_COLS x); auto. rewrite getc_none in H; auto. discriminate. Qed.

Lemma update_forall : forall A (P : A -> Prop) n f l, Forall P l -> (forall a, P a -> P (f a)) -> Forall P (update n f l).
Proof.
  intros A P n f l F H. unfold update. destruct (nth_error l n) as [a|] eqn:E; auto. rewrite Forall_forall in F. apply Forall_app. split.
  - apply Forall_forall. intros b I. apply F. rewrite <- (firstn_skipn n l). apply in_or_app. auto.
  - constructor; [apply H, F; eapply nth_error_In; eauto|]. apply Forall_forall. intros b I. apply F. rewrite <- (firstn_skipn (S n) l). apply in_or_app. auto.
Qed.
Lemma getc_set : forall t y x f y' x', getc (set_cell y x f t) y' x' = if (y' =? y) && (x' =? x) then option_map f (getc t y x) else getc t y' x'.
Proof.
  intros. unfold getc, set_cell, with_rows. cbn [t_rows]. rewrite nth_error_update. destruct (Nat.eqb_spec y' y) as [->|N]; cbn [andb]; auto.
  destruct (nth_error (t_rows t) y) as [r|]; cbn [option_map]; [|destruct (x' =? x); auto]. unfold with_cells. cbn [r_cells]. rewrite nth_error_update. reflexivity.
Qed.
Lemma shape_set : forall t y x f, shape t -> shape (set_cell y x f t).
Proof.
  intros t y x f []. constructor; auto; unfold set_cell, with_rows, num_rows in *; cbn [t_rows t_row]; [|rewrite update_length; auto].
  apply update_forall; auto. intros r H. unfold with_cells. cbn [r_cells]. rewrite update_length. auto.
Qed.
Lemma rows_set : forall t y x f, num_rows (set_cell y x f t) = num_rows t.
Proof. intros. unfold num_rows, set_cell, with_rows. cbn [t_rows]. apply update_length. Qed.
Lemma getc_append : forall t y x, getc (append_row t) y x = if y =? num_rows t then (if x <? TABLE_MAX_COLS then Some (fresh_cell y x) else None) else getc t y x.
Proof.
  intros. unfold getc, append_row, with_rows, num_rows. cbn [t_rows]. destruct (Nat.eqb_spec y (List.length (t_rows t))) as [->|N].
  - rewrite nth_error_app2, Nat.sub_diag by lia. cbn [nth_error malloc_row r_cells]. destruct (Nat.ltb_spec x TABLE_MAX_COLS) as [L|L].
    + rewrite nth_error_map. replace (nth_error (List.seq 0 TABLE_MAX_COLS) x) with (Some x); auto. symmetry. rewrite (nth_error_nth' _ 0) by (rewrite seq_length; auto). rewrite seq_nth; auto.
    + apply nth_error_None. rewrite map_length, seq_length. auto.
  - destruct (le_lt_dec (List.length (t_rows t)) y).
    + rewrite nth_error_app2 by lia. replace (nth_error (t_rows t) y) with (@None row) by (symmetry; apply nth_error_None; lia). destruct (y - List.length (t_rows t)) as [|k] eqn:E; [lia|]. destruct k; reflexivity.
    + rewrite nth_error_app1 by lia. reflexivity.
Qed.
Lemma rows_append : forall t, num_rows (append_row t) = S (num_rows t).
Proof. intros. unfold num_rows, append_row, with_rows. cbn [t_rows]. rewrite app_length. cbn [List.length]. lia. Qed.
Lemma shape_append : forall t, shape t -> shape (append_row t).
Proof.
  intros t S. pose proof (rows_append t) as R. destruct S. constructor; auto.
  - unfold append_row, with_rows. cbn [t_rows]. apply Forall_app. split; auto.
  - rewrite R. unfold append_row, with_rows. cbn [t_row]. lia.
Qed.

(** ** Layout *)
Definition core (c : cell) := (c_x c, c_y c, (c_sx c, c_sy c), c_set c, c_parent c, (c_text c, c_height c, c_width c)).
Definition text_ok (c : cell) : Prop :=
  match c_text c with Some s => tidy_text s | None => True end /\ get_text_width (c_text c) = Ok (c_width c) /\ c_height c = get_text_height (c_text c)
  /\ (c_text c = None \/ c_set c = true).
Definition owned (G : nat -> nat -> option cell) (n m y x : nat) (c : cell) : Prop :=
  match c_parent c with
  | None => 1 <= c_sx c /\ 1 <= c_sy c /\ y + c_sy c <= m /\ ((c_sx c = 1 /\ c_sy c = 1) \/ x + c_sx c <= n)
      /\ forall i j, i < c_sy c -> j < c_sx c -> (i, j) <> (0, 0) -> exists c', G (y + i) (x + j) = Some c' /\ c_parent c' = Some (x, y)
  | Some (px, py) => c_sx c = 1 /\ c_sy c = 1 /\ c_set c = true
      /\ exists p, G py px = Some p /\ c_parent p = None /\ px <= x < px + c_sx p /\ py <= y < py + c_sy p
  end.
Definition cell_ok (G : nat -> nat -> option cell) (n m y x : nat) (c : cell) : Prop :=
  c_x c = x /\ c_y c = y /\ text_ok c /\ (c_set c = true -> x < n) /\ owned G n m y x c.
Definition layout (G : nat -> nat -> option cell) (n m : nat) : Prop := forall y x c, G y x = Some c -> cell_ok G n m y x c.
Definition wf (t : table) : Prop := shape t /\ layout (getc t) (t_cols t) (num_rows t).

Definition alike (G G' : nat -> nat -> option cell) : Prop := forall y x, option_map core (G' y x) = option_map core (G y x).
Lemma alike_some : forall G G' y x c, alike G G' -> G y x = Some c -> exists c', G' y x = Some c' /\ core c' = core c.
Proof. intros G G' y x c A H. specialize (A y x). rewrite H in A. destruct (G' y x) as [c'|]; [|discriminate]. exists c'. split; auto. cbn [option_map] in A. congruence. Qed.
Lemma alike_sym : forall G G', alike G G' -> alike G' G.
Proof. intros G G' A y x. symmetry. apply A. Qed.
Lemma alike_trans : forall G G' G'', alike G G' -> alike G' G'' -> alike G G''.
Proof. intros G G' G'' A B y x. rewrite B. apply A. Qed.
Lemma core_fields : forall c c', core c' = core c -> c_x c' = c_x c /\ c_y c' = c_y c /\ c_sx c' = c_sx c /\ c_sy c' = c_sy c /\ c_set c' = c_set c /\ c_parent c' = c_parent c /\ c_text c' = c_text c /\ c_height c' = c_height c /\ c_width c' = c_width c.
Proof. intros c c' H. unfold core in H. injection H. intros. repeat split; assumption. Qed.
Lemma layout_alike : forall G G' n n' m, layout G n m -> n <= n' -> alike G G' -> layout G' n' m.
Proof.
  intros G G' n n' m L N A y x c' H. destruct (alike_some _ _ _ _ _ (alike_sym _ _ A) H) as (c & E & C). destruct (core_fields _ _ C) as (C1 & C2 & C3 & C4 & C5 & C6 & C7 & C8 & C9).
  destruct (L y x c E) as (X & Y & T & S & O). split; [congruence|]. split; [congruence|]. split; [unfold text_ok in *; rewrite <- C5, <- C7, <- C8, <- C9; auto|]. split; [intros; apply Nat.lt_le_trans with n; [apply S; congruence|auto]|].
  unfold owned in *. rewrite <- C6, <- C3, <- C4, <- C5. destruct (c_parent c) as [[px py]|].
  - destruct O as (O1 & O2 & O3 & p & P1 & P2 & P3 & P4). split; auto. split; auto. split; auto. destruct (alike_some _ _ _ _ _ A P1) as (p' & Q & D). destruct (core_fields _ _ D) as (_ & _ & D3 & D4 & _ & D6 & _). exists p'. rewrite D3, D4, D6. auto.
  - destruct O as (O1 & O2 & O3 & O4 & O5). split; auto. split; auto. split; auto. split; [destruct O4; [auto|right; lia]|]. intros i j I J N0. destruct (O5 i j I J N0) as (d & D1 & D2). destruct (alike_some _ _ _ _ _ A D1) as (d' & Q & D). destruct (core_fields _ _ D) as (_ & _ & _ & _ & _ & D6 & _). exists d'. rewrite D6. auto.
Qed.
Lemma alike_set : forall t y x f, (forall c, core (f c) = core c) -> alike (getc t) (getc (set_cell y x f t)).
Proof. intros t y x f H y' x'. rewrite getc_set. destruct (Nat.eqb_spec y' y) as [->|]; cbn [andb]; auto. destruct (Nat.eqb_spec x' x) as [->|]; auto. destruct (getc t y x); cbn [option_map]; auto. rewrite H. reflexivity. Qed.

Lemma fresh_ok : forall G n m y x, y < m -> cell_ok G n m y x (fresh_cell y x).
Proof.
  intros. unfold cell_ok, owned, text_ok. cbn. split; auto. split; auto. split; [split; [exact Logic.I|split; [reflexivity|split; [reflexivity|auto]]]|]. split; [discriminate|].
  split; [lia|]. split; [lia|]. split; [lia|]. split; [left; lia|]. intros i j I J N. exfalso. apply N. f_equal; lia.
Qed.
Lemma wf_append : forall t, wf t -> wf (append_row t).
Proof.
  intros t [S L]. split; [apply shape_append; auto|]. rewrite rows_append. change (t_cols (append_row t)) with (t_cols t). intros y x c H. rewrite getc_append in H. destruct (Nat.eqb_spec y (num_rows t)) as [->|N].
  - destruct (x <? TABLE_MAX_COLS); inversion H; subst. apply fresh_ok. lia.
  - pose proof (getc_range _ _ _ _ S H) as [R1 R2]. assert (K : forall y' x' c', getc t y' x' = Some c' -> getc (append_row t) y' x' = Some c').
    { intros y' x' c' E. rewrite getc_append. destruct (Nat.eqb_spec y' (num_rows t)) as [->|]; auto. apply getc_range in E; auto. lia. }
    destruct (L y x c H) as (X & Y & T & Se & O). repeat (split; auto). unfold owned in *. destruct (c_parent c) as [[px py]|].
    + destruct O as (O1 & O2 & O3 & p & P1 & P2). repeat (split; auto). exists p. split; auto.
    + destruct O as (O1 & O2 & O3 & O4 & O5). repeat (split; auto). intros i j I J N0. destruct (O5 i j I J N0) as (d & D1 & D2). eauto.
Qed.
Lemma iter_append : forall k t, wf t -> wf (Nat.iter k append_row t) /\ num_rows (Nat.iter k append_row t) = k + num_rows t.
Proof. induction k as [|k IH]; intros t W; cbn [Nat.iter nat_rect]; auto. destruct (IH t W) as [A B]. split; [apply wf_append; auto|]. rewrite rows_append. unfold Nat.iter in B. rewrite B. reflexivity. Qed.
Lemma wf_position : forall t y x, wf t -> y < num_rows t -> x <= TABLE_MAX_COLS -> wf (at_position y x t).
Proof. intros t y x [S L] Y X. split; [|exact L]. destruct S. constructor; auto. Qed.
Lemma wf_cols : forall t n, wf t -> t_cols t <= n -> n <= TABLE_MAX_COLS -> wf (with_cols n t).
Proof. intros t n [S L] A B. split; [destruct S; constructor; auto|]. apply (layout_alike _ _ _ n _ L); auto. intros y x. reflexivity. Qed.
Lemma wf_counts : forall t f, wf t -> (forall l, List.length (f l) = List.length l) -> wf (with_counts f t).
Proof. intros t f [S L] F. split; [|exact L]. destruct S. constructor; auto. cbn. rewrite F. auto. Qed.
Lemma wf_left : forall t f, wf t -> (forall l, List.length (f l) = List.length l) -> wf (with_left f t).
Proof. intros t f [S L] F. split; [|exact L]. destruct S. constructor; auto. cbn. rewrite F. auto. Qed.
Lemma wf_set : forall t y x f, wf t -> (forall c, core (f c) = core c) -> wf (set_cell y x f t).
Proof. intros t y x f [S L] C. split; [apply shape_set; auto|]. rewrite rows_set. apply (layout_alike _ _ _ (t_cols t) _ L); auto. apply alike_set. exact C. Qed.
(** Rows of which only the cells' settings, the line above and its counter change *)
Lemma getc_row : forall t y g y' x, getc (with_rows (update y g) t) y' x = if y' =? y then match nth_error (t_rows t) y with Some r => nth_error (r_cells (g r)) x | None => None end else getc t y' x.
Proof. intros. unfold getc, with_rows. cbn [t_rows]. rewrite nth_error_update. destruct (y' =? y); auto. destruct (nth_error (t_rows t) y); reflexivity. Qed.
Lemma wf_row : forall t y g, wf t -> (forall r, map core (r_cells (g r)) = map core (r_cells r)) -> wf (with_rows (update y g) t).
Proof.
  intros t y g [S L] C. assert (N : num_rows (with_rows (update y g) t) = num_rows t) by (unfold num_rows, with_rows; cbn [t_rows]; apply update_length). split.
  - destruct S. constructor; auto; [|rewrite N; auto]. unfold with_rows. cbn [t_rows]. apply update_forall; auto. intros r H. rewrite <- (map_length core), C, map_length. exact H.
  - rewrite N. apply (layout_alike _ _ _ (t_cols t) _ L); auto. intros y' x. rewrite getc_row. destruct (Nat.eqb_spec y' y) as [->|]; auto. unfold getc. destruct (nth_error (t_rows t) y) as [r|]; auto. rewrite <- !nth_error_map, C. reflexivity.
Qed.

(** ** Calls without spans *)
Lemma wf_empty : wf get_empty_table.
Proof.
  split.
  - constructor; cbn; auto; try lia.
  - intros y x c H. assert (R : getc get_empty_table y x = if y =? 0 then (if x <? TABLE_MAX_COLS then Some (fresh_cell y x) else None) else None).
    { pose proof (getc_append {| t_cols := 0; t_rows := []; t_row := 0; t_col := 0; t_left := repeat BNone TABLE_MAX_COLS; t_h := repeat HLeft TABLE_MAX_COLS; t_v := repeat VTop TABLE_MAX_COLS; t_counts := repeat 0 TABLE_MAX_COLS |} y x) as E. cbn [num_rows t_rows List.length] in E.
      unfold append_row, with_rows in E. cbn [t_rows t_cols t_row t_col t_left t_h t_v t_counts app List.length num_rows] in E. fold get_empty_table in E. rewrite E. destruct (y =? 0); auto. unfold getc. cbn [t_rows]. destruct y; reflexivity. }
    rewrite R in H. destruct (Nat.eqb_spec y 0) as [->|]; [|discriminate]. destruct (x <? TABLE_MAX_COLS); inversion H; subst. apply fresh_ok. cbn. lia.
Qed.
Lemma skip_set_le : forall cs x, x <= skip_set cs x <= x + List.length cs.
Proof. induction cs as [|c cs IH]; intros x; cbn [skip_set List.length]; [lia|]. destruct (c_set c); [|lia]. specialize (IH (S x)). lia. Qed.
Lemma wf_set_position : forall t x y t', wf t -> set_position t x y = Ok t' -> wf t' /\ t_row t' = y /\ t_col t' = x.
Proof.
  intros t x y t' W H. unfold set_position in H. destruct (Nat.ltb_spec x TABLE_MAX_COLS); [|discriminate]. destruct (Nat.ltb_spec y (num_rows t)); apply Ok_inj in H; subst t'.
  - split; [apply wf_position; auto; lia|auto].
  - destruct (iter_append (S y - num_rows t) t W) as [A B]. split; [apply wf_position; auto; [rewrite B|]; lia|auto].
Qed.
Lemma nth_rows : forall t y r, wf t -> nth_error (t_rows t) y = Some r -> List.length (r_cells r) = TABLE_MAX_COLS /\ y < num_rows t.
Proof. intros t y r [S _] H. split; [|apply nth_error_Some; congruence]. pose proof (sh_rows t S) as F. rewrite Forall_forall in F. apply F. eapply nth_error_In; eauto. Qed.
Lemma wf_next_row : forall t t', wf t -> next_row t = Ok t' -> wf t'.
Proof.
  intros t t' W H. unfold next_row in H. destruct (nth_error (t_rows t) (S (t_row t))) as [r|] eqn:E; inversion H; subst.
  - destruct (nth_rows _ _ _ W E) as [L R]. apply wf_position; auto. pose proof (skip_set_le (r_cells r) 0). lia.
  - apply wf_position; [apply wf_append; auto| |lia]. rewrite rows_append. unfold num_rows. lia.
Qed.
Lemma curr_ok : forall t c, curr_cell t = Ok c -> getc t (t_row t) (t_col t) = Some c.
Proof. intros t c H. unfold curr_cell in H. rewrite the_cell_getc in H. destruct (getc t (t_row t) (t_col t)); congruence. Qed.
Lemma wf_put : forall t y x c text w, wf t -> getc t y x = Some c -> match text with Some s => tidy_text s | None => True end -> get_text_width text = Ok w ->
  wf (with_cols (Nat.max (S x) (t_cols t)) (set_cell y x (put_text text (get_text_height text) w) t)).
Proof.
  intros t y x c text w [Sh L] H T W. pose proof (getc_range _ _ _ _ Sh H) as [Y X]. split.
  - pose proof (shape_set t y x (put_text text (get_text_height text) w) Sh) as S'. destruct S'. constructor; auto. cbn [t_cols with_cols]. pose proof (sh_cols t Sh). lia.
  - set (G' := getc (with_cols (Nat.max (S x) (t_cols t)) (set_cell y x (put_text text (get_text_height text) w) t))). change (num_rows (with_cols (Nat.max (S x) (t_cols t)) (set_cell y x (put_text text (get_text_height text) w) t))) with (num_rows (set_cell y x (put_text text (get_text_height text) w) t)). rewrite rows_set. cbn [t_cols with_cols].
    assert (K : forall y' x', G' y' x' = if (y' =? y) && (x' =? x) then option_map (put_text text (get_text_height text) w) (getc t y x) else getc t y' x') by (intros; unfold G'; change (getc (with_cols (Nat.max (S x) (t_cols t)) (set_cell y x (put_text text (get_text_height text) w) t)) y' x') with (getc (set_cell y x (put_text text (get_text_height text) w) t) y' x'); apply getc_set).
    assert (F : forall y' x' d, getc t y' x' = Some d -> exists d', G' y' x' = Some d' /\ c_parent d' = c_parent d /\ c_sx d' = c_sx d /\ c_sy d' = c_sy d).
    { intros y' x' d E. rewrite K. destruct (Nat.eqb_spec y' y) as [->|]; [destruct (Nat.eqb_spec x' x) as [->|]|]; cbn [andb]; [rewrite E; cbn [option_map]; exists (put_text text (get_text_height text) w d); auto|exists d; auto|exists d; auto]. }
    assert (O : forall y' x' d d', getc t y' x' = Some d -> c_parent d' = c_parent d -> c_sx d' = c_sx d -> c_sy d' = c_sy d -> (c_set d = true -> c_set d' = true) -> owned (getc t) (t_cols t) (num_rows t) y' x' d -> owned G' (Nat.max (S x) (t_cols t)) (num_rows t) y' x' d').
    { intros y' x' d d' E P1 P2 P3 P4 O. unfold owned in *. rewrite P1, P2, P3. destruct (c_parent d) as [[px py]|].
      - destruct O as (O1 & O2 & O3 & p & Q1 & Q2 & Q3 & Q4). repeat (split; auto). destruct (F _ _ _ Q1) as (p' & R1 & R2 & R3 & R4). exists p'. rewrite R2, R3, R4. auto.
      - destruct O as (O1 & O2 & O3 & O4 & O5). split; auto. split; auto. split; auto. split; [destruct O4; [auto|right; lia]|]. intros i j I J N. destruct (O5 i j I J N) as (e & E1 & E2). destruct (F _ _ _ E1) as (e' & R1 & R2 & _). exists e'. split; congruence. }
    intros y' x' d' D. rewrite K in D. destruct (Nat.eqb_spec y' y) as [->|]; [destruct (Nat.eqb_spec x' x) as [->|]|]; cbn [andb] in D.
    + rewrite H in D. inversion D; subst. destruct (L _ _ _ H) as (L1 & L2 & L3 & L4 & L5). split; auto. split; auto. split; [split; [exact T|split; [exact W|split; [reflexivity|auto]]]|]. split; [intros; lia|]. apply (O y x c); auto.
    + destruct (L _ _ _ D) as (L1 & L2 & L3 & L4 & L5). split; auto. split; auto. split; auto. split; [intros Z; specialize (L4 Z); lia|]. apply (O _ _ d'); auto.
    + destruct (L _ _ _ D) as (L1 & L2 & L3 & L4 & L5). split; auto. split; auto. split; auto. split; [intros Z; specialize (L4 Z); lia|]. apply (O _ _ d'); auto.
Qed.
Lemma wf_add : forall t text t', wf t -> match text with Some s => tidy_text s | None => True end -> add_text_cell t text = Ok t' -> wf t'.
Proof.
  intros t text t' W T H. unfold add_text_cell in H. destruct (curr_cell t) as [c| |] eqn:E; try discriminate. apply curr_ok in E. cbn [rbind] in H. destruct (get_text_width text) as [w| |] eqn:Ew; try discriminate. cbn [rbind] in H.
  pose proof (wf_put _ _ _ _ _ _ W E T Ew) as W2. set (t1 := set_cell (t_row t) (t_col t) (put_text text (get_text_height text) w) t) in *. cbv zeta in H.
  replace (if t_cols t1 <=? t_col t1 then with_cols (t_col t1 + 1) t1 else t1) with (with_cols (Nat.max (S (t_col t)) (t_cols t)) t1) in H.
  2:{ change (t_cols t1) with (t_cols t). change (t_col t1) with (t_col t). destruct (Nat.leb_spec (t_cols t) (t_col t)); [f_equal; lia|]. replace (Nat.max (S (t_col t)) (t_cols t)) with (t_cols t1) by (change (t_cols t1) with (t_cols t); lia). destruct t1; reflexivity. }
  set (t2 := with_cols (Nat.max (S (t_col t)) (t_cols t)) t1) in *. unfold at_ in H. destruct (nth_error (t_rows t2) (t_row t2)) as [r|] eqn:R; [|discriminate]. cbn [rbind] in H. apply Ok_inj in H. subst t'. destruct (nth_rows _ _ _ W2 R) as [L R'].
  apply wf_position; auto. pose proof (skip_set_le (skipn (t_col t2) (r_cells r)) (t_col t2)) as Q. rewrite skipn_length, L in Q. pose proof (sh_col t2 (proj1 W2)). lia.
Qed.
Lemma wf_aligns : forall t n hs vs t', wf t -> set_default_alignments t n hs vs = Ok t' -> wf t'.
Proof.
  intros t n hs vs t' [S L] H. unfold set_default_alignments in H. destruct (Nat.leb_spec n TABLE_MAX_COLS); [|discriminate].
  assert (K : forall A (new : option (list A)) old o, List.length old = TABLE_MAX_COLS -> match new with None => Ok old | Some l => if List.length l <? n then Ub else Ok (firstn n l ++ skipn n old) end = Ok o -> List.length o = TABLE_MAX_COLS).
  { intros A new old o Lo E. destruct new as [l|]; [|inversion E; subst; auto]. destruct (Nat.ltb_spec (List.length l) n); inversion E; subst. rewrite app_length, firstn_length, skipn_length. lia. }
  destruct (match hs with None => Ok (t_h t) | Some l => _ end) as [h| |] eqn:Eh; try discriminate. cbn [rbind] in H.
  destruct (match vs with None => Ok (t_v t) | Some l => _ end) as [v| |] eqn:Ev; try discriminate. cbn [rbind] in H. inversion H; subst. split; [|exact L].
  destruct S. constructor; auto; cbn [t_h t_v with_aligns]; [eapply K; eauto|eapply K; eauto].
Qed.
Lemma wf_override : forall t f t', wf t -> (forall c, core (f c) = core c) -> override f t = Ok t' -> wf t'.
Proof. intros t f t' W C H. unfold override in H. destruct (curr_cell t); try discriminate. cbn [rbind] in H. inversion H; subst. apply wf_set; auto. Qed.
Lemma wf_hline : forall t b t', wf t -> set_hline t b = Ok t' -> wf t'.
Proof. intros t b t' W H. unfold set_hline in H. destruct (at_ (t_rows t) (t_row t)); try discriminate. cbn [rbind] in H. inversion H; subst. apply wf_row; auto. Qed.
Lemma wf_vline : forall t i b t', wf t -> set_vline t i b = Ok t' -> wf t'.
Proof.
  intros t i b t' W H. unfold set_vline in H. destruct (Nat.ltb_spec i TABLE_MAX_COLS); [|discriminate]. destruct (at_ (t_left t) i) as [old| |]; try discriminate. cbn [rbind] in H. inversion H; subst.
  apply wf_left; [|intros; apply update_length]. apply wf_counts; [|intros; apply update_length]. destruct (Nat.leb_spec (t_cols t) i); auto. apply wf_cols; auto; lia.
Qed.
Lemma wf_boxed : forall t b t', wf t -> make_boxed t b = Ok t' -> wf t'.
Proof.
  intros t b t' W H. unfold make_boxed in H. destruct (set_position t 0 0) as [t1| |] eqn:E1; try discriminate. cbn [rbind] in H. destruct (set_vline t1 0 b) as [t2| |] eqn:E2; try discriminate. cbn [rbind] in H.
  destruct (set_hline t2 b) as [t3| |] eqn:E3; try discriminate. cbn [rbind] in H. destruct (set_position t3 (t_cols t3) (num_rows t3 - 1)) as [t4| |] eqn:E4; try discriminate. cbn [rbind] in H.
  destruct (set_vline t4 (t_cols t4) b) as [t5| |] eqn:E5; try discriminate. cbn [rbind] in H. eapply wf_hline; [|eauto]. eapply wf_vline; [|eauto]. eapply wf_set_position; [|eauto]. eapply wf_hline; [|eauto]. eapply wf_vline; [|eauto]. eapply wf_set_position; eauto.
Qed.
Lemma wf_vlines : forall is t b t', wf t -> set_vlines t is b = Ok t' -> wf t'.
Proof. induction is as [|i is IH]; intros t b t' W H; cbn [set_vlines] in H; [inversion H; subst; auto|]. destruct (set_vline t i b) as [t1| |] eqn:E; try discriminate. cbn [rbind] in H. eapply IH; [|eauto]. eapply wf_vline; eauto. Qed.
Lemma wf_override_left : forall t b t', wf t -> override_left_border t b = Ok t' -> wf t'.
Proof. intros t b t' W H. unfold override_left_border in H. destruct (curr_cell t); try discriminate. cbn [rbind] in H. inversion H; subst. apply wf_set; auto. apply wf_counts; auto. intros; apply update_length. Qed.
Lemma wf_override_above : forall t b t', wf t -> override_above_border t b = Ok t' -> wf t'.
Proof. intros t b t' W H. unfold override_above_border in H. destruct (curr_cell t); try discriminate. cbn [rbind] in H. inversion H; subst. apply wf_set; auto. apply wf_row; auto. Qed.
Lemma wf_row_override : forall t f, wf t -> (forall c, core (f c) = core c) -> wf (with_rows (update (t_row t) (with_cells (map f))) t).
Proof. intros t f W C. apply wf_row; auto. intros r. unfold with_cells. cbn [r_cells]. rewrite map_map. apply map_ext. exact C. Qed.

(** ** Spans over unused cells *)
Definition in_span (y x i0 i1 j0 j1 y' x' : nat) : bool :=
  (y + i0 <=? y') && (y' <? y + i1) && (x + j0 <=? x') && (x' <? x + j1) && negb ((y' =? y) && (x' =? x)).
Lemma in_span_spec : forall y x i0 i1 j0 j1 y' x', in_span y x i0 i1 j0 j1 y' x' = true <-> y + i0 <= y' < y + i1 /\ x + j0 <= x' < x + j1 /\ ~ (y' = y /\ x' = x).
Proof.
  intros. unfold in_span. rewrite !andb_true_iff, negb_true_iff, !Nat.leb_le, !Nat.ltb_lt, andb_false_iff, !Nat.eqb_neq. split; [intros ((((A & B) & C) & D) & E)|intros ((A & B) & (C & D) & E)]; repeat split; try lia; auto.
Qed.
Lemma core_child : forall i j p c, core (child_borders i j (put_child p c)) = core (put_child p c).
Proof. intros. unfold child_borders. destruct (j =? 0), (i =? 0); reflexivity. Qed.
Lemma core_put_child : forall p c c', core c = core c' -> core (put_child p c) = core (put_child p c').
Proof. intros p c c' H. apply core_fields in H. destruct H as (A & B & C & D & E & F & G & I & J). unfold core, put_child. cbn. congruence. Qed.
Lemma opt_child : forall p o o', option_map core o = option_map core o' -> option_map core (option_map (put_child p) o) = option_map core (option_map (put_child p) o').
Proof. intros p [c|] [c'|] H; cbn [option_map] in *; try discriminate; auto. f_equal. apply core_put_child. congruence. Qed.

Lemma span_cols_spec : forall y x i n j0 t t1 r, shape t -> span_cols t y x i (List.seq j0 n) = Ok (t1, r) ->
  (forall j c, j0 <= j < j0 + n -> (i, j) <> (0, 0) -> getc t (y + i) (x + j) = Some c -> c_set c = false) ->
  r = None /\ shape t1 /\ num_rows t1 = num_rows t /\ t_cols t1 = t_cols t /\
  forall y' x', option_map core (getc t1 y' x') = option_map core (if in_span y x i (S i) j0 (j0 + n) y' x' then option_map (put_child (x, y)) (getc t y' x') else getc t y' x').
Proof.
  intros y x i. induction n as [|n IH]; intros j0 t t1 r Sh H F; cbn [List.seq span_cols] in H.
  - inversion H; subst. repeat (split; auto). intros y' x'. destruct (in_span _ _ _ _ _ _ _ _) eqn:E; auto. apply in_span_spec in E. lia.
  - destruct ((i =? 0) && (j0 =? 0)) eqn:Z.
    + apply andb_true_iff in Z. destruct Z as [Z1 Z2]. apply Nat.eqb_eq in Z1, Z2. subst i j0. destruct (IH _ _ _ _ Sh H) as (A & B & C & D & E). { intros j c J. apply F. lia. } repeat (split; auto). intros y' x'. rewrite E.
      replace (in_span y x 0 1 1 (1 + n) y' x') with (in_span y x 0 1 0 (0 + S n) y' x'); auto. apply eq_true_iff_eq. rewrite !in_span_spec. lia.
    + assert (Z' : (i, j0) <> (0, 0)). { intros X. inversion X; subst. discriminate Z. } rewrite the_cell_getc in H. destruct (getc t (y + i) (x + j0)) as [c|] eqn:Ec; [|discriminate]. cbn [rbind] in H. rewrite (F j0 c) in H; auto; [|lia].
      destruct (IH _ _ _ _ (shape_set _ (y + i) (x + j0) (fun c => child_borders i j0 (put_child (x, y) c)) Sh) H) as (A & B & C & D & E).
      { intros j d J N G. rewrite getc_set in G. replace (x + j =? x + j0) with false in G by (symmetry; apply Nat.eqb_neq; lia). rewrite andb_false_r in G. apply (F j d); auto. lia. }
      rewrite rows_set in C. repeat (split; auto). intros y' x'. rewrite E. rewrite getc_set. destruct (Nat.eqb_spec y' (y + i)) as [->|N]; [destruct (Nat.eqb_spec x' (x + j0)) as [->|N]|]; cbn [andb].
      * replace (in_span y x i (S i) (S j0) (S j0 + n) (y + i) (x + j0)) with false by (symmetry; apply not_true_is_false; rewrite in_span_spec; lia).
        replace (in_span y x i (S i) j0 (j0 + S n) (y + i) (x + j0)) with true by (symmetry; apply in_span_spec; split; [lia|split; [lia|intros [X1 X2]; apply Z'; f_equal; lia]]).
        rewrite Ec. cbn [option_map]. rewrite core_child. reflexivity.
      * replace (in_span y x i (S i) (S j0) (S j0 + n) (y + i) x') with (in_span y x i (S i) j0 (j0 + S n) (y + i) x'); auto. apply eq_true_iff_eq. rewrite !in_span_spec. lia.
      * replace (in_span y x i (S i) (S j0) (S j0 + n) y' x') with (in_span y x i (S i) j0 (j0 + S n) y' x'); auto. apply eq_true_iff_eq. rewrite !in_span_spec. lia.
Qed.
(** The cells of [t], and unused ones in new rows *)
Definition grown (t : table) (m y x : nat) : option cell := if y <? num_rows t then getc t y x else if (y <? m) && (x <? TABLE_MAX_COLS) then Some (fresh_cell y x) else None.
Lemma grown_self : forall t y x, shape t -> grown t (num_rows t) y x = getc t y x.
Proof. intros. unfold grown. destruct (Nat.ltb_spec y (num_rows t)); auto. cbn [andb]. symmetry. apply getc_none; auto. Qed.
Lemma grown_append : forall t m y x, shape t -> num_rows t < m -> grown (append_row t) m y x = grown t m y x.
Proof.
  intros t m y x Sh M. unfold grown. rewrite rows_append, getc_append. destruct (Nat.ltb_spec y (S (num_rows t))), (Nat.ltb_spec y (num_rows t)), (Nat.eqb_spec y (num_rows t)); try lia; auto.
  destruct (Nat.ltb_spec y m); [|lia]. reflexivity.
Qed.
Lemma span_rows_spec : forall y x sx sy n i0 t t1, shape t -> i0 + n = sy -> 0 < n -> y + i0 < num_rows t -> span_rows t y x sx sy (List.seq i0 n) = Ok t1 ->
  (forall i j c, i0 <= i < sy -> j < sx -> (i, j) <> (0, 0) -> getc t (y + i) (x + j) = Some c -> c_set c = false) ->
  shape t1 /\ num_rows t1 = Nat.max (num_rows t) (y + sy) /\ t_cols t1 = t_cols t /\
  forall y' x', option_map core (getc t1 y' x') = option_map core (if in_span y x i0 sy 0 sx y' x' then option_map (put_child (x, y)) (grown t (num_rows t1) y' x') else grown t (num_rows t1) y' x').
Proof.
  intros y x sx sy. induction n as [|n IH]; intros i0 t t1 Sh Sy N R H F; [lia|]. cbn [List.seq span_rows] in H.
  destruct (span_cols t y x i0 (List.seq 0 sx)) as [[t2 clash]| |] eqn:E; try discriminate. cbn [rbind] in H.
  destruct (span_cols_spec _ _ _ _ _ _ _ _ Sh E) as (A & Sh2 & R2 & C2 & K). { intros j c J. apply F; lia. } subst clash. cbn [Nat.add] in K.
  destruct n as [|n].
  - cbn [List.seq span_rows] in H. replace (S i0 <? sy) with false in H by (symmetry; apply Nat.ltb_ge; lia). cbn [andb] in H. inversion H; subst t1. split; auto. split; [lia|]. split; auto.
    intros y' x'. rewrite K, R2, grown_self by auto. replace sy with (S i0) by lia. reflexivity.
  - set (t3 := if (S i0 <? sy) && (num_rows t2 <=? S (y + i0)) then append_row t2 else t2) in *.
    assert (T3 : shape t3 /\ y + S i0 < num_rows t3 /\ num_rows t <= num_rows t3 /\ num_rows t3 <= Nat.max (num_rows t) (y + sy) /\ t_cols t3 = t_cols t /\ forall m y' x', Nat.max (num_rows t) (y + sy) <= m -> grown t3 m y' x' = grown t2 m y' x').
    { unfold t3. replace (S i0 <? sy) with true by (symmetry; apply Nat.ltb_lt; lia). cbn [andb]. destruct (Nat.leb_spec (num_rows t2) (S (y + i0))).
      - split; [apply shape_append; auto|]. rewrite rows_append, R2. repeat (split; [try lia|]); [exact C2|]. intros m y' x' M. apply grown_append; auto. lia.
      - split; auto. rewrite R2 in *. repeat (split; [try lia|]); auto. }
    destruct T3 as (Sh3 & R3 & R3' & R3'' & C3 & G3). 
    assert (Back : forall y' x', y' <> y + i0 -> option_map core (getc t2 y' x') = option_map core (getc t y' x')). { intros y' x' N0. rewrite K. replace (in_span y x i0 (S i0) 0 sx y' x') with false; auto. symmetry. apply not_true_is_false. rewrite in_span_spec. lia. }
    destruct (IH (S i0) t3 t1 Sh3 ltac:(lia) ltac:(lia) R3 H) as (A1 & A2 & A3 & A4).
    { intros i j c I J N0 G. destruct (le_lt_dec (num_rows t2) (y + i)) as [Lr|Lr].
      - unfold t3 in G. destruct ((S i0 <? sy) && (num_rows t2 <=? S (y + i0))).
        + rewrite getc_append in G. destruct (_ =? _); [destruct (_ <? _); inversion G; reflexivity|]. apply getc_range in G; auto. lia.
        + apply getc_range in G; auto. lia.
      - assert (G' : getc t2 (y + i) (x + j) = Some c). { unfold t3 in G. destruct ((S i0 <? sy) && (num_rows t2 <=? S (y + i0))); auto. rewrite getc_append in G. destruct (Nat.eqb_spec (y + i) (num_rows t2)); auto. lia. }
        pose proof (Back (y + i) (x + j) ltac:(lia)) as B. rewrite G' in B. destruct (getc t (y + i) (x + j)) as [d|] eqn:D; [|discriminate]. cbn [option_map] in B. assert (core c = core d) as CD by congruence. apply core_fields in CD. destruct CD as (_ & _ & _ & _ & Z & _). rewrite Z. apply (F i j d); auto. lia. }
    split; auto. split; [lia|]. split; [congruence|]. intros y' x'. rewrite A4, G3 by lia. set (m := num_rows t1) in *.
    assert (GG : option_map core (grown t2 m y' x') = option_map core (if in_span y x i0 (S i0) 0 sx y' x' then option_map (put_child (x, y)) (grown t m y' x') else grown t m y' x')).
    { unfold grown. rewrite R2. destruct (Nat.ltb_spec y' (num_rows t)); [apply K|]. replace (in_span y x i0 (S i0) 0 sx y' x') with false; auto. symmetry. apply not_true_is_false. rewrite in_span_spec. lia. }
    destruct (in_span y x i0 sy 0 sx y' x') eqn:I1; destruct (in_span y x (S i0) sy 0 sx y' x') eqn:I2.
    + apply opt_child. rewrite GG. replace (in_span y x i0 (S i0) 0 sx y' x') with false; auto. symmetry. apply not_true_is_false. apply in_span_spec in I2. rewrite in_span_spec. lia.
    + rewrite GG. replace (in_span y x i0 (S i0) 0 sx y' x') with true; auto. symmetry. apply in_span_spec. apply in_span_spec in I1. apply not_true_iff_false in I2. rewrite in_span_spec in I2. lia.
    + apply in_span_spec in I2. apply not_true_iff_false in I1. rewrite in_span_spec in I1. lia.
    + rewrite GG. replace (in_span y x i0 (S i0) 0 sx y' x') with false; auto. symmetry. apply not_true_is_false. apply not_true_iff_false in I1. rewrite in_span_spec in I1. rewrite in_span_spec. lia.
Qed.
Lemma wf_span : forall t sx sy t', wf t -> clean_call t (CSpan sx sy) -> set_span t sx sy = Ok t' -> wf t'.
Proof.
  intros t sx sy t' [Sh L] [Cp Cf] H. unfold set_span in H. destruct ((sx =? 0) || (sy =? 0) || (TABLE_MAX_COLS <? t_col t + sx)) eqn:E; [discriminate|].
  apply orb_false_iff in E. destruct E as [E E3]. apply orb_false_iff in E. destruct E as [E1 E2]. apply Nat.eqb_neq in E1, E2. apply Nat.ltb_ge in E3.
  destruct (curr_cell t) as [c| |] eqn:Ec; try discriminate. specialize (Cp c eq_refl). apply curr_ok in Ec. cbn [rbind] in H. destruct ((c_sx c =? 1) && (c_sy c =? 1)) eqn:E4; [|discriminate]. apply andb_true_iff in E4. destruct E4 as [E4 E5]. apply Nat.eqb_eq in E4, E5.
  set (y := t_row t) in *. set (x := t_col t) in *. set (n := Nat.max (x + sx) (t_cols t)) in *. set (t0 := set_cell y x (put_span sx sy) t) in *.
  pose proof (getc_range _ _ _ _ Sh Ec) as [Ry Rx].
  assert (Sh0 : shape (with_cols n t0)). { pose proof (shape_set t y x (put_span sx sy) Sh) as S0. fold t0 in S0. destruct S0. constructor; auto. cbn [t_cols with_cols]. pose proof (sh_cols t Sh). lia. }
  assert (R0 : num_rows (with_cols n t0) = num_rows t) by (change (num_rows (with_cols n t0)) with (num_rows t0); apply rows_set).
  assert (G0 : forall y' x', getc (with_cols n t0) y' x' = if (y' =? y) && (x' =? x) then option_map (put_span sx sy) (getc t y x) else getc t y' x') by (intros; change (getc (with_cols n t0) y' x') with (getc t0 y' x'); apply getc_set).
  destruct (span_rows_spec y x sx sy sy 0 (with_cols n t0) t' Sh0 ltac:(lia) ltac:(lia) ltac:(lia) H) as (Sh1 & R1 & C1 & K).
  { intros i j d I J N G. rewrite G0 in G. replace ((y + i =? y) && (x + j =? x)) with false in G. - destruct (Cf i j d ltac:(lia) J N) as [X _]; auto. apply cell_at_getc. exact G.
    - symmetry. apply andb_false_iff. rewrite !Nat.eqb_neq. assert (i <> 0 \/ j <> 0) by (destruct i, j; auto). lia. }
  rewrite R0 in R1. change (t_cols (with_cols n t0)) with n in C1. split; auto. rewrite C1. set (m := num_rows t') in *.
  (* what stands where afterwards *)
  assert (P0 : exists c', getc t' y x = Some c' /\ core c' = core (put_span sx sy c)).
  { specialize (K y x). replace (in_span y x 0 sy 0 sx y x) with false in K by (symmetry; apply not_true_is_false; rewrite in_span_spec; lia). unfold grown in K. rewrite R0 in K. destruct (Nat.ltb_spec y (num_rows t)); [|lia]. rewrite G0, !Nat.eqb_refl in K. cbn [andb] in K. rewrite Ec in K. cbn [option_map] in K. destruct (getc t' y x) as [c'|]; [|discriminate]. exists c'. split; auto. cbn [option_map] in K. congruence. }
  assert (P1 : forall y' x', in_span y x 0 sy 0 sx y' x' = true -> exists c' d, getc t' y' x' = Some c' /\ core c' = core (put_child (x, y) d) /\ cell_ok (getc t) (t_cols t) m y' x' d /\ c_sx d = 1 /\ c_sy d = 1).
  { intros y' x' I. specialize (K y' x'). rewrite I in K. apply in_span_spec in I. unfold grown in K. rewrite R0, G0 in K. replace ((y' =? y) && (x' =? x)) with false in K by (symmetry; apply andb_false_iff; rewrite !Nat.eqb_neq; lia).
    destruct (Nat.ltb_spec y' (num_rows t)).
    - destruct (getc_some t y' x' Sh ltac:(lia) ltac:(lia)) as (d & D). rewrite D in K. cbn [option_map] in K. destruct (getc t' y' x') as [c'|]; [|discriminate]. cbn [option_map] in K. exists c', d. split; auto. split; [congruence|].
      destruct (Cf (y' - y) (x' - x) d) as (F1 & F2 & F3 & F4); try lia. { intros X. inversion X. lia. } { apply cell_at_getc. replace (y + (y' - y)) with y' by lia. replace (x + (x' - x)) with x' by lia. exact D. }
      split; auto. destruct (L _ _ _ D) as (L1 & L2 & L3 & L4 & L5). repeat (split; auto). unfold owned in *. rewrite F2 in *. rewrite F3, F4 in *. destruct L5 as (M1 & M2 & M3 & M4 & M5). repeat (split; auto). lia.
    - destruct (Nat.ltb_spec y' m); [|lia]. destruct (Nat.ltb_spec x' TABLE_MAX_COLS); [|lia]. cbn [andb option_map] in K. destruct (getc t' y' x') as [c'|]; [|discriminate]. cbn [option_map] in K. exists c', (fresh_cell y' x'). split; auto. split; [congruence|]. split; [apply fresh_ok; lia|auto]. }
  assert (P2 : forall y' x' d, in_span y x 0 sy 0 sx y' x' = false -> (y' <> y \/ x' <> x) -> getc t y' x' = Some d -> exists d', getc t' y' x' = Some d' /\ core d' = core d).
  { intros y' x' d I N G. specialize (K y' x'). rewrite I in K. unfold grown in K. rewrite R0, G0 in K. pose proof (getc_range _ _ _ _ Sh G) as [Q1 Q2]. destruct (Nat.ltb_spec y' (num_rows t)); [|lia]. replace ((y' =? y) && (x' =? x)) with false in K by (symmetry; apply andb_false_iff; rewrite !Nat.eqb_neq; lia).
    rewrite G in K. destruct (getc t' y' x') as [d'|]; [|discriminate]. exists d'. split; auto. cbn [option_map] in K. congruence. }
  (* children of other cells, and their parents, are outside *)
  assert (Out : forall y' x' d, getc t y' x' = Some d -> c_parent d <> None \/ ~ (c_sx d = 1 /\ c_sy d = 1) -> in_span y x 0 sy 0 sx y' x' = false).
  { intros y' x' d G Hd. apply not_true_is_false. intros I. apply in_span_spec in I. destruct (Cf (y' - y) (x' - x) d) as (F1 & F2 & F3 & F4); try lia. { intros X. inversion X. lia. } { apply cell_at_getc. replace (y + (y' - y)) with y' by lia. replace (x + (x' - x)) with x' by lia. exact G. }
    destruct Hd as [Hd|Hd]; [congruence|tauto]. }
  destruct P0 as (c0 & P0 & P0'). apply core_fields in P0'. destruct P0' as (B1 & B2 & B3 & B4 & B5 & B6 & B7 & B8 & B9). cbn in B1, B2, B3, B4, B5, B6, B7, B8, B9.
  destruct (L _ _ _ Ec) as (L1 & L2 & L3 & L4 & L5).
  assert (Rest : forall y' x' e, getc t' y' x' = Some e -> in_span y x 0 sy 0 sx y' x' = false -> (y' <> y \/ x' <> x) -> cell_ok (getc t') n m y' x' e).
  { intros y' x' e Ee I N. pose proof (getc_range _ _ _ _ Sh1 Ee) as [Q1 Q2]. fold m in Q1. destruct (le_lt_dec (num_rows t) y') as [Lr|Lr].
    - specialize (K y' x'). rewrite I in K. unfold grown in K. rewrite R0, Ee in K. destruct (Nat.ltb_spec y' (num_rows t)); [lia|]. destruct (Nat.ltb_spec y' m); [|lia]. destruct (Nat.ltb_spec x' TABLE_MAX_COLS); [|lia]. cbn [andb option_map] in K.
      assert (CE : core e = core (fresh_cell y' x')) by congruence. apply core_fields in CE. cbn in CE. destruct CE as (X1 & X2 & X3 & X4 & X5 & X6 & X7 & X8 & X9). split; auto. split; auto. split; [unfold text_ok; rewrite X7, X8, X9; split; [exact Logic.I|split; [reflexivity|split; [reflexivity|auto]]]|]. split; [congruence|]. unfold owned. rewrite X6, X3, X4. split; [lia|]. split; [lia|]. split; [lia|]. split; [left; lia|]. intros i j Hi Hj Hn. exfalso. apply Hn. f_equal; lia.
    - destruct (getc_some t y' x' Sh Lr Q2) as (d & D). destruct (P2 y' x' d I N D) as (e' & E' & Ce). rewrite Ee in E'. inversion E'; subst e'. apply core_fields in Ce. destruct Ce as (X1 & X2 & X3 & X4 & X5 & X6 & X7 & X8 & X9). destruct (L _ _ _ D) as (M1 & M2 & M3 & M4 & M5).
      split; [congruence|]. split; [congruence|]. split; [unfold text_ok in *; rewrite X5, X7, X8, X9; tauto|]. split; [intros Z; rewrite X5 in Z; specialize (M4 Z); lia|]. unfold owned in *. rewrite X6, X3, X4, X5. destruct (c_parent d) as [[px py]|] eqn:Pd.
      + destruct M5 as (M5 & M6 & M7 & p & S1 & S2 & S3 & S4). repeat (split; auto).
        assert (Np : py <> y \/ px <> x). { destruct (Nat.eq_dec py y) as [->|]; auto. destruct (Nat.eq_dec px x) as [->|]; auto. exfalso. assert (p = c) by congruence. subst p. unfold owned in L5. rewrite Cp in L5. destruct L5 as (_ & _ & _ & _ & L5). apply not_true_iff_false in I. rewrite in_span_spec in I.
          unfold x, y in *. assert (c_sx c = 1 /\ c_sy c = 1) by tauto. lia. }
        assert (Ip : in_span y x 0 sy 0 sx py px = false). { apply (Out _ _ _ S1). right. intros [U1 U2]. assert (x' = px /\ y' = py) as [-> ->] by lia. congruence. }
        destruct (P2 _ _ _ Ip Np S1) as (p' & S5 & S6). exists p'. split; auto. apply core_fields in S6. destruct S6 as (_ & _ & W3 & W4 & _ & W6 & _). rewrite W3, W4, W6. auto.
      + destruct M5 as (M5 & M6 & M7 & M8 & M9). split; auto. split; auto. split; [lia|]. split; [destruct M8; [auto|right; lia]|]. intros i j Hi Hj Hn. destruct (M9 i j Hi Hj Hn) as (f & F1 & F2).
        assert (Nf : y' + i <> y \/ x' + j <> x). { destruct (Nat.eq_dec (y' + i) y) as [Y1|]; auto. destruct (Nat.eq_dec (x' + j) x) as [X0|]; auto. rewrite Y1, X0 in F1. congruence. }
        assert (If : in_span y x 0 sy 0 sx (y' + i) (x' + j) = false). { apply (Out _ _ _ F1). left. congruence. }
        destruct (P2 _ _ _ If Nf F1) as (f' & F3 & F4). exists f'. split; auto. apply core_fields in F4. destruct F4 as (_ & _ & _ & _ & _ & W6 & _). congruence. }
  intros y' x' e Ee. destruct (in_span y x 0 sy 0 sx y' x') eqn:I.
  - destruct (P1 y' x' I) as (c' & d & D1 & D2 & (D3 & D4 & D5 & D6 & _) & D7 & D8). rewrite Ee in D1. inversion D1; subst c'. apply core_fields in D2. cbn in D2. destruct D2 as (X1 & X2 & X3 & X4 & X5 & X6 & X7 & X8 & X9). apply in_span_spec in I.
    split; [congruence|]. split; [congruence|]. split; [unfold text_ok in *; rewrite X5, X7, X8, X9; tauto|]. split; [intros; lia|]. unfold owned. rewrite X6. split; [congruence|]. split; [congruence|]. split; auto. exists c0. split; auto. split; [congruence|]. lia.
  - destruct (Nat.eq_dec y' y) as [->|Ny]; [destruct (Nat.eq_dec x' x) as [->|Nx]|].
    + rewrite P0 in Ee. inversion Ee; subst e. split; [congruence|]. split; [congruence|]. split; [unfold text_ok in *; rewrite B5, B7, B8, B9; auto|]. split; [intros Z; rewrite B5 in Z; specialize (L4 Z); lia|]. unfold owned. rewrite B6, Cp, B3, B4. split; [lia|]. split; [lia|]. split; [lia|]. split; [right; lia|].
      intros i j Hi Hj N. destruct (P1 (y + i) (x + j)) as (c' & d & D1 & D2 & _). { apply in_span_spec. split; [lia|]. split; [lia|]. intros [A B]. apply N. f_equal; lia. } exists c'. split; auto. apply core_fields in D2. cbn in D2. tauto.
    + apply Rest; auto.
    + apply Rest; auto.
Qed.

Theorem wf_call : forall t k t', wf t -> clean_call t k -> exec_call t k = Ok t' -> wf t'.
Proof.
  intros t k t' W C H. destruct k; cbn [exec_call] in H.
  - eapply wf_set_position; eauto.
  - eapply wf_next_row; eauto.
  - eapply wf_add; eauto.
  - eapply wf_aligns; eauto.
  - eapply wf_override; eauto. reflexivity.
  - eapply wf_override; eauto. reflexivity.
  - inversion H; subst. apply (wf_row_override t (put_v v)); auto.
  - inversion H; subst. apply (wf_row_override t (put_h h)); auto.
  - eapply wf_hline; eauto.
  - eapply wf_vline; eauto.
  - eapply wf_boxed; eauto.
  - eapply wf_vlines; eauto.
  - eapply wf_override_left; eauto.
  - eapply wf_override_above; eauto.
  - eapply wf_span; eauto.
Qed.
Theorem wf_built : forall t, built clean_call t -> wf t.
Proof. intros t B. induction B as [|t k t' B IH C H]; [exact wf_empty|]. eapply wf_call; eauto. Qed.
Lemma built_weaken : forall (p q : table -> call -> Prop) t, (forall t k, p t k -> q t k) -> built p t -> built q t.
Proof. intros p q t H B. induction B; [constructor|]. eapply b_call; eauto. Qed.

(** ** Every cell is shown by one cell without a parent *)
Lemma owner_ok : forall t y x c, wf t -> getc t y x = Some c -> exists p, base t c = Ok p /\ getc t (snd (owner c)) (fst (owner c)) = Some p /\ c_parent p = None /\ c_x p = fst (owner c) /\ c_y p = snd (owner c)
  /\ c_x p <= x < c_x p + c_sx p /\ c_y p <= y < c_y p + c_sy p.
Proof.
  intros t y x c [Sh L] H. destruct (L y x c H) as (X & Y & _ & _ & O). unfold owned, owner, base in *. destruct (c_parent c) as [[px py]|] eqn:P.
  - destruct O as (_ & _ & _ & p & P1 & P2 & P3 & P4). exists p. rewrite the_cell_getc. cbn [fst snd]. rewrite P1. destruct (L py px p P1) as (Xp & Yp & _). rewrite Xp, Yp. auto 8.
  - exists c. cbn [fst snd]. rewrite X, Y. repeat (split; auto); lia.
Qed.
Lemma owner_of : forall t py px p y x, wf t -> getc t py px = Some p -> c_parent p = None -> px <= x < px + c_sx p -> py <= y < py + c_sy p -> exists c, getc t y x = Some c /\ owner c = (px, py).
Proof.
  intros t py px p y x [Sh L] H P Hx Hy. destruct (L py px p H) as (X & Y & _ & _ & O). unfold owned in O. rewrite P in O. destruct O as (_ & _ & _ & _ & O).
  destruct (Nat.eq_dec y py) as [Ey|Ey]; [destruct (Nat.eq_dec x px) as [Ex|Ex]|].
  1:{ subst. exists p. split; auto. unfold owner. rewrite P. congruence. }
  all: destruct (O (y - py) (x - px)) as (c & C1 & C2); [lia|lia|intros Z; inversion Z; lia|]; replace (py + (y - py)) with y in C1 by lia; replace (px + (x - px)) with x in C1 by lia; exists c; split; auto; unfold owner; rewrite C2; reflexivity.
Qed.
(** A line that has reached the first column of a cell reaches the first column of the next. *)
Definition starts (t : table) (y x : nat) : Prop := forall c, getc t y x = Some c -> fst (owner c) = x.
Lemma starts_zero : forall t y, wf t -> starts t y 0.
Proof. intros t y W c H. destruct (owner_ok _ _ _ _ W H) as (p & _ & _ & _ & P1 & _ & P2 & _). lia. Qed.
Lemma starts_next : forall t y x c p, wf t -> getc t y x = Some c -> starts t y x -> base t c = Ok p -> starts t y (x + c_sx p).
Proof.
  intros t y x c p W H St B d D. destruct (owner_ok _ _ _ _ W H) as (p' & B' & Q1 & Q2 & Q3 & Q4 & Q5 & Q6). rewrite B in B'. inversion B'; subst p'. clear B'. pose proof (St c H) as Sx. rewrite Sx in *.
  destruct (owner_ok _ _ _ _ W D) as (q & _ & R1 & R2 & R3 & R4 & R5 & R6). destruct (le_lt_dec (x + c_sx p) (fst (owner d))) as [|Lt]; [lia|].
  destruct (owner_of t (snd (owner d)) (fst (owner d)) q y (x + c_sx p - 1) W R1 R2 ltac:(lia) ltac:(lia)) as (e & E1 & E2).
  destruct (owner_of t (snd (owner c)) x p y (x + c_sx p - 1) W Q1 Q2 ltac:(lia) ltac:(lia)) as (e' & E1' & E2'). assert (e' = e) by congruence. subst e'. rewrite E2 in E2'. inversion E2' as [[Z1 Z2]].
  rewrite Z1, Z2 in R1. assert (q = p) by congruence. subst q. lia.
Qed.
(** The same for the line above a row: cells that begin in this row are taken column by column. *)
Definition begins (t : table) (y x : nat) : Prop := forall c, getc t y x = Some c -> snd (owner c) <> y -> fst (owner c) = x.
Lemma begins_zero : forall t y, wf t -> begins t y 0.
Proof. intros t y W c H _. apply (starts_zero t y W c H). Qed.
Lemma begins_one : forall t y x c, wf t -> getc t y x = Some c -> snd (owner c) = y -> begins t y (S x).
Proof.
  intros t y x c W H O d D N. destruct (owner_ok _ _ _ _ W D) as (q & _ & R1 & R2 & R3 & R4 & R5 & R6). destruct (le_lt_dec (S x) (fst (owner d))) as [|Lt]; [lia|].
  destruct (owner_of t (snd (owner d)) (fst (owner d)) q y x W R1 R2 ltac:(lia) ltac:(lia)) as (e & E1 & E2). assert (e = c) by congruence. subst e. rewrite E2 in O. cbn [snd] in O. congruence.
Qed.
Lemma begins_next : forall t y x c p, wf t -> getc t y x = Some c -> begins t y x -> snd (owner c) <> y -> base t c = Ok p -> begins t y (x + c_sx p).
Proof.
  intros t y x c p W H St O B d D _. assert (St' : starts t y x). { intros c' H'. assert (c' = c) by congruence. subst c'. apply St; auto. } apply (starts_next t y x c p W H St' B d D).
Qed.
