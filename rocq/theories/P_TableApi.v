(** The calls that build a table, and tables of texts from the first call to the last printed line: C69. *)
From Coq Require Import List Ascii String NArith ZArith Bool Lia Arith.
From Verif Require Import M_Base M_StringUtil M_Eval M_Table S_Util S_Table S_TableApi L_Table L_TableWf L_TablePrint L_TablePicture L_TableApi L_TableGrid P_Table.
Import ListNotations.
Open Scope string_scope.
Open Scope list_scope.
Open Scope nat_scope.
Local Notation txt := list_ascii_of_string.
Local Notation "'A' s" := (CAdd (Some (txt s))) (at level 9).

(** ** C69: every call changes the table as its description says, and nothing else *)
(** Whatever calls are made: they can be executed if and only if the description allows them, and the table is the described one. *)
Theorem C69_calls : forall ks, proper_all new_sheet ks ->
  match exec_calls get_empty_table ks, does_all new_sheet ks with
  | Ok t, Some g => same g (view t)
  | Ok _, None | Ub, Some _ | Halt, Some _ => False
  | _, None => True
  end.
Proof. intros ks P. exact (calls_view ks get_empty_table new_sheet wf_empty empty_view P). Qed.
(** One call, on any table *)
Theorem C69_call : forall t k, built clean_call t -> proper (view t) k ->
  match exec_call t k, does (view t) k with
  | Ok t', Some g => same g (view t')
  | Ok _, None | Ub, Some _ | Halt, Some _ => False
  | _, None => True
  end.
Proof. intros t k B P. exact (call_view t k (wf_built t B) P). Qed.
(** A cell over two rows and two columns: the next texts are put beside it, in both rows. *)
Definition spanning : list call := [CSpan 2 2; A "title"; A "a"; CNextRow; A "b"; CHLine BSingle; CNextRow; A "c"; CVLine 1 BDouble; CAllVLines BSingle; CBoxed BDouble].
Example C69_spanning : proper_all new_sheet spanning /\
  match exec_calls get_empty_table spanning with
  | Ok t => num_rows t = 3 /\ t_cols t = 4 /\ p_text (seen (look t 0 0)) = Some (txt "title") /\ p_text (seen (look t 0 2)) = Some (txt "a") /\ p_text (seen (look t 1 2)) = Some (txt "b")
      /\ p_owner (seen (look t 1 1)) = Some (0, 0) /\ g_vline (view t) 0 = BDouble /\ g_vline (view t) 1 = BSingle /\ g_hline (view t) 1 = BSingle
  | _ => False
  end.
Proof.
  assert (T : forall s, forallb (fun c => negb (ceqb c ESC)) s && negb (match s with c :: _ => ceqb c LF | [] => false end) = true -> tidy_text s) by exact tidy_lined.
  split; [|vm_compute; repeat (split; [reflexivity|]); reflexivity].
  unfold spanning. cbn [proper_all proper].
  split. { split; [reflexivity|]. intros i j _ _ _. repeat (split; [reflexivity|]). reflexivity. }
  repeat first [exact Logic.I | (split; [first [exact Logic.I|apply T; reflexivity]|]) | match goal with |- match ?d with Some _ => _ | None => _ end => let v := eval hnf in d in change d with v; cbv beta iota end].
Qed.

(** ** A table of texts, from the first call to the last printed line *)
Lemma maximum_le : forall l n, (forall a, In a l -> a <= n) -> maximum l <= n.
Proof. unfold maximum. induction l as [|a l IH]; intros n H; cbn [fold_right]; [lia|]. pose proof (H a (or_introl eq_refl)). specialize (IH n (fun b I => H b (or_intror I))). lia. Qed.
Lemma maximum_ge : forall l a, In a l -> a <= maximum l.
Proof. unfold maximum. induction l as [|b l IH]; intros a []; cbn [fold_right]; [lia|]. specialize (IH a H). lia. Qed.
Lemma text_width_ok : forall c w, tidy_cell c -> get_text_width c = Ok w -> w = text_width c.
Proof.
  intros [s|] w T E; [|injection E as <-; reflexivity]. unfold tidy_cell in T. destruct (width_ok s T) as (w' & E' & U & l & I & L). rewrite E in E'. apply Ok_inj in E'. subst w'. unfold text_width. cbn [cell_lines]. apply Nat.le_antisymm.
  - rewrite L. apply maximum_ge. apply in_map_iff. eauto.
  - apply maximum_le. intros a Ia. apply in_map_iff in Ia. destruct Ia as (l' & <- & Il). auto.
Qed.
Lemma text_at_some : forall M y x s, text_at M y x = Some s -> y < List.length M /\ x < maximum (map (@List.length (option cstr)) M) /\ In s (nth y M []) /\ nth_error (nth y M []) x = Some s.
Proof.
  intros M y x s E. unfold text_at in E. destruct (nth_error M y) as [r|] eqn:Er; [|discriminate]. assert (y < List.length M) by (apply nth_error_Some; congruence). rewrite (nth_error_nth _ _ [] Er). split; auto. split.
  - apply Nat.lt_le_trans with (List.length r); [apply nth_error_Some; congruence|]. apply maximum_ge. apply in_map. eapply nth_error_In; eauto.
  - split; auto. eapply nth_error_In; eauto.
Qed.
Section grid.
Variable M : list (list (option cstr)).
Variable t : table.
Hypothesis W : wf t.
Hypothesis Rows : num_rows t = List.length M.
Hypothesis Cols : t_cols t = maximum (map (@List.length (option cstr)) M).
Hypothesis Spots : forall y x, seen (look t y x) = grid_spot M y x.
Hypothesis Few : Forall (fun r => List.length r <= TABLE_MAX_COLS) M.
Lemma grid_cell : forall y x c, getc t y x = Some c -> c_sx c = 1 /\ c_sy c = 1 /\ c_parent c = None /\ c_text c = match text_at M y x with Some s => s | None => None end /\
  c_set c = match text_at M y x with Some _ => true | None => false end /\ c_h c = None /\ c_v c = None /\ c_left c = None /\ c_above c = None.
Proof.
  intros y x c G. pose proof (Spots y x) as S. rewrite look_getc, G in S. unfold grid_spot, seen, write, new_spot in S. destruct (text_at M y x); injection S; intros; subst; auto 12.
Qed.
Lemma grid_places : forall y x c, In (y, x, c) (places t) <-> exists s, text_at M y x = Some s /\ getc t y x = Some c.
Proof.
  intros y x c. rewrite in_places. split.
  - intros (G & K & X). destruct (grid_cell _ _ _ G) as (_ & _ & P & T & S & _). unfold constrained in K. rewrite S in K. destruct (text_at M y x); eauto. discriminate K.
  - intros (s & E & G). destruct (grid_cell _ _ _ G) as (_ & _ & P & T & S & _). split; auto. split; [unfold constrained; rewrite S, P, E; reflexivity|]. rewrite Cols. eapply text_at_some; eauto.
Qed.
Lemma grid_measure : forall y x c s, text_at M y x = Some s -> getc t y x = Some c -> c_width c = text_width s /\ c_height c = List.length (cell_lines s).
Proof.
  intros y x c s E G. destruct (grid_cell _ _ _ G) as (_ & _ & _ & T & _). destruct W as [_ L]. destruct (L _ _ _ G) as (_ & _ & (T1 & T2 & T3 & _) & _). rewrite T, E in *. split; [apply text_width_ok; auto|]. rewrite T3. destruct s as [s|]; cbn [cell_lines]; [rewrite text_lines_height; auto|reflexivity].
Qed.
Lemma grid_getc : forall y x s, text_at M y x = Some s -> exists c, getc t y x = Some c.
Proof.
  intros y x s E. destruct (text_at_some _ _ _ _ E) as (Y & _ & _ & Xr). apply getc_some; [apply W|rewrite Rows; auto|]. assert (L : x < List.length (nth y M [])) by (apply nth_error_Some; congruence). rewrite Forall_forall in Few. specialize (Few (nth y M []) (nth_In _ _ Y)). lia.
Qed.
Lemma grid_dims : exists ws hs, get_dimensions t = Ok (ws, hs) /\ List.length ws = t_cols t /\ (forall x, x < t_cols t -> nth x ws 0 = column_width M x) /\ hs = map row_height M.
Proof.
  destruct (dims_exist t W) as (ws & hs & D). exists ws, hs. split; auto. destruct (dims_satisfied t ws hs D) as (Lw & Lh & _). split; auto. unfold get_dimensions in D. cbv zeta in D. match type of D with (if ?b then _ else _) = _ => destruct b eqn:B end; [|discriminate]. injection D. intros Eh Ew.
  set (kw := map (fun '(_, i, c) => width_constraint t i c) (places t)) in *. set (kh := map (fun '(y, _, c) => height_constraint t y c) (places t)) in *.
  apply andb_true_iff in B. destruct B as [Bw Bh]. rewrite forallb_forall in Bw, Bh. 
  assert (Kw : forall k, In k kw -> k_to k = S (k_from k) /\ k_to k <= t_cols t).
  { intros k I. split; [|apply Nat.leb_le; auto]. unfold kw in I. apply in_map_iff in I. destruct I as ([[y x] c] & <- & I). apply in_places in I. destruct (grid_cell _ _ _ (proj1 I)) as (S & _). cbn [k_to k_from width_constraint]. lia. }
  assert (Kh : forall k, In k kh -> k_to k = S (k_from k) /\ k_to k <= num_rows t).
  { intros k I. split; [|apply Nat.leb_le; auto]. unfold kh in I. apply in_map_iff in I. destruct I as ([[y x] c] & <- & I). apply in_places in I. destruct (grid_cell _ _ _ (proj1 I)) as (_ & S & _). cbn [k_to k_from height_constraint]. lia. }
  split.
  - intros x X. rewrite <- Ew, C50_least; auto. fold (maximum (map k_min (filter (fun k => k_from k =? x) kw))). apply Nat.le_antisymm.
    + apply maximum_le. intros a Ia. apply in_map_iff in Ia. destruct Ia as (k & <- & I). apply filter_In in I. destruct I as [I F]. apply Nat.eqb_eq in F. unfold kw in I. apply in_map_iff in I. destruct I as ([[y x'] c] & <- & I). cbn [k_from width_constraint] in F. subst x'.
      apply grid_places in I. destruct I as (s & E & G). rewrite k_min_width. destruct (grid_measure _ _ _ _ E G) as [-> _]. enough (text_width s <= column_width M x) by lia. apply maximum_ge. apply in_map_iff. exists (nth y M []). destruct (text_at_some _ _ _ _ E) as (Y & _ & _ & ->). split; auto. apply nth_In. auto.
    + apply maximum_le. intros a Ia. apply in_map_iff in Ia. destruct Ia as (r & <- & I). destruct (nth_error r x) as [s|] eqn:E; [|lia]. apply In_nth_error in I. destruct I as (y & I). assert (E' : text_at M y x = Some s) by (unfold text_at; rewrite I; auto). destruct (grid_getc _ _ _ E') as (c & G). destruct (grid_cell _ _ _ G) as (S & _).
      apply maximum_ge. apply in_map_iff. exists (width_constraint t x c). split; [rewrite k_min_width, how_many_none by lia; destruct (grid_measure _ _ _ _ E' G); lia|]. apply filter_In. split; [|cbn; apply Nat.eqb_refl]. unfold kw. apply in_map_iff. exists (y, x, c). split; auto. apply grid_places. eauto.
  - apply nth_ext with 0 (row_height []); [rewrite map_length; lia|]. intros y Y. rewrite map_nth. rewrite <- Eh, C50_least by (auto; lia). fold (maximum (map k_min (filter (fun k => k_from k =? y) kh))). rewrite Lh, Rows in Y. apply Nat.le_antisymm.
    + apply maximum_le. intros a Ia. apply in_map_iff in Ia. destruct Ia as (k & <- & I). apply filter_In in I. destruct I as [I F]. apply Nat.eqb_eq in F. pose proof (Kh _ I) as [K1 K2]. unfold kh in I. apply in_map_iff in I. destruct I as ([[y' x] c] & <- & I). cbn [k_from k_to height_constraint] in F, K1, K2. subst y'.
      apply grid_places in I. destruct I as (s & E & G). rewrite k_min_height by auto. destruct (grid_measure _ _ _ _ E G) as [_ ->]. enough (List.length (cell_lines s) <= row_height (nth y M [])) by lia. apply maximum_ge. apply in_map_iff. exists s. split; auto. eapply text_at_some; eauto.
    + apply maximum_le. intros a Ia. apply in_map_iff in Ia. destruct Ia as (s & <- & I). apply In_nth_error in I. destruct I as (x & I). assert (E' : text_at M y x = Some s) by (unfold text_at; rewrite (nth_error_nth' M [] Y); auto). destruct (grid_getc _ _ _ E') as (c & G). destruct (grid_cell _ _ _ G) as (_ & S & _).
      apply maximum_ge. apply in_map_iff. exists (height_constraint t y c). split; [rewrite k_min_height, how_many_none by lia; destruct (grid_measure _ _ _ _ E' G); lia|]. apply filter_In. split; [|cbn; apply Nat.eqb_refl]. unfold kh. apply in_map_iff. exists (y, x, c). split; auto. apply grid_places. eauto.
Qed.
End grid.
Lemma flat_map_rows : forall (X : Type) (f : nat -> list X) (g : list (option cstr) -> list X) M, (forall y r, nth_error M y = Some r -> f y = g r) -> flat_map f (List.seq 0 (List.length M)) = flat_map g M.
Proof.
  intros X f g M. revert f. induction M as [|r M IH]; intros f H; cbn [List.length List.seq flat_map]; auto. rewrite (H 0 r eq_refl). f_equal. rewrite <- seq_shift. rewrite <- (IH (fun y => f (S y))); [|intros y r' E; apply (H (S y)); exact E].
  rewrite !flat_map_concat_map, map_map. reflexivity.
Qed.
Lemma flat_map_same : forall (X Y : Type) (f g : X -> list Y) l, (forall a, In a l -> f a = g a) -> flat_map f l = flat_map g l.
Proof. intros X Y f g. induction l as [|a l IH]; intros H; cbn; auto. rewrite (H a) by (left; auto). rewrite IH; auto. intros; apply H; right; auto. Qed.
Lemma nothing_drawn : forall (X : Type) (p : X -> bool) l, (forall a, In a l -> p a = false) -> List.length (filter p l) = 0.
Proof. intros X p. induction l as [|a l IH]; intros H; cbn; auto. rewrite (H a) by (left; auto). apply IH. intros; apply H; right; auto. Qed.
(** For all texts: rows of texts and empty cells, added row by row, are printed as such rows. Every column is as wide as its widest
    text, every row as high as its highest; texts stand in their columns as the alignments say (left if nothing is said). *)
Theorem C69_grid : forall (M : list (list (option cstr))) (hs : list halign),
  (forall r, In r M -> List.length r <= TABLE_MAX_COLS /\ forall c, In c r -> tidy_cell c) -> (exists r, In r M /\ r <> []) -> List.length hs <= TABLE_MAX_COLS ->
  fold_right Nat.add 0 (map row_height M) + List.length M < Nat.pow 2 31 ->
  exists t t' out, exec_calls get_empty_table (grid_calls M ++ alignment_call hs) = Ok t /\ fprint_table t = Done (Ok (t', out)) /\ map glyphs out = grid_picture hs M.
Proof.
  intros M hs0 F (r0 & I0 & N0) Lhs Sm. assert (Fw : Forall (fun r => List.length r <= TABLE_MAX_COLS) M) by (apply Forall_forall; intros r I; apply (F r I)). assert (Ft : Forall (Forall tidy_cell) M) by (apply Forall_forall; intros r I; apply Forall_forall; apply (F r I)).
  assert (NM : M <> []) by (intros ->; destruct I0). destruct (grid_table M hs0 NM Fw Ft Lhs) as (t & E & Rows & Cols & Spots & Hl & Vl & Ah & Av).
  assert (B : built (fun t k => clean_call t k /\ no_span k) t).
  { eapply built_calls; [constructor| |exact E]. intros t0 k I. apply in_app_or in I. destruct I as [I|I]; [|unfold alignment_call in I; destruct hs0; [destruct I|destruct I as [<-|[]]; split; exact Logic.I]]. assert (K : k = CNextRow \/ exists r s, In r M /\ In s r /\ k = CAdd s).
    { clear - I. induction M as [|r M IH]; [destruct I|]. assert (R : In k (row_calls r) -> exists r' s, In r' (r :: M) /\ In s r' /\ k = CAdd s) by (intros J; apply in_map_iff in J; destruct J as (s & <- & J); exists r, s; split; [left; auto|auto]).
      destruct M as [|r' M]; [right; auto|]. change (grid_calls (r :: r' :: M)) with (row_calls r ++ CNextRow :: grid_calls (r' :: M)) in I. apply in_app_or in I. destruct I as [I|[I|I]]; [right; auto|auto|]. destruct (IH I) as [->|(q & s & Q1 & Q2 & Q3)]; auto. right. exists q, s. split; auto. right. auto. }
    destruct K as [->|(r & s & Ir & Is & ->)]; split; try exact Logic.I. apply (F r Ir) in Is. destruct s; exact Is. }
  pose proof (wf_built t (built_weaken _ _ t (fun t k H => proj1 H) B)) as W. destruct (grid_dims M t W Rows Cols Spots Fw) as (ws & hs & D & Lw & Ew & Eh).
  assert (C : 0 < t_cols t). { rewrite Cols. apply Nat.lt_le_trans with (List.length r0); [destruct r0; [congruence|cbn; lia]|]. apply maximum_ge. apply in_map. exact I0. }
  assert (Th : total hs 0 (num_rows t) = fold_right Nat.add 0 (map row_height M)).
  { unfold total. rewrite Nat.sub_0_r, Rows, Eh. f_equal. apply nth_ext with 0 0; [rewrite !map_length, seq_length; reflexivity|]. intros y Y. rewrite map_length, seq_length in Y. rewrite (nth_indep _ 0 (nth 0 (map row_height M) 0)) by (rewrite map_length, seq_length; auto). rewrite (map_nth (fun j => nth j (map row_height M) 0)). rewrite seq_nth by auto. reflexivity. }
  assert (Sm' : total hs 0 (num_rows t) + num_rows t < Nat.pow 2 31) by (rewrite Th, Rows; exact Sm).
  destruct (C66_no_span t ws hs B C D Sm') as (t' & out & P & (T1 & T2 & T3 & T4 & T5 & T6 & T7) & Q & V & H).
  exists t, t', out. split; auto. split; auto. rewrite Q.
  assert (Cell : forall y x, y < num_rows t -> x < TABLE_MAX_COLS -> exists c, getc t' y x = Some c /\ c_text c = match text_at M y x with Some s => s | None => None end /\ c_h c = None /\ c_v c = None /\ c_sx c = 1 /\ c_sy c = 1 /\ c_parent c = None /\ c_x c = x /\ c_y c = y /\ drawn (setting (c_left c) BNone) = false /\ drawn (setting (c_above c) BNone) = false).
  { intros y x Y X. destruct (getc_some t y x (proj1 W) Y X) as (c & G). destruct (T7 y x c) as (c' & G' & R1 & R2 & R3 & R4 & R5 & R6 & R7 & R8 & R9 & R10); [apply cell_at_getc; auto|]. apply cell_at_getc in G'. destruct (grid_cell M t Spots _ _ _ G) as (S1 & S2 & S3 & S4 & _ & S5 & S6 & S7 & S8). destruct W as [_ L]. destruct (L _ _ _ G) as (L1 & L2 & _).
    exists c'. repeat (split; [congruence|]). rewrite R9, R10, S7, S8. split; [destruct ((nth (num_rows t - 1) hs 0 =? 0) && (S y =? num_rows t) && (x <? t_cols t)); reflexivity|destruct ((nth (t_cols t - 1) ws 0 =? 0) && (S x =? t_cols t)); reflexivity]. }
  assert (W' : wf t').
  { pose proof (built_single t B) as Si. destruct (fprint_picture t ws hs W C D Sm') as (t2 & E2 & K). destruct K as (out2 & O1 & _). { intros y x c G Pa S. destruct (Si y x c G) as [S1 _]. lia. } { intros y x c G Pa S. destruct (Si y x c G) as (_ & S1 & _). lia. }
    rewrite P in O1. injection O1. intros _ Et. destruct (superfluous t (nth (t_cols t - 1) ws 0) (nth (num_rows t - 1) hs 0) W C) as (t3 & E3 & R). rewrite E2 in E3. apply Ok_inj in E3. subst t3 t2. apply R. }
  assert (Nv : forall x, has_vline t' x = false).
  { intros x. destruct (le_lt_dec TABLE_MAX_COLS x) as [X|X]; [unfold has_vline; rewrite (proj2 (nth_error_None (t_counts t') x)) by (rewrite (sh_counts t' (proj1 W')); exact X); reflexivity|]. rewrite V by auto. apply Nat.ltb_ge. unfold column_lines. rewrite T3, Vl. cbn [drawn].
    rewrite nothing_drawn; [lia|]. intros r I. apply In_nth_error in I. destruct I as (y & I). unfold left_drawn. assert (Y : y < num_rows t) by (rewrite <- T2; apply nth_error_Some; congruence). destruct (Cell y x Y X) as (c & G & R). unfold getc in G. rewrite I in G. rewrite G. apply R. }
  assert (Nh : forall y, has_hline t' y = false).
  { intros y. destruct (nth_error (t_rows t') y) as [r|] eqn:I; [|unfold has_hline; rewrite I; reflexivity]. rewrite (H y r I). apply Nat.ltb_ge. unfold row_lines. assert (Y : y < num_rows t) by (rewrite <- T2; apply nth_error_Some; congruence).
    assert (A0 : r_above r = BNone). { apply (f_equal (fun l => nth_error l y)) in T6. rewrite !nth_error_map, I in T6. specialize (Hl y). unfold row_line in Hl. destruct (nth_error (t_rows t) y); cbn [option_map] in T6; [|discriminate]. congruence. } rewrite A0. cbn [drawn].
    rewrite nothing_drawn; [lia|]. intros c Ic. apply In_nth_error in Ic. destruct Ic as (x & Ic). assert (X : x < TABLE_MAX_COLS). { pose proof (sh_rows t' (proj1 W')) as Fr. rewrite Forall_forall in Fr. rewrite <- (Fr r (nth_error_In _ _ I)). apply nth_error_Some. congruence. } destruct (Cell y x Y X) as (c' & G & R). unfold getc in G. rewrite I, Ic in G. injection G. intros ->. apply R. }
  unfold picture, grid_picture. rewrite T2, Rows. apply flat_map_rows. intros y r Er. rewrite Nh. cbn [app]. assert (Y : y < List.length M) by (apply nth_error_Some; congruence). rewrite Eh. rewrite (nth_indep _ 0 (row_height [])) by (rewrite map_length; auto). rewrite map_nth, (nth_error_nth _ _ [] Er). apply map_ext. intros k. rewrite T1, Cols. apply flat_map_same. intros x X. apply in_seq in X. rewrite <- Cols in X.
  destruct (Cell y x) as (c & G & C1 & C2 & C3 & C4 & C5 & C6 & C7 & C8 & _); [lia|pose proof (sh_cols t (proj1 W)); lia|]. unfold content_piece. rewrite look_getc, G. unfold owner. rewrite C6, C7, C8, Nat.eqb_refl, Nv. cbn [app]. rewrite look_getc, G. unfold field. rewrite C1, C2, C3, C4, C7, T4, T5, Ah, Av. cbn [setting]. f_equal. f_equal.
  - rewrite how_many_none by lia. rewrite total_step by lia. rewrite total_none by lia. rewrite Ew by lia. lia.
  - unfold line_of. cbn [Nat.ltb Nat.leb]. unfold printed_before. rewrite total_none, how_many_none by lia. rewrite Nat.sub_0_r. cbn [Nat.add]. unfold text_at. rewrite Er. destruct (nth_error r x); [reflexivity|]. destruct k; reflexivity.
Qed.
Definition some_texts : list (list (option cstr)) :=
  [[None; Some (txt "name"); Some (txt "value")]; [Some (txt "x" ++ [LF] ++ txt "longer"); Some (txt "1"); Some (txt "2"); Some (txt "!")]; []; [Some (txt "end")]].
Definition shown (l : list glyph) : string := string_of_list_ascii (map (fun g => match g with Char c => c | Line _ _ => "#"%char end) l).
Example C69_some_texts : (forall r, In r some_texts -> List.length r <= TABLE_MAX_COLS /\ forall c, In c r -> tidy_cell c) /\ (exists r, In r some_texts /\ r <> []) /\
  fold_right Nat.add 0 (map row_height some_texts) + List.length some_texts = 8 /\
  map shown (grid_picture [] some_texts) = ["      namevalue "; "x     1   2    !"; "longer          "; "end             "] /\
  map shown (grid_picture [HRight; HCenter] some_texts) = ["      namevalue "; "     x 1  2    !"; "longer          "; "   end          "].
Proof.
  split; [|split; [exists [Some (txt "end")]; split; [do 3 right; left; reflexivity|discriminate]|split; [reflexivity|split; reflexivity]]].
  assert (K : forallb (fun r => (List.length r <=? TABLE_MAX_COLS) && forallb (fun c => match c with Some s => forallb (fun c => negb (ceqb c ESC)) s && negb (match s with c :: _ => ceqb c LF | [] => false end) | None => true end) r) some_texts = true) by reflexivity.
  rewrite forallb_forall in K. intros r I. specialize (K r I). apply andb_true_iff in K. destruct K as [K1 K2]. split; [apply Nat.leb_le; exact K1|]. rewrite forallb_forall in K2. intros [s|] Is; [|exact Logic.I]. apply tidy_lined. apply (K2 _ Is).
Qed.

Print Assumptions C69_calls.
Print Assumptions C69_call.
Print Assumptions C69_grid.
