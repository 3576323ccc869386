(** Tables without lines and spanning cells, from the first call to the last printed line (C69). *)
From Coq Require Import List Ascii String NArith ZArith Bool Lia Arith.
From Verif Require Import M_Base M_StringUtil M_Eval M_Table S_Util S_Table S_TableApi S_Plain L_Table L_TableWf L_TablePrint L_TablePicture L_TableApi L_TableGrid P_Table P_TableApi.
Import ListNotations.
Open Scope string_scope.
Open Scope list_scope.
Open Scope nat_scope.
Local Notation txt := list_ascii_of_string.

(** ** Plain calls make plain sheets *)
Definition simple (g : sheet) : Prop :=
  (forall y, g_hline g y = BNone) /\ (forall x, g_vline g x = BNone) /\
  forall y x, let p := g_spot g y x in p_owner p = None /\ p_sx p = 1 /\ p_sy p = 1 /\ p_left p = None /\ p_above p = None /\
    (p_used p = false -> p_text p = None) /\ (p_used p = true -> y < g_rows g /\ x < g_cols g).
Lemma simple_new : simple new_sheet.
Proof. split; [reflexivity|]. split; [reflexivity|]. intros y x. cbn. repeat (split; [reflexivity|]). discriminate. Qed.
Lemma simple_spots : forall g f, simple g -> (forall y x p, p_owner (f y x p) = p_owner p /\ p_sx (f y x p) = p_sx p /\ p_sy (f y x p) = p_sy p /\ p_left (f y x p) = p_left p /\ p_above (f y x p) = p_above p /\ p_used (f y x p) = p_used p /\ p_text (f y x p) = p_text p) -> simple (spots f g).
Proof.
  intros g f (A & B & C) F. split; [exact A|]. split; [exact B|]. intros y x. cbn [g_spot spots g_rows g_cols]. cbv zeta. destruct (F y x (g_spot g y x)) as (-> & -> & -> & -> & -> & -> & ->). apply C.
Qed.
Lemma simple_call : forall g k g', simple g -> plain k -> g_y g < g_rows g -> does g k = Some g' -> simple g' /\ g_y g' < g_rows g'.
Proof.
  intros g k g' S P Y E. pose proof S as (A & B & C).
  assert (G : forall h i j, simple h -> simple (goto i j h) /\ g_y (goto i j h) < g_rows (goto i j h)).
  { intros h i j (A' & B' & C'). split; [|cbn [goto g_y g_rows]; lia]. split; [exact A'|]. split; [exact B'|]. intros y x. cbn [goto g_spot g_rows g_cols]. cbv zeta. destruct (C' y x) as (? & ? & ? & ? & ? & ? & U). repeat (split; [assumption|]). intros H'. destruct (U H'). lia. }
  destruct k; cbn [plain] in P; try (destruct P; fail); cbn [does] in E; unfold if_ in E; try (match type of E with (if ?b then _ else _) = _ => destruct b eqn:Eb; [|discriminate E] end); injection E as <-.
  - apply G. exact S.
  - apply G. exact S.
  - apply G. split; [exact A|]. split; [exact B|]. intros y x. cbn [goto wide here spots g_spot g_rows g_cols]. cbv zeta. specialize (C y x). cbv zeta in C. destruct C as (C1 & C2 & C3 & C4 & C5 & C6 & C7).
    destruct (Nat.eqb_spec y (g_y g)) as [->|Ny]; [destruct (Nat.eqb_spec x (g_x g)) as [->|Nx]|]; cbn [andb write p_owner p_sx p_sy p_left p_above p_used p_text]; (split; [assumption|]; split; [assumption|]; split; [assumption|]; split; [assumption|]; split; [assumption|]; split; [try assumption; discriminate|]; intros U; try (destruct (C7 U)); lia).
  - split; [|exact Y]. split; [exact A|]. split; [exact B|exact C].
  - split; [|exact Y]. apply simple_spots; auto. intros y x p. destruct (_ && _); cbn; auto 10.
  - split; [|exact Y]. apply simple_spots; auto. intros y x p. destruct (_ && _); cbn; auto 10.
  - split; [|exact Y]. apply simple_spots; auto. intros y x p. destruct (_ && _); cbn; auto 10.
  - split; [|exact Y]. apply simple_spots; auto. intros y x p. destruct (_ && _); cbn; auto 10.
Qed.
Lemma simple_calls : forall ks g g', simple g -> g_y g < g_rows g -> Forall plain ks -> does_all g ks = Some g' -> simple g'.
Proof.
  induction ks as [|k ks IH]; intros g g' S Y F E; cbn [does_all] in E; [injection E as <-; exact S|]. inversion F; subst. destruct (does g k) as [h|] eqn:Eh; [|discriminate E].
  destruct (simple_call g k h S H1 Y Eh) as [Sh Yh]. exact (IH h g' Sh Yh H2 E).
Qed.
Lemma plain_proper : forall ks g, Forall plain ks -> proper_all g ks.
Proof.
  induction ks as [|k ks IH]; intros g F; [exact Logic.I|]. inversion F as [|? ? P F']; subst. cbn [proper_all]. split; [destruct k; cbn [plain proper] in *; auto; destruct P|]. destruct (does g k); auto.
Qed.

(** ** Widths and heights *)
Section sheet.
Variable g : sheet.
Variable t : table.
Hypothesis W : wf t.
Hypothesis Vw : same g (view t).
Hypothesis Sg : simple g.
Lemma s_rows : num_rows t = g_rows g. Proof. apply (view_eqs _ _ Vw). Qed.
Lemma s_cols : t_cols t = g_cols g. Proof. apply (view_eqs _ _ Vw). Qed.
Lemma s_cell : forall y x c, getc t y x = Some c -> c_sx c = 1 /\ c_sy c = 1 /\ c_parent c = None /\ c_text c = p_text (g_spot g y x) /\
  c_set c = p_used (g_spot g y x) /\ c_h c = p_h (g_spot g y x) /\ c_v c = p_v (g_spot g y x) /\ c_left c = None /\ c_above c = None.
Proof.
  intros y x c G. destruct (view_eqs _ _ Vw) as (_ & _ & _ & _ & Sp & _). pose proof (Sp y x) as E. rewrite L_TableApi.look_getc, G in E. destruct Sg as (_ & _ & C). destruct (C y x) as (C1 & C2 & C3 & C4 & C5 & _). rewrite <- E in *. cbn [seen p_owner p_sx p_sy p_left p_above p_text p_used p_h p_v] in *. auto 12.
Qed.
Lemma s_getc : forall y x, y < g_rows g -> x < g_cols g -> exists c, getc t y x = Some c.
Proof. intros y x Y X. apply getc_some; [apply W|rewrite s_rows; exact Y|]. pose proof (sh_cols t (proj1 W)) as L. rewrite s_cols in L. lia. Qed.
Lemma s_place : forall y x c, In (y, x, c) (places t) -> y < g_rows g /\ x < g_cols g /\ getc t y x = Some c.
Proof.
  intros y x c I. apply in_places in I. destruct I as (G & K & X). destruct (s_cell _ _ _ G) as (_ & _ & _ & _ & Se & _). unfold constrained in K. apply andb_true_iff in K. destruct K as [K _]. rewrite Se in K. destruct Sg as (_ & _ & C). destruct (C y x) as (_ & _ & _ & _ & _ & _ & U). destruct (U K). auto.
Qed.
Lemma s_measure : forall y x c, getc t y x = Some c -> c_width c = text_width (p_text (g_spot g y x)) /\ c_height c = List.length (cell_lines (p_text (g_spot g y x))).
Proof.
  intros y x c G. destruct (s_cell _ _ _ G) as (_ & _ & _ & T & _). destruct W as [_ L]. destruct (L _ _ _ G) as (_ & _ & (T1 & T2 & T3 & _) & _). rewrite T in *. split; [apply text_width_ok; auto|]. rewrite T3. destruct (p_text (g_spot g y x)) as [s|]; cbn [cell_lines]; [rewrite text_lines_height; auto|reflexivity].
Qed.
Lemma s_unset : forall y x, p_used (g_spot g y x) = false -> text_width (p_text (g_spot g y x)) = 0 /\ List.length (cell_lines (p_text (g_spot g y x))) = 0.
Proof. intros y x U. destruct Sg as (_ & _ & C). destruct (C y x) as (_ & _ & _ & _ & _ & N & _). rewrite (N U). split; reflexivity. Qed.
Lemma sheet_dims : exists ws hs, get_dimensions t = Ok (ws, hs) /\ List.length ws = t_cols t /\ List.length hs = num_rows t /\ (forall x, x < t_cols t -> nth x ws 0 = sheet_width g x) /\ (forall y, y < num_rows t -> nth y hs 0 = sheet_height g y).
Proof.
  destruct (dims_exist t W) as (ws & hs & D). exists ws, hs. split; auto. destruct (dims_satisfied t ws hs D) as (Lw & Lh & _). split; auto. split; auto. unfold get_dimensions in D. cbv zeta in D. match type of D with (if ?b then _ else _) = _ => destruct b eqn:B end; [|discriminate]. injection D. intros Eh Ew.
  set (kw := map (fun '(_, i, c) => width_constraint t i c) (places t)) in *. set (kh := map (fun '(y, _, c) => height_constraint t y c) (places t)) in *.
  apply andb_true_iff in B. destruct B as [Bw Bh]. rewrite forallb_forall in Bw, Bh. 
  assert (Kw : forall k, In k kw -> k_to k = S (k_from k) /\ k_to k <= t_cols t).
  { intros k I. split; [|apply Nat.leb_le; auto]. unfold kw in I. apply in_map_iff in I. destruct I as ([[y x] c] & <- & I). apply in_places in I. destruct (s_cell _ _ _ (proj1 I)) as (S & _). cbn [k_to k_from width_constraint]. lia. }
  assert (Kh : forall k, In k kh -> k_to k = S (k_from k) /\ k_to k <= num_rows t).
  { intros k I. split; [|apply Nat.leb_le; auto]. unfold kh in I. apply in_map_iff in I. destruct I as ([[y x] c] & <- & I). apply in_places in I. destruct (s_cell _ _ _ (proj1 I)) as (_ & S & _). cbn [k_to k_from height_constraint]. lia. }
  assert (Pl : forall y x c, getc t y x = Some c -> x < g_cols g -> p_used (g_spot g y x) = true -> In (y, x, c) (places t)).
  { intros y x c G X U. apply in_places. split; auto. split; [|rewrite s_cols; exact X]. destruct (s_cell _ _ _ G) as (_ & _ & Pa & _ & Se & _). unfold constrained. rewrite Se, U, Pa. reflexivity. }
  split.
  - intros x X. rewrite <- Ew, C50_least; auto. fold (maximum (map k_min (filter (fun k => k_from k =? x) kw))). rewrite s_cols in X. apply Nat.le_antisymm.
    + apply maximum_le. intros a Ia. apply in_map_iff in Ia. destruct Ia as (k & <- & I). apply filter_In in I. destruct I as [I F]. apply Nat.eqb_eq in F. unfold kw in I. apply in_map_iff in I. destruct I as ([[y x'] c] & <- & I). cbn [k_from width_constraint] in F. subst x'.
      destruct (s_place _ _ _ I) as (Y & _ & G). rewrite k_min_width. destruct (s_measure _ _ _ G) as [-> _]. enough (text_width (p_text (g_spot g y x)) <= sheet_width g x) by lia. apply maximum_ge. apply in_map_iff. exists y. split; auto. apply in_seq. lia.
    + apply maximum_le. intros a Ia. apply in_map_iff in Ia. destruct Ia as (y & <- & I). apply in_seq in I. destruct (p_used (g_spot g y x)) eqn:U; [|destruct (s_unset _ _ U); lia]. destruct (s_getc y x) as (c & G); [lia|exact X|]. destruct (s_cell _ _ _ G) as (S & _).
      apply maximum_ge. apply in_map_iff. exists (width_constraint t x c). split; [rewrite k_min_width, how_many_none by lia; destruct (s_measure _ _ _ G); lia|]. apply filter_In. split; [|cbn; apply Nat.eqb_refl]. unfold kw. apply in_map_iff. exists (y, x, c). split; auto.
  - intros y Y. rewrite <- Eh, C50_least by auto. fold (maximum (map k_min (filter (fun k => k_from k =? y) kh))). pose proof Y as Y'. rewrite s_rows in Y. apply Nat.le_antisymm.
    + apply maximum_le. intros a Ia. apply in_map_iff in Ia. destruct Ia as (k & <- & I). apply filter_In in I. destruct I as [I F]. apply Nat.eqb_eq in F. pose proof (Kh _ I) as [K1 K2]. unfold kh in I. apply in_map_iff in I. destruct I as ([[y' x] c] & <- & I). cbn [k_from k_to height_constraint] in F, K1, K2. subst y'.
      destruct (s_place _ _ _ I) as (_ & X & G). rewrite k_min_height by auto. destruct (s_measure _ _ _ G) as [_ ->]. enough (List.length (cell_lines (p_text (g_spot g y x))) <= sheet_height g y) by lia. apply maximum_ge. apply in_map_iff. exists x. split; auto. apply in_seq. lia.
    + apply maximum_le. intros a Ia. apply in_map_iff in Ia. destruct Ia as (x & <- & I). apply in_seq in I. destruct (p_used (g_spot g y x)) eqn:U; [|destruct (s_unset _ _ U); lia]. destruct (s_getc y x) as (c & G); [exact Y|lia|]. destruct (s_cell _ _ _ G) as (_ & S & _).
      apply maximum_ge. apply in_map_iff. exists (height_constraint t y c). split; [rewrite k_min_height, how_many_none by lia; destruct (s_measure _ _ _ G); lia|]. apply filter_In. split; [|cbn; apply Nat.eqb_refl]. unfold kh. apply in_map_iff. exists (y, x, c). split; auto. apply Pl; auto. lia.
Qed.
End sheet.

(** ** C69: whatever plain calls are made, what is printed is the picture of the described sheet *)
Theorem C69_plain : forall ks g, Forall plain ks -> does_all new_sheet ks = Some g -> 0 < g_cols g -> fold_right Nat.add 0 (map (sheet_height g) (List.seq 0 (g_rows g))) + g_rows g < Nat.pow 2 31 ->
  exists t t' out, exec_calls get_empty_table ks = Ok t /\ fprint_table t = Done (Ok (t', out)) /\ map glyphs out = sheet_picture g.
Proof.
  intros ks g F E C0 Sm. pose proof (simple_calls ks new_sheet g simple_new (le_n 1) F E) as Sg. pose proof (calls_view ks get_empty_table new_sheet wf_empty empty_view (plain_proper ks new_sheet F)) as Vw. rewrite E in Vw.
  destruct (exec_calls get_empty_table ks) as [t| |] eqn:Ex; [|destruct Vw|destruct Vw].
  assert (B : built (fun t k => clean_call t k /\ no_span k) t).
  { eapply built_calls; [constructor| |exact Ex]. intros t0 k I. rewrite Forall_forall in F. specialize (F k I). destruct k; cbn [plain] in F; try (destruct F; fail); split; try exact Logic.I. destruct text; [exact F|exact Logic.I]. }
  pose proof (wf_built t (built_weaken _ _ t (fun t k H => proj1 H) B)) as W. destruct (sheet_dims g t W Vw Sg) as (ws & hs & D & Lw & Lh & Ew & Eh). pose proof (s_rows g t Vw) as Rows. pose proof (s_cols g t Vw) as Cols.
  destruct (view_eqs _ _ Vw) as (_ & _ & _ & _ & _ & Hl & Vl & Ah & Av). destruct Sg as (Nhl & Nvl & Sp). pose proof (conj Nhl (conj Nvl Sp)) as Sg.
  assert (C : 0 < t_cols t) by (rewrite Cols; exact C0).
  assert (Th : total hs 0 (num_rows t) = fold_right Nat.add 0 (map (sheet_height g) (List.seq 0 (g_rows g)))).
  { unfold total. rewrite Nat.sub_0_r, Rows. f_equal. apply map_ext_in. intros y I. apply in_seq in I. apply Eh. lia. }
  assert (Sm' : total hs 0 (num_rows t) + num_rows t < Nat.pow 2 31) by (rewrite Th, Rows; exact Sm).
  destruct (C66_no_span t ws hs B C D Sm') as (t' & out & P & (T1 & T2 & T3 & T4 & T5 & T6 & T7) & Q & V & H).
  exists t, t', out. split; auto. split; auto. rewrite Q.
  assert (Cell : forall y x, y < num_rows t -> x < TABLE_MAX_COLS -> exists c, getc t' y x = Some c /\ c_text c = p_text (g_spot g y x) /\ c_h c = p_h (g_spot g y x) /\ c_v c = p_v (g_spot g y x) /\ c_sx c = 1 /\ c_sy c = 1 /\ c_parent c = None /\ c_x c = x /\ c_y c = y /\ drawn (setting (c_left c) BNone) = false /\ drawn (setting (c_above c) BNone) = false).
  { intros y x Y X. destruct (getc_some t y x (proj1 W) Y X) as (c & G). destruct (T7 y x c) as (c' & G' & R1 & R2 & R3 & R4 & R5 & R6 & R7 & R8 & R9 & R10); [apply cell_at_getc; auto|]. apply cell_at_getc in G'. destruct (s_cell g t Vw Sg _ _ _ G) as (S1 & S2 & S3 & S4 & _ & S5 & S6 & S7 & S8). destruct W as [_ L]. destruct (L _ _ _ G) as (L1 & L2 & _).
    exists c'. repeat (split; [congruence|]). rewrite R9, R10, S7, S8. split; [destruct ((nth (num_rows t - 1) hs 0 =? 0) && (S y =? num_rows t) && (x <? t_cols t)); reflexivity|destruct ((nth (t_cols t - 1) ws 0 =? 0) && (S x =? t_cols t)); reflexivity]. }
  assert (W' : wf t').
  { pose proof (built_single t B) as Si. destruct (fprint_picture t ws hs W C D Sm') as (t2 & E2 & K). destruct K as (out2 & O1 & _). { intros y x c G Pa S. destruct (Si y x c G) as [S1 _]. lia. } { intros y x c G Pa S. destruct (Si y x c G) as (_ & S1 & _). lia. }
    rewrite P in O1. injection O1. intros _ Et. destruct (superfluous t (nth (t_cols t - 1) ws 0) (nth (num_rows t - 1) hs 0) W C) as (t3 & E3 & R). rewrite E2 in E3. apply Ok_inj in E3. subst t3 t2. apply R. }
  assert (Nv : forall x, has_vline t' x = false).
  { intros x. destruct (le_lt_dec TABLE_MAX_COLS x) as [X|X]; [unfold has_vline; rewrite (proj2 (nth_error_None (t_counts t') x)) by (rewrite (sh_counts t' (proj1 W')); exact X); reflexivity|]. rewrite V by auto. apply Nat.ltb_ge. unfold column_lines. rewrite T3, Vl, Nvl. cbn [drawn].
    rewrite nothing_drawn; [lia|]. intros r I. apply In_nth_error in I. destruct I as (y & I). unfold left_drawn. assert (Y : y < num_rows t) by (rewrite <- T2; apply nth_error_Some; congruence). destruct (Cell y x Y X) as (c & G & R). unfold getc in G. rewrite I in G. rewrite G. apply R. }
  assert (Nh : forall y, has_hline t' y = false).
  { intros y. destruct (nth_error (t_rows t') y) as [r|] eqn:I; [|unfold has_hline; rewrite I; reflexivity]. rewrite (H y r I). apply Nat.ltb_ge. unfold row_lines. assert (Y : y < num_rows t) by (rewrite <- T2; apply nth_error_Some; congruence).
    assert (A0 : r_above r = BNone). { apply (f_equal (fun l => nth_error l y)) in T6. rewrite !nth_error_map, I in T6. specialize (Hl y). rewrite Nhl in Hl. unfold row_line in Hl. destruct (nth_error (t_rows t) y); cbn [option_map] in T6; [|discriminate]. congruence. } rewrite A0. cbn [drawn].
    rewrite nothing_drawn; [lia|]. intros c Ic. apply In_nth_error in Ic. destruct Ic as (x & Ic). assert (X : x < TABLE_MAX_COLS). { pose proof (sh_rows t' (proj1 W')) as Fr. rewrite Forall_forall in Fr. rewrite <- (Fr r (nth_error_In _ _ I)). apply nth_error_Some. congruence. } destruct (Cell y x Y X) as (c' & G & R). unfold getc in G. rewrite I, Ic in G. injection G. intros ->. apply R. }
  unfold picture, sheet_picture. rewrite T2, Rows. apply flat_map_same. intros y Iy. apply in_seq in Iy. rewrite Nh. cbn [app]. rewrite Eh by lia. apply map_ext. intros k. rewrite T1, Cols. apply flat_map_same. intros x X. apply in_seq in X. rewrite <- Cols in X.
  destruct (Cell y x) as (c & G & C1 & C2 & C3 & C4 & C5 & C6 & C7 & C8 & _); [lia|pose proof (sh_cols t (proj1 W)); lia|]. unfold content_piece. rewrite L_TableApi.look_getc, G. unfold owner. rewrite C6, C7, C8, Nat.eqb_refl, Nv. cbn [app]. rewrite L_TableApi.look_getc, G. unfold field. rewrite C1, C2, C3, C4, C5, C7, C8, T4, T5, Ah, Av. cbv zeta. f_equal. f_equal.
  - rewrite how_many_none by lia. rewrite total_step by lia. rewrite total_none by lia. rewrite Ew by lia. lia.
  - unfold printed_before. rewrite (total_none _ y y), (how_many_none _ (y + 1) (y + 1)) by lia. rewrite total_step by lia. rewrite total_none by lia. rewrite Eh by lia. rewrite !Nat.add_0_r. reflexivity.
Qed.
Definition shifted : list call :=
  [CAlignments 2 (Some [HRight; HCenter]) (Some [VCenter; VTop]); CHAlignRow HLeft; CAdd (Some (txt "name")); CAdd (Some (txt "value")); CNextRow; CAdd (Some (txt "x")); CHAlign HRight; CVAlign VBottom; CAdd (Some (txt "1"));
   CAdd (Some (txt "a" ++ [LF] ++ txt "b" ++ [LF] ++ txt "c")); CPosition 1 3; CAdd (Some (txt "2"))].
Example C69_shifted : Forall plain shifted /\
  match does_all new_sheet shifted with
  | Some g => g_cols g = 3 /\ g_rows g = 4 /\ map (sheet_height g) (List.seq 0 4) = [1; 3; 0; 1] /\
      map shown (sheet_picture g) = ["namevalue "; "         a"; "   x     b"; "        1c"; "      2   "]
  | None => False
  end.
Proof.
  split.
  - unfold shifted. repeat (apply Forall_cons; [first [exact Logic.I|apply tidy_lined; reflexivity]|]). apply Forall_nil.
  - vm_compute. repeat (split; [reflexivity|]). reflexivity.
Qed.

Print Assumptions C69_plain.
