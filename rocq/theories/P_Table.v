(** Tables (src/table): C50, C51, C66-C68. *)
From Coq Require Import List Ascii String NArith ZArith Bool Lia Arith.
From Verif Require Import M_Base M_StringUtil M_Eval M_Table S_Util S_Table L_Table L_TableWf L_TablePrint L_TablePicture L_TableCount.
Import ListNotations.
Open Scope string_scope.
Open Scope list_scope.
Open Scope nat_scope.
Local Notation txt := list_ascii_of_string.
Local Notation "'A' s" := (CAdd (Some (txt s))) (at level 9).

(** ** C50: widths satisfy all cells *)
(** Whatever the constraints and their order, the result is large enough for each of them, and nothing shrinks. *)
Theorem C50_satisfied : forall ks vars, (forall k, In k ks -> k_from k <= k_to k <= List.length vars) ->
  let res := satisfy_constraints ks vars in
  List.length res = List.length vars /\ (forall j, nth j vars 0 <= nth j res 0) /\
  forall k, In k ks -> k_from k < k_to k -> k_min k <= total res (k_from k) (k_to k).
Proof. intros ks vars H. destruct (all_satisfied ks vars) as [[G1 G2] S]; [apply Forall_forall; exact H|]. auto. Qed.
(** Without spans the result is the least: as wide as the widest cell of the column. *)
Theorem C50_least : forall ks n j, (forall k, In k ks -> k_to k = S (k_from k) /\ k_to k <= n) -> j < n ->
  nth j (satisfy_constraints ks (repeat 0 n)) 0 = fold_right Nat.max 0 (map k_min (filter (fun k => k_from k =? j) ks)).
Proof.
  intros ks n j H J. set (b := fun j => fold_right Nat.max 0 (map k_min (filter (fun k => k_from k =? j) ks))). change (nth j (satisfy_constraints ks (repeat 0 n)) 0 = b j). 
  assert (U : forall k, In k ks -> k_min k <= b (k_from k)).
  { intros k I. unfold b. assert (I' : In k (filter (fun k0 => k_from k0 =? k_from k) ks)) by (apply filter_In; split; auto; apply Nat.eqb_refl). revert I'. generalize (filter (fun k0 => k_from k0 =? k_from k) ks). intros l. induction l as [|a l IH]; intros []; cbn [map fold_right]; [subst; lia|]. specialize (IH H0). lia. }
  apply Nat.le_antisymm.
  - apply singles_exact with (b := b); auto. + apply Forall_forall. intros k I. rewrite repeat_length. apply H. exact I. + intros i. destruct (le_lt_dec n i); [rewrite nth_overflow by (rewrite repeat_length; auto); lia|]. rewrite nth_repeat. lia.
  - destruct (all_satisfied ks (repeat 0 n)) as [_ S]. { apply Forall_forall. intros k I. rewrite repeat_length. destruct (H k I). split; lia. }
    unfold b. assert (F : forall k, In k (filter (fun k => k_from k =? j) ks) -> k_min k <= nth j (satisfy_constraints ks (repeat 0 n)) 0).
    { intros k I. apply filter_In in I. destruct I as [I E]. apply Nat.eqb_eq in E. destruct (H k I) as [E2 _]. specialize (S k I ltac:(lia)). rewrite E2, E in S. rewrite total_step, total_none in S by lia. lia. }
    revert F. generalize (filter (fun k => k_from k =? j) ks). intros l. induction l as [|a l IH]; intros F; cbn [map fold_right]; [lia|]. apply Nat.max_lub; [apply F; left; reflexivity|]. apply IH. intros k I. apply F. right. exact I.
Qed.
(** Any table that can be measured, however it was built: every set cell has room for its text in the columns and inner borders
    (rows and inner lines) it covers. *)
Theorem C50_table : forall t ws hs, get_dimensions t = Ok (ws, hs) ->
  List.length ws = t_cols t /\ List.length hs = num_rows t /\
  forall y x c, cell_at t y x c -> c_set c = true -> c_parent c = None -> x < t_cols t ->
    (1 <= c_sx c -> c_width c <= total ws x (x + c_sx c) + how_many (has_vline t) (x + 1) (x + c_sx c)) /\
    (1 <= c_sy c -> c_height c <= total hs y (y + c_sy c) + how_many (has_hline t) (y + 1) (y + c_sy c)).
Proof.
  intros t ws hs D. destruct (dims_satisfied t ws hs D) as (L1 & L2 & S). split; auto. split; auto. intros y x c G Se P X. replace (x + 1) with (Datatypes.S x) by lia. replace (y + 1) with (Datatypes.S y) by lia. apply S. apply in_places. split; [apply cell_at_getc; exact G|]. split; auto. unfold constrained. rewrite Se, P. reflexivity.
Qed.
(** Tables built from tidy texts and spans over unused cells can always be measured, and no cell is left out. *)
Theorem C50_clean : forall t, built clean_call t ->
  exists ws hs, get_dimensions t = Ok (ws, hs) /\
  forall y x c s, cell_at t y x c -> c_parent c = None -> c_text c = Some s ->
    (forall l, In l (text_lines s) -> visible false l <= total ws x (x + c_sx c) + how_many (has_vline t) (x + 1) (x + c_sx c)) /\
    List.length (text_lines s) <= total hs y (y + c_sy c) + how_many (has_hline t) (y + 1) (y + c_sy c).
Proof.
  intros t B. pose proof (wf_built t B) as W. destruct (dims_exist t W) as (ws & hs & D). exists ws, hs. split; auto. intros y x c s G P E. apply cell_at_getc in G. destruct (dims_satisfied t ws hs D) as (_ & _ & S).
  destruct W as [Sh L]. destruct (L _ _ _ G) as (_ & _ & T & Sx & O). unfold owned in O. rewrite P in O. destruct O as (O1 & O2 & _). pose proof T as (_ & _ & Hh & [T4|T4]); [congruence|].
  destruct (S y x c) as [S1 S2]. { apply in_places. split; auto. split; auto. unfold constrained. rewrite T4, P. reflexivity. } replace (x + 1) with (Datatypes.S x) by lia. replace (y + 1) with (Datatypes.S y) by lia. split.
  - intros l I. apply (fits_width c _ T (S1 O1) s l E I).
  - rewrite text_lines_height, <- E, <- Hh. apply S2. exact O2.
Qed.
(** The rest of the claim fails: a span over cells that are already used is cut off, possibly to nothing, and the text of
    such a cell is not counted. Here a text of three lines is put into a row one line high. *)
Definition cut_off : list call := [CPosition 1 0; A "v"; CPosition 0 0; CSpan 2 2; CAdd (Some (txt "x" ++ [LF] ++ txt "y" ++ [LF] ++ txt "z"))].
Theorem C50_refuted : exists t ws hs c, exec_calls get_empty_table cut_off = Ok t /\ get_dimensions t = Ok (ws, hs) /\
  cell_at t 0 0 c /\ c_set c = true /\ c_height c = 3 /\ c_sy c = 0 /\ hs = [1].
Proof. eexists _, _, _, _. split; [vm_compute; reflexivity|]. split; [vm_compute; reflexivity|]. split; [vm_compute; reflexivity|]. vm_compute. auto. Qed.
(** Constraints of a table with a spanning title *)
Example C50_example : satisfy_constraints [{| k_from := 0; k_to := 3; k_min := 10 |}; {| k_from := 0; k_to := 1; k_min := 2 |}; {| k_from := 1; k_to := 3; k_min := 5 |}] [0; 0; 0] = [5; 3; 2].
Proof. reflexivity. Qed.
Lemma built_calls : forall ok cs t t', built ok t -> (forall t k, In k cs -> ok t k) -> exec_calls t cs = Ok t' -> built ok t'.
Proof. intros ok. induction cs as [|k cs IH]; intros t t' B H E; cbn [exec_calls] in E; [inversion E; subst; auto|]. destruct (exec_call t k) as [t1| |] eqn:E1; try discriminate. cbn [rbind] in E. eapply IH; [|intros; apply H; right; auto|exact E]. eapply b_call; [exact B|apply H; left; reflexivity|exact E1]. Qed.

(** ** C51: printed lines are aligned *)
(** Tables without spans: printing ends, every line takes the same number of columns, and there is a line for every line of
    every row and one for every row with a line above it. *)
Theorem C51_no_span : forall t, built (fun t k => clean_call t k /\ no_span k) t ->
  exists t' out, fprint_table t = Done (Ok (t', out)) /\
  (0 < t_cols t -> exists ws hs, get_dimensions t = Ok (ws, hs) /\ (forall l, In l out -> columns false l = table_width t' ws)
     /\ List.length out = total hs 0 (num_rows t) + how_many (has_hline t') 0 (num_rows t)).
Proof.
  intros t B. destruct (Nat.eq_dec (t_cols t) 0) as [Z|Z]. { exists t, []. split; [unfold fprint_table; rewrite Z; reflexivity|lia]. }
  pose proof (wf_built t (built_weaken _ _ t (fun t k H => proj1 H) B)) as W. destruct (fprint_aligned t W ltac:(lia)) as (ws & hs & t' & D & R & K). pose proof (built_single t B) as Si.
  destruct K as (out & E & F & N). { intros y x c G P S. destruct (Si y x c G) as [S1 _]. lia. } exists t', out. split; auto. intros _. exists ws, hs. split; auto. destruct R as (_ & _ & _ & Nr & _). rewrite Nr in N. split; auto. rewrite Forall_forall in F. intros l I. apply (F l I).
Qed.
(** Tables with spans over unused cells and no lines at the left of single cells, if the borders around every spanning cell
    happen to make up for the column that printing looks at. Missing: all other borders ([C51_refuted], [C51_last_refuted]). *)
Theorem C51_spans_partial : forall t, built (fun t k => clean_call t k /\ no_left_line k) t -> borders_match t ->
  exists t' out, fprint_table t = Done (Ok (t', out)) /\
  (0 < t_cols t -> exists ws hs, get_dimensions t = Ok (ws, hs) /\ (forall l, In l out -> columns false l = table_width t ws)
     /\ List.length out = total hs 0 (num_rows t) + how_many (has_hline t') 0 (num_rows t)).
Proof.
  intros t B M. destruct (Nat.eq_dec (t_cols t) 0) as [Z|Z]. { exists t, []. split; [unfold fprint_table; rewrite Z; reflexivity|lia]. }
  pose proof (wf_built t (built_weaken _ _ t (fun t k H => proj1 H) B)) as W. destruct (fprint_aligned t W ltac:(lia)) as (ws & hs & t' & D & R & K). pose proof (built_bare t B) as Ba. destruct R as (_ & _ & C & Nr & Rb). destruct (Rb Ba) as [_ Cn].
  assert (V : forall j, has_vline t' j = has_vline t j) by (intros j; unfold has_vline; rewrite Cn; reflexivity).
  destruct K as (out & E & F & N). { intros y x c G P S. destruct (M y x c) as [M1 M2]; auto; [apply cell_at_getc; exact G|]. replace (x + 1) with (Datatypes.S x) in M2 by lia. split; auto. }
  exists t', out. split; auto. intros _. exists ws, hs. split; auto. rewrite Nr in N. split; auto. rewrite Forall_forall in F. intros l I. destruct (F l I) as [F1 _]. rewrite F1. unfold table_width. rewrite C. f_equal. apply how_many_ext. auto.
Qed.
(** A cell over two columns with a line between them, and no line behind it, comes out one column too narrow. *)
Definition narrow : list call := [A "ab"; A "cd"; CNextRow; CSpan 2 1; A "x"; CVLine 1 BSingle].
Theorem C51_refuted : exists t t' l1 l2, exec_calls get_empty_table narrow = Ok t /\ fprint_table t = Done (Ok (t', [l1; l2])) /\ columns false l1 = 5 /\ columns false l2 = 4.
Proof. eexists _, _, _, _. split; [vm_compute; reflexivity|]. split; [vm_compute; reflexivity|]. split; reflexivity. Qed.
(** If the cell reaches the last of the eleven columns, printing reads beyond the array of counters. *)
Definition last_two : list call := [CPosition 9 0; CSpan 2 1; A "x"].
Theorem C51_last_refuted : exists t, exec_calls get_empty_table last_two = Ok t /\ fprint_table t = Done Ub.
Proof. eexists. split; [vm_compute; reflexivity|]. vm_compute. reflexivity. Qed.
(** A span cut off to nothing: printing never ends. *)
Definition endless : list call := [CPosition 0 1; A "v"; CPosition 0 0; CSpan 2 2; A "x"].
Theorem C51_endless_refuted : exists t, exec_calls get_empty_table endless = Ok t /\ fprint_table t = Forever.
Proof. eexists. split; [vm_compute; reflexivity|]. vm_compute. reflexivity. Qed.
(** A table with a title over two columns, in a box *)
Definition titled : list call := [CSpan 2 1; A "A title"; CNextRow; A "ab"; A "cd"; CAllVLines BSingle; CNextRow; CBoxed BDouble].
Definition text_of (l : list seg) : string := string_of_list_ascii (flat_map (fun s => match s with Box _ i => (if i =? VLINE_INDEX then txt "|" else if i =? HLINE_INDEX then txt "-" else txt "+") | Bytes b => b end) l).
Lemma tidy_plain : forall s, forallb (fun c => negb (ceqb c ESC) && negb (ceqb c LF)) (txt s) = true -> tidy_text (txt s).
Proof.
  intros s H. assert (L : forall l, forallb (fun c => negb (ceqb c ESC) && negb (ceqb c LF)) l = true -> text_lines l = [l] /\ tidy Plain l).
  { induction l as [|c l IH]; intros Hl; [split; [reflexivity|cbn; discriminate]|]. cbn [forallb] in Hl. apply andb_true_iff in Hl. destruct Hl as [Hc Hl]. apply andb_true_iff in Hc. destruct Hc as [H1 H2]. destruct (IH Hl) as [I1 I2]. apply negb_true_iff in H1, H2. unfold ceqb in *. cbn [text_lines tidy]. change (ascii_of_nat 10) with LF. rewrite H2, I1. unfold ceqb. rewrite H1. auto. }
  destruct (L _ H) as [L1 L2]. split; [rewrite L1; auto|]. destruct (txt s) as [|c l]; [discriminate|]. cbn [forallb hd_error] in *. intros E. inversion E; subst c. discriminate H.
Qed.
Definition free_b (c : cell) : bool := negb (c_set c) && match c_parent c with None => true | _ => false end && (c_sx c =? 1) && (c_sy c =? 1).
Definition clean_b (t : table) (k : call) : bool :=
  match k with
  | CAdd (Some s) => forallb (fun c => negb (ceqb c ESC) && negb (ceqb c LF)) s
  | CLeft b => is_none b
  | CSpan sx sy =>
    match curr_cell t with Ok c => match c_parent c with None => true | _ => false end | _ => true end &&
    forallb (fun i => forallb (fun j => ((i =? 0) && (j =? 0)) || match the_cell t (t_row t + i) (t_col t + j) with Ok c => free_b c | _ => true end) (List.seq 0 sx)) (List.seq 0 sy)
  | _ => true
  end.
Lemma clean_b_ok : forall t k, clean_b t k = true -> clean_call t k /\ no_left_line k.
Proof.
  intros t k H. destruct k; cbn [clean_b clean_call no_left_line] in *; auto.
  - split; auto. destruct text as [s|]; auto. rewrite <- (list_ascii_of_string_of_list_ascii s) in *. apply tidy_plain. exact H.
  - split; auto. destruct b; auto; discriminate H.
  - split; auto. apply andb_true_iff in H. destruct H as [H1 H2]. split.
    + intros c E. rewrite E in H1. destruct (c_parent c); [discriminate|reflexivity].
    + intros i j c I J N E. rewrite forallb_forall in H2. specialize (H2 i). rewrite forallb_forall in H2. specialize (H2 ltac:(apply in_seq; lia) j ltac:(apply in_seq; lia)). unfold cell_at in E. rewrite E in H2. apply orb_true_iff in H2. destruct H2 as [H2|H2].
      * apply andb_true_iff in H2. destruct H2 as [Z1 Z2]. apply Nat.eqb_eq in Z1, Z2. subst. congruence.
      * unfold free_b in H2. apply andb_true_iff in H2. destruct H2 as [H2 F4]. apply andb_true_iff in H2. destruct H2 as [H2 F3]. apply andb_true_iff in H2. destruct H2 as [F1 F2]. apply negb_true_iff in F1. apply Nat.eqb_eq in F3, F4. unfold free_cell. destruct (c_parent c); [discriminate|auto].
Qed.
Fixpoint clean_calls (t : table) (cs : list call) : bool :=
  match cs with [] => true | k :: cs' => clean_b t k && match exec_call t k with Ok t' => clean_calls t' cs' | _ => true end end.
Lemma clean_calls_built : forall cs t t', built (fun t k => clean_call t k /\ no_left_line k) t -> clean_calls t cs = true -> exec_calls t cs = Ok t' -> built (fun t k => clean_call t k /\ no_left_line k) t'.
Proof.
  induction cs as [|k cs IH]; intros t t' B H E; cbn [exec_calls clean_calls] in *; [inversion E; subst; auto|]. apply andb_true_iff in H. destruct H as [H1 H2]. destruct (exec_call t k) as [t1| |] eqn:E1; try discriminate. cbn [rbind] in E.
  eapply IH; [|exact H2|exact E]. eapply b_call; [exact B|apply clean_b_ok; exact H1|exact E1].
Qed.
Definition match_b (t : table) : bool :=
  forallb (fun y => forallb (fun x => match the_cell t y x with Ok c => match c_parent c with None => negb (1 <? c_sx c) || ((x + c_sx c <? TABLE_MAX_COLS) && Bool.eqb (has_vline t (x + 1)) (has_vline t (x + c_sx c))) | _ => true end | _ => true end) (List.seq 0 TABLE_MAX_COLS)) (List.seq 0 (num_rows t)).
Lemma match_b_ok : forall t, built clean_call t -> match_b t = true -> borders_match t.
Proof.
  intros t B H y x c G P S. unfold match_b in H. rewrite forallb_forall in H. specialize (H y). rewrite forallb_forall in H. pose proof (wf_built t B) as [Sh _]. pose proof G as G0. apply cell_at_getc in G0. pose proof (getc_range _ _ _ _ Sh G0) as [R1 R2].
  specialize (H ltac:(apply in_seq; lia) x ltac:(apply in_seq; lia)). unfold cell_at in G. rewrite G, P in H. apply orb_true_iff in H. destruct H as [H|H]; [apply negb_true_iff, Nat.ltb_ge in H; lia|]. apply andb_true_iff in H. destruct H as [H1 H2]. split; [apply Nat.ltb_lt; exact H1|apply eqb_prop; exact H2].
Qed.
Example C51_titled : exists t, exec_calls get_empty_table titled = Ok t /\ built (fun t k => clean_call t k /\ no_left_line k) t /\ borders_match t /\
  match fprint_table t with Done (Ok (_, out)) => map text_of out | _ => [] end = ["+-------+"; "|A title|"; "|ab |cd |"; "+---+---+"].
Proof.
  destruct (exec_calls get_empty_table titled) as [t| |] eqn:E; [|vm_compute in E; discriminate E..]. exists t. split; auto.
  assert (B : built (fun t k => clean_call t k /\ no_left_line k) t). { eapply clean_calls_built; [constructor| |exact E]. vm_compute. reflexivity. } split; auto.
  vm_compute in E. apply Ok_inj in E. subst t. split; [apply match_b_ok; [eapply built_weaken; [|exact B]; intros ? ? [X _]; exact X|vm_compute; reflexivity]|]. vm_compute. reflexivity.
Qed.
(** Coloured and centred texts of several lines, without spans *)
Definition coloured : list call :=
  [CAlignments 2 (Some [HCenter; HRight]) None; A "name"; CAdd (Some (txt "a" ++ [ESC] ++ txt "[1m!" ++ [ESC] ++ txt "[0m")); CNextRow; CHLine BSingle; A "x"; CAdd (Some (txt "one" ++ [LF] ++ txt "three")); CVLine 1 BSingle].
Example C51_coloured : exists t, exec_calls get_empty_table coloured = Ok t /\ built (fun t k => clean_call t k /\ no_span k) t /\
  match fprint_table t with Done (Ok (_, out)) => map (columns false) out | _ => [] end = [10; 10; 10; 10].
Proof.
  destruct (exec_calls get_empty_table coloured) as [t| |] eqn:E; [|vm_compute in E; discriminate E..]. exists t. split; auto. split.
  - eapply built_calls; [constructor| |exact E]. intros t0 k I. cbn [coloured In] in I. repeat (destruct I as [<-|I]; [split; [|exact Logic.I]; cbn [clean_call]; first [exact Logic.I|apply tidy_plain; reflexivity|idtac]|]); [| |destruct I].
    + split; [|discriminate]. cbn. repeat constructor; discriminate.
    + split; [|discriminate]. cbn. repeat constructor; discriminate.
  - vm_compute in E. apply Ok_inj in E. subst t. vm_compute. reflexivity.
Qed.

(** ** C66: what is printed is the table *)
(** Tables without spans: character by character the picture of the table, from which the lines above an empty last column
    and at the left of an empty last row are removed. A column (row) has room for lines if and only if there is one. *)
Theorem C66_no_span : forall t ws hs, built (fun t k => clean_call t k /\ no_span k) t -> 0 < t_cols t -> get_dimensions t = Ok (ws, hs) -> total hs 0 (num_rows t) + num_rows t < Nat.pow 2 31 ->
  exists t' out, fprint_table t = Done (Ok (t', out)) /\ trimmed t (nth (t_cols t - 1) ws 0) (nth (num_rows t - 1) hs 0) t' /\ map glyphs out = picture t' ws hs /\
  (forall x, x < TABLE_MAX_COLS -> has_vline t' x = (0 <? column_lines t' x)) /\ (forall y r, nth_error (t_rows t') y = Some r -> has_hline t' y = (0 <? row_lines r)).
Proof.
  intros t ws hs B C D Sm. pose proof (wf_built t (built_weaken _ _ t (fun t k H => proj1 H) B)) as W. pose proof (built_single t B) as Si. destruct (fprint_picture t ws hs W C D Sm) as (t' & E & K). destruct (trim_all t _ _ t' W C E) as [Tr _].
  destruct K as (out & O1 & O2). { intros y x c G P S. destruct (Si y x c G) as [S1 _]. lia. } { intros y x c G P S. destruct (Si y x c G) as (_ & S1 & _). lia. }
  exists t', out. split; auto. split; auto. split; auto. apply counted_lines.
  - destruct (superfluous t (nth (t_cols t - 1) ws 0) (nth (num_rows t - 1) hs 0) W C) as (t2 & E2 & R). rewrite E in E2. apply Ok_inj in E2. subst t2. apply R.
  - eapply counted_superfluous; [|exact E]. apply (counted_built true _ t) in B; auto. intros ? ? [_ N] _. exact N.
Qed.
(** The same for tables with spans over unused cells and lines of whole rows and columns only, if the borders around every
    spanning cell happen to make up for the column that printing looks at. Missing: as in [C51_spans_partial], and lines of
    single cells in tables with spans. *)
Definition plain_call (t : table) (k : call) : Prop := clean_call t k /\ no_left_line k /\ no_above_line k.
Theorem C66_spans_partial : forall t ws hs, built plain_call t -> borders_match t -> 0 < t_cols t -> get_dimensions t = Ok (ws, hs) -> total hs 0 (num_rows t) + num_rows t < Nat.pow 2 31 ->
  exists t' out, fprint_table t = Done (Ok (t', out)) /\ trimmed t (nth (t_cols t - 1) ws 0) (nth (num_rows t - 1) hs 0) t' /\ map glyphs out = picture t' ws hs /\
  (forall x, x < TABLE_MAX_COLS -> has_vline t' x = (0 <? column_lines t' x)) /\ (forall y r, nth_error (t_rows t') y = Some r -> has_hline t' y = (0 <? row_lines r)).
Proof.
  intros t ws hs B M C D Sm. pose proof (wf_built t (built_weaken _ _ t (fun t k H => proj1 H) B)) as W. pose proof (plain_built plain_call t (fun t k H => proj2 H) B) as Pl. destruct (fprint_picture t ws hs W C D Sm) as (t' & E & K). destruct (trim_all t _ _ t' W C E) as [Tr Ct].
  destruct (superfluous t (nth (t_cols t - 1) ws 0) (nth (num_rows t - 1) hs 0) W C) as (t2 & E2 & R). rewrite E in E2. apply Ok_inj in E2. subst t2. destruct R as (W' & _ & _ & _ & Rb).
  assert (Ba : bare t) by (intros y x c G; apply (Pl _ _ _ G)). assert (Bb : bare_above t) by (intros y x c G; apply (Pl _ _ _ G)). destruct (Rb Ba) as [_ Cn].
  assert (V : forall j, has_vline t' j = has_vline t j) by (intros j; unfold has_vline; rewrite Cn; reflexivity).
  destruct K as (out & O1 & O2). { intros y x c G P S. destruct (M y x c) as [M1 M2]; auto; [apply cell_at_getc; exact G|]. replace (x + 1) with (Datatypes.S x) in M2 by lia. split; auto. } { intros. apply Ct. exact Bb. }
  exists t', out. split; auto. split; auto. split; auto. apply counted_lines; auto. eapply counted_superfluous; [|exact E]. eapply exact_built; [|exact B]. intros ? ? [_ N]. exact N.
Qed.
(** A cell over two rows and two columns, with a line through it that is not drawn there *)
Definition overview : list call :=
  [CSpan 2 2; CHAlign HCenter; CVAlign VCenter; A "mid"; CAdd (Some (txt "one" ++ [LF] ++ txt "two")); CNextRow; CHLine BSingle; A "three"; CNextRow; A "four"; A "five"; A "six"; CVLine 1 BSingle; CVLine 2 BDouble; CHLine BDouble].
Definition plain_b (t : table) (k : call) : bool := match k with CAdd (Some s) => forallb (fun c => negb (ceqb c ESC)) s && negb (match s with c :: _ => ceqb c LF | [] => false end) | CAbove b => is_none b | _ => clean_b t k end.
Lemma tidy_lined : forall s, forallb (fun c => negb (ceqb c ESC)) s && negb (match s with c :: _ => ceqb c LF | [] => false end) = true -> tidy_text s.
Proof.
  intros s H. apply andb_true_iff in H. destruct H as [H1 H2]. split.
  - clear H2. assert (P : forall l, forallb (fun c => negb (ceqb c ESC)) l = true -> tidy Plain l). { induction l as [|c l IH]; intros Hl; [cbn; discriminate|]. cbn [forallb tidy] in *. apply andb_true_iff in Hl. destruct Hl as [Hc Hl]. apply negb_true_iff in Hc. rewrite Hc. auto. }
    induction s as [|c s IH]; [constructor; [cbn; discriminate|constructor]|]. cbn [forallb] in H1. apply andb_true_iff in H1. destruct H1 as [Hc Hs]. specialize (IH Hs). cbn [text_lines]. destruct (Ascii.eqb c (ascii_of_nat 10)); [constructor; [cbn; discriminate|exact IH]|].
    destruct (text_lines s) as [|l ls]; [constructor; [|constructor]; apply P; cbn; rewrite Hc; reflexivity|]. inversion IH; subst. constructor; auto. cbn [tidy]. apply negb_true_iff in Hc. rewrite Hc. auto.
  - destruct s as [|c s]; [discriminate|]. apply negb_true_iff in H2. cbn [hd_error]. intros E. inversion E; subst c. discriminate H2.
Qed.
Lemma plain_b_ok : forall t k, plain_b t k = true -> plain_call t k.
Proof.
  intros t k H. assert (Q : clean_b t k = true -> no_above_line k -> plain_call t k) by (intros Q N; destruct (clean_b_ok _ _ Q); split; auto).
  destruct k; cbn [plain_b] in H; try (apply Q; [exact H|exact Logic.I]).
  - destruct text as [s|]; [|apply Q; [reflexivity|exact Logic.I]]. split; [exact (tidy_lined s H)|split; exact Logic.I].
  - apply Q; [reflexivity|]. destruct b; [reflexivity|discriminate H|discriminate H].
Qed.
Fixpoint plain_calls (t : table) (cs : list call) : bool :=
  match cs with [] => true | k :: cs' => plain_b t k && match exec_call t k with Ok t' => plain_calls t' cs' | _ => true end end.
Lemma plain_calls_built : forall cs t t', built plain_call t -> plain_calls t cs = true -> exec_calls t cs = Ok t' -> built plain_call t'.
Proof.
  induction cs as [|k cs IH]; intros t t' B H E; cbn [exec_calls plain_calls] in *; [inversion E; subst; auto|]. apply andb_true_iff in H. destruct H as [H1 H2]. destruct (exec_call t k) as [t1| |] eqn:E1; try discriminate. cbn [rbind] in E.
  eapply IH; [|exact H2|exact E]. eapply b_call; [exact B|apply plain_b_ok; exact H1|exact E1].
Qed.
Example C66_overview : exists t, exec_calls get_empty_table overview = Ok t /\ built plain_call t /\ match_b t = true /\ get_dimensions t = Ok ([4; 4; 5], [2; 1; 1]) /\
  match fprint_table t with Done (Ok (_, out)) => map text_of out | _ => [] end = ["         |one  "; "   mid   |two  "; "         +-----"; "         |three"; "----+----+-----"; "four|five|six  "].
Proof.
  destruct (exec_calls get_empty_table overview) as [t| |] eqn:E; [|vm_compute in E; discriminate E..]. exists t. split; auto.
  assert (B : built plain_call t). { eapply plain_calls_built; [constructor| |exact E]. vm_compute. reflexivity. } split; auto.
  vm_compute in E. apply Ok_inj in E. subst t. split; [vm_compute; reflexivity|]. split; vm_compute; reflexivity.
Qed.

(** ** C67: widths of texts *)
(** The width of a text is that of its widest line as the terminal shows it, if colour sequences are complete and do not
    follow one another directly and the text does not start with an empty line. *)
Theorem C67_width_partial : forall s, tidy_text s -> exists w, get_text_width (Some s) = Ok w /\ (forall l, In l (text_lines s) -> visible false l <= w) /\ exists l, In l (text_lines s) /\ w = visible false l.
Proof. exact width_ok. Qed.
(** Otherwise it is wrong: 7 instead of 2 for two sequences in a row, undefined for an empty first line or an open sequence. *)
Definition bold_red : cstr := [ESC] ++ txt "[1m" ++ [ESC] ++ txt "[31m" ++ txt "ab".
Theorem C67_refuted : text_lines bold_red = [bold_red] /\ visible false bold_red = 2 /\ get_text_width (Some bold_red) = Ok 7.
Proof. vm_compute. auto. Qed.
Lemma search_fails : forall s c k, List.length (filter (fun c => ceqb c LF) s) < k -> snd (line_search (c :: s) k) <> 0.
Proof.
  induction s as [|d s IH]; intros c k H; [cbn; cbn in H; lia|]. change (line_search (c :: d :: s) k) with (if ceqb d LF then match k with 1 => (s, 0) | _ => line_search (d :: s) (pred k) end else line_search (d :: s) k). cbn [filter] in H. destruct (ceqb d LF); [|apply IH; exact H]. cbn [List.length] in H. destruct k as [|[|k]]; [lia|lia|]. cbn [pred]. apply IH. lia.
Qed.
Lemma no_halt : forall s, console_strlen s <> Halt.
Proof.
  assert (M : forall s, skip_to_m s <> Halt) by (induction s as [|c s IH]; cbn [skip_to_m]; [discriminate|]; destruct (ceqb c "m"); [discriminate|exact IH]).
  assert (As0 : forall s, skip_ansi s <> Halt) by (intros [|c s]; cbn [skip_ansi]; [discriminate|]; destruct (ceqb c "027"); [apply M|discriminate]).
  assert (L : forall f s n, console_loop f s n <> Halt). { induction f as [|f IH]; intros s n; cbn [console_loop]; [discriminate|]. destruct s as [|c s]; [discriminate|]. destruct (ceqb c LF); [discriminate|]. pose proof (As0 s) as As. destruct (skip_ansi s); cbn [rbind]; [apply IH|discriminate|congruence]. }
  intros s. unfold console_strlen. pose proof (As0 s) as As. destruct (skip_ansi s); cbn [rbind]; [apply L|discriminate|congruence].
Qed.
Lemma width_fails : forall s k is w, In k is -> get_line_of_string s k = None -> width_loop s is w = Ub.
Proof.
  intros s k. induction is as [|i is IH]; intros w I H; [destruct I|]. cbn [width_loop]. destruct (get_line_of_string s i) as [[line n]|] eqn:E; [|reflexivity]. pose proof (no_halt line) as Nh. destruct (console_strlen line) as [m| |]; cbn [rbind]; [|reflexivity|congruence]. apply IH; auto. destruct I as [->|I]; [congruence|exact I].
Qed.
Theorem C67_empty_line_refuted : forall s, get_text_width (Some (LF :: s)) = Ub.
Proof.
  intros s. unfold get_text_width, get_text_height. cbn [filter]. change (ceqb LF LF) with true. cbv iota. cbn [List.length]. set (n := List.length (filter (fun c => ceqb c LF) s)). apply width_fails with (k := S n); [apply in_seq; lia|].
  unfold get_line_of_string. cbn [Nat.ltb Nat.leb]. pose proof (search_fails s LF (S n) ltac:(unfold n; lia)) as H. destruct (line_search (LF :: s) (S n)) as [s' k']. cbn [snd] in H. destruct k'; [congruence|reflexivity].
Qed.
Theorem C67_open_refuted : get_text_width (Some ([ESC] ++ txt "[1")) = Ub.
Proof. reflexivity. Qed.
Example C67_example : tidy_text (txt "a" ++ [ESC] ++ txt "[1m!" ++ [ESC] ++ txt "[0m" ++ [LF] ++ txt "four") /\ get_text_width (Some (txt "a" ++ [ESC] ++ txt "[1m!" ++ [ESC] ++ txt "[0m" ++ [LF] ++ txt "four")) = Ok 4.
Proof. split; [|reflexivity]. split; [|discriminate]. cbn. repeat constructor; discriminate. Qed.

(** ** C68: lines and their counters *)
(** Whatever was called: the counter of a column (row) is at least the number of lines drawn at its left (above it), so that
    removing a line never counts below zero. *)
Theorem C68_counters : forall t, built (fun _ _ => True) t ->
  (forall x n, nth_error (t_counts t) x = Some n -> column_lines t x <= n) /\ (forall y r, nth_error (t_rows t) y = Some r -> row_lines r <= r_count r).
Proof. intros t B. apply (counted_built false _ t) in B; [exact B|]. intros ? ? _ H. discriminate H. Qed.
(** Without spans, or without lines of single cells, the counters are exact. *)
Theorem C68_exact_partial : forall t, built (fun _ k => no_span k) t \/ built (fun _ k => no_left_line k /\ no_above_line k) t ->
  (forall x n, nth_error (t_counts t) x = Some n -> n = column_lines t x) /\ (forall y r, nth_error (t_rows t) y = Some r -> r_count r = row_lines r).
Proof.
  intros t B. assert (C : counted true t). { destruct B as [B|B]; [apply (counted_built true _ t) in B; auto|]. eapply exact_built; [|exact B]. auto. }
  destruct C as [C1 C2]. split; [intros x n E; symmetry; exact (C1 x n E)|intros y r E; symmetry; exact (C2 y r E)].
Qed.
(** In general they are not: a line at the left of a cell is forgotten, but not its counter, when the cell becomes part of a
    span. An empty column stays behind for a line that is nowhere. *)
Definition forgotten : list call := [CPosition 1 0; CLeft BSingle; CPosition 0 0; CSpan 2 1; A "ab"; CNextRow; A "x"; A "y"].
Theorem C68_refuted : exists t, exec_calls get_empty_table forgotten = Ok t /\ column_lines t 1 = 0 /\ nth 1 (t_counts t) 0 = 1 /\
  match fprint_table t with Done (Ok (_, out)) => map text_of out | _ => [] end = ["ab"; "x y"].
Proof. eexists. split; [vm_compute; reflexivity|]. split; [reflexivity|]. split; [reflexivity|]. vm_compute. reflexivity. Qed.
(** A line for the column, one for a cell; then the line of the column is removed. *)
Example C68_example : exists t, exec_calls get_empty_table [CVLine 1 BSingle; A "a"; CLeft BDouble; A "b"; CNextRow; CHLine BSingle; CVLine 1 BNone] = Ok t /\ column_lines t 1 = 1 /\ nth 1 (t_counts t) 0 = 1 /\ map row_lines (t_rows t) = [0; 1] /\ map r_count (t_rows t) = [0; 1].
Proof. eexists. split; [vm_compute; reflexivity|]. split; [reflexivity|]. split; [reflexivity|]. split; reflexivity. Qed.

Print Assumptions C50_satisfied.
Print Assumptions C50_least.
Print Assumptions C50_table.
Print Assumptions C50_clean.
Print Assumptions C50_refuted.
Print Assumptions C51_no_span.
Print Assumptions C51_spans_partial.
Print Assumptions C51_refuted.
Print Assumptions C51_last_refuted.
Print Assumptions C51_endless_refuted.
Print Assumptions C66_no_span.
Print Assumptions C66_spans_partial.
Print Assumptions C67_width_partial.
Print Assumptions C67_refuted.
Print Assumptions C67_empty_line_refuted.
Print Assumptions C67_open_refuted.
Print Assumptions C68_counters.
Print Assumptions C68_exact_partial.
Print Assumptions C68_refuted.
