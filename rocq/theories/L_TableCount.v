(** Counters of lines (for C68). *)
From Coq Require Import List Ascii String NArith ZArith Bool Lia Arith.
From Verif Require Import M_Base M_StringUtil M_Eval M_Table S_Util S_Table L_Table L_TableWf L_TablePrint.
Import ListNotations.
Open Scope nat_scope.
Open Scope res_scope.

(** Exact, or at least as many *)
Definition cmp (exact : bool) (a b : nat) : Prop := if exact then a = b else a <= b.
Definition one (b : bool) : nat := if b then 1 else 0.
Lemma recount_ok : forall e was now k n, cmp e (one (drawn was) + k) n -> cmp e (one (drawn now) + k) (recount was now n).
Proof. intros e was now k n H. unfold cmp, one, recount in *. destruct e, was, now; cbn [drawn is_none] in *; lia. Qed.
Lemma count_update : forall A (p : A -> bool) n f l a, nth_error l n = Some a -> List.length (filter p (update n f l)) + one (p a) = List.length (filter p l) + one (p (f a)).
Proof.
  intros A p n f l a H. unfold update. rewrite H. pose proof (nth_error_split l n H) as (l1 & l2 & E & N). subst l n. rewrite firstn_app, Nat.sub_diag, firstn_all. cbn [firstn]. rewrite app_nil_r.
  replace (skipn (S (List.length l1)) (l1 ++ a :: l2)) with l2. 2:{ rewrite skipn_app, skipn_all2 by lia. replace (S (List.length l1) - List.length l1) with 1 by lia. reflexivity. }
  rewrite !filter_app, !app_length. cbn [filter]. unfold one. destruct (p a), (p (f a)); cbn [List.length]; lia.
Qed.
Lemma update_none : forall A n (f : A -> A) l, nth_error l n = None -> update n f l = l.
Proof. intros A n f l H. unfold update. rewrite H. reflexivity. Qed.

Definition counted (e : bool) (t : table) : Prop :=
  (forall x n, nth_error (t_counts t) x = Some n -> cmp e (column_lines t x) n) /\ (forall y r, nth_error (t_rows t) y = Some r -> cmp e (row_lines r) (r_count r)).
(** The same lines and counters *)
Definition same_lines (t t' : table) : Prop :=
  t_counts t' = t_counts t /\ (forall x, nth x (t_left t') BNone = nth x (t_left t) BNone) /\ (forall x, List.length (filter (left_drawn x) (t_rows t')) = List.length (filter (left_drawn x) (t_rows t))) /\
  (forall y r', nth_error (t_rows t') y = Some r' -> exists r, row_lines r = row_lines r' /\ r_count r' = r_count r /\ (nth_error (t_rows t) y = Some r \/ r = malloc_row y)).
Lemma same_counted : forall e t t', same_lines t t' -> counted e t -> counted e t'.
Proof.
  intros e t t' (A & B & C & D) [H1 H2]. split.
  - intros x n E. rewrite A in E. unfold column_lines. rewrite B, C. apply H1. exact E.
  - intros y r' E. destruct (D _ _ E) as (r & D1 & D2 & [D3| ->]); rewrite <- D1, D2; [eapply H2; eauto|]. destruct e; cbn; lia.
Qed.
Lemma same_refl : forall t, same_lines t t.
Proof. intros t. split; auto. split; auto. split; auto. intros y r H. exists r. auto. Qed.
Lemma same_rows : forall t t', t_counts t' = t_counts t -> t_left t' = t_left t -> t_rows t' = t_rows t -> same_lines t t'.
Proof. intros t t' A B C. unfold same_lines. rewrite A, B, C. apply same_refl. Qed.
Lemma counted_append : forall e t, counted e t -> counted e (append_row t).
Proof.
  intros e t H. apply (same_counted e t); auto. split; auto. split; auto. split.
  - intros x. unfold append_row, with_rows. cbn [t_rows]. rewrite filter_app, app_length. cbn [filter]. replace (left_drawn x (malloc_row (List.length (t_rows t)))) with false; [cbn [List.length]; lia|]. unfold left_drawn, malloc_row. cbn [r_cells]. rewrite nth_error_map. destruct (nth_error (List.seq 0 TABLE_MAX_COLS) x); reflexivity.
  - intros y r' E. unfold append_row, with_rows in E. cbn [t_rows] in E. exists r'. split; auto. split; auto. destruct (Nat.ltb_spec y (List.length (t_rows t))) as [L|L]; [rewrite nth_error_app1 in E by auto; auto|]. rewrite nth_error_app2 in E by auto. destruct (y - List.length (t_rows t)) as [|k] eqn:Ek; cbn [nth_error] in E; [|destruct k; discriminate]. inversion E. right. f_equal. lia.
Qed.
Lemma counted_iter : forall e k t, counted e t -> counted e (Nat.iter k append_row t).
Proof. induction k as [|k IH]; intros t H; auto. cbn [Nat.iter nat_rect]. apply counted_append. apply IH. exact H. Qed.
(** Cells keep their lines, or (if counters need not be exact) lose them *)
Definition keeps_at (e : bool) (f : cell -> cell) (c : cell) : Prop :=
  (if e then drawn (setting (c_left (f c)) BNone) = drawn (setting (c_left c) BNone) else one (drawn (setting (c_left (f c)) BNone)) <= one (drawn (setting (c_left c) BNone))) /\
  (if e then above_drawn (f c) = above_drawn c else one (above_drawn (f c)) <= one (above_drawn c)).
Definition keeps (e : bool) (f : cell -> cell) : Prop := forall c, keeps_at e f c.
Lemma counted_set_at : forall e t y x f, (forall c, getc t y x = Some c -> keeps_at e f c) -> counted e t -> counted e (set_cell y x f t).
Proof.
  intros e t y x f K [H1 H2]. split.
  - intros x' n E. change (t_counts (set_cell y x f t)) with (t_counts t) in E. specialize (H1 _ _ E). unfold column_lines in *. change (t_left (set_cell y x f t)) with (t_left t). unfold set_cell, with_rows. cbn [t_rows].
    destruct (nth_error (t_rows t) y) as [r|] eqn:Er; [|rewrite update_none by auto; exact H1]. pose proof (count_update _ (left_drawn x') y (with_cells (update x f)) (t_rows t) r Er) as Cu.
    assert (Q : if e then left_drawn x' (with_cells (update x f) r) = left_drawn x' r else one (left_drawn x' (with_cells (update x f) r)) <= one (left_drawn x' r)).
    { unfold left_drawn, with_cells. cbn [r_cells]. rewrite nth_error_update. destruct (Nat.eqb_spec x' x) as [->|]; [|destruct e; auto]. destruct (nth_error (r_cells r) x) as [c|] eqn:Ec; cbn [option_map]; [apply K; unfold getc; rewrite Er; exact Ec|destruct e; auto]. }
    destruct e; cbn [cmp] in *; [rewrite Q in Cu|]; lia.
  - intros y' r' E. unfold set_cell, with_rows in E. cbn [t_rows] in E. rewrite nth_error_update in E. destruct (Nat.eqb_spec y' y) as [->|]; [|eauto]. destruct (nth_error (t_rows t) y) as [r|] eqn:Er; [|discriminate]. cbn [option_map] in E. inversion E; subst r'. clear E. specialize (H2 _ _ Er). unfold row_lines, with_cells in *. cbn [r_cells r_above r_count].
    destruct (nth_error (r_cells r) x) as [c|] eqn:Ec; [|rewrite update_none by auto; exact H2]. pose proof (count_update _ above_drawn x f (r_cells r) c Ec) as Cu. assert (Gc : getc t y x = Some c) by (unfold getc; rewrite Er; exact Ec). destruct (K c Gc) as [_ K2]. destruct e; cbn [cmp] in *; [rewrite K2 in Cu|]; lia.
Qed.
Lemma counted_set : forall e t y x f, keeps e f -> counted e t -> counted e (set_cell y x f t).
Proof. intros e t y x f K. apply counted_set_at. intros c _. apply K. Qed.
Lemma counted_row_map : forall e t y f, keeps true f -> counted e t -> counted e (with_rows (update y (with_cells (map f))) t).
Proof.
  intros e t y f K H. apply (same_counted e t); auto. split; auto. split; auto. assert (L : forall x r, left_drawn x (with_cells (map f) r) = left_drawn x r).
  { intros x r. unfold left_drawn, with_cells. cbn [r_cells]. rewrite nth_error_map. destruct (nth_error (r_cells r) x) as [c|]; cbn [option_map]; auto. apply (K c). } split.
  - intros x. unfold with_rows. cbn [t_rows]. destruct (nth_error (t_rows t) y) as [r|] eqn:Er; [|rewrite update_none by auto; reflexivity]. pose proof (count_update _ (left_drawn x) y (with_cells (map f)) (t_rows t) r Er) as Cu. rewrite L in Cu. lia.
  - intros y' r' E. unfold with_rows in E. cbn [t_rows] in E. rewrite nth_error_update in E. destruct (Nat.eqb_spec y' y) as [->|]; [|eauto]. destruct (nth_error (t_rows t) y) as [r|] eqn:Er; [|discriminate]. cbn [option_map] in E. inversion E; subst r'. exists r. split; [|split; auto].
    unfold row_lines, with_cells. cbn [r_cells r_above]. f_equal. induction (r_cells r) as [|c l IH]; cbn [map filter]; auto. destruct (K c) as [_ K2]. cbv iota in K2. rewrite K2. destruct (above_drawn c); cbn [List.length]; auto.
Qed.
Lemma counted_hline : forall e t b t', counted e t -> set_hline t b = Ok t' -> counted e t'.
Proof.
  intros e t b t' [H1 H2] H. unfold set_hline in H. destruct (at_ (t_rows t) (t_row t)); try discriminate. cbn [rbind] in H. apply Ok_inj in H. subst t'. split.
  - intros x n E. specialize (H1 x n E). unfold column_lines in *. cbn [with_rows t_left t_rows]. destruct (nth_error (t_rows t) (t_row t)) as [r|] eqn:Er; [|rewrite update_none by auto; exact H1]. pose proof (count_update _ (left_drawn x) (t_row t) (set_above b) (t_rows t) r Er) as Cu. change (left_drawn x (set_above b r)) with (left_drawn x r) in Cu. destruct e; cbn [cmp] in *; lia.
  - intros y r' E. cbn [with_rows t_rows] in E. rewrite nth_error_update in E. destruct (Nat.eqb_spec y (t_row t)) as [->|]; [|eauto]. destruct (nth_error (t_rows t) (t_row t)) as [r|] eqn:Er; [|discriminate]. cbn [option_map] in E. inversion E; subst r'. clear E. specialize (H2 _ _ Er). unfold row_lines, set_above in *. cbn [r_cells r_above r_count]. apply (recount_ok e (r_above r) b _ _ H2).
Qed.
Lemma nth_left : forall (l : list border) n f m a, nth_error l n = Some a -> nth m (update n f l) BNone = if m =? n then f a else nth m l BNone.
Proof.
  intros l n f m a H. pose proof (nth_error_update _ n f l m) as E. destruct (Nat.eqb_spec m n) as [->|].
  - rewrite H in E. apply (nth_error_nth _ _ BNone) in E. exact E.
  - destruct (nth_error l m) as [b|] eqn:Eb; [rewrite (nth_error_nth _ _ _ Eb); apply nth_error_nth; exact E|]. rewrite !nth_overflow; auto; apply nth_error_None; auto.
Qed.
Lemma counted_vline : forall e t i b t', counted e t -> set_vline t i b = Ok t' -> counted e t'.
Proof.
  intros e t i b t' [H1 H2] H. unfold set_vline in H. destruct (i <? TABLE_MAX_COLS); [|discriminate]. unfold at_ in H. destruct (nth_error (t_left t) i) as [old|] eqn:Eo; [|discriminate]. cbn [rbind] in H. apply Ok_inj in H. subst t'.
  assert (Q : forall x n, nth_error (update i (recount old b) (t_counts t)) x = Some n -> cmp e (one (drawn (nth x (update i (fun _ => b) (t_left t)) BNone)) + List.length (filter (left_drawn x) (t_rows t))) n).
  { intros x n E. rewrite nth_error_update in E. rewrite (nth_left _ _ _ _ _ Eo). destruct (Nat.eqb_spec x i) as [->|]; [|apply H1; exact E]. destruct (nth_error (t_counts t) i) as [m|] eqn:Em; [|discriminate]. cbn [option_map] in E. inversion E; subst n. apply recount_ok. specialize (H1 _ _ Em). unfold column_lines in H1. rewrite (nth_error_nth _ _ BNone Eo) in H1. exact H1. }
  destruct (t_cols t <=? i); (split; [exact Q|exact H2]).
Qed.
Lemma counted_position : forall e t x y t', counted e t -> set_position t x y = Ok t' -> counted e t'.
Proof. intros e t x y t' H E. unfold set_position in E. destruct (x <? TABLE_MAX_COLS); [|discriminate]. destruct (y <? num_rows t); apply Ok_inj in E; subst t'; [exact H|]. exact (counted_iter e (S y - num_rows t) t H). Qed.
Lemma counted_vlines : forall e is t b t', counted e t -> set_vlines t is b = Ok t' -> counted e t'.
Proof. intros e. induction is as [|i is IH]; intros t b t' H E; cbn [set_vlines] in E; [apply Ok_inj in E; subst; auto|]. destruct (set_vline t i b) as [t1| |] eqn:E1; try discriminate. cbn [rbind] in E. eapply IH; [|eauto]. eapply counted_vline; eauto. Qed.
(** No lines of single cells *)
Definition plain (c : cell) : Prop := setting (c_left c) BNone = BNone /\ setting (c_above c) BNone = BNone.
Lemma keeps_span : forall e i j p c, (e = true -> plain c) -> keeps_at e (fun c => child_borders i j (put_child p c)) c.
Proof.
  intros e i j p c H. unfold keeps_at, child_borders, above_drawn. destruct e.
  - destruct (H eq_refl) as [H1 H2]. destruct (j =? 0), (i =? 0); cbn; rewrite ?H1, ?H2; auto.
  - destruct (j =? 0), (i =? 0); cbn; split; lia.
Qed.
Lemma plain_span : forall i j p c, plain c -> plain (child_borders i j (put_child p c)).
Proof. intros i j p c [A B]. unfold child_borders. destruct (j =? 0), (i =? 0); split; cbn; auto. Qed.
Lemma counted_span_cols : forall e y x i js t t1 r, (e = true -> everywhere plain t) -> counted e t -> span_cols t y x i js = Ok (t1, r) -> counted e t1.
Proof.
  intros e y x i. induction js as [|j js IH]; intros t t1 r P H E; cbn [span_cols] in E; [inversion E; subst; auto|]. destruct ((i =? 0) && (j =? 0)); [eauto|]. destruct (the_cell t (y + i) (x + j)) as [c| |]; try discriminate. cbn [rbind] in E. destruct (c_set c); [inversion E; subst; auto|].
  eapply IH; [| |exact E]. - intros Ee. apply every_set; auto. intros d. apply plain_span. - apply counted_set_at; auto. intros d G. apply keeps_span. intros Ee. eapply (P Ee); eauto.
Qed.
Lemma keeps_put_span : forall e a b, keeps e (put_span a b).
Proof. intros e a b c. destruct e; split; reflexivity. Qed.
Lemma plain_fresh : forall y x, plain (fresh_cell y x).
Proof. intros. split; reflexivity. Qed.
Lemma counted_span_rows : forall e y x sx sy is t t1, (e = true -> everywhere plain t) -> counted e t -> span_rows t y x sx sy is = Ok t1 -> counted e t1.
Proof.
  intros e y x sx sy. induction is as [|i is IH]; intros t t1 P H E; cbn [span_rows] in E; [inversion E; subst; auto|]. destruct (span_cols t y x i (List.seq 0 sx)) as [[t2 [j|]]| |] eqn:E1; try discriminate; cbn [rbind] in E; pose proof (counted_span_cols _ _ _ _ _ _ _ _ P H E1) as H2.
  - apply Ok_inj in E. subst t1. apply counted_set; auto. apply keeps_put_span.
  - assert (P2 : e = true -> everywhere plain t2). { intros Ee. eapply every_span_cols; [|apply P; exact Ee|exact E1]. intros. apply plain_span; auto. }
    eapply IH; [| |exact E]; destruct (_ && _); auto; [|apply counted_append; auto]. intros Ee. apply every_append; auto. apply plain_fresh.
Qed.
Lemma counted_left : forall e t b t', counted e t -> override_left_border t b = Ok t' -> counted e t'.
Proof.
  intros e t b t' [H1 H2] H. unfold override_left_border in H. destruct (curr_cell t) as [c| |] eqn:Ec; try discriminate. apply curr_ok in Ec. cbn [rbind] in H. apply Ok_inj in H. subst t'. unfold getc in Ec. destruct (nth_error (t_rows t) (t_row t)) as [r|] eqn:Er; [|discriminate]. split.
  - intros x n E. change (nth_error (update (t_col t) (recount (overridden (c_left c)) b) (t_counts t)) x = Some n) in E. unfold column_lines, set_cell, with_rows, with_counts. cbn [t_left t_rows t_row t_col]. pose proof (count_update _ (left_drawn x) (t_row t) (with_cells (update (t_col t) (put_left b))) (t_rows t) r Er) as Cu.
    rewrite nth_error_update in E. assert (Q : left_drawn x (with_cells (update (t_col t) (put_left b)) r) = if x =? t_col t then drawn b else left_drawn x r).
    { unfold left_drawn, with_cells. cbn [r_cells]. rewrite nth_error_update. destruct (Nat.eqb_spec x (t_col t)) as [->|]; auto. rewrite Ec. reflexivity. }
    rewrite Q in Cu. destruct (Nat.eqb_spec x (t_col t)) as [->|].
    + destruct (nth_error (t_counts t) (t_col t)) as [m|] eqn:Em; [|discriminate]. cbn [option_map] in E. inversion E; subst n. clear E. specialize (H1 _ _ Em). unfold column_lines in H1. unfold left_drawn in Cu at 2. rewrite Ec in Cu. change (setting (c_left c) BNone) with (overridden (c_left c)) in Cu.
      set (k := (if drawn (nth (t_col t) (t_left t) BNone) then 1 else 0)) in *. set (u := List.length (filter (left_drawn (t_col t)) (update (t_row t) (with_cells (update (t_col t) (put_left b))) (t_rows t)))) in *. set (v := List.length (filter (left_drawn (t_col t)) (t_rows t))) in *.
      assert (V : one (drawn (overridden (c_left c))) <= v). { unfold one, v. destruct (drawn (overridden (c_left c))) eqn:Ed; [|lia]. assert (I : In r (filter (left_drawn (t_col t)) (t_rows t))) by (apply filter_In; split; [eapply nth_error_In; eauto|unfold left_drawn; rewrite Ec; exact Ed]). destruct (filter (left_drawn (t_col t)) (t_rows t)); [destruct I|cbn [List.length]; lia]. }
      pose proof (recount_ok e (overridden (c_left c)) b (k + v - one (drawn (overridden (c_left c)))) m) as R. replace (one (drawn (overridden (c_left c))) + (k + v - one (drawn (overridden (c_left c))))) with (k + v) in R by lia. specialize (R H1). replace (k + u) with (one (drawn b) + (k + v - one (drawn (overridden (c_left c))))) by lia. exact R.
    + specialize (H1 _ _ E). unfold column_lines in H1. destruct e; cbn [cmp] in *; lia.
  - intros y r' E. unfold set_cell, with_rows, with_counts in E. cbn [t_rows] in E. rewrite nth_error_update in E. destruct (Nat.eqb_spec y (t_row t)) as [->|]; [|eauto]. rewrite Er in E. cbn [option_map] in E. inversion E; subst r'. clear E. specialize (H2 _ _ Er). unfold row_lines, with_cells in *. cbn [r_cells r_above r_count].
    pose proof (count_update _ above_drawn (t_col t) (put_left b) (r_cells r) c Ec) as Cu. change (above_drawn (put_left b c)) with (above_drawn c) in Cu. destruct e; cbn [cmp] in *; lia.
Qed.
Lemma counted_above : forall e t b t', counted e t -> override_above_border t b = Ok t' -> counted e t'.
Proof.
  intros e t b t' [H1 H2] H. unfold override_above_border in H. destruct (curr_cell t) as [c| |] eqn:Ec; try discriminate. apply curr_ok in Ec. cbn [rbind] in H. apply Ok_inj in H. subst t'. unfold getc in Ec. destruct (nth_error (t_rows t) (t_row t)) as [r|] eqn:Er; [|discriminate].
  set (g := count_above (overridden (c_above c)) b). assert (Er1 : nth_error (update (t_row t) g (t_rows t)) (t_row t) = Some (g r)) by (rewrite nth_error_update, Nat.eqb_refl, Er; reflexivity). split.
  - intros x n E. specialize (H1 x n E). unfold column_lines, set_cell, with_rows in *. cbn [t_left t_rows t_row t_col] in *.
    pose proof (count_update _ (left_drawn x) (t_row t) g (t_rows t) r Er) as C1. pose proof (count_update _ (left_drawn x) (t_row t) (with_cells (update (t_col t) (put_above b))) (update (t_row t) g (t_rows t)) (g r) Er1) as C2.
    assert (Q1 : left_drawn x (g r) = left_drawn x r) by reflexivity. assert (Q2 : left_drawn x (with_cells (update (t_col t) (put_above b)) (g r)) = left_drawn x r).
    { unfold left_drawn, with_cells. cbn [r_cells g count_above]. rewrite nth_error_update. destruct (Nat.eqb_spec x (t_col t)) as [->|]; auto. rewrite Ec. reflexivity. }
    rewrite Q2, Q1 in C2. rewrite Q1 in C1. destruct e; cbn [cmp] in *; lia.
  - intros y r' E. unfold set_cell, with_rows in E. cbn [t_rows t_row t_col] in E. rewrite !nth_error_update in E. destruct (Nat.eqb_spec y (t_row t)) as [->|]; [|eauto]. rewrite Nat.eqb_refl, Er in E. cbn [option_map] in E. inversion E; subst r'. clear E. specialize (H2 _ _ Er). unfold row_lines, with_cells, g, count_above in *. cbn [r_cells r_above r_count].
    pose proof (count_update _ above_drawn (t_col t) (put_above b) (r_cells r) c Ec) as Cu. change (above_drawn (put_above b c)) with (drawn b) in Cu. change (above_drawn c) with (drawn (overridden (c_above c))) in Cu.
    set (k := (if drawn (r_above r) then 1 else 0)) in *. set (u := List.length (filter above_drawn (update (t_col t) (put_above b) (r_cells r)))) in *. set (v := List.length (filter above_drawn (r_cells r))) in *.
    assert (V : one (drawn (overridden (c_above c))) <= v). { unfold one, v. destruct (drawn (overridden (c_above c))) eqn:Ed; [|lia]. assert (I : In c (filter above_drawn (r_cells r))) by (apply filter_In; split; [eapply nth_error_In; eauto|exact Ed]). destruct (filter above_drawn (r_cells r)); [destruct I|cbn [List.length]; lia]. }
    pose proof (recount_ok e (overridden (c_above c)) b (k + v - one (drawn (overridden (c_above c)))) (r_count r)) as R. replace (one (drawn (overridden (c_above c))) + (k + v - one (drawn (overridden (c_above c))))) with (k + v) in R by lia. specialize (R H2). replace (k + u) with (one (drawn b) + (k + v - one (drawn (overridden (c_above c))))) by lia. exact R.
Qed.
Lemma counted_call : forall e t k t', (e = true -> no_span k \/ everywhere plain t) -> counted e t -> exec_call t k = Ok t' -> counted e t'.
Proof.
  intros e t k t' N H E. destruct k; cbn [exec_call] in E.
  - eapply counted_position; eauto.
  - unfold next_row in E. destruct (nth_error (t_rows t) (S (t_row t))); apply Ok_inj in E; subst t'; [exact H|]. exact (counted_append e t H).
  - unfold add_text_cell in E. destruct (curr_cell t); try discriminate. cbn [rbind] in E. destruct (get_text_width text) as [w| |]; try discriminate. cbn [rbind] in E. cbv zeta in E. destruct (at_ _ _) as [r| |]; try discriminate. cbn [rbind] in E. apply Ok_inj in E. subst t'.
    assert (K : counted e (set_cell (t_row t) (t_col t) (put_text text (get_text_height text) w) t)) by (apply counted_set; auto; intros c; destruct e; split; reflexivity). destruct (_ <=? _); exact K.
  - unfold set_default_alignments in E. destruct (n <=? TABLE_MAX_COLS); [|discriminate]. destruct (match hs with None => Ok (t_h t) | Some l => _ end); try discriminate. cbn [rbind] in E. destruct (match vs with None => Ok (t_v t) | Some l => _ end); try discriminate. cbn [rbind] in E. apply Ok_inj in E. subst t'. exact H.
  - unfold override_vertical_alignment, override in E. destruct (curr_cell t); try discriminate. cbn [rbind] in E. apply Ok_inj in E. subst t'. apply counted_set; auto. intros c; destruct e; split; reflexivity.
  - unfold override_horizontal_alignment, override in E. destruct (curr_cell t); try discriminate. cbn [rbind] in E. apply Ok_inj in E. subst t'. apply counted_set; auto. intros c; destruct e; split; reflexivity.
  - apply Ok_inj in E. subst t'. apply counted_row_map; auto. intros c. split; reflexivity.
  - apply Ok_inj in E. subst t'. apply counted_row_map; auto. intros c. split; reflexivity.
  - eapply counted_hline; eauto.
  - eapply counted_vline; eauto.
  - unfold make_boxed in E. destruct (set_position t 0 0) as [t1| |] eqn:E1; try discriminate. cbn [rbind] in E. destruct (set_vline t1 0 b) as [t2| |] eqn:E2; try discriminate. cbn [rbind] in E.
    destruct (set_hline t2 b) as [t3| |] eqn:E3; try discriminate. cbn [rbind] in E. destruct (set_position t3 (t_cols t3) (num_rows t3 - 1)) as [t4| |] eqn:E4; try discriminate. cbn [rbind] in E.
    destruct (set_vline t4 (t_cols t4) b) as [t5| |] eqn:E5; try discriminate. cbn [rbind] in E. eapply counted_hline; [|eauto]. eapply counted_vline; [|eauto]. eapply counted_position; [|eauto]. eapply counted_hline; [|eauto]. eapply counted_vline; [|eauto]. eapply counted_position; eauto.
  - eapply counted_vlines; eauto.
  - eapply counted_left; eauto.
  - eapply counted_above; eauto.
  - unfold set_span in E. destruct (_ || _); [discriminate|]. destruct (curr_cell t) as [c| |]; try discriminate. cbn [rbind] in E. destruct (_ && _); [|discriminate]. eapply counted_span_rows; [| |exact E].
    + intros Ee. destruct (N Ee) as [[]|Pl]. assert (K : everywhere plain (set_cell (t_row t) (t_col t) (put_span sx sy) t)) by (apply every_set; auto). exact K.
    + assert (K : counted e (set_cell (t_row t) (t_col t) (put_span sx sy) t)) by (apply counted_set; auto; apply keeps_put_span). exact K.
Qed.
Lemma counted_empty : forall e, counted e get_empty_table.
Proof.
  intros e. split.
  - intros x n E. unfold column_lines, get_empty_table in *. cbn [t_counts t_left t_rows] in *. apply nth_error_In, repeat_spec in E. subst n. replace (nth x (repeat BNone TABLE_MAX_COLS) BNone) with BNone by (symmetry; apply nth_repeat). cbn [drawn filter]. replace (left_drawn x (malloc_row 0)) with false; [destruct e; cbn; lia|]. unfold left_drawn, malloc_row. cbn [r_cells]. rewrite nth_error_map. destruct (nth_error (List.seq 0 TABLE_MAX_COLS) x); reflexivity.
  - intros y r E. destruct y as [|[|y]]; cbn in E; inversion E. destruct e; cbn; lia.
Qed.
Lemma counted_built : forall e (ok : table -> call -> Prop) t, (forall t k, ok t k -> e = true -> no_span k) -> built ok t -> counted e t.
Proof. intros e ok t H B. induction B as [|t k t' B IH O E]; [apply counted_empty|]. eapply counted_call; [intros Ee; left; eapply H; eauto|exact IH|exact E]. Qed.
Lemma plain_built : forall (ok : table -> call -> Prop) t, (forall t k, ok t k -> no_left_line k /\ no_above_line k) -> built ok t -> everywhere plain t.
Proof.
  intros ok t H B. induction B as [|t k t' B IH O E]; [apply every_empty; apply plain_fresh|]. destruct (H _ _ O) as [N1 N2]. eapply every_call; [..|exact IH|exact E]; auto; try apply plain_fresh. destruct k; auto.
  - cbn [no_left_line] in N1. subst b. intros c [P1 P2]. split; auto.
  - cbn [no_above_line] in N2. subst b. intros c [P1 P2]. split; auto.
  - split; [intros; apply plain_span; auto|auto].
Qed.
Lemma exact_built : forall (ok : table -> call -> Prop) t, (forall t k, ok t k -> no_left_line k /\ no_above_line k) -> built ok t -> counted true t.
Proof. intros ok t H B. induction B as [|t k t' B IH O E]; [apply counted_empty|]. eapply counted_call; [|exact IH|exact E]. intros _. right. eapply plain_built; eauto. Qed.
Lemma counted_superfluous : forall e t w h t', counted e t -> override_superfluous_lines t w h = Ok t' -> counted e t'.
Proof.
  intros e t w h t' H E. unfold override_superfluous_lines in E.
  assert (A : forall ys t t', counted e t -> blank_above t ys = Ok t' -> counted e t'). { induction ys as [|y ys IH]; intros t0 t1 H0 E0; cbn [blank_above] in E0; [apply Ok_inj in E0; subst; auto|]. destruct (override_above_border _ BNone) as [t2| |] eqn:E2; try discriminate. cbn [rbind] in E0. eapply IH; [|exact E0]. eapply counted_above; [|exact E2]. exact H0. }
  assert (B : forall xs t t', counted e t -> blank_left t xs = Ok t' -> counted e t'). { induction xs as [|x xs IH]; intros t0 t1 H0 E0; cbn [blank_left] in E0; [apply Ok_inj in E0; subst; auto|]. destruct (override_left_border _ BNone) as [t2| |] eqn:E2; try discriminate. cbn [rbind] in E0. eapply IH; [|exact E0]. eapply counted_left; [|exact E2]. exact H0. }
  destruct (if w =? 0 then blank_above t (List.seq 0 (num_rows t)) else _) as [t1| |] eqn:E1; try discriminate. cbn [rbind] in E. assert (H1 : counted e t1) by (destruct (w =? 0); [eapply A; eauto|apply Ok_inj in E1; subst t1; exact H]). destruct (h =? 0); [eapply B; eauto|apply Ok_inj in E; subst t'; exact H1].
Qed.
Lemma counted_lines : forall t, wf t -> counted true t -> (forall x, x < TABLE_MAX_COLS -> has_vline t x = (0 <? column_lines t x)) /\ (forall y r, nth_error (t_rows t) y = Some r -> has_hline t y = (0 <? row_lines r)).
Proof.
  intros t W [H1 H2]. split.
  - intros x X. destruct (has_vline_at t x) as (n & N1 & N2); [rewrite (sh_counts t (proj1 W)); auto|]. rewrite N2. rewrite (H1 _ _ N1). reflexivity.
  - intros y r E. unfold has_hline. rewrite E, (H2 _ _ E). reflexivity.
Qed.
