(** Tables of texts, built row by row (for C69). *)
From Coq Require Import List Ascii String NArith ZArith Bool Lia Arith.
From Verif Require Import M_Base M_StringUtil M_Eval M_Table S_Util S_Table S_TableApi L_Table L_TableWf L_TablePrint L_TableApi.
Import ListNotations.
Open Scope nat_scope.
Open Scope res_scope.

Definition text_at (M : list (list (option cstr))) (i j : nat) : option (option cstr) := match nth_error M i with Some r => nth_error r j | None => None end.
Definition grid_spot (M : list (list (option cstr))) (i j : nat) : spot := match text_at M i j with Some s => write s new_spot | None => new_spot end.
Definition grid_sheet (P : list (list (option cstr))) (a : list (option cstr)) : sheet :=
  {| g_rows := S (List.length P); g_cols := maximum (map (@List.length (option cstr)) (P ++ [a])); g_y := List.length P; g_x := List.length a; g_spot := grid_spot (P ++ [a]);
     g_hline := fun _ => BNone; g_vline := fun _ => BNone; g_h := fun _ => HLeft; g_v := fun _ => VTop |}.
Lemma text_last : forall P a i j, text_at (P ++ [a]) i j = if i =? List.length P then nth_error a j else text_at P i j.
Proof.
  intros P a i j. unfold text_at. destruct (Nat.eqb_spec i (List.length P)) as [->|N]; [rewrite nth_error_app2, Nat.sub_diag by lia; reflexivity|].
  destruct (le_lt_dec (List.length P) i); [|rewrite nth_error_app1; auto]. rewrite (proj2 (nth_error_None (P ++ [a]) i)) by (rewrite app_length; cbn; lia). rewrite (proj2 (nth_error_None P i)) by lia. reflexivity.
Qed.
Lemma maximum_app : forall a b, maximum (a ++ b) = Nat.max (maximum a) (maximum b).
Proof. unfold maximum. induction a as [|n a IH]; intros b; cbn [app fold_right]; auto. rewrite IH. lia. Qed.
Lemma one_text : forall P a s, List.length a < TABLE_MAX_COLS -> exists g, does (grid_sheet P a) (CAdd s) = Some g /\ same g (grid_sheet P (a ++ [s])).
Proof.
  intros P a s L. cbn [does]. cbn [g_x g_y grid_sheet]. apply Nat.ltb_lt in L as L'. rewrite L'. cbn [if_]. eexists. split; [reflexivity|].
  assert (Nf : next_free (grid_sheet P a) (List.length P) (S (List.length a)) = S (List.length a)).
  { unfold next_free. destruct (TABLE_MAX_COLS - S (List.length a)) as [|n] eqn:E; cbn [List.seq List.find]; [lia|]. cbn [g_spot grid_sheet]. unfold grid_spot. rewrite text_last, Nat.eqb_refl. rewrite (proj2 (nth_error_None a (S (List.length a)))) by lia. reflexivity. }
  rewrite Nf. unfold same. cbn [g_rows g_cols g_y g_x g_spot g_hline g_vline g_h g_v goto wide here spots grid_sheet].
  split; [lia|]. split; [rewrite !map_app, !maximum_app; cbn [map maximum fold_right]; rewrite app_length; cbn [List.length]; lia|]. split; [reflexivity|]. split; [rewrite app_length; cbn; lia|]. split; [|auto].
  intros i j. unfold grid_spot. rewrite !text_last. destruct (Nat.eqb_spec i (List.length P)) as [->|]; cbn [andb]; [|reflexivity]. destruct (Nat.eqb_spec j (List.length a)) as [->|N].
  - rewrite nth_error_app2, Nat.sub_diag by lia. cbn [nth_error]. rewrite (proj2 (nth_error_None a (List.length a))) by lia. reflexivity.
  - destruct (le_lt_dec (List.length a) j).
    + rewrite (proj2 (nth_error_None (a ++ [s]) j)) by (rewrite app_length; cbn; lia). rewrite (proj2 (nth_error_None a j)) by lia. reflexivity.
    + rewrite nth_error_app1 by lia. reflexivity.
Qed.
Lemma one_row : forall P a, exists g, does (grid_sheet P a) CNextRow = Some g /\ same g (grid_sheet (P ++ [a]) []).
Proof.
  intros P a. cbn [does]. eexists. split; [reflexivity|]. cbn [g_y grid_sheet].
  assert (Nf : next_free (grid_sheet P a) (S (List.length P)) 0 = 0).
  { unfold next_free. cbn [TABLE_MAX_COLS Nat.sub List.seq List.find]. cbn [g_spot grid_sheet]. unfold grid_spot. rewrite text_last. replace (S (List.length P) =? List.length P) with false by (symmetry; apply Nat.eqb_neq; lia). unfold text_at. rewrite (proj2 (nth_error_None P (S (List.length P)))) by lia. reflexivity. }
  rewrite Nf. unfold same. cbn [g_rows g_cols g_y g_x g_spot g_hline g_vline g_h g_v goto grid_sheet].
  rewrite app_length. cbn [List.length]. split; [lia|]. split; [rewrite !map_app, !maximum_app; cbn [map maximum fold_right List.length]; lia|]. split; [lia|]. split; [reflexivity|]. split; [|auto].
  intros i j. unfold grid_spot. rewrite (text_last (P ++ [a])). destruct (Nat.eqb_spec i (List.length (P ++ [a]))) as [->|]; [|reflexivity]. unfold text_at. rewrite (proj2 (nth_error_None (P ++ [a]) _)) by lia. destruct j; reflexivity.
Qed.
Lemma does_all_same : forall ks g h, same g h -> agree (does_all g ks) (does_all h ks).
Proof.
  induction ks as [|k ks IH]; intros g h Sa; cbn [does_all]; auto. pose proof (does_same _ _ k Sa) as D. unfold agree in D. destruct (does g k), (does h k); try destruct D; cbn; auto. apply IH. unfold same. auto 9.
Qed.
Lemma does_all_app : forall a b g, does_all g (a ++ b) = match does_all g a with Some h => does_all h b | None => None end.
Proof. induction a as [|k a IH]; intros b g; cbn [app does_all]; auto. destruct (does g k); auto. Qed.
Lemma row_texts : forall r P a, List.length (a ++ r) <= TABLE_MAX_COLS -> exists g, does_all (grid_sheet P a) (row_calls r) = Some g /\ same g (grid_sheet P (a ++ r)).
Proof.
  induction r as [|s r IH]; intros P a L; cbn [row_calls map does_all]; [eexists; split; [reflexivity|]; rewrite app_nil_r; apply same_refl_|].
  destruct (one_text P a s) as (g & E & Sg). { rewrite app_length in L. cbn in L. lia. } rewrite E. destruct (IH P (a ++ [s])) as (h & E2 & Sh). { rewrite <- app_assoc. exact L. }
  pose proof (does_all_same (row_calls r) _ _ Sg) as D. rewrite E2 in D. unfold agree in D. change (map CAdd r) with (row_calls r). destruct (does_all g (row_calls r)) as [g'|]; [|destruct D]. exists g'. split; auto. eapply same_trans; [exact D|]. rewrite <- app_assoc in Sh. exact Sh.
Qed.
Lemma grid_texts : forall M P, M <> [] -> Forall (fun r => List.length r <= TABLE_MAX_COLS) M ->
  exists g Q z, P ++ M = Q ++ [z] /\ does_all (grid_sheet P []) (grid_calls M) = Some g /\ same g (grid_sheet Q z).
Proof.
  induction M as [|r M IH]; intros P N F; [congruence|]. inversion F as [|? ? L F']; subst. destruct (row_texts r P [] L) as (g & E & Sg). cbn [app] in Sg. destruct M as [|r' M].
  - exists g, P, r. auto.
  - cbn [grid_calls]. change (match M with [] => row_calls r' | _ :: _ => row_calls r' ++ CNextRow :: grid_calls M end) with (grid_calls (r' :: M)). rewrite does_all_app, E. cbn [does_all].
    destruct (one_row P r) as (g1 & E1 & S1). pose proof (does_same _ _ CNextRow Sg) as D. rewrite E1 in D. unfold agree in D. destruct (does g CNextRow) as [g2|]; [|destruct D].
    destruct (IH (P ++ [r])) as (h & Q & z & Eq & E2 & S2); auto; [discriminate|]. pose proof (does_all_same (grid_calls (r' :: M)) _ _ (same_trans _ _ _ D S1)) as D2. rewrite E2 in D2. unfold agree in D2. destruct (does_all g2 (grid_calls (r' :: M))) as [g3|]; [|destruct D2].
    exists g3, Q, z. split; [rewrite <- Eq, <- app_assoc; reflexivity|]. split; auto. eapply same_trans; eauto.
Qed.
Lemma grid_proper : forall M g, Forall (Forall tidy_cell) M -> proper_all g (grid_calls M).
Proof.
  assert (R : forall r ks g, Forall tidy_cell r -> (forall g, proper_all g ks) -> proper_all g (row_calls r ++ ks)).
  { induction r as [|s r IH]; intros ks g F K; cbn [row_calls map app]; auto. inversion F; subst. cbn [proper_all]. split; [auto|]. destruct (does g (CAdd s)); auto. }
  induction M as [|r M IH]; intros g F; cbn [grid_calls]; [exact Logic.I|]. inversion F; subst. destruct M as [|r' M]; [rewrite <- (app_nil_r (row_calls r)); apply R; auto; intros; exact Logic.I|].
  apply R; auto. intros h. cbn [proper_all]. split; [exact Logic.I|]. destruct (does h CNextRow); auto.
Qed.
Lemma new_grid : same new_sheet (grid_sheet [] []).
Proof. unfold same. cbn [g_rows g_cols g_y g_x g_spot g_hline g_vline g_h g_v new_sheet grid_sheet]. repeat (split; [reflexivity|]). split; [|auto]. intros [|[|i]] [|j]; reflexivity. Qed.
Lemma proper_app : forall a b g, proper_all g a -> (forall h, proper_all h b) -> proper_all g (a ++ b).
Proof. induction a as [|k a IH]; intros b g A B; cbn [app proper_all] in *; auto. destruct A as [A1 A2]. split; auto. destruct (does g k); auto. Qed.
(** The table; at last the alignments may be set. *)
Theorem grid_table : forall M hs, M <> [] -> Forall (fun r => List.length r <= TABLE_MAX_COLS) M -> Forall (Forall tidy_cell) M -> List.length hs <= TABLE_MAX_COLS ->
  exists t, exec_calls get_empty_table (grid_calls M ++ alignment_call hs) = Ok t /\ num_rows t = List.length M /\ t_cols t = maximum (map (@List.length (option cstr)) M) /\ (forall y x, seen (look t y x) = grid_spot M y x) /\ (forall y, row_line t y = BNone) /\ (forall x, nth x (t_left t) BNone = BNone) /\ (forall x, nth x (t_h t) HLeft = nth x hs HLeft) /\ (forall x, nth x (t_v t) VTop = VTop).
Proof.
  intros M hs N F T Lh. destruct (grid_texts M [] N F) as (g & Q & z & Eq & E & Sg). cbn [app] in Eq. pose proof (does_all_same (grid_calls M) _ _ new_grid) as D. rewrite E in D. unfold agree in D.
  assert (Pr : proper_all new_sheet (grid_calls M ++ alignment_call hs)).
  { apply proper_app; [apply grid_proper; exact T|]. intros h. unfold alignment_call. destruct hs; cbn [proper_all proper]; auto. split; [exact Logic.I|]. destruct (does h _); exact Logic.I. }
  pose proof (calls_view (grid_calls M ++ alignment_call hs) get_empty_table new_sheet wf_empty empty_view Pr) as V. rewrite does_all_app in V. destruct (does_all new_sheet (grid_calls M)) as [h|]; [|destruct D].
  assert (X : exists k, does_all h (alignment_call hs) = Some k /\ g_rows k = g_rows h /\ g_cols k = g_cols h /\ (forall y x, g_spot k y x = g_spot h y x) /\ (forall y, g_hline k y = g_hline h y) /\ (forall x, g_vline k x = g_vline h x) /\
     (forall x, g_h k x = match nth_error hs x with Some a => a | None => g_h h x end) /\ (forall x, g_v k x = g_v h x)).
  { unfold alignment_call. destruct hs as [|a hs]; [exists h; repeat (split; [reflexivity|]); split; [intros [|x]; reflexivity|reflexivity]|]. cbn [does_all does enough].
    replace (List.length (a :: hs) <=? TABLE_MAX_COLS) with true by (symmetry; apply Nat.leb_le; exact Lh). rewrite Nat.leb_refl. cbn [andb if_]. eexists. split; [reflexivity|]. cbn [g_rows g_cols g_spot g_hline g_vline g_h g_v aligns]. repeat (split; [reflexivity|]). split; [|reflexivity].
    intros x. destruct (Nat.ltb_spec x (List.length (a :: hs))) as [X|X]; [rewrite (nth_error_nth' (a :: hs) HLeft X); reflexivity|rewrite (proj2 (nth_error_None (a :: hs) x) X); reflexivity]. }
  destruct X as (k & Ek & K1 & K2 & K3 & K4 & K5 & K6 & K7). rewrite Ek in V. destruct (exec_calls get_empty_table (grid_calls M ++ alignment_call hs)) as [t| |]; [|destruct V|destruct V].
  exists t. split; auto. pose proof (view_eqs _ _ V) as (A1 & A2 & A3 & A4 & A5 & A6 & A7 & A8 & A9).
  assert (Sh : same h (grid_sheet Q z)) by exact (same_trans _ _ _ D Sg). destruct Sh as (B1 & B2 & B3 & B4 & B5 & B6 & B7 & B8 & B9).
  cbn [g_rows g_cols g_y g_x g_spot g_hline g_vline g_h g_v grid_sheet] in *. rewrite <- Eq in *. split; [rewrite A1, K1, <- B1, Eq, app_length; cbn; lia|]. split; [congruence|]. split; [intros; rewrite A5, K3, <- B5; reflexivity|].
  split; [intros; rewrite A6, K4, <- B6; reflexivity|]. split; [intros; rewrite A7, K5, <- B7; reflexivity|]. split; [|intros; rewrite A9, K7, <- B9; reflexivity].
  intros x. rewrite A8, K6, <- B8. destruct (nth_error hs x) as [a|] eqn:En; [rewrite (nth_error_nth _ _ HLeft En); reflexivity|rewrite nth_overflow by (apply nth_error_None; exact En); reflexivity].
Qed.
