(** Proofs about tables: column widths and row heights (C50). *)
From Coq Require Import List Ascii String NArith ZArith Bool Lia Arith.
From Verif Require Import M_Base M_StringUtil M_Eval M_Table S_Util S_Table L_StringUtil.
Import ListNotations.
Open Scope nat_scope.

(** ** Lists *)
Lemma update_length : forall A n (f : A -> A) l, List.length (update n f l) = List.length l.
Proof.
  intros A n f l. unfold update. destruct (nth_error l n) eqn:E; auto. assert (n < List.length l) by (apply nth_error_Some; congruence).
  rewrite app_length. cbn [List.length]. rewrite firstn_length, skipn_length. lia.
Qed.
Lemma nth_error_update : forall A n (f : A -> A) l m, nth_error (update n f l) m = if m =? n then option_map f (nth_error l n) else nth_error l m.
Proof.
  intros A n f l m. unfold update. destruct (nth_error l n) as [a|] eqn:E.
  - assert (L : n < List.length l) by (apply nth_error_Some; congruence). assert (Lf : List.length (firstn n l) = n) by (rewrite firstn_length; lia).
    destruct (Nat.eqb_spec m n) as [->|N].
    + rewrite nth_error_app2 by lia. rewrite Lf, Nat.sub_diag. reflexivity.
    + destruct (Nat.lt_ge_cases m n) as [M|M].
      * rewrite nth_error_app1 by lia. rewrite <- (firstn_skipn n l) at 2. rewrite nth_error_app1 by lia. reflexivity.
      * rewrite nth_error_app2 by lia. rewrite Lf. replace (m - n) with (S (m - S n)) by lia. cbn [nth_error].
        rewrite <- (firstn_skipn (S n) l) at 2. assert (L2 : List.length (firstn (S n) l) = S n) by (rewrite firstn_length; lia). rewrite nth_error_app2 by lia. rewrite L2. reflexivity.
  - destruct (Nat.eqb_spec m n) as [->|N]; auto.
Qed.
Lemma nth_update : forall n f l m, n < List.length l -> nth m (update n f l) 0 = if m =? n then f (nth m l 0) else nth m l 0.
Proof.
  intros n f l m L. pose proof (nth_error_update _ n f l m) as E. destruct (Nat.eqb_spec m n) as [->|N].
  - destruct (nth_error l n) as [a|] eqn:A; [|apply nth_error_None in A; lia]. apply nth_error_nth with (d := 0) in E. rewrite E. f_equal. symmetry. apply nth_error_nth. exact A.
  - destruct (nth_error l m) as [a|] eqn:A.
    + apply nth_error_nth with (d := 0) in E. apply nth_error_nth with (d := 0) in A. congruence.
    + apply nth_error_None in A. rewrite !nth_overflow; auto. rewrite update_length. auto.
Qed.
Lemma sum_app : forall a b, sum (a ++ b) = sum a + sum b.
Proof. induction a as [|x a IH]; intros b; cbn [app sum fold_right]; auto. rewrite IH. unfold sum. lia. Qed.
Lemma total_step : forall w from to, from < to -> total w from to = nth from w 0 + total w (S from) to.
Proof. intros w from to H. unfold total. replace (to - from) with (S (to - S from)) by lia. reflexivity. Qed.
Lemma total_none : forall w from to, to <= from -> total w from to = 0.
Proof. intros w from to H. unfold total. replace (to - from) with 0 by lia. reflexivity. Qed.
Lemma sum_between_total : forall n w from to, to - from = n -> to <= List.length w -> sum_between w from to = total w from to.
Proof.
  induction n as [|n IH]; intros w from to E L.
  - rewrite total_none by lia. unfold sum_between. rewrite E. reflexivity.
  - rewrite total_step by lia. rewrite <- (IH w (S from) to) by lia. unfold sum_between. rewrite E. replace (to - S from) with n by lia.
    destruct (nth_error w from) as [a|] eqn:A; [|apply nth_error_None in A; lia]. rewrite (nth_error_nth _ _ 0 A).
    assert (K : skipn from w = a :: skipn (S from) w). { clear - A. revert w A. induction from; intros [|x w] A; try discriminate A; [injection A as ->; reflexivity|]. cbn. apply IHfrom. exact A. }
    rewrite K. cbn [firstn sum fold_right]. reflexivity.
Qed.
Lemma total_le : forall w v from to, (forall j, nth j w 0 <= nth j v 0) -> total w from to <= total v from to.
Proof. intros w v from to H. unfold total. induction (List.seq from (to - from)) as [|j l IH]; cbn [map fold_right]; auto. specialize (H j). lia. Qed.

(** ** Constraints *)
Definition within (k : constraint) (n : nat) : Prop := k_from k <= k_to k <= n.
Definition grows (w v : list nat) : Prop := List.length v = List.length w /\ forall j, nth j w 0 <= nth j v 0.
Lemma grows_refl : forall w, grows w w. Proof. split; auto. Qed.
Lemma grows_trans : forall a b c, grows a b -> grows b c -> grows a c.
Proof. intros a b c [L1 H1] [L2 H2]. split; [congruence|]. intros j. etransitivity; eauto. Qed.
Lemma single_grows : forall k w, within k (List.length w) -> grows w (satisfy_single k w).
Proof.
  intros k w [A B]. unfold satisfy_single. destruct (Nat.eqb_spec (k_to k - k_from k) 1); [|apply grows_refl]. split; [apply update_length|]. intros j. rewrite nth_update by lia.
  destruct (j =? k_from k); auto. destruct (Nat.ltb_spec (nth j w 0) (k_min k)); lia.
Qed.
Lemma widen_nth : forall from needed length n w, from + n <= List.length w ->
  List.length (fold_left (widen from needed length) (List.seq 0 n) w) = List.length w /\
  forall p, nth p (fold_left (widen from needed length) (List.seq 0 n) w) 0 = nth p w 0 + (if (from <=? p) && (p <? from + n) then needed / length + (if p - from <? needed mod length then 1 else 0) else 0).
Proof.
  intros from needed len. induction n as [|n IH]; intros w L.
  - split; auto. intros p. destruct (Nat.leb_spec from p), (Nat.ltb_spec p (from + 0)); cbn; lia.
  - rewrite seq_S, fold_left_app. cbn [fold_left]. destruct (IH w ltac:(lia)) as [E1 E2]. unfold widen at 1. split; [rewrite update_length; auto|].
    intros p. unfold widen at 1. rewrite nth_update by (rewrite E1; lia). rewrite E2. cbn [Nat.add]. destruct (Nat.eqb_spec p (from + n)) as [->|N].
    + destruct (Nat.leb_spec from (from + n)); [|lia]. destruct (Nat.ltb_spec (from + n) (from + n)); [lia|]. destruct (Nat.ltb_spec (from + n) (from + S n)); [|lia].
      cbn [andb]. replace (from + n - from) with n by lia. lia.
    + destruct (Nat.leb_spec from p); cbn [andb]; [|lia]. destruct (Nat.ltb_spec p (from + n)), (Nat.ltb_spec p (from + S n)); lia.
Qed.
Lemma share : forall r d n, n <= d -> fold_right Nat.add 0 (map (fun j => if j <? r then 1 else 0) (List.seq 0 n)) = Nat.min r n.
Proof.
  intros r d n. induction n as [|n IH]; intros H; [rewrite Nat.min_0_r; reflexivity|]. rewrite seq_S, map_app, fold_right_app. cbn [map fold_right Nat.add].
  assert (G : forall l a, fold_right Nat.add a l = a + fold_right Nat.add 0 l). { induction l as [|x l IHl]; intros a; cbn; [lia|]. rewrite IHl. lia. }
  rewrite G, IH by lia. destruct (Nat.ltb_spec n r); lia.
Qed.
Lemma spread : forall needed len, 0 < len -> fold_right Nat.add 0 (map (fun j => needed / len + (if j <? needed mod len then 1 else 0)) (List.seq 0 len)) = needed.
Proof.
  intros needed len H. assert (G : forall l, fold_right Nat.add 0 (map (fun j => needed / len + (if j <? needed mod len then 1 else 0)) l) = needed / len * List.length l + fold_right Nat.add 0 (map (fun j => if j <? needed mod len then 1 else 0) l)).
  { induction l as [|x l IH]; cbn [map fold_right List.length]; [lia|]. rewrite IH. lia. }
  rewrite G, seq_length, (share _ len) by lia. pose proof (Nat.mod_upper_bound needed len ltac:(lia)). pose proof (Nat.div_mod needed len ltac:(lia)). rewrite Nat.min_l by lia. lia.
Qed.
Lemma total_shift : forall w f from n, (forall j, j < n -> nth (from + j) w 0 = f j) -> total w from (from + n) = fold_right Nat.add 0 (map f (List.seq 0 n)).
Proof.
  intros w f from n H. unfold total. replace (from + n - from) with n by lia. f_equal. rewrite <- (Nat.add_0_r from) at 1. 
  assert (G : forall k m, k + m <= n -> map (fun j => nth j w 0) (List.seq (from + k) m) = map f (List.seq k m)).
  { intros k m. revert k. induction m as [|m IH]; intros k L; auto. cbn [List.seq map]. f_equal; [apply H; lia|]. replace (S (from + k)) with (from + S k) by lia. apply IH. lia. }
  apply G. lia.
Qed.
Lemma sum_two : forall (f g : nat -> nat) l, fold_right Nat.add 0 (map (fun j => f j + g j) l) = fold_right Nat.add 0 (map f l) + fold_right Nat.add 0 (map g l).
Proof. induction l as [|x l IH]; cbn [map fold_right]; lia. Qed.
Lemma span_satisfied : forall k w, within k (List.length w) -> grows w (satisfy_span k w) /\ (k_from k < k_to k -> k_min k <= total (satisfy_span k w) (k_from k) (k_to k)).
Proof.
  intros k w [A B]. unfold satisfy_span, needed_to_satisfy. rewrite (sum_between_total (k_to k - k_from k)) by lia. set (n := k_to k - k_from k). set (need := k_min k - total w (k_from k) (k_to k)).
  destruct (Nat.ltb_spec 0 need) as [Nd|Nd]; [|cbn [andb]; split; [apply grows_refl|subst need; lia]]. destruct (Nat.ltb_spec 0 n); [|cbn [andb]; split; [apply grows_refl|subst n; lia]]. cbn [andb].
  destruct (widen_nth (k_from k) need n n w ltac:(subst n; lia)) as [E1 E2]. set (v := fold_left (widen (k_from k) need n) (List.seq 0 n) w) in *. split.
  - split; auto. intros j. rewrite E2. lia.
  - intros _. replace (k_to k) with (k_from k + n) by (subst n; lia). rewrite (total_shift v (fun j => nth (k_from k + j) w 0 + (need / n + (if j <? need mod n then 1 else 0)))).
    + rewrite (sum_two (fun j => nth (k_from k + j) w 0)), spread by auto. rewrite <- (total_shift w (fun j => nth (k_from k + j) w 0) (k_from k) n) by auto.
      replace (k_from k + n) with (k_to k) by (subst n; lia). subst need. lia.
    + intros j J. rewrite E2. destruct (Nat.leb_spec (k_from k) (k_from k + j)); [|lia]. destruct (Nat.ltb_spec (k_from k + j) (k_from k + n)); [|lia]. cbn [andb].
      replace (k_from k + j - k_from k) with j by lia. reflexivity.
Qed.
Lemma spans_satisfied : forall ks w, Forall (fun k => within k (List.length w)) ks ->
  grows w (fold_left (fun vs k => satisfy_span k vs) ks w) /\ forall k, In k ks -> k_from k < k_to k -> k_min k <= total (fold_left (fun vs k => satisfy_span k vs) ks w) (k_from k) (k_to k).
Proof.
  induction ks as [|k ks IH]; intros w H; cbn [fold_left]; [split; [apply grows_refl|intros k []]|]. inversion H as [|? ? Hk Hs]; subst. destruct (span_satisfied k w Hk) as [G S].
  destruct (IH (satisfy_span k w)) as [G2 S2]. { destruct G as [L _]. rewrite L. auto. } split; [eapply grows_trans; eauto|]. intros k' [<-|I] Lt; auto.
  etransitivity; [exact (S Lt)|]. apply total_le. apply G2.
Qed.
Lemma singles_grow : forall ks w, Forall (fun k => within k (List.length w)) ks -> grows w (fold_left (fun vs k => satisfy_single k vs) ks w).
Proof.
  induction ks as [|k ks IH]; intros w H; cbn [fold_left]; [apply grows_refl|]. inversion H as [|? ? Hk Hs]; subst. pose proof (single_grows k w Hk) as G.
  eapply grows_trans; [exact G|]. apply IH. destruct G as [L _]. rewrite L. auto.
Qed.
Lemma all_satisfied : forall ks w, Forall (fun k => within k (List.length w)) ks ->
  grows w (satisfy_constraints ks w) /\ forall k, In k ks -> k_from k < k_to k -> k_min k <= total (satisfy_constraints ks w) (k_from k) (k_to k).
Proof.
  intros ks w H. unfold satisfy_constraints. pose proof (singles_grow ks w H) as G. destruct (spans_satisfied ks (fold_left (fun vs k => satisfy_single k vs) ks w)) as [G2 S2].
  { destruct G as [L _]. rewrite L. auto. } split; auto. eapply grows_trans; eauto.
Qed.
(** Cells of one column only: the widths are no greater than needed. *)
Lemma singles_exact : forall ks w b, Forall (fun k => k_to k = S (k_from k) /\ k_to k <= List.length w) ks ->
  (forall j, nth j w 0 <= b j) -> (forall k, In k ks -> k_min k <= b (k_from k)) ->
  forall j, nth j (satisfy_constraints ks w) 0 <= b j.
Proof.
  intros ks w b F W K. unfold satisfy_constraints.
  assert (A : forall l w, Forall (fun k => k_to k = S (k_from k) /\ k_to k <= List.length w) l -> (forall j, nth j w 0 <= b j) -> (forall k, In k l -> k_min k <= b (k_from k)) ->
    forall j, nth j (fold_left (fun vs k => satisfy_single k vs) l w) 0 <= b j).
  { clear. induction l as [|k l IH]; intros w F W K j; cbn [fold_left]; auto. inversion F as [|? ? [E L] F']; subst.
    assert (Ls : List.length (satisfy_single k w) = List.length w) by (unfold satisfy_single; destruct (_ =? 1); auto; apply update_length).
    apply IH; [rewrite Ls; auto| |intros; apply K; right; auto]. intros i. unfold satisfy_single. replace (k_to k - k_from k) with 1 by lia. cbn [Nat.eqb]. rewrite nth_update by lia.
    destruct (Nat.eqb_spec i (k_from k)) as [->|]; auto. specialize (K k (or_introl eq_refl)). destruct (_ <? _); auto. }
  assert (B : forall l w, Forall (fun k => k_to k = S (k_from k) /\ k_to k <= List.length w) l -> (forall j, nth j w 0 <= b j) -> (forall k, In k l -> k_min k <= b (k_from k)) ->
    forall j, nth j (fold_left (fun vs k => satisfy_span k vs) l w) 0 <= b j).
  { clear. induction l as [|k l IH]; intros w F W K j; cbn [fold_left]; auto. inversion F as [|? ? [E L] F']; subst.
    destruct (span_satisfied k w ltac:(split; lia)) as [[Ls _] _]. apply IH; [rewrite Ls; auto| |intros; apply K; right; auto]. intros i.
    unfold satisfy_span, needed_to_satisfy. rewrite (sum_between_total 1) by lia. rewrite total_step, total_none by lia. replace (k_to k - k_from k) with 1 by lia.
    destruct (Nat.ltb_spec 0 (k_min k - (nth (k_from k) w 0 + 0))) as [P|P]; cbn [andb]; auto. set (need := k_min k - (nth (k_from k) w 0 + 0)) in *.
    destruct (widen_nth (k_from k) need 1 1 w ltac:(lia)) as [_ E2]. change (0 <? 1) with true. cbn [andb]. rewrite E2. rewrite Nat.div_1_r. change (need mod 1) with 0.
    destruct (Nat.leb_spec (k_from k) i); cbn [andb]; [|rewrite Nat.add_0_r; auto]. destruct (Nat.ltb_spec i (k_from k + 1)); [|rewrite Nat.add_0_r; auto].
    assert (i = k_from k) by lia. subst i. specialize (K k (or_introl eq_refl)). change (_ <? 0) with false. cbv iota. lia. }
  intros j. apply B; auto.
  - assert (Ls : List.length (fold_left (fun vs k => satisfy_single k vs) ks w) = List.length w).
    { clear - F. assert (G : forall l (w : list nat), List.length (fold_left (fun vs k => satisfy_single k vs) l w) = List.length w).
      { induction l as [|k l IH]; intros v; cbn [fold_left]; auto. rewrite IH. unfold satisfy_single. destruct (_ =? 1); auto. apply update_length. } apply G. }
    rewrite Ls. auto.
Qed.

(** ** Texts *)
Lemma visible_app : forall a b e, visible e (a ++ b) = visible e a + visible (escaped e a) b.
Proof. induction a as [|c a IH]; intros b e; cbn [app visible escaped]; auto. destruct e; [apply IH|]. destruct (ceqb c ESC); [apply IH|]. rewrite IH. reflexivity. Qed.
Lemma escaped_app : forall a b e, escaped e (a ++ b) = escaped (escaped e a) b.
Proof. induction a as [|c a IH]; intros b e; cbn [app escaped]; auto. destruct e; apply IH. Qed.
Lemma spaces_visible : forall n, visible false (spaces n) = n /\ escaped false (spaces n) = false.
Proof. induction n as [|n [A B]]; [split; reflexivity|]. unfold spaces in *. cbn [repeat visible escaped]. change (ceqb " " ESC) with false. cbv iota. auto. Qed.
Lemma tidy_closed : forall s p, tidy p s -> escaped (match p with Inside => true | _ => false end) s = false.
Proof.
  induction s as [|c s IH]; intros p H; cbn [tidy escaped] in *.
  - destruct p; auto. congruence.
  - destruct p.
    + destruct (ceqb c ESC); apply IH in H; exact H.
    + destruct (ceqb c "m"); apply IH in H; exact H.
    + destruct H as [N H]. apply IH in H. replace (ceqb c ESC) with false; auto. symmetry. apply Ascii.eqb_neq. auto.
Qed.
Definition line_end (s : cstr) : Prop := s = [] \/ exists r, s = LF :: r.
Lemma skip_inside : forall s tl, tidy Inside s -> ~ In LF s -> exists r, skip_to_m (s ++ tl) = Ok (r ++ tl) /\ tidy Behind r /\ List.length r < List.length s /\ visible true s = visible false r /\ ~ In LF r.
Proof.
  induction s as [|c s IH]; intros tl H N; cbn [tidy] in H; [congruence|]. cbn [app skip_to_m visible]. destruct (ceqb c "m") eqn:E.
  - exists s. cbn [List.length]. split; auto. split; auto. split; [lia|]. split; auto. intro X. apply N. right. exact X.
  - destruct (IH tl H) as (r & A & B & C & D & F). { intro X. apply N. right. exact X. } exists r. cbn [List.length]. auto 8 with arith.
Qed.
Lemma skip_plain : forall s tl, tidy Plain s -> line_end tl -> ~ In LF s -> exists r, skip_ansi (s ++ tl) = Ok (r ++ tl) /\ tidy Behind r /\ List.length r <= List.length s /\ visible false s = visible false r /\ ~ In LF r.
Proof.
  intros [|c s] tl H T N.
  - exists []. cbn [app]. split; [|split; [cbn; discriminate|auto]]. destruct T as [->|[r ->]]; reflexivity.
  - cbn [app]. unfold skip_ansi. cbn [tidy visible] in *. destruct (ceqb c ESC) eqn:E.
    + cbn [skip_to_m]. replace (ceqb c "m") with false by (apply Ascii.eqb_eq in E; subst c; reflexivity).
      destruct (skip_inside s tl H) as (r & A & B & C & D & F). { intro X. apply N. right. exact X. } exists r. cbn [List.length]. change (ceqb c "027") with (ceqb c ESC). rewrite E. split; [exact A|]. auto 8 with arith.
    + change (ceqb c "027") with (ceqb c ESC). rewrite E. exists (c :: s). split; auto. split; [cbn [tidy]; split; [apply Ascii.eqb_neq; exact E|exact H]|]. cbn [visible]. rewrite E. auto.
Qed.
Lemma console_behind : forall n s tl f k, List.length s <= n -> tidy Behind s -> line_end tl -> ~ In LF s -> n < f -> console_loop f (s ++ tl) k = Ok (k + visible false s).
Proof.
  induction n as [|n IH]; intros s tl f k L H T N F; (destruct f as [|f]; [lia|]); destruct s as [|c s]; cbn [List.length] in L; try lia; cbn [app console_loop visible].
  1,2: rewrite Nat.add_0_r; destruct T as [->|[r ->]]; reflexivity.
  assert (E : ceqb c LF = false). { apply Ascii.eqb_neq. intros ->. apply N. left. reflexivity. } rewrite E. destruct H as [Nc H]. assert (Ec : ceqb c ESC = false) by (apply Ascii.eqb_neq; auto). rewrite Ec.
  destruct (skip_plain s tl H T) as (r & A & B & C & D & G). { intro X. apply N. right. exact X. } rewrite A. cbn [rbind]. rewrite (IH r tl f (S k)); auto; [|lia..]. f_equal. lia.
Qed.
Lemma console_ok : forall s tl, tidy Plain s -> line_end tl -> ~ In LF s -> console_strlen (s ++ tl) = Ok (visible false s).
Proof.
  intros s tl H T N. unfold console_strlen. destruct (skip_plain s tl H T N) as (r & A & B & C & D & F). rewrite A. cbn [rbind].
  rewrite D. apply (console_behind (List.length s)); auto. rewrite app_length. lia.
Qed.
(** What get_line_of_string points at *)
Lemma line_split : forall s, exists tl, s = firstn (line_length s) s ++ tl /\ line_end tl /\ ~ In LF (firstn (line_length s) s).
Proof.
  induction s as [|c s (tl & A & B & N)]; cbn [line_length].
  - exists []. split; [reflexivity|]. split; [left; reflexivity|intros []].
  - destruct (ceqb c LF) eqn:E; cbn [firstn].
    + exists (c :: s). split; auto. split; [right; exists s; f_equal; apply Ascii.eqb_eq; exact E|intros []].
    + exists tl. split; [cbn [app]; rewrite <- A; reflexivity|]. split; auto. intros [X|X]; [|auto]. apply Ascii.eqb_neq in E. auto.
Qed.
Lemma line_found : forall s k r n, get_line_of_string s k = Some (r, n) -> n = line_length r.
Proof. intros s k r n H. unfold get_line_of_string in H. destruct (if 0 <? k then line_search s k else (s, k)) as [s' k']. destruct (k' =? 0); inversion H; reflexivity. Qed.
Lemma tidy_lines : forall s k, tidy_text s ->
  match nth_error (text_lines s) k with
  | Some l => exists r, get_line_of_string s k = Some (r, List.length l) /\ firstn (List.length l) r = l /\ tidy Plain l /\ console_strlen r = Ok (visible false l)
  | None => get_line_of_string s k = None
  end.
Proof.
  intros s k [T H]. assert (Hs : forall s', s <> LF :: s') by (intros s' ->; apply H; reflexivity). destruct (nth_error (text_lines s) k) as [l|] eqn:E.
  - destruct (get_line_ok s k l (or_introl Hs) E) as (r & A & B). exists r. split; auto. split; auto. rewrite Forall_forall in T. assert (Tl : tidy Plain l) by (apply T; eapply nth_error_In; eauto). split; auto.
    pose proof (line_found _ _ _ _ A) as Ln. destruct (line_split r) as (tl & C & D & F). rewrite <- Ln, B in C, F. rewrite C. apply console_ok; auto.
  - apply get_line_none; auto.
Qed.
Lemma text_lines_height : forall s, List.length (text_lines s) = get_text_height (Some s).
Proof.
  induction s as [|c s IH]; auto. cbn [text_lines get_text_height filter] in *. change (Ascii.eqb c (ascii_of_nat 10)) with (ceqb c LF). destruct (ceqb c LF); cbn [List.length].
  - rewrite IH. reflexivity.
  - destruct (text_lines s); [discriminate IH|]. exact IH.
Qed.
Lemma width_loop_spec : forall s ks w, tidy_text s -> Forall (fun k => k < List.length (text_lines s)) ks ->
  exists w', width_loop s ks w = Ok w' /\ w <= w' /\ (forall k l, In k ks -> nth_error (text_lines s) k = Some l -> visible false l <= w') /\
  (w' = w \/ exists l, In l (text_lines s) /\ w' = visible false l).
Proof.
  intros s. induction ks as [|k ks IH]; intros w T F; cbn [width_loop].
  - exists w. split; auto. split; auto. split; [intros k l []|auto].
  - inversion F as [|? ? K F']; subst. pose proof (tidy_lines s k T) as H. destruct (nth_error (text_lines s) k) as [l|] eqn:E; [|apply nth_error_None in E; lia].
    destruct H as (r & A & _ & _ & B). rewrite A, B. cbn [rbind]. destruct (IH (if w <? visible false l then visible false l else w) T F') as (w' & C & D & G & J). exists w'. split; auto.
    destruct (Nat.ltb_spec w (visible false l)); (split; [lia|]); (split; [intros k' l' [<-|I] N; [replace l' with l by congruence; lia|eauto]|]).
    + destruct J as [->|J]; auto. right. exists l. split; auto. eapply nth_error_In; eauto.
    + auto.
Qed.
(** The width of a tidy text is the width of its widest line. *)
Lemma width_ok : forall s, tidy_text s -> exists w, get_text_width (Some s) = Ok w /\ (forall l, In l (text_lines s) -> visible false l <= w) /\ (exists l, In l (text_lines s) /\ w = visible false l).
Proof.
  intros s T. unfold get_text_width. rewrite <- text_lines_height. destruct (width_loop_spec s (List.seq 0 (List.length (text_lines s))) 0 T) as (w & A & _ & B & C).
  - apply Forall_forall. intros k I. apply in_seq in I. lia.
  - assert (B' : forall l, In l (text_lines s) -> visible false l <= w). { intros l I. apply In_nth_error in I. destruct I as (k & E). apply (B k); auto. apply in_seq. assert (k < List.length (text_lines s)) by (apply nth_error_Some; congruence). lia. }
    exists w. split; auto. split; auto. destruct C as [->|C]; auto. pose proof (text_lines_height s) as L. destruct (text_lines s) as [|l ls] eqn:E; [discriminate L|].
    exists l. split; [left; reflexivity|]. specialize (B' l (or_introl eq_refl)). lia.
Qed.
