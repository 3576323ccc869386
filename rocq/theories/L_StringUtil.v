(** Proofs about M_StringUtil *)
From Coq Require Import List Ascii String NArith ZArith Bool Lia Arith.
From Verif Require Import M_Base M_StringUtil S_Util L_Trie.
Import ListNotations.
Open Scope res_scope.

Lemma strneqb_pre : forall p s, List.length p <= List.length s ->
  (strneqb (List.length p) p s = true <-> starts_with p s).
Proof.
  unfold starts_with. induction p as [|c p IH]; intros s Hl; simpl.
  - split; eauto.
  - destruct s as [|d s]; [simpl in Hl; lia|]. simpl in Hl.
    rewrite andb_true_iff. unfold ceqb. rewrite Ascii.eqb_eq, IH by lia. split.
    + intros [-> [r ->]]. eauto.
    + intros [r E]. inversion E; subst. eauto.
Qed.

Lemma begins_with_spec : forall p s, begins_with p s = true <-> starts_with p s.
Proof.
  intros p s. unfold begins_with. destruct (Nat.ltb_spec (List.length s) (List.length p)).
  - split; [discriminate|]. intros [r ->]. rewrite app_length in H. lia.
  - apply strneqb_pre; auto.
Qed.

Lemma strstr_some : forall s d n, strstr s d = Some n ->
  n + List.length d <= List.length s
  /\ cut_at_first d s (firstn n s) (skipn (n + List.length d) s).
Proof.
  induction s as [|c s IH]; intros d n H; cbn [strstr] in H.
  - destruct (begins_with d []) eqn:E; [|discriminate]. inversion H; subst.
    apply begins_with_spec in E. destruct E as [r E]. symmetry in E. apply app_eq_nil in E.
    destruct E; subst. split; [simpl; lia|]. split; [reflexivity|]. intros; simpl; lia.
  - destruct (begins_with d (c :: s)) eqn:E.
    + inversion H; subst. apply begins_with_spec in E. destruct E as [r E]. rewrite E.
      split; [rewrite app_length; lia|]. split.
      * simpl. rewrite skipn_app, Nat.sub_diag, skipn_all. reflexivity.
      * intros; simpl; lia.
    + destruct (strstr s d) as [k|] eqn:Es; [|discriminate]. inversion H; subst.
      destruct (IH _ _ Es) as [Hl [E1 E2]]. split; [simpl; lia|]. split.
      * cbn [firstn app Nat.add skipn]. f_equal. exact E1.
      * intros a' b' Ha. destruct a' as [|x a'].
        { exfalso. assert (Hb : begins_with d (c :: s) = true)
            by (apply begins_with_spec; exists b'; exact Ha). congruence. }
        inversion Ha; subst. specialize (E2 a' b' eq_refl). cbn [firstn List.length]. lia.
Qed.

Lemma strstr_none : forall s d, strstr s d = None -> does_not_occur d s.
Proof.
  unfold does_not_occur. induction s as [|c s IH]; intros d H a b E; cbn [strstr] in H.
  - destruct (begins_with d []) eqn:Eb; [discriminate|].
    symmetry in E. apply app_eq_nil in E. destruct E as [-> E]. apply app_eq_nil in E.
    destruct E as [-> ->]. cbn in Eb. discriminate.
  - destruct (begins_with d (c :: s)) eqn:Eb; [discriminate|].
    destruct (strstr s d) eqn:Es; [discriminate|]. destruct a as [|x a].
    + assert (Hb : begins_with d (c :: s) = true)
        by (apply begins_with_spec; exists b; exact E). congruence.
    + inversion E; subst. eapply IH; eauto.
Qed.

Lemma str_split_spec : forall ds s, split_into s ds (str_split s ds).
Proof.
  induction ds as [|d ds IH]; intros s; cbn [str_split].
  - constructor.
  - destruct (strstr s d) as [n|] eqn:E.
    + apply strstr_some in E. econstructor; [apply E|apply IH].
    + apply split_stop. apply strstr_none; auto.
Qed.

Lemma split_nonempty : forall s ds ps, split_into s ds ps -> ps <> [].
Proof. intros s ds ps H. inversion H; discriminate. Qed.

Lemma split_rejoin : forall s ds ps, split_into s ds ps -> rejoin ps ds = s.
Proof.
  intros s ds ps H. induction H as [s|s d ds a b ps [E _] H IH|s d ds Hn]; auto.
  apply split_nonempty in H. destruct ps as [|p ps]; [congruence|].
  cbn [rejoin] in *. rewrite IH. auto.
Qed.

(** ** Lines *)
Lemma LF_code : LF = ascii_of_nat 10.
Proof. reflexivity. Qed.

Lemma text_lines_nonempty : forall s, text_lines s <> [].
Proof.
  destruct s; simpl; [discriminate|]. destruct (Ascii.eqb a (ascii_of_nat 10)); [discriminate|].
  destruct (text_lines s); discriminate.
Qed.

(** The text from line [k] on *)
Lemma line0 : forall s l ls, text_lines s = l :: ls ->
  line_length s = List.length l /\ firstn (line_length s) s = l.
Proof.
  induction s as [|c s IH]; intros l ls H; simpl in *.
  - inversion H; auto.
  - change (ceqb c LF) with (Ascii.eqb c (ascii_of_nat 10)).
    destruct (Ascii.eqb c (ascii_of_nat 10)).
    + inversion H; auto.
    + destruct (text_lines s) as [|l0 ls0] eqn:E; [apply text_lines_nonempty in E; tauto|].
      inversion H; subst. destruct (IH _ _ eq_refl) as [H1 H2]. simpl. rewrite H1. split; auto.
      f_equal. rewrite <- H1. auto.
Qed.

Lemma ls_cons2 : forall a c s'' k, line_search (a :: c :: s'') k =
  if ceqb c LF then match k with 1 => (s'', 0) | _ => line_search (c :: s'') (pred k) end
  else line_search (c :: s'') k.
Proof. reflexivity. Qed.

(** [line_search (c :: s) k] finds the text behind the [k]-th newline of [s]. *)
Lemma line_search_spec : forall s c k, 1 <= k ->
  (k < List.length (text_lines s) ->
     exists r, line_search (c :: s) k = (r, 0) /\ text_lines r = skipn k (text_lines s))
  /\ (List.length (text_lines s) <= k -> exists k', line_search (c :: s) k = ([], S k')).
Proof.
  induction s as [|d s IH]; intros c k Hk.
  - simpl. split; [lia|]. intros _. destruct k; [lia|]. eauto.
  - rewrite ls_cons2. cbn [text_lines].
    change (ceqb d LF) with (Ascii.eqb d (ascii_of_nat 10)).
    destruct (Ascii.eqb d (ascii_of_nat 10)) eqn:E.
    + cbn [List.length]. destruct k as [|[|k]]; [lia| |].
      * split.
        -- intros _. exists s. split; auto.
        -- intros H. pose proof (text_lines_nonempty s). destruct (text_lines s); [congruence|simpl in H; lia].
      * cbn [pred]. destruct (IH d (S k)) as [H1 H2]; [lia|]. split.
        -- intros H. destruct H1 as (r & Er & Hr); [lia|]. exists r. split; auto.
        -- intros H. apply H2. lia.
    + destruct (IH d k Hk) as [H1 H2].
      destruct (text_lines s) as [|l ls] eqn:El; [apply text_lines_nonempty in El; tauto|].
      cbn [List.length] in *. split.
      * intros H. destruct H1 as (r & Er & Hr); [lia|]. exists r. split; auto.
        rewrite Hr. destruct k; [lia|]. reflexivity.
      * intros H. apply H2. lia.
Qed.

Lemma skipn_nth : forall {A} (l : list A) k x r, skipn k l = x :: r -> nth_error l k = Some x.
Proof.
  induction l; intros k x r H; destruct k; simpl in *; try discriminate; auto.
  - congruence.
  - eapply IHl; eauto.
Qed.

Lemma get_line_ok : forall s k l,
  (forall s', s <> LF :: s') \/ k = 0 ->
  nth_error (text_lines s) k = Some l ->
  exists r, get_line_of_string s k = Some (r, List.length l) /\ firstn (List.length l) r = l.
Proof.
  intros s k l Hs Hn. unfold get_line_of_string. destruct k as [|k].
  - cbn [Nat.ltb Nat.leb]. destruct (text_lines s) as [|l0 ls] eqn:E; [discriminate|].
    cbn in Hn. inversion Hn; subst. destruct (line0 _ _ _ E) as [H1 H2]. cbn.
    exists s. rewrite H1 in *. auto.
  - destruct Hs as [Hs|]; [|discriminate]. cbn [Nat.ltb Nat.leb].
    destruct s as [|c s]. { cbn in Hn. destruct k; discriminate. }
    assert (Ec : Ascii.eqb c (ascii_of_nat 10) = false).
    { destruct (Ascii.eqb_spec c (ascii_of_nat 10)); auto. subst. exfalso. apply (Hs s). reflexivity. }
    cbn [text_lines] in Hn. rewrite Ec in Hn.
    destruct (text_lines s) as [|l0 ls] eqn:El; [apply text_lines_nonempty in El; tauto|].
    cbn [nth_error] in Hn.
    assert (Hlt : S k < List.length (text_lines s)).
    { rewrite El. cbn [List.length]. assert (k < List.length ls) by (apply nth_error_Some; congruence). lia. }
    destruct (proj1 (line_search_spec s c (S k) ltac:(lia)) Hlt) as (r & Er & Hr).
    rewrite Er. cbn [Nat.eqb]. exists r. rewrite El in Hr. cbn [skipn] in Hr.
    destruct (skipn k ls) as [|x xs] eqn:Ek.
    { apply text_lines_nonempty in Hr. tauto. }
    rewrite (skipn_nth _ _ _ _ Ek) in Hn. inversion Hn; subst.
    destruct (line0 _ _ _ Hr) as [H1 H2]. rewrite H1 in *. auto.
Qed.

Lemma get_line_none : forall s k,
  (forall s', s <> LF :: s') ->
  nth_error (text_lines s) k = None -> get_line_of_string s k = None.
Proof.
  intros s k Hs Hn. unfold get_line_of_string. destruct k as [|k].
  - exfalso. pose proof (text_lines_nonempty s). destruct (text_lines s); [congruence|discriminate].
  - cbn [Nat.ltb Nat.leb]. destruct s as [|c s]; [reflexivity|].
    assert (Ec : Ascii.eqb c (ascii_of_nat 10) = false).
    { destruct (Ascii.eqb_spec c (ascii_of_nat 10)); auto. subst. exfalso. apply (Hs s). reflexivity. }
    cbn [text_lines] in Hn. rewrite Ec in Hn.
    destruct (text_lines s) as [|l0 ls] eqn:El; [apply text_lines_nonempty in El; tauto|].
    apply nth_error_None in Hn. cbn [List.length] in Hn.
    destruct (proj2 (line_search_spec s c (S k) ltac:(lia))) as [k' Ek].
    { rewrite El. cbn [List.length]. lia. }
    rewrite Ek. reflexivity.
Qed.

(** For a text with a leading newline, index k >= 1 is off by one. *)
Lemma get_line_lf : forall s k l, 1 <= k ->
  nth_error (text_lines (LF :: s)) (S k) = Some l ->
  exists r, get_line_of_string (LF :: s) k = Some (r, List.length l) /\ firstn (List.length l) r = l.
Proof.
  intros s k l Hk Hn. unfold get_line_of_string. destruct k as [|k]; [lia|].
  cbn [Nat.ltb Nat.leb]. cbn [text_lines] in Hn. change (Ascii.eqb LF (ascii_of_nat 10)) with true in Hn.
  change (nth_error (text_lines s) (S k) = Some l) in Hn.
  assert (Hlt : S k < List.length (text_lines s)) by (apply nth_error_Some; congruence).
  destruct (proj1 (line_search_spec s LF (S k) ltac:(lia)) Hlt) as (r & Er & Hr).
  rewrite Er. cbn [Nat.eqb]. exists r.
  destruct (skipn (S k) (text_lines s)) as [|x xs] eqn:Ek.
  { apply text_lines_nonempty in Hr. tauto. }
  rewrite (skipn_nth _ _ _ _ Ek) in Hn. inversion Hn; subst.
  destruct (line0 _ _ _ Hr) as [H1 H2]. rewrite H1 in *. auto.
Qed.

(** ** strip *)
Lemma blanks_app : forall a b, blanks a ++ blanks b = blanks (a + b).
Proof. intros. symmetry. apply repeat_app. Qed.
Lemma blanks_rev : forall a, rev (blanks a) = blanks a.
Proof.
  unfold blanks. intros a. assert (H : forall k, repeat " "%char k ++ [" "%char] = " "%char :: repeat " "%char k).
  { induction k; simpl; congruence. }
  induction a; simpl; auto. rewrite IHa. apply H.
Qed.

Lemma lead_decomp : forall s, exists r, s = blanks (lead_blanks s) ++ r /\ forall r', r <> " "%char :: r'.
Proof.
  induction s as [|c s IH]; simpl.
  - exists []. split; auto. discriminate.
  - unfold ceqb. destruct (Ascii.eqb_spec c " ").
    + subst. destruct IH as (r & E & Hr). exists r. split; auto. simpl. f_equal. exact E.
    + exists (c :: s). split; auto. congruence.
Qed.

Lemma strip_back_spec : forall k c r, c <> " "%char ->
  strip_back (blanks k ++ c :: r) = Ok (repeat NUL k ++ c :: r).
Proof.
  induction k; intros c r Hc; cbn [blanks repeat app strip_back]; unfold ceqb.
  - destruct (Ascii.eqb_spec c " "); [congruence|]. reflexivity.
  - cbn. fold (blanks k). rewrite IHk by auto. reflexivity.
Qed.

Lemma strip_back_ub : forall k, strip_back (blanks k) = Ub.
Proof. induction k; cbn; auto. fold (blanks k). rewrite IHk. reflexivity. Qed.

Lemma until_nul_app : forall a b, no_nul a -> until_nul (a ++ b) = a ++ until_nul b.
Proof.
  unfold no_nul. induction a; intros b H; simpl in *; auto. unfold ceqb.
  destruct (Ascii.eqb_spec a NUL); [tauto|]. f_equal. apply IHa. tauto.
Qed.
Lemma until_nul_rep : forall k, until_nul (repeat NUL k) = [].
Proof. destruct k; reflexivity. Qed.

Lemma strip_ok : forall pre s, no_nul s -> s = [] \/ (exists c, In c s /\ c <> " "%char) ->
  exists r, strip pre s = Ok r /\ is_stripped s r.
Proof.
  intros pre s Hn [->|(c & Hin & Hc)].
  - exists []. split; auto. exists 0, 0. repeat split; auto; try discriminate.
    intros r' H. destruct r'; discriminate.
  - destruct (lead_decomp s) as (m & Em & Hm).
    destruct (lead_decomp (rev m)) as (w & Ew & Hw).
    set (b := lead_blanks (rev m)) in *. remember (lead_blanks s) as a eqn:Ea.
    assert (Em' : m = rev w ++ blanks b).
    { rewrite <- (rev_involutive m), Ew, rev_app_distr, blanks_rev. reflexivity. }
    destruct w as [|x w].
    { exfalso. cbn in Em'. rewrite Em, Em', blanks_app in Hin. apply repeat_spec in Hin. congruence. }
    assert (Es : s = blanks a ++ rev (x :: w) ++ blanks b) by (rewrite Em, Em'; reflexivity).
    assert (Hx : x <> " "%char) by (intros ->; apply (Hw w); reflexivity).
    exists (rev (x :: w)). split.
    + unfold strip. destruct s as [|s0 s1] eqn:Es0; [destruct Hin|]. rewrite <- Es0 in *.
      assert (Erev : rev s ++ pre = blanks b ++ x :: (w ++ blanks a ++ pre)).
      { rewrite Es, !rev_app_distr, !blanks_rev, rev_involutive.
        rewrite <- !app_assoc. cbn. rewrite <- ?app_assoc. reflexivity. }
      rewrite Erev, strip_back_spec by auto. cbn [rbind]. f_equal.
      assert (Ef : firstn (List.length s) (repeat NUL b ++ x :: w ++ blanks a ++ pre)
              = repeat NUL b ++ x :: w ++ blanks a).
      { assert (El : List.length s = List.length (repeat NUL b ++ x :: w ++ blanks a)).
        { rewrite Es. rewrite !app_length. cbn [List.length]. unfold blanks.
          rewrite ?app_length, ?rev_length, !repeat_length. cbn [List.length].
          rewrite ?app_length, ?repeat_length. lia. }
        replace (repeat NUL b ++ x :: w ++ blanks a ++ pre)
          with ((repeat NUL b ++ x :: w ++ blanks a) ++ pre)
          by (rewrite <- !app_assoc; cbn; rewrite <- ?app_assoc; reflexivity).
        rewrite El, firstn_app, Nat.sub_diag, firstn_all, app_nil_r. reflexivity. }
      rewrite Ef. rewrite rev_app_distr. cbn [rev]. rewrite rev_app_distr, blanks_rev.
      rewrite <- !app_assoc. rewrite <- Ea, skipn_app. unfold blanks at 2. rewrite repeat_length, Nat.sub_diag.
      rewrite skipn_all2 by (unfold blanks; rewrite repeat_length; lia). cbn [skipn app].
      assert (Er : rev (repeat NUL b) = repeat NUL b).
      { assert (H : forall k, repeat NUL k ++ [NUL] = NUL :: repeat NUL k) by (induction k; simpl; congruence).
        clear - H. induction b; simpl; auto. rewrite IHb. apply H. }
      rewrite Er. change (x :: repeat NUL b) with ([x] ++ repeat NUL b).
      rewrite app_assoc, until_nul_app, until_nul_rep, app_nil_r; auto.
      unfold no_nul in *. intros Hi. apply Hn. rewrite Es. apply in_or_app. right. apply in_or_app. left. exact Hi.
    + exists a, b. split; auto. split.
      * intros r' Hr. apply (Hm (r' ++ blanks b)). rewrite Em', Hr. reflexivity.
      * intros r' Hr. cbn [rev] in Hr. apply app_inj_tail in Hr. destruct Hr; congruence.
Qed.

Lemma strip_blank_ub : forall a b, 1 <= a -> strip (blanks b) (blanks a) = Ub.
Proof.
  intros a b H. unfold strip. destruct a; [lia|]. cbn [blanks repeat]. 
  change (" "%char :: repeat " "%char a) with (blanks (S a)).
  rewrite blanks_rev, blanks_app, strip_back_ub. reflexivity.
Qed.
