(** Proofs about M_Vector. *)
From Coq Require Import List Ascii String NArith ZArith Bool Lia Arith.
From Verif Require Import M_Base M_Vector S_Util.
Import ListNotations.
Open Scope res_scope.
Arguments skipn : simpl nomatch.
Local Opaque skipn.

Lemma grow_mono : forall f needed size, size <= grow f needed size.
Proof.
  induction f; intros; cbn [grow]; destruct (size <? needed)%nat; try lia.
  specialize (IHf needed (size + Nat.max 1 (size / 2))).
  generalize dependent (Nat.max 1 (size / 2)). intros; lia.
Qed.

Lemma grow_enough : forall f needed size,
  needed - size <= f -> needed <= grow f needed size.
Proof.
  induction f; intros needed size H; cbn [grow]; destruct (size <? needed)%nat eqn:E;
    try apply Nat.ltb_lt in E; try apply Nat.ltb_ge in E; try lia.
  apply IHf. pose proof (Nat.le_max_l 1 (size / 2)) as Hm.
  generalize dependent (Nat.max 1 (size / 2)). intros; lia.
Qed.

Lemma grow_same : forall f needed size, needed <= size -> grow f needed size = size.
Proof.
  intros f needed size H. destruct f; cbn [grow]; destruct (size <? needed)%nat eqn:E; auto;
    apply Nat.ltb_lt in E; lia.
Qed.

Section Vec.
Context {A : Type}.
Implicit Types (v : vec A) (l : list A) (buf : list (option A)).

(** Representation: the first elements of the buffer are the list, the allocation has the
    size the field says. *)
Definition vrep (v : vec A) (l : list A) : Prop :=
  exists junk, v_buf v = map Some l ++ junk
               /\ v_cnt v = List.length l
               /\ v_size v = List.length (v_buf v).

Lemma realloc_app : forall (l : list A) junk n,
  List.length l <= n ->
  exists junk', realloc (map Some l ++ junk) n = map Some l ++ junk'
                /\ List.length (realloc (map Some l ++ junk) n) = n.
Proof.
  intros l junk n H. unfold realloc.
  exists (firstn (n - List.length l) junk ++ repeat None (n - List.length (map Some l ++ junk))).
  split.
  - rewrite firstn_app, map_length, <- app_assoc.
    rewrite (firstn_all2 (map Some l)) by (rewrite map_length; lia). reflexivity.
  - rewrite app_length, firstn_length, repeat_length, app_length, map_length. lia.
Qed.

Lemma ensure_rep : forall v l n, vrep v l ->
  vrep (vec_ensure_size v n) l /\ n <= v_size (vec_ensure_size v n)
  /\ v_size v <= v_size (vec_ensure_size v n).
Proof.
  intros v l n (junk & Hb & Hc & Hs). unfold vec_ensure_size; simpl.
  pose proof (grow_mono (n - v_size v) n (v_size v)) as Hm.
  pose proof (grow_enough (n - v_size v) n (v_size v) (le_n _)) as He.
  set (m := grow (n - v_size v) n (v_size v)) in *.
  split; [|split; lia].
  destruct (realloc_app l junk m) as (junk' & Hr & Hl).
  { rewrite Hs, Hb, app_length, map_length in Hm. lia. }
  exists junk'. simpl. rewrite Hb, Hr. rewrite <- Hr, Hl. auto.
Qed.

Lemma mem_write_at : forall (l : list A) j junk x,
  mem_write (map Some l ++ j :: junk) (List.length l) x = Ok (map Some (l ++ [x]) ++ junk).
Proof.
  intros. unfold mem_write.
  destruct (Nat.ltb_spec (List.length l) (List.length (map Some l ++ j :: junk))) as [H|H].
  - f_equal. rewrite firstn_app, map_length, Nat.sub_diag; simpl.
    rewrite firstn_all2 by (rewrite map_length; lia).
    rewrite map_app, app_nil_r, <- app_assoc; simpl. f_equal. f_equal.
    rewrite skipn_app, map_length. rewrite skipn_all2 by (rewrite map_length; lia).
    replace (S (List.length l) - List.length l) with 1 by lia. reflexivity.
  - rewrite app_length, map_length in H; simpl in H; lia.
Qed.

Lemma mem_write_many_at : forall (xs l : list A) junk,
  List.length xs <= List.length junk ->
  mem_write_many (map Some l ++ junk) (List.length l) xs
  = Ok (map Some (l ++ xs) ++ skipn (List.length xs) junk).
Proof.
  induction xs; intros l junk H; simpl.
  - rewrite app_nil_r. reflexivity.
  - destruct junk as [|j junk]; simpl in H; [lia|].
    rewrite mem_write_at; simpl.
    replace (S (List.length l)) with (List.length (l ++ [a])) by (rewrite app_length; simpl; lia).
    rewrite IHxs by lia. rewrite <- app_assoc. reflexivity.
Qed.

Lemma push_many_rep : forall v l xs, vrep v l ->
  exists v', vec_push_many v xs = Ok v' /\ vrep v' (l ++ xs).
Proof.
  intros v l xs H. unfold vec_push_many.
  destruct (ensure_rep v l (v_cnt v + List.length xs) H) as (H' & Hn & _).
  set (v' := vec_ensure_size v (v_cnt v + List.length xs)) in *. clearbody v'.
  destruct H' as (junk & Hb & Hc & Hs). destruct H as (_ & _ & Hc0 & _).
  rewrite Hb, Hc. rewrite mem_write_many_at.
  - simpl. eexists; split; [reflexivity|]. exists (skipn (List.length xs) junk).
    simpl. rewrite app_length. split; [auto|]. split; [lia|].
    rewrite Hs, Hb. rewrite !app_length, !map_length, app_length, skipn_length.
    rewrite Hs, Hb, app_length, map_length in Hn. lia.
  - rewrite Hs, Hb, app_length, map_length in Hn. lia.
Qed.

Lemma push_elem_rep : forall v l x, vrep v l ->
  exists v', vec_push_elem v x = Ok v' /\ vrep v' (l ++ [x]).
Proof.
  intros v l x H. unfold vec_push_elem, vec_push_empty, vec_set.
  destruct (ensure_rep v l (v_cnt v + 1) H) as (H' & Hn & _).
  assert (Hcc : v_cnt (vec_ensure_size v (v_cnt v + 1)) = v_cnt v) by reflexivity.
  set (v' := vec_ensure_size v (v_cnt v + 1)) in *. clearbody v'.
  destruct H' as (junk & Hb & Hc & Hs). destruct H as (_ & _ & Hc0 & _).
  cbn [v_buf v_cnt v_size]. rewrite Hb, Hc.
  rewrite Hs, Hb, app_length, map_length in Hn.
  destruct junk as [|j junk]; simpl in Hn; [lia|].
  rewrite mem_write_at; simpl. eexists; split; [reflexivity|]. exists junk; simpl.
  rewrite app_length; simpl. split; auto. split; auto.
  rewrite Hs, Hb, !app_length, !map_length, app_length; simpl; lia.
Qed.

Lemma mem_read_in : forall l junk i x, nth_error l i = Some x ->
  mem_read (map Some l ++ junk) i = Ok x.
Proof.
  intros. unfold mem_read. rewrite nth_error_app1.
  - rewrite nth_error_map, H. reflexivity.
  - rewrite map_length. apply nth_error_Some. congruence.
Qed.

Lemma nth_last : forall l x l', l = l' ++ [x] -> nth_error l (List.length l - 1) = Some x.
Proof.
  intros; subst. rewrite nth_error_app2; rewrite app_length; simpl; try lia.
  replace (List.length l' + 1 - 1 - List.length l') with 0 by lia. reflexivity.
Qed.

Lemma last_of_app : forall l (x:A), last_of (l ++ [x]) = Some x.
Proof. intros. unfold last_of. rewrite rev_app_distr. reflexivity. Qed.

Lemma list_cases : forall l, l = [] \/ exists l' (x:A), l = l' ++ [x].
Proof.
  intros l. destruct (rev l) eqn:E.
  - left. rewrite <- (rev_involutive l), E. reflexivity.
  - right. exists (rev l0), a. rewrite <- (rev_involutive l), E. reflexivity.
Qed.

Lemma set_nth_split : forall l i (x:A), i < List.length l ->
  set_nth i x l = firstn i l ++ x :: skipn (S i) l.
Proof.
  induction l; intros; simpl in *; [lia|]. destruct i; simpl; auto.
  f_equal. rewrite IHl by lia. reflexivity.
Qed.

Lemma set_nth_length : forall l i (x:A), List.length (set_nth i x l) = List.length l.
Proof. induction l; destruct i; simpl; auto. Qed.

Lemma vec_step_sim : forall v l o l' out,
  vrep v l -> list_step l o = Some (l', out) ->
  exists v', vec_step v o = Ok (v', out) /\ vrep v' l'.
Proof.
  intros v l o l' out R H. destruct o; simpl in H.
  - inversion H; subst. unfold vec_step, vec_push.
    destruct (push_many_rep v l [x] R) as (v' & E & R'). rewrite E; simpl. eauto.
  - inversion H; subst. unfold vec_step.
    destruct (push_elem_rep v l x R) as (v' & E & R'). rewrite E; simpl. eauto.
  - inversion H; subst. unfold vec_step.
    destruct (push_many_rep v l xs R) as (v' & E & R'). rewrite E; simpl. eauto.
  - inversion H; subst. unfold vec_step, vec_pop. destruct R as (junk & Hb & Hc & Hs).
    destruct (list_cases l) as [->|(l1 & x & ->)]; simpl in *.
    + rewrite Hc; simpl. exists v; split; auto. exists junk; auto.
    + rewrite Hc, app_length; simpl.
      replace (List.length l1 + 1 =? 0)%nat with false
        by (symmetry; apply Nat.eqb_neq; lia).
      unfold vec_get; simpl. rewrite Hb.
      rewrite mem_read_in with (x := x)
        by (replace (List.length l1 + 1) with (List.length (l1 ++ [x]))
              by (rewrite app_length; reflexivity); eapply nth_last; eauto).
      simpl. rewrite last_of_app. eexists; split; [reflexivity|].
      rewrite removelast_last. exists (Some x :: junk); simpl.
      rewrite map_app; simpl. rewrite <- app_assoc; simpl. split; auto.
      split; [lia|]. rewrite Hs, Hb, map_app, <- app_assoc. reflexivity.
  - inversion H; subst. unfold vec_step, vec_peek. destruct R as (junk & Hb & Hc & Hs).
    destruct (list_cases l') as [->|(l1 & x & ->)].
    + rewrite Hc; simpl. exists v; split; auto. exists junk; auto.
    + rewrite Hc, app_length; simpl.
      replace (List.length l1 + 1 =? 0)%nat with false
        by (symmetry; apply Nat.eqb_neq; lia).
      unfold vec_get; simpl. rewrite Hb.
      rewrite mem_read_in with (x := x)
        by (replace (List.length l1 + 1) with (List.length (l1 ++ [x]))
              by (rewrite app_length; reflexivity); eapply nth_last; eauto).
      simpl. rewrite last_of_app. exists v; split; auto. exists junk; auto.
  - destruct (nth_error l i) eqn:E; inversion H; subst.
    unfold vec_step, vec_get. pose proof R as R0. destruct R as (junk & Hb & Hc & Hs).
    rewrite Hb, (mem_read_in _ _ _ _ E); simpl. eauto.
  - destruct (Nat.ltb_spec i (List.length l)); inversion H; subst.
    unfold vec_step, vec_set. destruct R as (junk & Hb & Hc & Hs).
    unfold mem_write. rewrite Hb.
    destruct (Nat.ltb_spec i (List.length (map Some l ++ junk))) as [Hi|Hi].
    2:{ rewrite app_length, map_length in Hi; lia. }
    simpl. eexists; split; [reflexivity|]. exists junk; simpl.
    rewrite set_nth_length. rewrite set_nth_split by auto.
    assert (Hq : firstn i (map Some l ++ junk)
                 ++ Some x :: skipn (S i) (map Some l ++ junk)
                 = map Some (firstn i l ++ x :: skipn (S i) l) ++ junk).
    { rewrite firstn_app, skipn_app, map_length.
      replace (i - List.length l) with 0 by lia.
      replace (S i - List.length l) with 0 by lia. simpl firstn. rewrite app_nil_r.
      rewrite map_app, firstn_map. cbn [map]. rewrite <- skipn_map.
      rewrite <- app_assoc. simpl. reflexivity. }
    simpl in Hq. rewrite Hq. split; auto. split; auto.
    rewrite Hs, Hb, !app_length, !map_length.
    replace (List.length (firstn i l ++ x :: skipn (S i) l)) with (List.length l); auto.
    rewrite <- set_nth_split by auto. rewrite set_nth_length. reflexivity.
  - inversion H; subst. unfold vec_step. eexists; split; [reflexivity|].
    destruct R as (junk & Hb & Hc & Hs). exists (v_buf v); simpl; auto.
  - inversion H; subst. unfold vec_step. eexists; split; [reflexivity|].
    destruct R as (junk & Hb & Hc & Hs). unfold vec_trim; simpl.
    destruct (realloc_app l' junk (v_cnt v + 1)) as (junk' & Hr & Hl); [lia|].
    exists junk'; simpl. rewrite Hb, Hr, <- Hr, Hl. auto.
  - inversion H; subst. unfold vec_step. eexists; split; [reflexivity|].
    apply ensure_rep; auto.
  - inversion H; subst. unfold vec_step. exists v. split; auto.
    destruct R as (junk & Hb & Hc & Hs). unfold vec_count. rewrite Hc. reflexivity.
Qed.

Lemma vec_run_sim : forall ops v l l' outs,
  vrep v l -> list_run l ops = Some (l', outs) ->
  exists v', vec_run v ops = Ok (v', outs) /\ vrep v' l'.
Proof.
  induction ops as [|o ops IH]; intros v l l' outs R H; simpl in H.
  - inversion H; subst. exists v; auto.
  - destruct (list_step l o) as [[l1 x]|] eqn:E; [|discriminate].
    destruct (list_run l1 ops) as [[l2 xs]|] eqn:E2; [|discriminate].
    inversion H; subst.
    destruct (vec_step_sim _ _ _ _ _ R E) as (v1 & Ev & R1).
    destruct (IH _ _ _ _ R1 E2) as (v2 & Ev2 & R2).
    exists v2; split; auto. cbn [vec_run]. rewrite Ev. simpl. rewrite Ev2. reflexivity.
Qed.

Lemma create_rep : forall n, vrep (vec_create n) [].
Proof.
  intros. exists (repeat None n); simpl. rewrite repeat_length. auto.
Qed.

Lemma iterate_rep : forall v l, vrep v l -> forall k it,
  it <= List.length l -> k = List.length l - it ->
  forall f, k < f -> vec_iterate v f it = Ok (skipn it l).
Proof.
  intros v l R k. induction k; intros it Hit Hk f Hf.
  - destruct f; [lia|]. simpl. unfold vec_iter_next, vec_count.
    destruct R as (junk & Hb & Hc & Hs). rewrite Hc.
    destruct (Nat.ltb_spec it (List.length l)); [lia|]. simpl.
    rewrite skipn_all2 by lia. reflexivity.
  - destruct f; [lia|]. simpl. unfold vec_iter_next, vec_count.
    pose proof R as R0. destruct R as (junk & Hb & Hc & Hs). rewrite Hc.
    destruct (Nat.ltb_spec it (List.length l)); [|lia].
    destruct (nth_error l it) eqn:E.
    2:{ apply nth_error_None in E. lia. }
    unfold vec_get. rewrite Hb, (mem_read_in _ _ _ _ E). simpl.
    rewrite (IHk (S it)) by lia. simpl.
    clear - E. revert it E. induction l; intros; destruct it; simpl in *; try discriminate.
    + inversion E; auto.
    + rewrite !skipn_cons. apply IHl. auto.
Qed.
End Vec.

(** ** String builder *)

Definition sbrep (b : vec ascii) (t : cstr) : Prop := vrep b (t ++ [NUL]).

Lemma vsnprintf_fits : forall (t : cstr) junk text n,
  List.length text < n -> List.length text <= List.length junk ->
  vsnprintf (map Some (t ++ [NUL]) ++ junk) (List.length t) n text
  = Ok (map Some (t ++ text ++ [NUL]) ++ skipn (List.length text) junk, List.length text).
Proof.
  intros t junk text n H1 H2. destruct n; [lia|]. unfold vsnprintf.
  rewrite firstn_all2 by lia.
  rewrite map_app, <- app_assoc.
  assert (Hl : List.length (text ++ [NUL]) <= List.length (map Some [NUL] ++ junk))
    by (rewrite !app_length; simpl; lia).
  rewrite mem_write_many_at by exact Hl.
  unfold rbind. rewrite app_length. simpl List.length.
  rewrite Nat.add_1_r. cbn [map app]. rewrite skipn_cons. reflexivity.
Qed.

Lemma vsnprintf_cut : forall (t : cstr) junk text n,
  n <= S (List.length text) -> n = S (List.length junk) ->
  exists buf', vsnprintf (map Some (t ++ [NUL]) ++ junk) (List.length t) n text
  = Ok (buf', List.length text)
  /\ exists x, buf' = map Some (t ++ x) /\ List.length x = n.
Proof.
  intros t junk text n H1 H2. subst n. unfold vsnprintf.
  rewrite map_app, <- app_assoc.
  assert (Hl : List.length (firstn (List.length junk) text ++ [NUL])
               <= List.length (map Some [NUL] ++ junk))
    by (rewrite !app_length, firstn_length; simpl; lia).
  rewrite mem_write_many_at by exact Hl.
  unfold rbind. eexists; split; [reflexivity|].
  exists (firstn (List.length junk) text ++ [NUL]). split.
  - rewrite skipn_all2.
    + rewrite app_nil_r. reflexivity.
    + rewrite !app_length, firstn_length. simpl. lia.
  - rewrite !app_length, firstn_length. simpl. lia.
Qed.

Lemma append_rep : forall b t text, sbrep b t ->
  exists b', strbuilder_append b text = Ok b' /\ sbrep b' (t ++ text).
Proof.
  intros b t text (junk & Hb & Hc & Hs). unfold strbuilder_append.
  rewrite app_length in Hc; simpl in Hc.
  assert (Hsz : v_size b = List.length t + 1 + List.length junk)
    by (rewrite Hs, Hb, app_length, map_length, app_length; simpl; lia).
  rewrite Hb. replace (v_cnt b - 1) with (List.length t) by lia.
  destruct (le_lt_dec (List.length text) (List.length junk)) as [Hf|Hf].
  - rewrite vsnprintf_fits by lia. simpl.
    destruct (Nat.ltb_spec (v_size b) (v_cnt b + List.length text)); [lia|].
    eexists; split; [reflexivity|]. exists (skipn (List.length text) junk). simpl.
    rewrite <- app_assoc. split; auto. split.
    + rewrite !app_length; simpl; lia.
    + rewrite app_length, map_length, !app_length, skipn_length; simpl; lia.
  - destruct (vsnprintf_cut t junk text (v_size b - v_cnt b + 1)) as (buf' & E & x & Hx & Hl);
      try lia.
    rewrite E. cbn [rbind v_size v_cnt v_buf].
    destruct (Nat.ltb_spec (v_size b) (v_cnt b + List.length text)) as [_|]; [|lia].
    set (b1 := mkVec buf' (v_cnt b) (v_size b)).
    (* after growing, the first cells still hold t *)
    assert (Hrep : exists junk2, v_buf (vec_ensure_size b1 (v_cnt b + List.length text))
                   = map Some t ++ junk2
                   /\ List.length (map Some t ++ junk2)
                      = v_size (vec_ensure_size b1 (v_cnt b + List.length text))
                   /\ v_cnt b + List.length text
                      <= v_size (vec_ensure_size b1 (v_cnt b + List.length text))).
    { unfold vec_ensure_size; cbn [v_buf v_size v_cnt b1].
      set (need := v_cnt b + List.length text).
      pose proof (grow_mono (need - v_size b) need (v_size b)).
      pose proof (grow_enough (need - v_size b) need (v_size b) (le_n _)).
      set (m := grow (need - v_size b) need (v_size b)) in *.
      destruct (realloc_app t (map Some x) m) as (junk' & Hr & Hl2); [lia|].
      rewrite Hx, map_app. exists junk'. rewrite Hr. rewrite <- Hr, Hl2. auto. }
    destruct Hrep as (junk2 & Hb2 & Hl2 & Hn2). rewrite Hb2.
    set (b2 := vec_ensure_size b1 (v_cnt b + List.length text)) in *.
    assert (Hc2 : v_cnt b2 = v_cnt b) by reflexivity. clearbody b2. rewrite Hc2.
    rewrite app_length, map_length in Hl2.
    unfold vsnprintf. destruct (v_size b2 - v_cnt b + 1) as [|n] eqn:En; [lia|].
    rewrite firstn_all2 by lia.
    replace (v_cnt b - 1) with (List.length t) by lia.
    rewrite mem_write_many_at by (rewrite app_length; simpl; lia).
    cbn [rbind]. eexists; split; [reflexivity|].
    exists (skipn (List.length (text ++ [NUL])) junk2). cbn [v_buf v_cnt v_size].
    rewrite <- app_assoc. split; auto. split.
    + rewrite !app_length; simpl; lia.
    + rewrite app_length, map_length, skipn_length, !app_length; simpl; lia.
Qed.

Lemma char_rep : forall b t c, sbrep b t ->
  exists b', strbuilder_append_char b c = Ok b' /\ sbrep b' (t ++ [c]).
Proof.
  intros b t c R. unfold strbuilder_append_char.
  assert (E : list_step (t ++ [NUL]) (VSet (v_cnt b - 1) c) = Some (t ++ [c], ONone)).
  { destruct R as (junk & Hb & Hc & Hs). rewrite Hc, app_length; simpl.
    destruct (Nat.ltb_spec (List.length t + 1 - 1) (List.length (t ++ [NUL]))) as [H|H];
      rewrite app_length in H; simpl in H; [|lia].
    f_equal. f_equal. rewrite set_nth_split by (rewrite app_length; simpl; lia).
    rewrite firstn_app. replace (List.length t + 1 - 1) with (List.length t) by lia.
    rewrite firstn_all, Nat.sub_diag. simpl. rewrite app_nil_r. f_equal. f_equal.
    change (skipn (S (List.length t)) (t ++ [NUL]) = []).
    apply skipn_all2. rewrite app_length; simpl; lia. }
  destruct (vec_step_sim _ _ _ _ _ R E) as (v' & Ev & R').
  unfold vec_step in Ev. destruct (vec_set b (v_cnt b - 1) c) as [v1| |] eqn:Es; try discriminate.
  simpl in Ev. inversion Ev; subst. simpl.
  destruct (push_elem_rep v' (t ++ [c]) NUL R') as (v2 & E2 & R2). eauto.
Qed.

Lemma clear_rep : forall b t, sbrep b t ->
  exists b', strbuilder_clear b = Ok b' /\ sbrep b' [].
Proof.
  intros b t R. unfold strbuilder_clear.
  assert (R' : vrep (vec_clear b) []).
  { destruct R as (junk & Hb & Hc & Hs). exists (v_buf b); simpl; auto. }
  destruct (push_elem_rep _ _ NUL R') as (v2 & E2 & R2). eauto.
Qed.

Lemma sb_run_sim : forall ops b t, sbrep b t ->
  exists b', sb_run b ops = Ok b' /\ sbrep b' (fold_left text_step ops t).
Proof.
  induction ops as [|o ops IH]; intros b t R; simpl.
  - eauto.
  - assert (exists b1, sb_step b o = Ok b1 /\ sbrep b1 (text_step t o)) as (b1 & E & R1).
    { destruct o; simpl; [apply append_rep|apply char_rep|eapply clear_rep]; eauto. }
    rewrite E; simpl. apply IH; auto.
Qed.

Lemma read_cstr_app : forall t rest, no_nul t ->
  read_cstr (map Some (t ++ [NUL]) ++ rest) = Ok t.
Proof.
  induction t; intros rest H; simpl.
  - reflexivity.
  - unfold ceqb. destruct (Ascii.eqb_spec a NUL) as [->|Hn].
    + exfalso. apply H. left; reflexivity.
    + rewrite IHt; auto. intros Hin. apply H. right; auto.
Qed.

Lemma create_sbrep : forall n, exists b, strbuilder_create n = Ok b /\ sbrep b [].
Proof.
  intros. unfold strbuilder_create.
  destruct (push_elem_rep (vec_create n) [] NUL (create_rep n)) as (v & E & R). eauto.
Qed.

Lemma text_no_nul : forall ops t, no_nul t -> Forall op_no_nul ops ->
  no_nul (fold_left text_step ops t).
Proof.
  induction ops as [|o ops IH]; intros t Ht Ho; simpl; auto.
  inversion Ho; subst. apply IH; auto. destruct o; simpl in *.
  - intros Hin. apply in_app_or in Hin. destruct Hin; [apply Ht|apply H1]; auto.
  - intros Hin. apply in_app_or in Hin. destruct Hin as [|[->|[]]]; auto.
  - intros [].
Qed.
