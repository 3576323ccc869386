(** Proofs about M_LinkedList: the doubly linked representation invariant. *)
From Coq Require Import List Ascii String NArith ZArith Bool Lia Arith.
From Verif Require Import M_Base M_Vector M_LinkedList S_Util.
Import ListNotations.
Open Scope res_scope.

Section LL.
Context {A : Type}.
Implicit Types (m : nat -> option (lnode A)) (xs l : list (nat * A)).

Definition hdp xs (n : ptr) : ptr := match xs with [] => n | (a, _) :: _ => Some a end.
Fixpoint lastp (p : ptr) xs : ptr :=
  match xs with [] => p | (a, _) :: xs' => lastp (Some a) xs' end.

Fixpoint seg m (p : ptr) xs (n : ptr) : Prop :=
  match xs with
  | [] => True
  | (a, x) :: xs' => m a = Some (mkNode (hdp xs' n) p x) /\ seg m (Some a) xs' n
  end.

Definition ids xs := map fst xs.

Definition rep (s : state A) (q : seq A) : Prop :=
  let '(h, l) := s in
  let '(xs, k) := q in
  h_fresh h = k /\ NoDup (ids xs) /\ Forall (fun a => a < k) (ids xs)
  /\ seg (h_map h) None xs None
  /\ l_first l = hdp xs None /\ l_last l = lastp None xs /\ l_count l = List.length xs
  /\ (forall a, ~ In a (ids xs) -> h_map h a = None).

Lemma hdp_app : forall l1 l2 n, hdp (l1 ++ l2) n = hdp l1 (hdp l2 n).
Proof. destruct l1 as [|[a x] l1]; auto. Qed.
Lemma lastp_app : forall l1 l2 p, lastp p (l1 ++ l2) = lastp (lastp p l1) l2.
Proof. induction l1 as [|[a x] l1]; simpl; auto. Qed.

Lemma seg_app : forall m l1 l2 p n,
  seg m p (l1 ++ l2) n <-> seg m p l1 (hdp l2 n) /\ seg m (lastp p l1) l2 n.
Proof.
  induction l1 as [|[a x] l1 IH]; intros; simpl; [tauto|].
  rewrite IH, hdp_app. tauto.
Qed.

Lemma seg_frame : forall m m' l p n,
  (forall a, In a (ids l) -> m' a = m a) -> seg m p l n -> seg m' p l n.
Proof.
  induction l as [|[a x] l IH]; simpl; intros p n H S; auto.
  destruct S as [E S]. split.
  - rewrite H; auto.
  - apply IH; auto.
Qed.

Lemma seg_upd : forall m l p n a v, ~ In a (ids l) -> seg m p l n -> seg (upd m a v) p l n.
Proof.
  intros. apply seg_frame with (m := m); auto. intros b Hb. unfold upd.
  destruct (Nat.eqb_spec b a); auto. subst; contradiction.
Qed.

Lemma upd_same : forall m a v, upd m a v a = v.
Proof. intros; unfold upd. rewrite Nat.eqb_refl; auto. Qed.
Lemma upd_other : forall m a v b, b <> a -> upd m a v b = m b.
Proof. intros; unfold upd. destruct (Nat.eqb_spec b a); congruence. Qed.

Lemma seg_set_first : forall m p p' c z l n,
  ~ In c (ids l) -> seg m p ((c, z) :: l) n ->
  seg (upd m c (Some (mkNode (hdp l n) p' z))) p' ((c, z) :: l) n.
Proof.
  simpl; intros m p p' c z l n Hc [E S]. split.
  - apply upd_same.
  - apply seg_upd; auto.
Qed.

Lemma seg_set_last : forall m p l b y n n',
  ~ In b (ids l) -> seg m p (l ++ [(b, y)]) n ->
  seg (upd m b (Some (mkNode n' (lastp p l) y))) p (l ++ [(b, y)]) n'.
Proof.
  intros m p l b y n n' Hb S. apply seg_app in S. destruct S as [S1 S2]. apply seg_app. split.
  - apply seg_upd; auto.
  - simpl. split; auto. apply upd_same.
Qed.

Lemma snoc_cases : forall l, l = [] \/ exists l' b (y : A), l = l' ++ [(b, y)].
Proof.
  intros l. destruct (rev l) as [|[b y] r] eqn:E.
  - left. rewrite <- (rev_involutive l), E. reflexivity.
  - right. exists (rev r), b, y. rewrite <- (rev_involutive l), E. reflexivity.
Qed.

Lemma ids_app : forall l1 l2, ids (l1 ++ l2) = ids l1 ++ ids l2.
Proof. intros; unfold ids; apply map_app. Qed.

Lemma NoDup_mid : forall (l1 l2 : list nat) a,
  NoDup (l1 ++ a :: l2) <-> ~ In a l1 /\ ~ In a l2 /\ NoDup (l1 ++ l2).
Proof.
  intros. split.
  - intros H. pose proof (NoDup_remove_1 _ _ _ H) as H1.
    pose proof (NoDup_remove_2 _ _ _ H) as H2. rewrite in_app_iff in H2. tauto.
  - intros (H1 & H2 & H3). revert H1 H3. induction l1 as [|b l1 IH]; simpl; intros H1 H3.
    + constructor; auto.
    + inversion H3; subst. constructor.
      * rewrite in_app_iff in *. simpl. firstorder congruence.
      * apply IH; auto.
Qed.

Lemma lt_not_in : forall (l : list nat) k, Forall (fun a => a < k) l -> ~ In k l.
Proof. intros l k H Hin. rewrite Forall_forall in H. apply H in Hin. lia. Qed.

Lemma insert_core : forall h lst l1 l2 k x,
  rep (h, lst) (l1 ++ l2, k) ->
  exists h' lst', list_insert_after h lst (lastp None l1) x = Ok (h', lst', Some k)
                  /\ rep (h', lst') (l1 ++ (k, x) :: l2, S k).
Proof.
  intros h lst l1 l2 k x (Hf & Hnd & Hlt & Hseg & Hfi & Hla & Hco & Hem).
  pose proof (lt_not_in _ _ Hlt) as Hk. rewrite ids_app in *.
  rewrite in_app_iff in Hk. apply Decidable.not_or in Hk. destruct Hk as [Hk1 Hk2].
  assert (Hlt' : Forall (fun a => a < S k) (ids (l1 ++ (k, x) :: l2))).
  { rewrite ids_app. simpl. apply Forall_app in Hlt. destruct Hlt as [Ha Hb].
    apply Forall_app. split; [|constructor; [lia|]];
      (eapply Forall_impl; [|eassumption]; simpl; intros; lia). }
  assert (Hnd' : NoDup (ids (l1 ++ (k, x) :: l2))).
  { rewrite ids_app. simpl. apply NoDup_mid. auto. }
  assert (Hlen : List.length (l1 ++ (k, x) :: l2) = List.length (l1 ++ l2) + 1)
    by (rewrite !app_length; simpl; lia).
  apply seg_app in Hseg. destruct Hseg as [S1 S2].
  unfold list_insert_after.
  destruct (snoc_cases l1) as [->|(l1' & b & y & ->)].
  - (* at the front *)
    simpl in *. rewrite Hfi.
    destruct l2 as [|[c z] l2]; simpl.
    + eexists _, _. split; [rewrite Hf; reflexivity|]. simpl.
      rewrite Hco. simpl. repeat split; auto.
      * apply upd_same.
      * intros a Ha. rewrite upd_other; [apply Hem; tauto|intros ->; tauto].
    + destruct S2 as [Ec S2]. inversion Hnd as [|? ? Hcl Hnd2]; subst.
      rewrite upd_other by (intros ->; simpl in Hk2; tauto). rewrite Ec. simpl.
      eexists _, _. split; [reflexivity|].
      assert (Hck : c <> h_fresh h) by (simpl in Hk2; intuition).
      split; [reflexivity|]. split; [exact Hnd'|]. split; [exact Hlt'|].
      cbn [h_map l_first l_last l_count]. rewrite Hla, Hco.
      split; [|split; [reflexivity|split; [reflexivity|split; [simpl in *; lia|]]]].
      * simpl. repeat split.
        -- rewrite upd_other by auto. apply upd_same.
        -- apply upd_same.
        -- apply seg_upd; auto. apply seg_upd; [simpl in Hk2; tauto|auto].
      * simpl. intros a Ha. rewrite !upd_other by (intros ->; tauto). apply Hem. simpl. tauto.
  - (* behind b *)
    rewrite ids_app in Hk1, Hnd, Hem. simpl in Hk1. rewrite in_app_iff in Hk1. simpl in Hk1.
    rewrite <- app_assoc in Hnd. simpl in Hnd. apply NoDup_mid in Hnd.
    destruct Hnd as (Hb1 & Hb2 & Hnd).
    assert (Hbk : b <> k) by (intros ->; tauto).
    pose proof S1 as S1b. apply seg_app in S1b. destruct S1b as [_ S1b]. simpl in S1b.
    destruct S1b as [Eb _].
    rewrite !lastp_app in *. simpl lastp in *. simpl load. rewrite Eb. simpl rbind.
    rewrite Hf.
    destruct l2 as [|[c z] l2]; simpl.
    + rewrite upd_other by auto. rewrite Eb. simpl.
      eexists _, _. split; [reflexivity|]. simpl.
      split; [reflexivity|]. split; [exact Hnd'|]. split; [exact Hlt'|].
      rewrite Hfi, Hco.
      split; [|split; [|split; [|split; [lia|]]]].
      * apply seg_app. split.
        -- apply seg_set_last with (n := None); auto. apply seg_upd; [|exact S1].
           rewrite ids_app, in_app_iff. simpl. tauto.
        -- simpl. split; auto. rewrite upd_other by auto. rewrite upd_same.
           rewrite lastp_app. reflexivity.
      * rewrite !hdp_app. destruct l1'; reflexivity.
      * rewrite lastp_app. reflexivity.
      * intros a Ha. rewrite ids_app, in_app_iff in Ha. simpl in Ha.
        rewrite ids_app, in_app_iff in Ha. simpl in Ha.
        rewrite !upd_other by (intros ->; tauto). apply Hem. rewrite !in_app_iff. simpl. tauto.
    + simpl in Hk2. simpl in S2. destruct S2 as [Ec S2]. simpl in Hb2.
      apply NoDup_remove in Hnd. destruct Hnd as [Hnd Hc]. rewrite in_app_iff in Hc.
      fold (ids l2) in Hnd, Hc. simpl in Hc. fold (ids l2) in Hc.
      assert (Hcb : c <> b) by tauto. assert (Hbc : b <> c) by auto. assert (Hck : c <> k) by tauto.
      rewrite upd_other by auto. rewrite Eb. simpl.
      rewrite upd_other by auto. rewrite upd_other by auto. rewrite Ec. simpl.
      eexists _, _. split; [reflexivity|]. simpl.
      split; [reflexivity|]. split; [exact Hnd'|]. split; [exact Hlt'|].
      rewrite Hfi, Hla, Hco.
      split; [|split; [|split; [|split; [lia|]]]].
      * apply seg_app. split.
        -- apply seg_upd.
           { rewrite ids_app, in_app_iff. simpl. tauto. }
           apply seg_set_last with (n := Some c); auto. apply seg_upd; [|exact S1].
           rewrite ids_app, in_app_iff. simpl. tauto.
        -- simpl. rewrite lastp_app. simpl. repeat split.
           ++ rewrite upd_other by auto. rewrite upd_other by auto. apply upd_same.
           ++ apply upd_same.
           ++ apply seg_upd; [tauto|]. apply seg_upd; [tauto|]. apply seg_upd; [tauto|exact S2].
      * rewrite !hdp_app. destruct l1'; reflexivity.
      * rewrite lastp_app. rewrite lastp_app. reflexivity.
      * intros a Ha. rewrite ids_app, in_app_iff in Ha. simpl in Ha.
        rewrite ids_app, in_app_iff in Ha. simpl in Ha.
        rewrite !upd_other by (intros ->; tauto). apply Hem. rewrite !in_app_iff. simpl. tauto.
Qed.

Lemma delete_core : forall h lst l1 l2 a x k,
  rep (h, lst) (l1 ++ (a, x) :: l2, k) ->
  exists h' lst', list_delete_node h lst (Some a) = Ok (h', lst')
                  /\ rep (h', lst') (l1 ++ l2, k).
Proof.
  intros h lst l1 l2 a x k (Hf & Hnd & Hlt & Hseg & Hfi & Hla & Hco & Hem).
  rewrite ids_app in *. simpl in Hnd. apply NoDup_mid in Hnd. destruct Hnd as (Ha1 & Ha2 & Hnd).
  assert (Hlt' : Forall (fun a => a < k) (ids (l1 ++ l2))).
  { rewrite ids_app. apply Forall_app in Hlt. destruct Hlt as [Hx Hy].
    simpl in Hy. inversion Hy; subst. apply Forall_app; auto. }
  assert (Hnd' : NoDup (ids (l1 ++ l2))) by (rewrite ids_app; auto).
  assert (Hlen : List.length (l1 ++ (a, x) :: l2) = S (List.length (l1 ++ l2)))
    by (rewrite !app_length; simpl; lia).
  apply seg_app in Hseg. destruct Hseg as [S1 S2]. simpl in S2. destruct S2 as [Ea S2].
  unfold list_delete_node. simpl. rewrite Ea. simpl.
  destruct (snoc_cases l1) as [->|(l1' & b & y & ->)].
  - simpl in *. destruct l2 as [|[c z] l2]; simpl.
    + eexists _, _. split; [reflexivity|]. simpl.
      repeat split; auto.
      * rewrite Hco. reflexivity.
      * intros q _. unfold upd. destruct (Nat.eqb_spec q a); auto. apply Hem.
        intros [|[]]; congruence.
    + simpl in S2. destruct S2 as [Ec S2]. simpl in Ha2.
      rewrite upd_other by (intros ->; tauto). rewrite Ec. simpl.
      inversion Hnd as [|? ? Hcl Hnd2]; subst.
      eexists _, _. split; [reflexivity|]. simpl.
      split; [reflexivity|]. split; [exact Hnd'|]. split; [exact Hlt'|].
      split; [|split; [reflexivity|split; [exact Hla|split; [simpl in Hco; lia|]]]].
      * split; [apply upd_same|]. apply seg_upd; auto. apply seg_upd; [tauto|auto].
      * intros q Hq. rewrite upd_other by (intros ->; tauto). unfold upd.
        destruct (Nat.eqb_spec q a); auto. apply Hem. intuition.
  - rewrite ids_app in Ha1, Hnd, Hem. simpl in Ha1, Hnd. rewrite in_app_iff in Ha1. simpl in Ha1.
    rewrite <- app_assoc in Hnd. simpl in Hnd. apply NoDup_mid in Hnd.
    destruct Hnd as (Hb1 & Hb2 & Hnd).
    assert (Hba : b <> a) by tauto.
    pose proof S1 as S1b. apply seg_app in S1b. destruct S1b as [_ S1b]. simpl in S1b.
    destruct S1b as [Eb _].
    rewrite !lastp_app in *. simpl lastp in *. simpl.
    rewrite upd_other by auto. rewrite Eb. simpl.
    destruct l2 as [|[c z] l2]; simpl.
    + eexists _, _. split; [reflexivity|]. simpl.
      split; [exact Hf|]. rewrite app_nil_r in *.
      split; [exact Hnd'|]. split; [exact Hlt'|].
      split; [|split; [|split; [|split]]].
      * apply seg_set_last with (n := Some a); auto. apply seg_upd; auto.
        rewrite ids_app, in_app_iff. simpl. tauto.
      * rewrite Hfi. rewrite !hdp_app. destruct l1'; reflexivity.
      * rewrite ?lastp_app. reflexivity.
      * lia.
      * intros q Hq. rewrite ids_app, in_app_iff in Hq. simpl in Hq.
        rewrite upd_other by (intros ->; tauto). unfold upd.
        destruct (Nat.eqb_spec q a); auto. apply Hem. rewrite !in_app_iff. simpl. intuition.
    + simpl in S2. destruct S2 as [Ec S2]. simpl in Ha2, Hb2.
      apply NoDup_remove in Hnd. destruct Hnd as [Hnd Hc]. rewrite in_app_iff in Hc.
      fold (ids l2) in Hnd, Hc. simpl in Hc. fold (ids l2) in Hc.
      assert (Hcb : c <> b) by tauto. assert (Hbc : b <> c) by auto. assert (Hca : c <> a) by tauto.
      rewrite upd_other by auto. rewrite upd_other by auto. rewrite Ec. simpl.
      eexists _, _. split; [reflexivity|]. simpl.
      split; [exact Hf|]. split; [exact Hnd'|]. split; [exact Hlt'|].
      split; [|split; [|split; [|split]]].
      * apply seg_app. split.
        -- apply seg_upd.
           { rewrite ids_app, in_app_iff. simpl. tauto. }
           apply seg_set_last with (n := Some a); auto. apply seg_upd; auto.
           rewrite ids_app, in_app_iff. simpl. tauto.
        -- simpl. rewrite lastp_app. simpl. repeat split.
           ++ apply upd_same.
           ++ apply seg_upd; [tauto|]. apply seg_upd; [tauto|]. apply seg_upd; [tauto|exact S2].
      * rewrite Hfi. rewrite !hdp_app. destruct l1'; reflexivity.
      * rewrite Hla. rewrite ?lastp_app. reflexivity.
      * lia.
      * intros q Hq. rewrite ids_app, in_app_iff in Hq. simpl in Hq.
        rewrite ids_app, in_app_iff in Hq. simpl in Hq.
        rewrite !upd_other by (intros ->; tauto). unfold upd.
        destruct (Nat.eqb_spec q a); auto. apply Hem. rewrite !in_app_iff. simpl. intuition.
Qed.

(** ** Searching *)
Lemma search_fwd : forall l h p n i a x,
  seg (h_map h) p l n -> nth_error l i = Some (a, x) ->
  search n_next h (hdp l n) i = Ok (Some a).
Proof.
  induction l as [|[b y] l IH]; intros h p n i a x S E.
  - destruct i; discriminate.
  - simpl in S. destruct S as [Eb S]. destruct i; simpl in *.
    + inversion E; subst; auto.
    + rewrite Eb. simpl. eapply IH; eauto.
Qed.

Lemma search_bwd : forall l h p n i a x,
  seg (h_map h) p l n -> nth_error (rev l) i = Some (a, x) ->
  search n_prev h (lastp p l) i = Ok (Some a).
Proof.
  intros l. induction l as [|[b y] l IH] using rev_ind; intros h p n i a x S E.
  - destruct i; discriminate.
  - rewrite rev_app_distr in E. simpl in E. apply seg_app in S. destruct S as [S1 S2].
    simpl in S2. destruct S2 as [Eb _]. rewrite lastp_app. simpl.
    destruct i; simpl in *.
    + inversion E; subst; auto.
    + rewrite Eb. simpl. eapply IH; eauto.
Qed.

Lemma nth_error_rev : forall (B : Type) (l : list B) i, i < List.length l ->
  nth_error (rev l) (List.length l - i - 1) = nth_error l i.
Proof.
  intros B l i H. destruct (nth_error l i) as [x|] eqn:E.
  - apply nth_error_split in E. destruct E as (l1 & l2 & -> & <-).
    rewrite rev_app_distr. simpl. rewrite <- app_assoc. simpl.
    rewrite nth_error_app2; rewrite rev_length, app_length; simpl; [|lia].
    replace (List.length l1 + S (List.length l2) - List.length l1 - 1 - List.length l2)
      with 0 by lia. reflexivity.
  - apply nth_error_None in E. lia.
Qed.

Lemma get_node_rep : forall h lst l k i a x,
  rep (h, lst) (l, k) -> nth_error l i = Some (a, x) ->
  list_get_node h lst i = Ok (Some a).
Proof.
  intros h lst l k i a x (Hf & Hnd & Hlt & Hseg & Hfi & Hla & Hco & Hem) E.
  assert (Hi : i < List.length l) by (apply nth_error_Some; congruence).
  unfold list_get_node. rewrite Hco.
  destruct (Nat.ltb_spec i (List.length l)); [|lia].
  destruct (i <? List.length l / 2)%nat.
  - rewrite Hfi. eapply search_fwd; eauto.
  - rewrite Hla. eapply search_bwd; eauto. rewrite nth_error_rev; eauto.
Qed.

Lemma seg_nth : forall l m p n i a x,
  seg m p l n -> nth_error l i = Some (a, x) -> exists nx pv, m a = Some (mkNode nx pv x).
Proof.
  induction l as [|[b y] l IH]; intros m p n i a x S E; destruct i; try discriminate;
    simpl in *; destruct S as [Eb S].
  - inversion E; subst. eauto.
  - eapply IH; eauto.
Qed.

Lemma iterate_seg : forall l h lst p, seg (h_map h) p l None ->
  forall f a y nx pv, List.length l < f ->
  h_map h a = Some (mkNode nx pv y) -> nx = hdp l None ->
  list_iterate f h lst (Some a) = Ok (map snd l).
Proof.
  induction l as [|[b z] l IH]; intros h lst p S f a y nx pv Hf Ea Hnx; subst;
    destruct f; simpl in Hf; try lia.
  - simpl. unfold list_iter_next. simpl. rewrite Ea. simpl. reflexivity.
  - simpl in S. destruct S as [Eb S]. simpl. unfold list_iter_next. simpl. rewrite Ea. simpl.
    rewrite Eb. simpl. rewrite (IH h lst (Some b) S f b z (hdp l None) p); auto; lia.
Qed.

Lemma iterate_rep : forall h lst l k, rep (h, lst) (l, k) ->
  list_iterate (S (l_count lst)) h lst None = Ok (map snd l).
Proof.
  intros h lst l k (Hf & Hnd & Hlt & Hseg & Hfi & Hla & Hco & Hem).
  simpl. unfold list_iter_next. simpl. rewrite Hfi.
  destruct l as [|[a x] l]; simpl.
  - reflexivity.
  - simpl in Hseg. destruct Hseg as [Ea S]. rewrite Ea. simpl.
    rewrite Hco. rewrite (iterate_seg l h lst (Some a) S (List.length ((a, x) :: l)) a x
                            (hdp l None) None); auto.
Qed.

Lemma backward_seg : forall l h p n f, seg (h_map h) p l n -> List.length l < f -> p = None ->
  list_backward f h (lastp p l) = Ok (rev (map snd l)).
Proof.
  intros l. induction l as [|[b y] l IH] using rev_ind; intros h p n f S Hf Hp; subst.
  - destruct f; reflexivity.
  - rewrite app_length in Hf; simpl in Hf. destruct f; [lia|].
    apply seg_app in S. destruct S as [S1 S2]. simpl in S2. destruct S2 as [Eb _].
    rewrite lastp_app. simpl. rewrite Eb. simpl.
    rewrite (IH h None (Some b) f S1); auto; [|lia].
    simpl. rewrite map_app, rev_app_distr. reflexivity.
Qed.

(** ** Relating the specification's list functions to splits *)
Lemma insert_behind_split : forall l b k x r, insert_behind b k x l = Some r ->
  exists l1 y l2, l = l1 ++ (b, y) :: l2 /\ r = (l1 ++ [(b, y)]) ++ (k, x) :: l2.
Proof.
  induction l as [|[a y] l IH]; simpl; intros b k x r H; [discriminate|].
  destruct (Nat.eqb_spec a b).
  - inversion H; subst. exists [], y, l. auto.
  - destruct (insert_behind b k x l) as [r'|] eqn:E; inversion H; subst.
    destruct (IH _ _ _ _ E) as (l1 & y' & l2 & -> & ->).
    exists ((a, y) :: l1), y', l2. auto.
Qed.

Lemma remove_handle_split : forall l b r, NoDup (ids l) -> remove_handle b l = Some r ->
  exists l1 y l2, l = l1 ++ (b, y) :: l2 /\ r = l1 ++ l2.
Proof.
  unfold remove_handle. intros l b r Hnd H.
  destruct (existsb (fun p => (fst p =? b)%nat) l) eqn:E; inversion H; subst. clear H.
  apply existsb_exists in E. destruct E as ([a y] & Hin & Ha). apply Nat.eqb_eq in Ha.
  simpl in Ha; subst a. apply in_split in Hin. destruct Hin as (l1 & l2 & ->).
  rewrite ids_app in Hnd. simpl in Hnd. apply NoDup_mid in Hnd. destruct Hnd as (H1 & H2 & _).
  exists l1, y, l2. split; auto.
  assert (Hid : forall l0 : list (nat * A), ~ In b (ids l0) ->
                filter (fun p => negb (fst p =? b)%nat) l0 = l0).
  { clear. induction l0 as [|[a x] l0 IH]; simpl; intros H; auto.
    destruct (Nat.eqb_spec a b); simpl; [exfalso; auto|]. f_equal. apply IH. tauto. }
  rewrite filter_app. simpl. rewrite Nat.eqb_refl. simpl. rewrite !Hid; auto.
Qed.

Lemma firstn_skipn_nth : forall (B : Type) (l : list B) i x, nth_error l i = Some x ->
  l = firstn i l ++ x :: skipn (S i) l.
Proof.
  induction l; intros i x H; destruct i; try discriminate; simpl in *.
  - inversion H; subst; auto.
  - f_equal. apply IHl; auto.
Qed.

Lemma lastp_firstn : forall l i a x, nth_error l i = Some (a, x) ->
  forall p, lastp p (firstn (S i) l) = Some a.
Proof.
  induction l as [|[b y] l IH]; intros i a x E p; destruct i; try discriminate; simpl in *.
  - inversion E; auto.
  - rewrite (IH _ _ _ E). reflexivity.
Qed.

Lemma ll_step_sim : forall s q o q' out,
  rep s q -> seq_step q o = Some (q', out) ->
  exists s', ll_step s o = Ok (s', out) /\ rep s' q'.
Proof.
  intros [h lst] [l k] o q' out R H. destruct o as [[b|] x|x|i x|b|i|i|i| | | ]; simpl in H.
  - (* insert after *)
    destruct (insert_behind b k x l) as [r|] eqn:E; simpl in H; inversion H; subst.
    destruct (insert_behind_split _ _ _ _ _ E) as (l1 & y & l2 & -> & ->).
    replace (l1 ++ (b, y) :: l2) with ((l1 ++ [(b, y)]) ++ l2) in R
      by (rewrite <- app_assoc; reflexivity).
    destruct (insert_core _ _ _ _ _ x R) as (h' & lst' & Ei & R').
    rewrite lastp_app in Ei. simpl in Ei. simpl. unfold handle_out. rewrite Ei. simpl. eauto.
  - inversion H; subst. destruct (insert_core _ _ [] l k x R) as (h' & lst' & Ei & R').
    simpl in Ei. simpl. unfold handle_out. rewrite Ei. simpl. eauto.
  - inversion H; subst. pose proof R as R0. rewrite <- (app_nil_r l) in R0.
    destruct (insert_core _ _ l [] k x R0) as (h' & lst' & Ei & R').
    simpl. unfold list_append, handle_out.
    assert (Hla : l_last lst = lastp None l) by (destruct R; tauto).
    rewrite Hla, Ei. simpl. eauto.
  - (* insert at *)
    unfold insert_index in H. destruct (Nat.leb_spec i (List.length l)); simpl in H;
      inversion H; subst. clear H.
    pose proof R as R0. rewrite <- (firstn_skipn i l) in R0.
    destruct (insert_core _ _ _ _ k x R0) as (h' & lst' & Ei & R').
    simpl. unfold list_insert_at, handle_out. destruct i.
    + simpl in *. rewrite Ei. simpl. eauto.
    + destruct (nth_error l i) as [[a y]|] eqn:E.
      2:{ apply nth_error_None in E. lia. }
      rewrite (get_node_rep _ _ _ _ _ _ _ R E). simpl rbind at 2.
      rewrite (lastp_firstn _ _ _ _ E) in Ei. simpl rbind. rewrite Ei. simpl. eauto.
  - (* delete node *)
    destruct (remove_handle b l) as [r|] eqn:E; simpl in H; inversion H; subst.
    assert (Hnd : NoDup (ids l)) by (destruct R; tauto).
    destruct (remove_handle_split _ _ _ Hnd E) as (l1 & y & l2 & -> & ->).
    destruct (delete_core _ _ _ _ _ _ _ R) as (h' & lst' & Ed & R').
    unfold ll_step. rewrite Ed. simpl. eauto.
  - (* delete at *)
    unfold remove_index in H. destruct (Nat.ltb_spec i (List.length l)); simpl in H;
      inversion H; subst. clear H.
    destruct (nth_error l i) as [[a y]|] eqn:E.
    2:{ apply nth_error_None in E. lia. }
    pose proof R as R0. rewrite (firstn_skipn_nth _ _ _ _ E) in R0.
    destruct (delete_core _ _ _ _ _ _ _ R0) as (h' & lst' & Ed & R').
    unfold ll_step, list_delete_at. rewrite (get_node_rep _ _ _ _ _ _ _ R E).
    cbn [rbind]. rewrite Ed. cbn [rbind]. eauto.
  - destruct (nth_error l i) as [[a y]|] eqn:E; inversion H; subst.
    unfold ll_step. rewrite (get_node_rep _ _ _ _ _ _ _ R E). simpl. eauto.
  - destruct (nth_error l i) as [[a y]|] eqn:E; inversion H; subst.
    unfold ll_step, list_get_at. rewrite (get_node_rep _ _ _ _ _ _ _ R E). simpl.
    assert (Hs : seg (h_map h) None l None) by (destruct R; tauto).
    destruct (seg_nth _ _ _ _ _ _ _ Hs E) as (nx & pv & Ea). rewrite Ea. simpl. eauto.
  - inversion H; subst. unfold ll_step. assert (l_count lst = List.length l) by (destruct R; tauto).
    unfold list_count. rewrite H0. eauto.
  - inversion H; subst. unfold ll_step. rewrite (iterate_rep _ _ _ _ R). simpl. eauto.
  - inversion H; subst. unfold ll_step.
    assert (Hq : l_count lst = List.length l /\ l_last lst = lastp None l
                 /\ seg (h_map h) None l None) by (destruct R; tauto).
    destruct Hq as (Hco & Hla & Hs). rewrite Hla, Hco.
    rewrite (backward_seg l h None None (S (List.length l)) Hs); auto. simpl. eauto.
Qed.

Lemma ll_run_sim : forall ops s q q' outs,
  rep s q -> seq_run q ops = Some (q', outs) ->
  exists s', ll_run s ops = Ok (s', outs) /\ rep s' q'.
Proof.
  induction ops as [|o ops IH]; intros s q q' outs R H; simpl in H.
  - inversion H; subst. exists s; auto.
  - destruct (seq_step q o) as [[q1 x]|] eqn:E; [|discriminate].
    destruct (seq_run q1 ops) as [[q2 xs]|] eqn:E2; [|discriminate].
    inversion H; subst.
    destruct (ll_step_sim _ _ _ _ _ R E) as (s1 & Es & R1).
    destruct (IH _ _ _ _ R1 E2) as (s2 & Es2 & R2).
    exists s2; split; auto. cbn [ll_run]. rewrite Es. simpl. rewrite Es2. reflexivity.
Qed.

Lemma init_rep : rep init_state ([], 0).
Proof. repeat split; simpl; auto. constructor. Qed.

Lemma destroy_seg : forall l h f p, seg (h_map h) p l None -> NoDup (ids l) ->
  List.length l < f ->
  exists h', destroy_loop f h (hdp l None) = Ok h'
             /\ forall a, h_map h' a = if in_dec Nat.eq_dec a (ids l) then None else h_map h a.
Proof.
  induction l as [|[a x] l IH]; intros h f p S Hnd Hf.
  - exists h. destruct f; simpl; auto.
  - simpl in S. destruct S as [Ea S]. simpl in Hnd. inversion Hnd; subst.
    destruct f; [simpl in Hf; lia|]. simpl. rewrite Ea. simpl.
    destruct (IH (mkHeap (upd (h_map h) a None) (h_fresh h)) f (Some a)) as (h' & E & Hm).
    + simpl. apply seg_upd; auto.
    + auto.
    + simpl in Hf; lia.
    + exists h'. split; auto. intros b. rewrite Hm. simpl.
      destruct (in_dec Nat.eq_dec b (ids l)); destruct (Nat.eq_dec a b); simpl; auto.
      * subst. rewrite upd_same. reflexivity.
      * rewrite upd_other by auto. reflexivity.
Qed.

Lemma destroy_rep : forall h lst q, rep (h, lst) q ->
  exists h', list_destroy h lst = Ok h' /\ forall a, h_map h' a = None.
Proof.
  intros h lst [l k] (Hf & Hnd & Hlt & Hseg & Hfi & Hla & Hco & Hem).
  unfold list_destroy. rewrite Hfi.
  destruct (destroy_seg l h (S (l_count lst)) None Hseg Hnd) as (h' & E & Hm); [lia|].
  exists h'. split; auto. intros a. rewrite Hm.
  destruct (in_dec Nat.eq_dec a (ids l)); auto.
Qed.
End LL.
