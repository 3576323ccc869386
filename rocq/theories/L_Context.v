(** Proofs about the operator registry. *)
From Coq Require Import List Ascii String NArith ZArith Bool Lia Arith.
From Verif Require Import M_Base M_LinkedList M_Trie M_Tree M_Context S_Util S_Engine L_LinkedList L_Trie.
Import ListNotations.
Open Scope nat_scope.
Open Scope res_scope.

Lemma placement_eqb_spec : forall a b, reflect (a = b) (placement_eqb a b).
Proof. destruct a, b; simpl; constructor; congruence. Qed.
Lemma assoc_eqb_spec : forall a b, reflect (a = b) (assoc_eqb a b).
Proof. destruct a, b; simpl; constructor; congruence. Qed.

Lemma same_slot_spec : forall n p o, same_slot n p o = true <-> o_name o = n /\ o_place o = p.
Proof.
  intros. unfold same_slot. rewrite andb_true_iff, streqb_eq.
  destruct (placement_eqb_spec (o_place o) p); intuition congruence.
Qed.

Definition keyed (r : registry) : list (nat * operator) := map (fun o => (o_addr o, o)) r.

Definition crep (c : ctx) (r : registry) : Prop :=
  (exists k, rep (c_heap c, c_list c) (keyed r, k))
  /\ (forall p, exists m, trep (c_tries c p) m
                /\ forall n, find_key n m = option_map o_addr (reg_find r n p))
  /\ (exists m, trep (c_kw c) m /\ forall n, find_key n m <> None -> exists o, In o r /\ o_name o = n)
  /\ (forall o, In o r -> reg_find r (o_name o) (o_place o) = Some o)
  /\ (forall a b, In a r -> In b r -> ~ conflicting a b).

Lemma create_crep : crep ctx_create [].
Proof.
  split; [|split; [|split; [|split]]].
  - exists 0. apply init_rep.
  - intros p. exists []. split; [apply create_trep|reflexivity].
  - exists []. split; [apply create_trep|]. simpl. congruence.
  - simpl; tauto.
  - simpl; tauto.
Qed.

Lemma reg_find_In : forall r n p o, reg_find r n p = Some o -> In o r /\ o_name o = n /\ o_place o = p.
Proof.
  intros r n p o H. unfold reg_find in H. apply find_some in H. destruct H as [H1 H2].
  apply same_slot_spec in H2. tauto.
Qed.
Lemma reg_find_None : forall r n p, reg_find r n p = None -> forall o, In o r -> o_name o = n -> o_place o = p -> False.
Proof.
  intros r n p H o Hi Hn Hp. unfold reg_find in H. apply (find_none _ _ H) in Hi.
  assert (same_slot n p o = true) by (apply same_slot_spec; auto). congruence.
Qed.
Lemma reg_find_app : forall r r' n p, reg_find (r ++ r') n p =
  match reg_find r n p with Some o => Some o | None => reg_find r' n p end.
Proof.
  induction r as [|o r IH]; intros; simpl; auto. unfold reg_find in *. simpl.
  destruct (same_slot n p o); auto.
Qed.
Lemma keyed_app : forall a b, keyed (a ++ b) = keyed a ++ keyed b.
Proof. intros. apply map_app. Qed.

Lemma load_crep : forall c r o, crep c r -> In o r ->
  exists n, load (c_heap c) (Some (o_addr o)) = Ok n /\ n_data n = o.
Proof.
  intros c r o ((k & R) & _) Hi. destruct R as (_ & _ & _ & Hs & _).
  apply In_nth_error in Hi. destruct Hi as (i & Hi).
  assert (Hn : nth_error (keyed r) i = Some (o_addr o, o)).
  { unfold keyed. apply map_nth_error with (f := fun o => (o_addr o, o)) in Hi. exact Hi. }
  destruct (seg_nth _ _ _ _ _ _ _ Hs Hn) as (nx & pv & E).
  eexists. split; [unfold load; rewrite E; reflexivity|reflexivity].
Qed.

Lemma lookup_crep : forall c r n p, crep c r -> ctx_lookup_op c n p = Ok (reg_find r n p).
Proof.
  intros c r n p C. pose proof C as (_ & Ht & _).
  destruct (Ht p) as (m & Tm & Hm). unfold ctx_lookup_op.
  destruct (contains_spec _ _ n Tm) as [H1 H2]. rewrite Hm in *.
  destruct (trie_contains (c_tries c p) n) as [b d]. simpl in *.
  destruct (reg_find r n p) as [o|] eqn:E; simpl in *; subst b.
  - rewrite H2 by auto. simpl.
    destruct (load_crep c r o C) as (nd & El & En); [apply reg_find_In in E; tauto|].
    simpl in El. rewrite El. simpl. congruence.
  - reflexivity.
Qed.

Lemma inconsistent_spec : forall op r, o_place op = PInfix ->
  existsb (inconsistent op) r = false <-> (forall b, In b r -> ~ conflicting op b).
Proof.
  intros op r Hp. split.
  - intros H b Hb (_ & H2 & H3 & H4).
    assert (existsb (inconsistent op) r = true); [|congruence].
    apply existsb_exists. exists b. split; auto. unfold inconsistent.
    rewrite H2. simpl. rewrite H3, Nat.eqb_refl. simpl.
    destruct (assoc_eqb_spec (o_assoc b) (o_assoc op)); auto; congruence.
  - intros H. destruct (existsb (inconsistent op) r) eqn:E; auto. exfalso.
    apply existsb_exists in E. destruct E as (b & Hb & E). unfold inconsistent in E.
    apply andb_true_iff in E. destruct E as [E E3]. apply andb_true_iff in E. destruct E as [E1 E2].
    apply (H b Hb). destruct (placement_eqb_spec (o_place b) PInfix); [|discriminate].
    apply Nat.eqb_eq in E2. destruct (assoc_eqb_spec (o_assoc b) (o_assoc op)); [discriminate|].
    repeat split; auto.
Qed.

Lemma iterate_crep : forall c r, crep c r ->
  list_iterate (S (l_count (c_list c))) (c_heap c) (c_list c) None = Ok r.
Proof.
  intros c r ((k & R) & _). rewrite (iterate_rep _ _ _ _ R). f_equal.
  unfold keyed. rewrite map_map. apply map_id.
Qed.

Lemma count_crep : forall c r, crep c r -> l_count (c_list c) = List.length r.
Proof.
  intros c r ((k & R) & _). destruct R as (_ & _ & _ & _ & _ & _ & Hc & _).
  rewrite Hc. unfold keyed. apply map_length.
Qed.

Lemma NoDup_keyed : forall c r, crep c r -> NoDup (map o_addr r).
Proof.
  intros c r ((k & R) & _). destruct R as (_ & Hnd & _). unfold ids, keyed in Hnd.
  rewrite map_map in Hnd. exact Hnd.
Qed.

(** the operator as it is stored by ctx_add_op *)
Definition stored (c : ctx) (op : operator) : operator :=
  mkOp (o_name op) (list_count (c_list c)) (o_arity op) (o_prec op) (o_assoc op) (o_place op) (h_fresh (c_heap c)).

Lemma append_rep : forall (A : Type) (h : heap A) lst l k x, rep (h, lst) (l, k) ->
  exists h' lst', list_append h lst x = Ok (h', lst', Some k) /\ rep (h', lst') (l ++ [(k, x)], S k).
Proof.
  intros A h lst l k x R. pose proof R as R0. rewrite <- (app_nil_r l) in R0.
  destruct (insert_core _ _ l [] k x R0) as (h' & lst' & Ei & R').
  unfold list_append. assert (Hla : l_last lst = lastp None l) by (destruct R; tauto).
  rewrite Hla. eauto.
Qed.

Lemma add_trep : forall (D : Type) (t : trie D) m s d, trep t m -> storable s -> find_key s m = None ->
  exists t', trie_add_str t s d = Ok (t', true) /\ trep t' ((s, d) :: m).
Proof.
  intros D t m s d T Hs Hf. destruct (trie_step_sim t m (TAdd s d) T) as (t' & E & T').
  - exact Hs.
  - simpl in *. rewrite Hf in *. simpl in *. eauto.
Qed.
Lemma add_trep' : forall (D : Type) (t : trie D) m s d, trep t m -> storable s ->
  exists t' b m', trie_add_str t s d = Ok (t', b) /\ trep t' m'
    /\ (m' = m \/ m' = (s, d) :: m) /\ find_key s m' <> None.
Proof.
  intros D t m s d T Hs. destruct (trie_step_sim t m (TAdd s d) T) as (t' & E & T').
  - exact Hs.
  - simpl in *. destruct (find_key s m) eqn:F; simpl in *.
    + exists t', false, m. repeat split; auto; try apply T'. congruence.
    + exists t', true, ((s, d) :: m). repeat split; auto; try apply T'.
      simpl. rewrite streqb_refl. congruence.
Qed.

Lemma set_trie_same : forall f p t, set_trie f p t p = t.
Proof. intros. unfold set_trie. destruct (placement_eqb_spec p p); congruence. Qed.
Lemma set_trie_other : forall f p t q, q <> p -> set_trie f p t q = f q.
Proof. intros. unfold set_trie. destruct (placement_eqb_spec q p); congruence. Qed.

Lemma add_ok : forall c r op, crep c r -> storable (o_name op) -> addable r op ->
  exists c', ctx_add_op c op = Ok (c', Some (stored c op)) /\ crep c' (r ++ [stored c op])
             /\ c_glue c' = c_glue c.
Proof.
  intros c r op C Hs [Hf Hcon]. unfold ctx_add_op.
  rewrite (lookup_crep c r _ _ C), Hf. cbn [rbind].
  assert (Hbad : (if placement_eqb (o_place op) PInfix then
              ops <- list_iterate (S (l_count (c_list c))) (c_heap c) (c_list c) None ;;
              Ok (existsb (inconsistent op) ops)
            else Ok false) = Ok false).
  { destruct (placement_eqb_spec (o_place op) PInfix) as [Hp|Hp]; auto.
    rewrite (iterate_crep c r C). cbn [rbind]. f_equal. apply inconsistent_spec; auto. }
  rewrite Hbad. cbn [rbind]. fold (stored c op). cbv zeta.
  pose proof C as ((k & R) & Ht & (mk & Tk & Hk) & Hu & Hcons).
  destruct (append_rep _ _ _ _ _ (stored c op) R) as (h' & l' & Ea & R').
  rewrite Ea. cbn [rbind].
  destruct (Ht (o_place op)) as (m & Tm & Hm).
  destruct (add_trep _ _ _ (o_name op) k Tm Hs) as (t' & Et & Tt'); [rewrite Hm, Hf; reflexivity|].
  rewrite Et. cbn [rbind].
  destruct (add_trep' _ _ _ (o_name op) tt Tk Hs) as (tk' & b & mk' & Ek & Tk' & Hmk & _).
  rewrite Ek. cbn [rbind].
  assert (Hfresh : h_fresh (c_heap c) = k) by (destruct R; tauto).
  eexists. split; [reflexivity|]. split; [|reflexivity].
  split; [|split; [|split; [|split]]]; cbn [c_heap c_list c_tries c_kw].
  - exists (S k). rewrite keyed_app. simpl. rewrite Hfresh. exact R'.
  - intros p. destruct (placement_eqb_spec p (o_place op)) as [->|Hne].
    + rewrite set_trie_same. eexists. split; [exact Tt'|]. intros n. simpl.
      rewrite reg_find_app, Hm. destruct (streqb_spec (o_name op) n) as [<-|Hn].
      * rewrite Hf. simpl. unfold reg_find. simpl.
        replace (same_slot (o_name op) (o_place op) (stored c op)) with true
          by (symmetry; apply same_slot_spec; auto). simpl. congruence.
      * destruct (reg_find r n (o_place op)); auto. unfold reg_find; simpl.
        destruct (same_slot n (o_place op) (stored c op)) eqn:E; auto.
        apply same_slot_spec in E. simpl in E. tauto.
    + rewrite set_trie_other by auto. destruct (Ht p) as (m2 & T2 & H2). exists m2. split; auto.
      intros n. rewrite H2, reg_find_app. destruct (reg_find r n p); auto. unfold reg_find; simpl.
      destruct (same_slot n p (stored c op)) eqn:E; auto.
      apply same_slot_spec in E. simpl in E. exfalso. apply Hne. symmetry; tauto.
  - exists mk'. split; auto. intros n Hn. destruct Hmk as [->| ->].
    + destruct (Hk n Hn) as (o & Ho & En). exists o. split; auto. apply in_app_iff; auto.
    + simpl in Hn. destruct (streqb_spec (o_name op) n) as [Hd|Hd]; [subst n|].
      * exists (stored c op). split; [apply in_app_iff; simpl; auto|reflexivity].
      * destruct (Hk n Hn) as (o & Ho & En). exists o. split; auto. apply in_app_iff; auto.
  - intros o Ho. rewrite reg_find_app. apply in_app_iff in Ho. destruct Ho as [Ho|[<-|[]]].
    + rewrite (Hu o Ho). reflexivity.
    + simpl. rewrite Hf. unfold reg_find; simpl.
      replace (same_slot (o_name op) (o_place op) (stored c op)) with true
        by (symmetry; apply same_slot_spec; auto). reflexivity.
  - intros a b0 Ha Hb Hc. apply in_app_iff in Ha. apply in_app_iff in Hb.
    destruct Ha as [Ha|[<-|[]]], Hb as [Hb|[<-|[]]].
    + apply (Hcons a b0); auto.
    + apply (Hcon a Ha). destruct Hc as (H1 & H2 & H3 & H4). repeat split; auto.
    + apply (Hcon b0 Hb). destruct Hc as (H1 & H2 & H3 & H4). repeat split; auto.
    + destruct Hc as (H1 & H2 & H3 & H4). auto.
Qed.

Lemma addable_dec : forall r op, addable r op \/ ~ addable r op.
Proof.
  intros r op. unfold addable. destruct (reg_find r (o_name op) (o_place op)).
  - right. intros [H _]. discriminate.
  - destruct (placement_eqb_spec (o_place op) PInfix) as [Hp|Hp].
    + destruct (existsb (inconsistent op) r) eqn:E.
      * right. intros [_ H]. apply inconsistent_spec in H; auto. congruence.
      * left. split; auto. apply inconsistent_spec; auto.
    + left. split; auto. intros b _ (H & _). auto.
Qed.

Lemma add_fail : forall c r op, crep c r -> ~ addable r op -> ctx_add_op c op = Ok (c, None).
Proof.
  intros c r op C H. unfold ctx_add_op. rewrite (lookup_crep c r _ _ C). cbn [rbind].
  destruct (reg_find r (o_name op) (o_place op)) eqn:E; auto.
  destruct (placement_eqb_spec (o_place op) PInfix) as [Hp|Hp].
  - rewrite (iterate_crep c r C). cbn [rbind].
    destruct (existsb (inconsistent op) r) eqn:Ei; auto. exfalso. apply H. split; auto.
    apply inconsistent_spec; auto.
  - exfalso. apply H. split; auto. intros b _ (Hq & _). auto.
Qed.

Lemma filter_mid : forall (r1 r2 : registry) o n p,
  (forall x, In x (r1 ++ o :: r2) -> reg_find (r1 ++ o :: r2) (o_name x) (o_place x) = Some x) ->
  NoDup (map o_addr (r1 ++ o :: r2)) ->
  o_name o = n -> o_place o = p ->
  filter (fun x => negb (same_slot n p x)) (r1 ++ o :: r2) = r1 ++ r2.
Proof.
  intros r1 r2 o n p Hu Hnd Hn Hp.
  assert (Hne : forall x, In x (r1 ++ r2) -> same_slot n p x = false).
  { intros x Hx. destruct (same_slot n p x) eqn:E; auto. exfalso.
    apply same_slot_spec in E.
    assert (Hx' : In x (r1 ++ o :: r2)) by (apply in_app_iff; apply in_app_iff in Hx; simpl; tauto).
    pose proof (Hu x Hx') as E1. pose proof (Hu o) as E2.
    specialize (E2 ltac:(apply in_app_iff; simpl; auto)).
    rewrite Hn, Hp in E2. destruct E as [Ea Eb]. rewrite Ea, Eb in E1.
    assert (x = o) by congruence. subst x.
    rewrite map_app in Hnd. simpl in Hnd. apply NoDup_remove_2 in Hnd.
    apply Hnd. rewrite <- map_app. apply in_map. auto. }
  rewrite filter_app. simpl.
  replace (same_slot n p o) with true by (symmetry; apply same_slot_spec; auto). simpl.
  rewrite <- filter_app. clear - Hne. induction (r1 ++ r2) as [|x l IH]; simpl; auto.
  rewrite Hne by (simpl; auto). simpl. f_equal. apply IH. intros; apply Hne; simpl; auto.
Qed.

Lemma find_filter_other : forall r n p n' p', (n', p') <> (n, p) ->
  reg_find (filter (fun x => negb (same_slot n p x)) r) n' p' = reg_find r n' p'.
Proof.
  induction r as [|o r IH]; intros n p n' p' Hne; simpl; auto.
  unfold reg_find in *. simpl.
  destruct (same_slot n p o) eqn:E1; simpl.
  - destruct (same_slot n' p' o) eqn:E2; auto. exfalso. apply same_slot_spec in E1, E2.
    apply Hne. destruct E1, E2; congruence.
  - destruct (same_slot n' p' o); auto.
Qed.
Lemma find_filter_same : forall r n p,
  reg_find (filter (fun x => negb (same_slot n p x)) r) n p = None.
Proof.
  intros. destruct (reg_find _ n p) as [o|] eqn:E; auto. exfalso.
  apply reg_find_In in E. destruct E as (E & E1 & E2). apply filter_In in E. destruct E as [_ E].
  replace (same_slot n p o) with true in E by (symmetry; apply same_slot_spec; auto). discriminate.
Qed.

Lemma remove_trep : forall (D : Type) (t : trie D) m s, trep t m -> trep (trie_remove_str t s) (remove_key s m).
Proof.
  intros D t m s T. destruct (trie_step_sim t m (TRemove s) T I) as (t' & E & T').
  simpl in *. inversion E; subst. exact T'.
Qed.

Lemma delete_ok : forall c r n p o, crep c r -> reg_find r n p = Some o ->
  exists c', ctx_delete_op c n p = Ok (c', true)
    /\ crep c' (filter (fun x => negb (same_slot n p x)) r)
    /\ c_kw c' = trie_remove_str (c_kw c) n /\ c_glue c' = c_glue c.
Proof.
  intros c r n p o C Hf. unfold ctx_delete_op.
  pose proof (NoDup_keyed _ _ C) as Hnd.
  pose proof C as ((k & R) & Ht & (mk & Tk & Hk) & Hu & Hcons).
  destruct (Ht p) as (m & Tm & Hm).
  destruct (contains_spec _ _ n Tm) as [H1 H2]. rewrite Hm, Hf in *. cbn [option_map] in *.
  destruct (trie_contains (c_tries c p) n) as [b d]. cbn [fst snd] in *. subst b. rewrite H2 by auto.
  pose proof (reg_find_In _ _ _ _ Hf) as (Hin & Hn & Hp).
  destruct (in_split _ _ Hin) as (r1 & r2 & Hr).
  assert (Hk' : keyed r = keyed r1 ++ (o_addr o, o) :: keyed r2).
  { rewrite Hr, keyed_app. reflexivity. }
  rewrite Hk' in R. destruct (delete_core _ _ _ _ _ _ _ R) as (h' & l' & Ed & R').
  rewrite Ed. cbn [rbind]. eexists. split; [reflexivity|]. split; [|auto].
  assert (Hflt : filter (fun x => negb (same_slot n p x)) r = r1 ++ r2).
  { rewrite Hr. rewrite Hr in Hu, Hnd. apply (filter_mid r1 r2 o); auto. }
  split; [|split; [|split; [|split]]]; cbn [c_heap c_list c_tries c_kw].
  - exists k. rewrite Hflt, keyed_app. exact R'.
  - intros q. destruct (placement_eqb_spec q p) as [->|Hne].
    + rewrite set_trie_same. exists (remove_key n m). split; [apply remove_trep; auto|].
      intros n'. rewrite remove_key_find. destruct (streqb_spec n n') as [<-|Hd].
      * rewrite find_filter_same. reflexivity.
      * rewrite find_filter_other by congruence. apply Hm.
    + rewrite set_trie_other by auto. destruct (Ht q) as (m2 & T2 & H2'). exists m2. split; auto.
      intros n'. rewrite find_filter_other by congruence. apply H2'.
  - exists (remove_key n mk). split; [apply remove_trep; auto|].
    intros n' Hn'. rewrite remove_key_find in Hn'. destruct (streqb_spec n n') as [|Hd]; [congruence|].
    destruct (Hk n' Hn') as (x & Hx & En). exists x. split; auto. apply filter_In. split; auto.
    destruct (same_slot n p x) eqn:E; auto. apply same_slot_spec in E. exfalso. apply Hd.
    destruct E; congruence.
  - intros x Hx. apply filter_In in Hx. destruct Hx as [Hx1 Hx2].
    destruct (reg_find r (o_name x) (o_place x)) eqn:E; [|rewrite Hu in E by auto; discriminate].
    rewrite find_filter_other.
    + apply Hu; auto.
    + intros Heq. inversion Heq. subst.
      replace (same_slot (o_name x) (o_place x) x) with true in Hx2 by (symmetry; apply same_slot_spec; auto).
      assert (same_slot (o_name o) (o_place o) x = true) by (apply same_slot_spec; auto).
      rewrite H in Hx2. discriminate.
  - intros a b Ha Hb. apply filter_In in Ha. apply filter_In in Hb. apply Hcons; tauto.
Qed.

Lemma delete_fail : forall c r n p, crep c r -> reg_find r n p = None -> ctx_delete_op c n p = Ok (c, false).
Proof.
  intros c r n p C Hf. unfold ctx_delete_op.
  pose proof C as (_ & Ht & _). destruct (Ht p) as (m & Tm & Hm).
  destruct (contains_spec _ _ n Tm) as [H1 H2]. rewrite Hm, Hf in *. simpl in *.
  destruct (trie_contains (c_tries c p) n) as [b d]. simpl in *. subst b. reflexivity.
Qed.

Lemma ctx_step_sim : forall c r o, crep c r -> cop_storable o ->
  exists c' r' x, ctx_step c o = Ok (c', x) /\ crep c' r' /\ reg_step r o r' x.
Proof.
  intros c r [op|n p|n p] C Hs; simpl in *.
  - destruct (addable_dec r op) as [Ha|Ha].
    + destruct (add_ok c r op C Hs Ha) as (c' & E & C' & _). rewrite E. cbn [rbind].
      exists c', (r ++ [stored c op]), (COp (Some (stored c op))). repeat split; auto; try apply C'.
      apply rs_add; auto. repeat split; auto.
    + rewrite (add_fail c r op C Ha). cbn [rbind]. exists c, r, (COp None). repeat split; auto; try apply C.
      apply rs_add_fail; auto.
  - destruct (reg_find r n p) as [o|] eqn:E.
    + destruct (delete_ok c r n p o C E) as (c' & Ed & C' & _). rewrite Ed. cbn [rbind].
      do 3 eexists. split; [reflexivity|]. split; [exact C'|]. eapply rs_delete; eauto.
    + rewrite (delete_fail c r n p C E). cbn [rbind].
      do 3 eexists. split; [reflexivity|]. split; [exact C|]. apply rs_delete_fail; auto.
  - rewrite (lookup_crep c r n p C). cbn [rbind].
    do 3 eexists. split; [reflexivity|]. split; [exact C|]. apply rs_lookup.
Qed.

Lemma ctx_run_sim : forall ops c r, crep c r -> Forall cop_storable ops ->
  exists c' r' xs, ctx_run c ops = Ok (c', xs) /\ crep c' r' /\ reg_run r ops r' xs.
Proof.
  induction ops as [|o ops IH]; intros c r C F.
  - exists c, r, []. repeat split; auto; try apply C. constructor.
  - inversion F; subst. destruct (ctx_step_sim c r o C H1) as (c1 & r1 & x & E & C1 & S1).
    destruct (IH c1 r1 C1 H2) as (c2 & r2 & xs & E2 & C2 & S2).
    exists c2, r2, (x :: xs). cbn [ctx_run]. rewrite E. cbn [rbind]. rewrite E2. cbn [rbind].
    repeat split; auto; try apply C2. econstructor; eauto.
Qed.
