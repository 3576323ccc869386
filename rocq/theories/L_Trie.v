(** Proofs about M_Trie: well-formedness invariant, refinement to a finite map. *)
From Coq Require Import List Ascii String NArith ZArith Bool Lia Arith.
From Verif Require Import M_Base M_Trie S_Util.
Import ListNotations.
Open Scope res_scope.

Lemma streqb_eq : forall a b, streqb a b = true <-> a = b.
Proof.
  induction a; destruct b; simpl; split; intros H; try congruence; auto.
  - apply andb_true_iff in H. destruct H as [H1 H2]. apply Ascii.eqb_eq in H1.
    apply IHa in H2. congruence.
  - inversion H; subst. apply andb_true_iff. split; [apply Ascii.eqb_refl|apply IHa; auto].
Qed.
Lemma streqb_refl : forall a, streqb a a = true.
Proof. intros; apply streqb_eq; auto. Qed.
Lemma streqb_spec : forall a b, reflect (a = b) (streqb a b).
Proof.
  intros. destruct (streqb a b) eqn:E; constructor.
  - apply streqb_eq; auto.
  - intros H. apply streqb_eq in H. congruence.
Qed.
Lemma streqb_sym : forall a b, streqb a b = streqb b a.
Proof. intros. destruct (streqb_spec a b), (streqb_spec b a); congruence. Qed.

Lemma legal_spec : forall c, is_legal_char c = true <-> admissible_char c.
Proof.
  intros. unfold is_legal_char, admissible_char, ccode, TRIE_START, TRIE_END.
  rewrite andb_true_iff, Nat.leb_le, Nat.ltb_lt. lia.
Qed.

Lemma nat_of_ascii_inj : forall a b, nat_of_ascii a = nat_of_ascii b -> a = b.
Proof. intros. rewrite <- (ascii_nat_embedding a), <- (ascii_nat_embedding b). congruence. Qed.

Lemma index_inj : forall c c', is_legal_char c = true -> is_legal_char c' = true ->
  char_to_index c = char_to_index c' -> c = c'.
Proof.
  intros c c' H H' E. apply legal_spec in H, H'. unfold admissible_char in *.
  unfold char_to_index, ccode, TRIE_START in E. apply nat_of_ascii_inj. lia.
Qed.

Lemma index_lt : forall c, is_legal_char c = true -> char_to_index c < SLOTS.
Proof.
  intros c H. apply legal_spec in H. unfold admissible_char in H.
  unfold char_to_index, ccode, SLOTS, TRIE_START, TRIE_END. lia.
Qed.

Section Trie.
Context {D : Type}.
Implicit Types (n : tnode D) (l : list (option (tnode D))).

Lemma get_set_same : forall l i v, i < List.length l -> get_slot (set_slot l i v) i = v.
Proof.
  unfold get_slot. induction l; intros i v H; simpl in *; [lia|]. destruct i; simpl; auto.
  apply IHl; lia.
Qed.
Lemma get_set_other : forall l i j v, i <> j -> get_slot (set_slot l i v) j = get_slot l j.
Proof.
  unfold get_slot. induction l; intros i j v H; simpl in *; auto.
  destruct i, j; simpl; auto; congruence.
Qed.
Lemma set_slot_length : forall l i v, List.length (set_slot l i v) = List.length l.
Proof. induction l; destruct i; simpl; auto. Qed.
Lemma get_slot_lt : forall l i c, get_slot l i = Some c -> i < List.length l.
Proof.
  unfold get_slot. intros l i c H. destruct (nth_error l i) eqn:E; [|discriminate].
  apply nth_error_Some. congruence.
Qed.

Fixpoint count_some l : nat :=
  match l with
  | [] => 0
  | Some _ :: l' => S (count_some l')
  | None :: l' => count_some l'
  end.
Lemma count_le : forall l, count_some l <= List.length l.
Proof. induction l as [|[|] l]; simpl; lia. Qed.
Lemma count_set_new : forall l i v, i < List.length l -> get_slot l i = None ->
  count_some (set_slot l i (Some v)) = S (count_some l).
Proof.
  unfold get_slot. induction l as [|o l IH]; intros i v Hl H; simpl in *; [lia|].
  destruct i; simpl in *.
  - subst. reflexivity.
  - destruct o; simpl; rewrite IH; auto; lia.
Qed.
Lemma count_set_old : forall l i v w, get_slot l i = Some w ->
  count_some (set_slot l i (Some v)) = count_some l.
Proof.
  unfold get_slot. induction l as [|o l IH]; intros i v w H; simpl in *; auto.
  destruct i; simpl in *.
  - subst. reflexivity.
  - destruct o; simpl; erewrite IH; eauto.
Qed.
Lemma count_set_none : forall l i w, get_slot l i = Some w ->
  count_some (set_slot l i None) = count_some l - 1 /\ 1 <= count_some l.
Proof.
  unfold get_slot. induction l as [|o l IH]; intros i w H; simpl in *.
  - destruct i; discriminate.
  - destruct i; simpl in *.
    + subst. simpl. lia.
    + destruct (IH _ _ H). destruct o; simpl; lia.
Qed.
Lemma count_new_lt : forall l i, i < List.length l -> get_slot l i = None ->
  count_some l < List.length l.
Proof.
  unfold get_slot. induction l as [|o l IH]; intros i Hl H; simpl in *; [lia|].
  destruct i; simpl in *.
  - subst. pose proof (count_le l). lia.
  - assert (count_some l < List.length l) by (apply IH with i; auto; lia).
    destruct o; lia.
Qed.
Lemma count_zero : forall l i, count_some l = 0 -> get_slot l i = None.
Proof.
  unfold get_slot. induction l as [|o l IH]; intros i H; simpl in *.
  - destruct i; auto.
  - destruct o; [discriminate|]. destruct i; simpl; auto.
Qed.
Lemma count_pos : forall l, 0 < count_some l -> exists i c, get_slot l i = Some c.
Proof.
  induction l as [|o l IH]; simpl; intros H; [lia|]. destruct o as [c|].
  - exists 0, c. reflexivity.
  - destruct (IH H) as (i & c & E). exists (S i), c. exact E.
Qed.

Definition alive n : Prop := tn_term n = true \/ 0 < tn_succ n.

Inductive wf : tnode D -> Prop :=
| wf_intro : forall term succ next data,
    List.length next = SLOTS ->
    succ = count_some next ->
    (term = true -> exists d, data = Some d) ->
    (forall i c, get_slot next i = Some c -> alive c /\ wf c) ->
    wf (TN term succ next data).

Lemma wf_ind' : forall (P : tnode D -> Prop),
  (forall term succ next data,
    List.length next = SLOTS -> succ = count_some next ->
    (term = true -> exists d, data = Some d) ->
    (forall i c, get_slot next i = Some c -> alive c /\ wf c /\ P c) ->
    P (TN term succ next data)) ->
  forall n, wf n -> P n.
Proof.
  intros P H. fix IH 2. intros n [term succ next data H1 H2 H3 H4]. apply H; auto.
  intros i c E. destruct (H4 i c E) as [Ha Hw]. split; [exact Ha|]. split; [exact Hw|].
  apply IH. exact Hw.
Qed.

Lemma slots_repeat : forall k, count_some (repeat None k) = 0.
Proof. induction k; simpl; auto. Qed.

Lemma wf_new : wf malloc_trienode.
Proof.
  unfold malloc_trienode. constructor.
  - apply repeat_length.
  - rewrite slots_repeat. reflexivity.
  - discriminate.
  - intros i c H. exfalso. rewrite count_zero in H; [discriminate|apply slots_repeat].
Qed.

Fixpoint find n (s : cstr) : option (tnode D) :=
  match s with
  | [] => Some n
  | c :: s' =>
    if is_legal_char c then
      match get_slot (tn_next n) (char_to_index c) with
      | Some ch => find ch s'
      | None => None
      end
    else None
  end.
Definition node_val n : option D := if tn_term n then tn_data n else None.
Definition lookup n s : option D := match find n s with Some m => node_val m | None => None end.

Lemma lookup_cons : forall n c s, lookup n (c :: s) =
  if is_legal_char c then
    match get_slot (tn_next n) (char_to_index c) with
    | Some ch => lookup ch s | None => None end
  else None.
Proof.
  intros. unfold lookup. simpl. destruct (is_legal_char c); auto.
  destruct (get_slot (tn_next n) (char_to_index c)); auto.
Qed.
Lemma lookup_nil : forall n, lookup n [] = node_val n.
Proof. reflexivity. Qed.
Lemma lookup_new : forall s, lookup malloc_trienode s = None.
Proof.
  destruct s; [reflexivity|]. rewrite lookup_cons. destruct (is_legal_char a); auto.
  unfold malloc_trienode. cbn [tn_next]. rewrite count_zero; [reflexivity|apply slots_repeat].
Qed.

Lemma uchar_succ : forall k, k < SLOTS -> uchar (k + 1) = k + 1.
Proof. intros k H. unfold uchar. apply Nat.mod_small. unfold SLOTS, TRIE_END, TRIE_START in H. lia. Qed.
Lemma uchar_pred : forall k, 1 <= k <= SLOTS -> uchar (k + 255) = k - 1.
Proof.
  intros k H. unfold uchar. unfold SLOTS, TRIE_END, TRIE_START in H.
  replace (k + 255) with ((k - 1) + 1 * 256) by lia. rewrite Nat.mod_add by lia.
  apply Nat.mod_small. lia.
Qed.

Lemma wf_val : forall n, wf n -> (tn_term n = true <-> node_val n <> None).
Proof.
  intros n H. inversion H; subst. unfold node_val; simpl. destruct term; split; try congruence.
  - intros _. destruct H2 as [d ->]; auto; discriminate.
Qed.

Lemma wf_set : forall term succ next data i ch succ',
  wf (TN term succ next data) -> i < SLOTS -> wf ch -> alive ch ->
  succ' = count_some (set_slot next i (Some ch)) ->
  wf (TN term succ' (set_slot next i (Some ch)) data).
Proof.
  intros term succ next data i ch succ' H Hi Hw Ha Hs. inversion H; subst. constructor; auto.
  - rewrite set_slot_length; auto.
  - intros j c E. destruct (Nat.eq_dec i j).
    + subst. rewrite get_set_same in E by lia. inversion E; subst; auto.
    + rewrite get_set_other in E by auto. eauto.
Qed.

Lemma ceqb_spec : forall a b, reflect (a = b) (ceqb a b).
Proof. apply Ascii.eqb_spec. Qed.

Lemma lookup_set_slot : forall term succ succ0 next data v c s',
  List.length next = SLOTS -> is_legal_char c = true ->
  lookup (TN term succ (set_slot next (char_to_index c) v) data) s'
  = match s' with
    | [] => if term then data else None
    | c' :: s'' => if ceqb c c' then match v with Some ch => lookup ch s'' | None => None end
                   else lookup (TN term succ0 next data) (c' :: s'')
    end.
Proof.
  intros term succ succ0 next data v c s' Hl Hc. destruct s' as [|c' s']; [reflexivity|].
  rewrite !lookup_cons. simpl tn_next. destruct (ceqb_spec c c').
  - subst c'. rewrite Hc, get_set_same; auto. rewrite Hl. apply index_lt; auto.
  - destruct (is_legal_char c') eqn:Hc'; auto.
    rewrite get_set_other; auto. intros E. apply index_inj in E; auto.
Qed.

Lemma add_walk_spec : forall s n d, Forall admissible_char s -> wf n ->
  exists n', add_walk n s d = Ok (n', match lookup n s with Some _ => false | None => true end)
    /\ wf n' /\ alive n'
    /\ (forall s', lookup n' s' = if streqb s s'
                                  then match lookup n s with Some x => Some x | None => Some d end
                                  else lookup n s').
Proof.
  induction s as [|c s IH]; intros n d Hs Hwf.
  - destruct n as [term succ next data]. simpl. rewrite lookup_nil.
    pose proof (wf_val _ Hwf) as Hv. simpl in Hv. destruct term.
    + destruct (node_val (TN true succ next data)) eqn:E.
      2:{ exfalso. apply Hv; auto. }
      eexists. split; [reflexivity|]. split; auto. split; [left; reflexivity|].
      intros [|c' s']; simpl; auto.
    + unfold node_val at 1; simpl. eexists. split; [reflexivity|].
      inversion Hwf; subst. split; [|split; [left; reflexivity|]].
      * constructor; auto. eauto.
      * intros [|c' s']; simpl; auto.
  - inversion Hs; subst. pose proof (proj2 (legal_spec c) H1) as Hc.
    destruct n as [term succ next data]. cbn [add_walk]. rewrite Hc.
    rewrite lookup_cons, Hc. simpl tn_next. pose proof (index_lt c Hc) as Hi.
    assert (Hlen : List.length next = SLOTS) by (inversion Hwf; auto).
    assert (Hsucc : succ = count_some next) by (inversion Hwf; auto).
    destruct (get_slot next (char_to_index c)) as [ch|] eqn:Eg.
    + assert (Hch : wf ch) by (inversion Hwf; subst; eapply H8; eauto).
      destruct (IH ch d H2 Hch) as (ch' & E & Hw & Ha & Hl). rewrite E. cbn [rbind].
      eexists. split; [reflexivity|]. split; [|split].
      * eapply wf_set; eauto. erewrite count_set_old; eauto.
      * right. simpl. destruct (count_set_none _ _ _ Eg). lia.
      * intros s'. rewrite (lookup_set_slot term succ succ) by auto.
        destruct s' as [|c' s']; [reflexivity|]. cbn [streqb].
        destruct (ceqb_spec c c'); [|reflexivity]. subst c'. cbn [andb]. rewrite Hl.
        rewrite lookup_cons, Hc. simpl tn_next. rewrite Eg. reflexivity.
    + destruct (IH malloc_trienode d H2 wf_new) as (ch' & E & Hw & Ha & Hl). rewrite E.
      rewrite lookup_new in *. cbn [rbind].
      assert (Hlt : count_some next < SLOTS)
        by (rewrite <- Hlen; eapply count_new_lt; eauto; lia).
      rewrite uchar_succ by lia.
      eexists. split; [reflexivity|]. split; [|split].
      * eapply wf_set; eauto. rewrite count_set_new; auto; lia.
      * right. simpl. lia.
      * intros s'. rewrite (lookup_set_slot term _ succ) by auto.
        destruct s' as [|c' s']; [reflexivity|]. cbn [streqb].
        destruct (ceqb_spec c c'); [|reflexivity]. subst c'. cbn [andb]. rewrite Hl.
        rewrite lookup_cons, Hc. simpl tn_next. rewrite Eg, lookup_new. reflexivity.
Qed.

Lemma add_walk_illegal : forall s n d, ~ Forall admissible_char s -> add_walk n s d = Halt.
Proof.
  induction s as [|c s IH]; intros n d H.
  - exfalso; apply H; constructor.
  - destruct n as [term succ next data]. cbn [add_walk].
    destruct (is_legal_char c) eqn:E; auto.
    assert (~ Forall admissible_char s).
    { intros Hs. apply H. constructor; auto. apply legal_spec; auto. }
    destruct (get_slot next (char_to_index c)); rewrite IH; auto.
Qed.

Lemma dead_lookup : forall n s, wf n -> tn_succ n = 0 -> tn_term n = false -> lookup n s = None.
Proof.
  intros n s H Hs Ht. inversion H; subst; simpl in *. destruct s; [rewrite lookup_nil|].
  - unfold node_val; simpl. rewrite Ht; auto.
  - rewrite lookup_cons. destruct (is_legal_char a); auto. simpl.
    rewrite count_zero by auto. reflexivity.
Qed.

Lemma remove_rec_spec : forall s n d0, wf n -> (d0 = true \/ alive n) ->
  exists n' dec freed, remove_rec n d0 s = (n', dec, freed)
    /\ wf n'
    /\ dec = match lookup n s with Some _ => true | None => false end
    /\ (forall s', lookup n' s' = if streqb s s' then None else lookup n s')
    /\ (if freed then tn_succ n' = 0 /\ tn_term n' = false /\ d0 = false
        else d0 = true \/ alive n').
Proof.
  assert (Hfree : forall (term:bool) succ next (data:option D) d0,
    if (succ =? 0)%nat && negb d0 && negb term
    then succ = 0 /\ term = false /\ d0 = false
    else d0 = true \/ alive (TN term succ next data)).
  { intros. destruct (Nat.eqb_spec succ 0), d0, term; simpl; auto; right; unfold alive; simpl;
      auto; right; lia. }
  induction s as [|c s IH]; intros n d0 Hwf Hal.
  - destruct n as [term succ next data]. cbn [remove_rec].
    eexists _, _, _. split; [reflexivity|]. split; [|split; [|split]].
    + inversion Hwf; subst. constructor; auto; discriminate.
    + rewrite lookup_nil. pose proof (wf_val _ Hwf) as Hv. simpl in Hv.
      destruct term, (node_val (TN _ succ next data)) eqn:E; auto.
      * exfalso; apply Hv; auto.
      * unfold node_val in E; simpl in E; discriminate.
    + intros [|c' s']; reflexivity.
    + exact (Hfree false succ next data d0).
  - destruct n as [term succ next data]. cbn [remove_rec].
    destruct (is_legal_char c) eqn:Hc.
    + pose proof (index_lt c Hc) as Hi.
      assert (Hlen : List.length next = SLOTS) by (inversion Hwf; auto).
      assert (Hsucc : succ = count_some next) by (inversion Hwf; auto).
      rewrite lookup_cons, Hc. simpl tn_next.
      destruct (get_slot next (char_to_index c)) as [ch|] eqn:Eg.
      * assert (Hch : alive ch /\ wf ch) by (inversion Hwf; subst; eauto).
        destruct Hch as [Hcha Hchw].
        destruct (IH ch false Hchw (or_intror Hcha)) as (ch' & dec & fr & E & Hw & Hd & Hl & Hf).
        rewrite E. destruct fr.
        -- destruct Hf as (Hf1 & Hf2 & _).
           destruct (count_set_none _ _ _ Eg) as [Hc1 Hc2].
           pose proof (count_le next) as Hle. rewrite Hlen in Hle.
           eexists _, _, _. split; [reflexivity|]. split; [|split; [|split]].
           ++ inversion Hwf; subst. constructor; auto.
              ** rewrite set_slot_length; auto.
              ** rewrite uchar_pred by lia. lia.
              ** intros j c0 E0. destruct (Nat.eq_dec (char_to_index c) j).
                 { subst. rewrite get_set_same in E0 by lia. discriminate. }
                 rewrite get_set_other in E0 by auto. eauto.
           ++ auto.
           ++ intros s'. rewrite (lookup_set_slot term _ succ) by auto.
              destruct s' as [|c' s']; [reflexivity|]. cbn [streqb].
              destruct (ceqb_spec c c'); [|reflexivity]. subst c'. cbn [andb].
              specialize (Hl s'). rewrite (dead_lookup ch' s' Hw Hf1 Hf2) in Hl.
              rewrite lookup_cons, Hc. simpl tn_next. rewrite Eg.
              destruct (streqb s s'); auto.
           ++ apply Hfree.
        -- destruct Hf as [|Hf]; [discriminate|].
           eexists _, _, _. split; [reflexivity|]. split; [|split; [|split]].
           ++ eapply wf_set; eauto. erewrite count_set_old; eauto.
           ++ auto.
           ++ intros s'. rewrite (lookup_set_slot term _ succ) by auto.
              destruct s' as [|c' s']; [reflexivity|]. cbn [streqb].
              destruct (ceqb_spec c c'); [|reflexivity]. subst c'. cbn [andb].
              rewrite Hl. rewrite lookup_cons, Hc. simpl tn_next. rewrite Eg. reflexivity.
           ++ apply Hfree.
      * eexists _, _, _. split; [reflexivity|]. split; [|split; [|split]]; auto.
        -- intros s'. destruct (streqb_spec (c :: s) s'); auto.
           subst. rewrite lookup_cons, Hc. simpl tn_next. rewrite Eg. reflexivity.
        -- apply Hfree.
    + eexists _, _, _. split; [reflexivity|]. split; [|split; [|split]]; auto.
      * rewrite lookup_cons, Hc. reflexivity.
      * intros s'. destruct (streqb_spec (c :: s) s'); auto.
        subst. rewrite lookup_cons, Hc. reflexivity.
Qed.

(** ** Simulation with the finite map *)
Definition trep (t : trie D) (m : smap D) : Prop :=
  wf (t_root t) /\ NoDup (map fst m) /\ t_count t = List.length m
  /\ forall s, lookup (t_root t) s = find_key s m.

Lemma find_key_In : forall (m : smap D) s, find_key s m = None <-> ~ In s (map fst m).
Proof.
  induction m as [|[k d] m IH]; intros s; simpl.
  - tauto.
  - destruct (streqb_spec k s).
    + subst. split; [discriminate|]. intros H; exfalso; auto.
    + rewrite IH. tauto.
Qed.

Lemma remove_key_find : forall (m : smap D) s s',
  find_key s' (remove_key s m) = if streqb s s' then None else find_key s' m.
Proof.
  unfold remove_key. induction m as [|[k d] m IH]; intros s s'; simpl.
  - destruct (streqb s s'); auto.
  - destruct (streqb_spec k s); simpl.
    + subst. rewrite IH. destruct (streqb_spec s s'); auto.
    + rewrite IH. destruct (streqb_spec k s'); auto. destruct (streqb_spec s s'); congruence.
Qed.

Lemma remove_key_nodup : forall (m : smap D) s, NoDup (map fst m) ->
  NoDup (map fst (remove_key s m)).
Proof.
  unfold remove_key. induction m as [|[k d] m IH]; intros s H; simpl; auto.
  inversion H; subst. destruct (streqb k s); simpl; auto. constructor; auto.
  intros Hin. apply H2. clear - Hin. induction m as [|[k' d'] m IH]; simpl in *; auto.
  destruct (streqb k' s); simpl in *; tauto.
Qed.

Lemma remove_key_length : forall (m : smap D) s, NoDup (map fst m) ->
  List.length (remove_key s m)
  = match find_key s m with Some _ => List.length m - 1 | None => List.length m end.
Proof.
  induction m as [|[k d] m IH]; intros s H; simpl; auto. inversion H; subst.
  unfold remove_key in *. simpl. destruct (streqb_spec k s); simpl.
  - subst. rewrite IH by auto. apply find_key_In in H2. rewrite H2. lia.
  - rewrite IH by auto. destruct (find_key s m) eqn:E; auto.
    destruct m; [discriminate|simpl; lia].
Qed.

Lemma trie_step_sim : forall t m o, trep t m -> op_admissible o ->
  exists t', trie_step t o = Ok (t', snd (map_step m o)) /\ trep t' (fst (map_step m o)).
Proof.
  intros [r cnt] m o (Hwf & Hnd & Hc & Hl) Ho. simpl in *. destruct o as [s d|s]; simpl in *.
  - unfold trie_add_str; simpl.
    destruct (add_walk_spec s r d Ho Hwf) as (n' & E & Hw & _ & Hl').
    rewrite E. cbn [rbind]. rewrite Hl in *.
    destruct (find_key s m) as [x|] eqn:Ek; simpl.
    + eexists; split; [reflexivity|]. split; [|split; [|split]]; simpl; auto.
      intros s'. rewrite Hl'. destruct (streqb_spec s s'); subst; auto.
    + eexists; split; [reflexivity|]. split; [|split; [|split]]; simpl; auto.
      * constructor; auto. apply find_key_In; auto.
      * lia.
      * intros s'. rewrite Hl'. destruct (streqb_spec s s'); subst; auto.
  - unfold trie_remove_str; simpl.
    destruct (remove_rec_spec s r true Hwf (or_introl eq_refl)) as
      (n' & dec & fr & E & Hw & Hd & Hl' & _).
    rewrite E. eexists; split; [reflexivity|].
    split; [|split; [|split]]; simpl; auto.
    + apply remove_key_nodup; auto.
    + rewrite remove_key_length by auto. subst dec. rewrite Hl.
      destruct (find_key s m); lia.
    + intros s'. rewrite Hl', remove_key_find, Hl. reflexivity.
Qed.

Lemma trie_run_sim : forall ops t m, trep t m -> Forall op_admissible ops ->
  exists t', trie_run t ops = Ok (t', snd (map_run m ops)) /\ trep t' (fst (map_run m ops)).
Proof.
  induction ops as [|o ops IH]; intros t m R H; simpl.
  - eauto.
  - inversion H; subst. destruct (trie_step_sim t m o R H2) as (t1 & E & R1).
    rewrite E. cbn [rbind]. destruct (map_step m o) as [m1 b] eqn:Em. simpl in *.
    destruct (IH t1 m1 R1 H3) as (t2 & E2 & R2). rewrite E2. cbn [rbind].
    destruct (map_run m1 ops) as [m2 bs] eqn:Er. simpl in *. eauto.
Qed.

Lemma create_trep : trep trie_create [].
Proof.
  split; [|split; [|split]]; simpl; auto.
  - apply wf_new.
  - constructor.
  - apply lookup_new.
Qed.

(** ** Longest prefix *)
Lemma lp_walk_spec : forall s n i best, wf n ->
  let '(k, d) := lp_walk n s i best in
  (k = fst best /\ d = snd best /\ forall j, 0 < j <= List.length s -> lookup n (firstn j s) = None)
  \/ (exists j, 0 < j <= List.length s /\ k = i + j /\ d <> None /\ lookup n (firstn j s) = d
      /\ forall j', j < j' <= List.length s -> lookup n (firstn j' s) = None).
Proof.
  induction s as [|c s IH]; intros n i best Hwf; simpl.
  - destruct best; left; simpl; repeat split; auto. intros; lia.
  - destruct (is_legal_char c) eqn:Hc.
    2:{ destruct best. left; simpl; repeat split; auto. intros j Hj. destruct j; [lia|].
        simpl firstn. rewrite lookup_cons, Hc. auto. }
    destruct (get_slot (tn_next n) (char_to_index c)) as [ch|] eqn:Eg.
    2:{ destruct best. left; simpl; repeat split; auto. intros j Hj. destruct j; [lia|].
        simpl firstn. rewrite lookup_cons, Hc, Eg. auto. }
    assert (Hch : wf ch) by (inversion Hwf; subst; simpl in Eg; eapply H2; eauto).
    specialize (IH ch (S i) (if tn_term ch then (S i, tn_data ch) else best) Hch).
    destruct (lp_walk ch s (S i) (if tn_term ch then (S i, tn_data ch) else best)) as [k d].
    destruct IH as [(Hk & Hd & Hn)|(j & Hj & Hk & Hd & Hlk & Hn)].
    + destruct (tn_term ch) eqn:Ht; simpl in Hk, Hd.
      * right. exists 1. split; [simpl; lia|]. split; [lia|].
        assert (Hv : node_val ch <> None) by (apply wf_val; auto).
        assert (Hlk : lookup n (firstn 1 (c :: s)) = node_val ch)
          by (simpl; rewrite lookup_cons, Hc, Eg; reflexivity).
        unfold node_val in Hv, Hlk. rewrite Ht in Hv, Hlk. subst d.
        split; auto. split; auto. intros j' Hj'. destruct j'; [lia|]. simpl firstn.
        rewrite lookup_cons, Hc, Eg. apply Hn. simpl in Hj'. lia.
      * left. split; auto. split; auto. intros j Hj. destruct j; [lia|]. simpl firstn.
        rewrite lookup_cons, Hc, Eg. destruct j.
        -- simpl. rewrite lookup_nil. unfold node_val. rewrite Ht. auto.
        -- apply Hn. simpl in Hj. lia.
    + right. exists (S j). split; [simpl; lia|]. split; [lia|]. split; auto. split.
      * simpl firstn. rewrite lookup_cons, Hc, Eg. auto.
      * intros j' Hj'. destruct j'; [lia|]. simpl firstn.
        rewrite lookup_cons, Hc, Eg. apply Hn. simpl in Hj'. lia.
Qed.

Lemma longest_prefix_spec : forall t m s, trep t m ->
  let '(k, d) := trie_longest_prefix t s in
  longest_key_prefix m s k /\ (0 < k -> d = find_key (firstn k s) m).
Proof.
  intros t m s (Hwf & Hnd & Hc & Hl). unfold trie_longest_prefix.
  pose proof (lp_walk_spec s (t_root t) 0 (0, tn_data (t_root t)) Hwf) as H.
  destruct (lp_walk (t_root t) s 0 (0, tn_data (t_root t))) as [k d].
  destruct H as [(Hk & Hd & Hn)|(j & Hj & Hk & Hd & Hlk & Hn)]; simpl in *.
  - subst k. split; [|lia]. split; [lia|]. split; [lia|].
    intros j Hj. rewrite <- Hl. apply Hn. lia.
  - assert (k = j) by lia. clear Hk. subst j. split.
    + split; [lia|]. split.
      * intros _. rewrite <- Hl, Hlk. auto.
      * intros j Hj'. rewrite <- Hl. apply Hn. auto.
    + intros _. rewrite <- Hl. auto.
Qed.

Lemma contains_spec : forall t m s, trep t m ->
  fst (trie_contains t s) = match find_key s m with Some _ => true | None => false end
  /\ (fst (trie_contains t s) = true -> snd (trie_contains t s) = find_key s m).
Proof.
  intros t m s R. pose proof R as (Hwf & Hnd & Hc & Hl). unfold trie_contains.
  destruct s as [|c s].
  - simpl. rewrite <- Hl, lookup_nil. pose proof (wf_val _ Hwf) as Hv.
    unfold node_val in *. destruct (tn_term (t_root t)); split; auto; try discriminate.
    destruct (tn_data (t_root t)); auto. exfalso; apply Hv; auto.
  - pose proof (longest_prefix_spec t m (c :: s) R) as H.
    destruct (trie_longest_prefix t (c :: s)) as [k d].
    destruct H as ((Hk & H1 & H2) & Hd). cbn [fst snd].
    destruct (Nat.eqb_spec k (List.length (c :: s))) as [E|E].
    + subst k. rewrite firstn_all in *. split.
      * destruct (find_key (c :: s) m); auto. exfalso. apply H1; auto. simpl; lia.
      * intros _. apply Hd. simpl; lia.
    + split; [|discriminate].
      specialize (H2 (List.length (c :: s))). rewrite firstn_all in H2. rewrite H2; auto. lia.
Qed.

(** ** No garbage *)
Lemma slot_char : forall i, i < SLOTS -> exists c, is_legal_char c = true /\ char_to_index c = i.
Proof.
  intros i Hi. unfold SLOTS, TRIE_END, TRIE_START in Hi. exists (ascii_of_nat (i + 33)).
  assert (E : nat_of_ascii (ascii_of_nat (i + 33)) = i + 33).
  { apply nat_ascii_embedding. lia. }
  split.
  - apply legal_spec. unfold admissible_char. rewrite E. lia.
  - unfold char_to_index, ccode, TRIE_START. rewrite E. lia.
Qed.

Lemma alive_stored : forall n, wf n -> alive n -> exists s, lookup n s <> None.
Proof.
  apply (wf_ind' (fun n => alive n -> exists s, lookup n s <> None)).
  intros term succ next data Hlen Hsucc Hdata Hch. intros [Ht|Hs]; simpl in *.
  - subst. exists []. rewrite lookup_nil. unfold node_val; simpl.
    destruct (Hdata eq_refl) as [d ->]. discriminate.
  - rewrite Hsucc in Hs. destruct (count_pos _ Hs) as (i & c & E).
    assert (Hi : i < SLOTS) by (rewrite <- Hlen; eapply get_slot_lt; eauto).
    destruct (slot_char i Hi) as (a & Ha1 & Ha2).
    destruct (Hch i c E) as (Hal & _ & Hsto). destruct (Hsto Hal) as [s Hs'].
    exists (a :: s). rewrite lookup_cons, Ha1. simpl. rewrite Ha2, E. auto.
Qed.

Lemma find_wf : forall p n n', wf n -> find n p = Some n' -> p <> [] -> wf n' /\ alive n'.
Proof.
  induction p as [|c p IH]; intros n n' Hw Hf Hp; [congruence|]. simpl in Hf.
  destruct (is_legal_char c); [|discriminate].
  destruct (get_slot (tn_next n) (char_to_index c)) as [ch|] eqn:E; [|discriminate].
  inversion Hw; subst. simpl in E. destruct (H2 _ _ E) as [Ha Hc].
  destruct p.
  - simpl in Hf. inversion Hf; subst. auto.
  - eapply IH; eauto. discriminate.
Qed.

Lemma find_app : forall p q n, find n (p ++ q)
  = match find n p with Some n' => find n' q | None => None end.
Proof.
  induction p; intros; simpl; auto. destruct (is_legal_char a); auto.
  destruct (get_slot (tn_next n) (char_to_index a)); auto.
Qed.

Lemma branch_stored : forall t m p n, trep t m -> find (t_root t) p = Some n -> p <> [] ->
  exists s, find_key (p ++ s) m <> None.
Proof.
  intros t m p n (Hwf & _ & _ & Hl) Hf Hp.
  destruct (find_wf p _ _ Hwf Hf Hp) as [Hw Ha].
  destruct (alive_stored n Hw Ha) as [s Hs]. exists s. rewrite <- Hl.
  unfold lookup in *. rewrite find_app, Hf. auto.
Qed.

Lemma succ_exact : forall t m p n, trep t m -> find (t_root t) p = Some n ->
  tn_succ n = count_some (tn_next n) /\ tn_succ n <= SLOTS.
Proof.
  intros t m p n (Hwf & _) Hf.
  assert (Hw : wf n).
  { destruct p as [|c p].
    - simpl in Hf. inversion Hf; subst; auto.
    - apply (find_wf (c :: p) (t_root t)); auto. discriminate. }
  inversion Hw; subst. simpl. split; auto. rewrite <- H. apply count_le.
Qed.
End Trie.
