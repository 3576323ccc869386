(** Proofs about the trie iterator of M_Trie. *)
From Coq Require Import List Ascii String NArith ZArith Bool Lia Arith Permutation Sorted.
From Verif Require Import M_Base M_Trie S_Util L_Trie.
Import ListNotations.
Open Scope res_scope.

(** ** The order *)
Lemma lex_irrefl : forall a, ~ lex_lt a a.
Proof. induction a; simpl; intuition lia. Qed.
Lemma lex_trans : forall a b c, lex_lt a b -> lex_lt b c -> lex_lt a c.
Proof.
  induction a; destruct b, c; simpl; intros H1 H2; try tauto.
  destruct H1 as [H1|[-> H1]], H2 as [H2|[-> H2]]; auto.
  - left; lia.
  - right; split; auto. eapply IHa; eauto.
Qed.
Lemma lex_total : forall a b, lex_lt a b \/ a = b \/ lex_lt b a.
Proof.
  induction a; destruct b; simpl; auto.
  destruct (lt_eq_lt_dec (nat_of_ascii a) (nat_of_ascii a1)) as [[H|H]|H]; auto.
  apply nat_of_ascii_inj in H. subst. destruct (IHa b) as [H|[H|H]]; subst; auto.
Qed.
Lemma lex_app : forall p a b, lex_lt (p ++ a) (p ++ b) <-> lex_lt a b.
Proof. induction p; simpl; intros; [tauto|]. rewrite IHp. intuition lia. Qed.
Lemma lex_ext : forall p q, lex_lt p (p ++ q) <-> q <> [].
Proof.
  intros. rewrite <- (app_nil_r p) at 1. rewrite lex_app. destruct q; simpl; split; auto; congruence.
Qed.
Definition prefix (p r : cstr) : Prop := exists q, r = p ++ q.
Lemma lex_nonext : forall p r q, lex_lt p r -> ~ prefix p r -> lex_lt (p ++ q) r.
Proof.
  induction p; intros r q H Hn; simpl in *.
  - exfalso. apply Hn. exists r; auto.
  - destruct r; [tauto|]. destruct H as [H|[-> H]]; auto. right. split; auto. apply IHp; auto.
    intros [x ->]. apply Hn. exists x. auto.
Qed.
Fixpoint lexb (a b : cstr) : bool :=
  match a, b with
  | [], _ :: _ => true
  | x :: a', y :: b' => (nat_of_ascii x <? nat_of_ascii y) || (ceqb x y && lexb a' b')
  | _, [] => false
  end.
Lemma lexb_spec : forall a b, lexb a b = true <-> lex_lt a b.
Proof.
  induction a; destruct b; simpl; try tauto; try (split; [discriminate|tauto]).
  rewrite orb_true_iff, andb_true_iff, Nat.ltb_lt, IHa.
  unfold ceqb. rewrite Ascii.eqb_eq. tauto.
Qed.

Section It.
Context {D : Type}.
Implicit Types (n : tnode D).
Notation MAX := TRIE_MAX_ITERATOR_DEPTH.

Fixpoint path n (q : cstr) : list (tnode D) :=
  match q with
  | [] => []
  | c :: q' => match get_slot (tn_next n) (char_to_index c) with
               | Some ch => ch :: path ch q'
               | None => []
               end
  end.
Lemma path_length : forall q n n', find n q = Some n' -> List.length (path n q) = List.length q.
Proof.
  induction q; simpl; intros; auto. destruct (is_legal_char a); [|discriminate].
  destruct (get_slot (tn_next n) (char_to_index a)); [|discriminate]. simpl. erewrite IHq; eauto.
Qed.
Lemma path_app : forall q q' n n', find n q = Some n' -> path n (q ++ q') = path n q ++ path n' q'.
Proof.
  induction q; simpl; intros.
  - inversion H; auto.
  - destruct (is_legal_char a); [|discriminate].
    destruct (get_slot (tn_next n) (char_to_index a)); [|discriminate]. simpl. erewrite IHq; eauto.
Qed.
Lemma path_last : forall q n n', find n q = Some n' -> nth_error (n :: path n q) (List.length q) = Some n'.
Proof.
  induction q; simpl; intros; auto. destruct (is_legal_char a); [|discriminate].
  destruct (get_slot (tn_next n) (char_to_index a)) eqn:E; [|discriminate]. apply IHq in H. auto.
Qed.

Definition mkI (r : tnode D) (p : cstr) : titer D :=
  mkIter (NUL :: p ++ repeat NUL (MAX - 1 - List.length p))
         (map Some (r :: path r p) ++ repeat None (MAX - 1 - List.length p)).

Lemma set_nth_c_app : forall {B} (a : list B) x b v,
  set_nth_c (a ++ x :: b) (List.length a) v = a ++ v :: b.
Proof. induction a; simpl; intros; auto. rewrite IHa; auto. Qed.

Lemma it_set_down : forall r p n c ch, find r p = Some n -> is_legal_char c = true ->
  get_slot (tn_next n) (char_to_index c) = Some ch -> List.length p + 1 < MAX ->
  it_set (mkI r p) (List.length p + 1) c (Some ch) = Ok (mkI r (p ++ [c])).
Proof.
  intros r p n c ch Hf Hc Hg Hl. unfold it_set, mkI. cbn [ti_nodes ti_str].
  pose proof (path_length _ _ _ Hf) as Hpl.
  assert (E : MAX - 1 - List.length p = S (MAX - 1 - List.length (p ++ [c])))
    by (rewrite app_length; cbn [List.length]; lia).
  assert (L1 : List.length p + 1 < List.length (map Some (r :: path r p) ++ repeat (@None (tnode D)) (MAX - 1 - List.length p))).
  { rewrite app_length, map_length, repeat_length. cbn [List.length]. rewrite Hpl. lia. }
  assert (L2 : List.length p + 1 < List.length (NUL :: p ++ repeat NUL (MAX - 1 - List.length p))).
  { cbn [List.length]. rewrite app_length, repeat_length. lia. }
  apply Nat.ltb_lt in L1, L2. rewrite L1, L2. cbn [andb]. f_equal. rewrite E. cbn [repeat]. f_equal.
  - replace (NUL :: p ++ NUL :: repeat NUL (MAX - 1 - List.length (p ++ [c])))
      with ((NUL :: p) ++ NUL :: repeat NUL (MAX - 1 - List.length (p ++ [c]))) by reflexivity.
    replace (List.length p + 1) with (List.length (NUL :: p)) by (cbn; lia).
    rewrite set_nth_c_app. cbn. rewrite <- app_assoc. reflexivity.
  - replace (List.length p + 1) with (List.length (map Some (r :: path r p)))
      by (rewrite map_length; cbn [List.length]; lia).
    rewrite set_nth_c_app. rewrite (path_app p [c] r n Hf). cbn [path]. rewrite Hg.
    cbn [map]. rewrite map_app. cbn. rewrite <- app_assoc. reflexivity.
Qed.

Lemma it_set_up : forall r p c n, find r (p ++ [c]) = Some n -> List.length p + 1 < MAX ->
  it_set (mkI r (p ++ [c])) (List.length p + 1) NUL None = Ok (mkI r p).
Proof.
  intros r p c n Hf Hl. unfold it_set, mkI. cbn [ti_nodes ti_str].
  assert (Hp : exists n', find r p = Some n' /\ exists ch, get_slot (tn_next n') (char_to_index c) = Some ch).
  { rewrite find_app in Hf. destruct (find r p) as [n'|]; [|discriminate]. exists n'. split; auto.
    simpl in Hf. destruct (is_legal_char c); [|discriminate].
    destruct (get_slot (tn_next n') (char_to_index c)) as [ch|]; [|discriminate]. eauto. }
  destruct Hp as (n' & Hp & ch & Hg).
  pose proof (path_length _ _ _ Hp) as Hpl.
  assert (E : MAX - 1 - List.length p = S (MAX - 1 - List.length (p ++ [c])))
    by (rewrite app_length; cbn [List.length]; lia).
  rewrite (path_app p [c] r n' Hp). cbn [path]. rewrite Hg.
  assert (L1 : List.length p + 1 < List.length (map Some (r :: path r p ++ [ch]) ++ repeat (@None (tnode D)) (MAX - 1 - List.length (p ++ [c])))).
  { rewrite app_length, map_length, repeat_length. cbn [List.length]. rewrite app_length, Hpl. cbn [List.length]. lia. }
  assert (L2 : List.length p + 1 < List.length (NUL :: (p ++ [c]) ++ repeat NUL (MAX - 1 - List.length (p ++ [c])))).
  { cbn [List.length]. rewrite !app_length, repeat_length. cbn [List.length]. lia. }
  apply Nat.ltb_lt in L1, L2. rewrite L1, L2. cbn [andb]. f_equal. rewrite E. cbn [repeat]. f_equal.
  - rewrite <- app_assoc.
    change (set_nth_c ((NUL :: p) ++ c :: repeat NUL (MAX - 1 - List.length (p ++ [c]))) (List.length p + 1) NUL
      = NUL :: p ++ NUL :: repeat NUL (MAX - 1 - List.length (p ++ [c]))).
    replace (List.length p + 1) with (List.length (NUL :: p)) by (cbn; lia).
    rewrite set_nth_c_app. reflexivity.
  - cbn [map]. rewrite map_app. cbn [map].
    replace (List.length p + 1) with (List.length (Some r :: map Some (path r p)))
      by (cbn [List.length]; rewrite map_length; lia).
    cbn [app]. rewrite <- app_assoc. cbn [app].
    change (set_nth_c ((Some r :: map Some (path r p)) ++ Some ch :: repeat None (MAX - 1 - List.length (p ++ [c])))
      (List.length (Some r :: map Some (path r p))) None
      = (Some r :: map Some (path r p)) ++ None :: repeat None (MAX - 1 - List.length (p ++ [c]))).
    apply set_nth_c_app.
Qed.

Lemma it_node_last : forall r p n, find r p = Some n ->
  it_node (mkI r p) (List.length p + 1 - 1) = Ok (Some n).
Proof.
  intros r p n Hf. unfold it_node, mkI. cbn [ti_nodes].
  replace (List.length p + 1 - 1) with (List.length p) by lia.
  pose proof (path_last _ _ _ Hf) as Hn. pose proof (path_length _ _ _ Hf) as Hpl.
  rewrite nth_error_app1. 2:{ rewrite map_length. cbn [List.length]. lia. }
  rewrite nth_error_map, Hn. reflexivity.
Qed.

(** which continuations find_terminal(…, begin_from, allow_self) considers *)
Definition allowed (b : nat) (self : bool) (q : cstr) : Prop :=
  match q with
  | [] => self = true
  | c :: _ => b <= char_to_index c
  end.

Definition short n (k : nat) : Prop := forall q, lookup n q <> None -> k + List.length q + 1 < MAX.

(** [q] is the least continuation of a key below [n] satisfying [P] *)
Definition least n (P : cstr -> Prop) (q : cstr) : Prop :=
  lookup n q <> None /\ P q /\ forall q', lookup n q' <> None -> P q' -> q' = q \/ lex_lt q q'.
Definition nothing n (P : cstr -> Prop) : Prop := forall q, lookup n q <> None -> ~ P q.

Lemma index_order : forall c c', is_legal_char c = true -> is_legal_char c' = true ->
  char_to_index c < char_to_index c' -> nat_of_ascii c < nat_of_ascii c'.
Proof.
  intros c c' H1 H2 H. apply legal_spec in H1, H2. unfold admissible_char in *.
  unfold char_to_index, ccode, TRIE_START in H. lia.
Qed.
Lemma index_char : forall i, i < SLOTS -> exists c, is_legal_char c = true /\ char_to_index c = i
  /\ ascii_of_nat (i + TRIE_START) = c.
Proof.
  intros i Hi. exists (ascii_of_nat (i + TRIE_START)).
  unfold SLOTS, TRIE_END, TRIE_START in Hi.
  assert (E : nat_of_ascii (ascii_of_nat (i + TRIE_START)) = i + 33).
  { apply nat_ascii_embedding. unfold TRIE_START. lia. }
  split; [|split]; auto.
  - apply legal_spec. unfold admissible_char. rewrite E. lia.
  - unfold char_to_index, ccode. rewrite E. unfold TRIE_START. lia.
Qed.

Lemma lookup_legal : forall n c q, lookup n (c :: q) <> None -> is_legal_char c = true.
Proof. intros n c q H. rewrite lookup_cons in H. destruct (is_legal_char c); congruence. Qed.

Lemma find_terminal_spec : forall f r p n b self,
  wf n -> find r p = Some n -> short n (List.length p) -> MAX - List.length p <= f ->
  List.length p + 1 < MAX ->
  (exists q n', find_terminal f (mkI r p) (List.length p + 1) b self = Ok (mkI r (p ++ q), Some n')
     /\ find n q = Some n' /\ tn_term n' = true /\ least n (allowed b self) q)
  \/ (find_terminal f (mkI r p) (List.length p + 1) b self = Ok (mkI r p, None)
      /\ nothing n (allowed b self)).
Proof.
  induction f as [|f IH]; intros r p n b self Hwf Hf Hsh Hfu Hl; [lia|].
  cbn [find_terminal]. destruct (Nat.eqb_spec (List.length p + 1) MAX); [lia|].
  rewrite (it_node_last r p n Hf). cbn [rbind].
  destruct (self && tn_term n) eqn:Est.
  { apply andb_true_iff in Est. destruct Est as [-> Ht]. left. exists [], n.
    rewrite app_nil_r. repeat split; auto.
    - rewrite lookup_nil. apply wf_val; auto.
    - intros q' _ _. destruct q'; auto. right. simpl; auto. }
  assert (Hself : forall q, lookup n q <> None -> allowed b self q ->
            exists c q', q = c :: q' /\ b <= char_to_index c).
  { intros [|c q'] Hq Ha; simpl in Ha; eauto. subst self. simpl in Est.
    rewrite lookup_nil in Hq. apply wf_val in Hq; auto. congruence. }
  assert (Hloop : forall k i, i + k = SLOTS ->
    (exists q n', slots_loop (fun it' => find_terminal f it' (List.length p + 1 + 1) 0 true) n
       (List.length p + 1) k i (mkI r p) = Ok (mkI r (p ++ q), Some n')
       /\ find n q = Some n' /\ tn_term n' = true
       /\ least n (fun q => exists c q', q = c :: q' /\ i <= char_to_index c) q)
    \/ (slots_loop (fun it' => find_terminal f it' (List.length p + 1 + 1) 0 true) n
       (List.length p + 1) k i (mkI r p) = Ok (mkI r p, None)
       /\ nothing n (fun q => exists c q', q = c :: q' /\ i <= char_to_index c))).
  { induction k as [|k IHk]; intros i Hi.
    - right. split; [reflexivity|]. intros q Hq (c & q' & -> & Hc).
      apply lookup_legal in Hq. apply index_lt in Hq. lia.
    - cbn [slots_loop]. destruct (get_slot (tn_next n) i) as [ch|] eqn:Eg.
      + destruct (index_char i) as (c & Hc & Hci & ->); [lia|].
        rewrite <- Hci in Eg.
        rewrite (it_set_down r p n c ch Hf Hc Eg Hl). cbn [rbind].
        assert (Hch : alive ch /\ wf ch) by (inversion Hwf; subst; eauto).
        destruct Hch as [Hal Hchw].
        assert (Hshc : short ch (List.length (p ++ [c]))).
        { intros q Hq. specialize (Hsh (c :: q)). rewrite lookup_cons, Hc, Eg in Hsh.
          apply Hsh in Hq. rewrite app_length. cbn [List.length] in *. lia. }
        assert (Hlc : List.length (p ++ [c]) + 1 < MAX).
        { destruct (alive_stored ch Hchw Hal) as [q Hq]. apply Hshc in Hq. lia. }
        assert (Hfc : find r (p ++ [c]) = Some ch).
        { rewrite find_app, Hf. simpl. rewrite Hc, Eg. reflexivity. }
        assert (Elen : List.length p + 1 + 1 = List.length (p ++ [c]) + 1)
          by (rewrite app_length; cbn [List.length]; lia).
        rewrite Elen.
        destruct (IH r (p ++ [c]) ch 0 true Hchw Hfc Hshc) as [(q & n' & E & Hfq & Ht & Hmin)|[E Hno]]; auto.
        { rewrite app_length; cbn [List.length]; lia. }
        * rewrite E. cbn [rbind]. left. exists (c :: q), n'. rewrite <- app_assoc. cbn [app].
          repeat split; auto.
          -- simpl. rewrite Hc, Eg. auto.
          -- rewrite lookup_cons, Hc, Eg. apply Hmin.
          -- exists c, q. split; auto. lia.
          -- intros q1 Hq1 (c1 & q1' & -> & Hc1).
             pose proof (lookup_legal _ _ _ Hq1) as Hleg.
             destruct (Nat.eq_dec (char_to_index c1) (char_to_index c)) as [Ee|Ne].
             ++ apply index_inj in Ee; auto. subst c1. rewrite lookup_cons, Hc, Eg in Hq1.
                destruct Hmin as (_ & _ & Hmin). destruct (Hmin q1' Hq1) as [->|Hlt]; auto.
                { destruct q1'; simpl; auto. lia. }
                right. simpl. right. auto.
             ++ right. simpl. left. apply index_order; auto. lia.
        * exfalso. destruct (alive_stored ch Hchw Hal) as [q Hq]. apply (Hno q Hq).
          destruct q; simpl; auto. lia.
      + destruct (IHk (S i)) as [(q & n' & E & Hfq & Ht & Hmin)|[E Hno]]; [lia| |].
        * left. exists q, n'. split; [exact E|]. split; [exact Hfq|]. split; [exact Ht|].
          destruct Hmin as (H1 & (c & q' & -> & Hc) & H3). split; [exact H1|]. split.
          -- exists c, q'. split; auto. lia.
          -- intros q1 Hq1 (c1 & q1' & -> & Hc1).
             destruct (Nat.eq_dec (char_to_index c1) i) as [Ee|Ne].
             ++ exfalso. pose proof (lookup_legal _ _ _ Hq1) as Hleg.
                rewrite lookup_cons, Hleg, Ee, Eg in Hq1. congruence.
             ++ apply H3; auto. exists c1, q1'. split; auto. lia.
        * right. split; [exact E|]. intros q1 Hq1 (c1 & q1' & -> & Hc1).
          destruct (Nat.eq_dec (char_to_index c1) i) as [Ee|Ne].
          -- pose proof (lookup_legal _ _ _ Hq1) as Hleg.
             rewrite lookup_cons, Hleg, Ee, Eg in Hq1. congruence.
          -- apply (Hno _ Hq1). exists c1, q1'. split; auto. lia. }
  destruct (le_lt_dec b SLOTS) as [Hb|Hb].
  - destruct (Hloop (SLOTS - b) b) as [(q & n' & E & Hfq & Ht & Hmin)|[E Hno]]; [lia| |].
    + left. exists q, n'. rewrite E. repeat split; auto; try apply Hmin.
      * destruct Hmin as (_ & (c & q' & -> & Hc) & _). exact Hc.
      * intros q' Hq' Ha. apply Hmin; auto.
    + right. rewrite E. split; auto. intros q Hq Ha. apply (Hno q Hq). auto.
  - right. replace (SLOTS - b) with 0 by lia. cbn [slots_loop]. split; auto.
    intros q Hq Ha. destruct (Hself q Hq Ha) as (c & q' & -> & Hc).
    apply lookup_legal in Hq. apply index_lt in Hq. lia.
Qed.

Lemma short_sub : forall r p n, find r p = Some n -> short r 0 -> short n (List.length p).
Proof.
  intros r p n Hf Hs q Hq. assert (H : lookup r (p ++ q) <> None).
  { unfold lookup. rewrite find_app, Hf. exact Hq. }
  apply Hs in H. rewrite app_length in H. lia.
Qed.

Lemma find_len : forall r p n, wf r -> find r p = Some n -> short r 0 -> List.length p + 1 < MAX.
Proof.
  intros r p n Hw Hf Hs. destruct p as [|c p].
  - cbn. unfold TRIE_MAX_ITERATOR_DEPTH. lia.
  - destruct (find_wf (c :: p) r n Hw Hf) as [Hn Ha]; [discriminate|].
    destruct (alive_stored n Hn Ha) as [q Hq].
    apply (short_sub r (c :: p) n Hf Hs) in Hq. lia.
Qed.

Lemma find_wf' : forall r p n, wf r -> find r p = Some n -> wf n.
Proof.
  intros r p n Hw Hf. destruct p as [|c p].
  - simpl in Hf. inversion Hf; subst; auto.
  - apply (find_wf (c :: p) r n Hw Hf). discriminate.
Qed.

Lemma lookup_find_app : forall r p n q, find r p = Some n -> lookup r (p ++ q) = lookup n q.
Proof. intros. unfold lookup. rewrite find_app, H. reflexivity. Qed.

Lemma switch_unfold : forall (it : titer D) d, switch_loop it (S (S d)) =
    match nth_error (ti_str it) (S d) with
    | None => Ub
    | Some c =>
      it1 <- it_set it (S d) NUL None ;;
      '(it2, r) <- find_terminal ft_fuel it1 (S d) (ccode c - TRIE_START + 1) false ;;
      match r with
      | Some n => Ok (it2, Some n)
      | None => switch_loop it2 (S d)
      end
    end.
Proof. reflexivity. Qed.

Lemma switch_spec : forall k r p n, List.length p = k ->
  wf r -> find r p = Some n -> short r 0 ->
  (exists q n' it, switch_loop (mkI r p) (List.length p + 1) = Ok (it, Some n') /\ it = mkI r q
     /\ find r q = Some n' /\ tn_term n' = true
     /\ least r (fun x => lex_lt p x /\ ~ prefix p x) q)
  \/ (exists it, switch_loop (mkI r p) (List.length p + 1) = Ok (it, None)
      /\ nothing r (fun x => lex_lt p x /\ ~ prefix p x)).
Proof.
  induction k as [|k IH]; intros r p n Hk Hwf Hf Hs.
  - destruct p; [|discriminate]. right. exists (mkI r []). split; [reflexivity|].
    intros q _ [_ H]. apply H. exists q; auto.
  - destruct (exists_last (l := p)) as (p' & c & ->). { destruct p; discriminate. }
    rewrite app_length in *. cbn [List.length] in *.
    assert (Hp : exists n0, find r p' = Some n0 /\ is_legal_char c = true).
    { rewrite find_app in Hf. destruct (find r p') as [n0|]; [|discriminate]. exists n0. split; auto.
      simpl in Hf. destruct (is_legal_char c); [auto|discriminate]. }
    destruct Hp as (n0 & Hp & Hc).
    pose proof (find_len r _ _ Hwf Hp Hs) as Hl0. pose proof (find_len r _ _ Hwf Hf Hs) as Hl1.
    rewrite app_length in Hl1. cbn [List.length] in Hl1.
    replace (List.length p' + 1 + 1) with (S (S (List.length p'))) by lia. rewrite switch_unfold.
    assert (En : nth_error (ti_str (mkI r (p' ++ [c]))) (S (List.length p')) = Some c).
    { unfold mkI. cbn [ti_str nth_error]. rewrite <- app_assoc.
      rewrite nth_error_app2 by lia. rewrite Nat.sub_diag. reflexivity. }
    rewrite En. replace (S (List.length p')) with (List.length p' + 1) by lia.
    rewrite (it_set_up r p' c n Hf) by lia. cbn [rbind].
    replace (ccode c - TRIE_START + 1) with (S (char_to_index c))
      by (unfold char_to_index; lia).
    assert (Hn0 : wf n0) by (eapply find_wf'; eauto).
    assert (Hsn : short n0 (List.length p')) by (apply short_sub with r; auto).
    (* keys above p'++[c] that do not extend it *)
    assert (Hsplit : forall x, lookup r x <> None -> lex_lt (p' ++ [c]) x -> ~ prefix (p' ++ [c]) x ->
              (exists q, x = p' ++ q /\ lookup n0 q <> None /\ allowed (S (char_to_index c)) false q)
              \/ (lex_lt p' x /\ ~ prefix p' x)).
    { intros x Hx Hlt Hnp.
      assert (lex_lt p' x). { eapply lex_trans; [|exact Hlt]. apply lex_ext. discriminate. }
      destruct (streqb (firstn (List.length p') x) p') eqn:Ep.
      - apply streqb_eq in Ep. left. exists (skipn (List.length p') x).
        assert (Ex : x = p' ++ skipn (List.length p') x).
        { rewrite <- Ep at 1. symmetry. apply firstn_skipn. }
        split; auto. rewrite Ex in Hx, Hlt, Hnp.
        rewrite (lookup_find_app r p' n0) in Hx by auto. split; auto.
        rewrite lex_app in Hlt. destruct (skipn (List.length p') x) as [|c1 q1]; [destruct Hlt|].
        simpl in Hlt. destruct Hlt as [Hlt|[-> _]].
        + simpl. apply lookup_legal in Hx. apply legal_spec in Hx, Hc. unfold admissible_char in *.
          unfold char_to_index, ccode, TRIE_START. lia.
        + exfalso. apply Hnp. exists q1. rewrite <- app_assoc. reflexivity.
      - right. split; auto. intros [q ->]. rewrite firstn_app, Nat.sub_diag, firstn_all in Ep.
        cbn in Ep. rewrite app_nil_r, streqb_refl in Ep. discriminate. }
    destruct (find_terminal_spec ft_fuel r p' n0 (S (char_to_index c)) false Hn0 Hp Hsn)
      as [(q & n' & E & Hfq & Ht & Hmin)|[E Hno]].
    { unfold ft_fuel. lia. } { lia. }
    + rewrite E. cbn [rbind]. left. exists (p' ++ q), n', (mkI r (p' ++ q)).
      split; auto. split; auto. split. { rewrite find_app, Hp. auto. } split; auto.
      destruct Hmin as (H1 & H2 & H3). split.
      { rewrite (lookup_find_app r p' n0) by auto. auto. }
      assert (Hq : exists c1 q1, q = c1 :: q1 /\ char_to_index c < char_to_index c1).
      { destruct q as [|c1 q1]; [discriminate|]. exists c1, q1. split; auto. }
      destruct Hq as (c1 & q1 & -> & Hcc).
      pose proof (lookup_legal _ _ _ H1) as Hl.
      assert (Hord : nat_of_ascii c < nat_of_ascii c1) by (apply index_order; auto).
      split.
      * split. { apply lex_app. simpl. auto. }
        intros [x Hx]. rewrite <- app_assoc in Hx. apply app_inv_head in Hx.
        inversion Hx; subst. lia.
      * intros x Hx [Hx1 Hx2]. destruct (Hsplit x Hx Hx1 Hx2) as [(qx & -> & Hqx & Ha)|[Ha Hb]].
        -- destruct (H3 qx Hqx Ha) as [->|Hlt]; auto. right. apply lex_app. auto.
        -- right. apply lex_nonext; auto.
    + rewrite E. cbn [rbind].
      destruct (IH r p' n0) as [(q & n' & it & E' & -> & Hfq & Ht & Hmin)|(it & E' & Hno')]; auto; try lia.
      * left. exists q, n', (mkI r q). split; auto. split; auto. split; auto. split; auto.
        destruct Hmin as (H1 & [H2 H2'] & H3). split; auto. split.
        -- split. { apply lex_nonext; auto. }
           intros [x ->]. apply H2'. exists ([c] ++ x). rewrite app_assoc. reflexivity.
        -- intros x Hx [Hx1 Hx2]. destruct (Hsplit x Hx Hx1 Hx2) as [(qx & -> & Hqx & Ha)|[Ha Hb]].
           ++ exfalso. apply (Hno qx); auto.
           ++ apply H3; auto.
      * right. exists it. split; auto. intros x Hx [Hx1 Hx2].
        destruct (Hsplit x Hx Hx1 Hx2) as [(qx & -> & Hqx & Ha)|[Ha Hb]].
        -- apply (Hno qx); auto.
        -- apply (Hno' x); auto.
Qed.

Lemma count_depth_mkI : forall r p n, find r p = Some n ->
  count_depth (ti_nodes (mkI r p)) = List.length p + 1.
Proof.
  intros r p n Hf. unfold mkI. cbn [ti_nodes].
  rewrite <- (path_length _ _ _ Hf). generalize (MAX - 1 - List.length (path r p)) as k.
  intros k. cbn [map app count_depth]. rewrite Nat.add_1_r. f_equal.
  induction (path r p) as [|x l IH]; cbn [map app count_depth List.length]; auto.
  destruct k; reflexivity.
Qed.

(** One step of the iteration after [p] was delivered. *)
Lemma next_spec : forall t p n, wf (t_root t) -> find (t_root t) p = Some n -> short (t_root t) 0 ->
  (exists q n', trie_iter_next t (mkI (t_root t) p) = Ok (mkI (t_root t) q, Some (tn_data n'))
     /\ find (t_root t) q = Some n' /\ tn_term n' = true
     /\ least (t_root t) (lex_lt p) q)
  \/ (trie_iter_next t (mkI (t_root t) p) = Ok (trie_get_iterator, None)
      /\ nothing (t_root t) (lex_lt p)).
Proof.
  intros t p n Hwf Hf Hs. unfold trie_iter_next. set (r := t_root t) in *.
  rewrite (count_depth_mkI r p n Hf).
  destruct (Nat.eqb_spec (List.length p + 1) 0); [lia|].
  pose proof (find_len r _ _ Hwf Hf Hs) as Hl.
  pose proof (find_wf' r _ _ Hwf Hf) as Hn.
  assert (Hsplit : forall x, lex_lt p x ->
     (exists q, x = p ++ q /\ (lookup r x <> None -> lookup n q <> None) /\ allowed 0 false q)
     \/ (lex_lt p x /\ ~ prefix p x)).
  { intros x Hlt. destruct (streqb (firstn (List.length p) x) p) eqn:Ep.
    - apply streqb_eq in Ep. left. exists (skipn (List.length p) x).
      assert (Ex : x = p ++ skipn (List.length p) x).
      { rewrite <- Ep at 1. symmetry. apply firstn_skipn. }
      split; auto. rewrite Ex in Hlt. apply lex_ext in Hlt. split.
      + rewrite Ex at 1. rewrite (lookup_find_app r p n) by auto. auto.
      + destruct (skipn (List.length p) x); [congruence|simpl; lia].
    - right. split; auto. intros [q ->]. rewrite firstn_app, Nat.sub_diag, firstn_all in Ep.
      cbn in Ep. rewrite app_nil_r, streqb_refl in Ep. discriminate. }
  destruct (find_terminal_spec ft_fuel r p n 0 false Hn Hf (short_sub _ _ _ Hf Hs))
    as [(q & n' & E & Hfq & Ht & H1 & H2 & H3)|[E Hno]].
  { unfold ft_fuel. lia. } { exact Hl. }
  - rewrite E. cbn [rbind]. left. exists (p ++ q), n'. split; auto.
    split. { rewrite find_app, Hf. auto. } split; auto.
    split; [|split].
    + rewrite (lookup_find_app r p n) by auto. auto.
    + apply lex_ext. destruct q; [discriminate|discriminate].
    + intros x Hx Hlt. destruct (Hsplit x Hlt) as [(qx & -> & Hqx & Ha)|[Ha Hb]].
      * destruct (H3 qx) as [->|?]; auto. right. apply lex_app. auto.
      * right. apply lex_nonext; auto.
  - rewrite E. cbn [rbind].
    destruct (switch_spec (List.length p) r p n eq_refl Hwf Hf Hs)
      as [(q & n' & it & E' & -> & Hfq & Ht & H1 & [H2 H2'] & H3)|(it & E' & Hno')]; rewrite E'; cbn [rbind].
    + left. exists q, n'. split; auto. split; auto. split; auto. split; auto. split; auto.
      intros x Hx Hlt. destruct (Hsplit x Hlt) as [(qx & -> & Hqx & Ha)|[Ha Hb]].
      * exfalso. apply (Hno qx); auto.
      * apply H3; auto.
    + right. split; auto. intros x Hx Hlt.
      destruct (Hsplit x Hlt) as [(qx & -> & Hqx & Ha)|[Ha Hb]].
      * apply (Hno qx); auto.
      * apply (Hno' x); auto.
Qed.

Lemma first_spec : forall t, wf (t_root t) -> short (t_root t) 0 ->
  (exists q n', trie_iter_next t trie_get_iterator = Ok (mkI (t_root t) q, Some (tn_data n'))
     /\ find (t_root t) q = Some n' /\ tn_term n' = true
     /\ least (t_root t) (fun _ => True) q)
  \/ (trie_iter_next t trie_get_iterator = Ok (trie_get_iterator, None)
      /\ nothing (t_root t) (fun _ => True)).
Proof.
  intros t Hwf Hs. unfold trie_iter_next. cbn -[find_terminal it_set].
  assert (E0 : it_set trie_get_iterator 0 NUL (Some (t_root t)) = Ok (mkI (t_root t) [])) by reflexivity.
  rewrite E0. cbn [rbind].
  destruct (find_terminal_spec ft_fuel (t_root t) [] (t_root t) 0 true Hwf eq_refl Hs)
    as [(q & n' & E & Hfq & Ht & H1 & H2 & H3)|[E Hno]].
  { unfold ft_fuel. lia. } { cbn. unfold TRIE_MAX_ITERATOR_DEPTH. lia. }
  - cbn [List.length Nat.add] in E. rewrite E. cbn [rbind app]. left. exists q, n'.
    repeat split; auto. intros q' Hq' _. apply H3; auto. destruct q'; simpl; auto. lia.
  - cbn [List.length Nat.add] in E. rewrite E. cbn [rbind]. right. split; [reflexivity|].
    intros q Hq _. apply (Hno q Hq). destruct q; simpl; auto. lia.
Qed.

Lemma current_string : forall r p, Forall admissible_char p -> List.length p + 1 < MAX ->
  trie_get_current_string (mkI r p) = Some p.
Proof.
  intros r p Hp Hl. unfold trie_get_current_string, mkI. cbn [ti_nodes ti_str map app tl]. f_equal.
  assert (exists k, MAX - 1 - List.length p = S k) as [k ->].
  { exists (MAX - 2 - List.length p). lia. }
  cbn [repeat]. generalize (repeat NUL k). intros l. clear Hl.
  induction p as [|c p IH]; cbn [app].
  - reflexivity.
  - inversion Hp; subst. unfold ceqb. destruct (Ascii.eqb_spec c NUL).
    + subst. unfold admissible_char in H1. cbn in H1. lia.
    + f_equal. apply IH; auto.
Qed.

Lemma find_admissible : forall p r n, find r p = Some n -> Forall admissible_char p.
Proof.
  induction p; intros r n H; simpl in H; auto. destruct (is_legal_char a) eqn:E; [|discriminate].
  destruct (get_slot (tn_next r) (char_to_index a)); [|discriminate]. constructor; eauto.
  apply legal_spec; auto.
Qed.

Definition above (p : cstr) (m : smap D) : nat := List.length (filter (fun kd => lexb p (fst kd)) m).

Lemma above_less : forall p q (m : smap D), lex_lt p q -> In q (map fst m) -> above q m < above p m.
Proof.
  intros p q m Hlt Hin. unfold above. induction m as [|[k d] m IH]; [destruct Hin|].
  assert (Hle : forall m : smap D, List.length (filter (fun kd => lexb q (fst kd)) m)
            <= List.length (filter (fun kd => lexb p (fst kd)) m)).
  { clear - Hlt. induction m as [|[k d] m IH]; simpl; auto.
    destruct (lexb q k) eqn:E.
    - apply lexb_spec in E. assert (E2 : lexb p k = true)
        by (apply lexb_spec; eapply lex_trans; eauto).
      rewrite E2. simpl. lia.
    - destruct (lexb p k); simpl; lia. }
  simpl in Hin. cbn [filter fst]. destruct Hin as [<-|Hin].
  - assert (E : lexb p k = true) by (apply lexb_spec; auto). rewrite E.
    destruct (lexb k k) eqn:E2. { apply lexb_spec in E2. apply lex_irrefl in E2. tauto. }
    cbn [List.length]. specialize (Hle m). lia.
  - specialize (IH Hin). destruct (lexb q k) eqn:E.
    + apply lexb_spec in E. assert (E2 : lexb p k = true)
        by (apply lexb_spec; eapply lex_trans; eauto).
      rewrite E2. simpl. lia.
    + destruct (lexb p k); simpl; lia.
Qed.

Definition entry (kd : cstr * D) : option cstr * option D := (Some (fst kd), Some (snd kd)).

Lemma least_data : forall t (m : smap D) q n' P, trep t m -> find (t_root t) q = Some n' -> tn_term n' = true ->
  least (t_root t) P q -> exists d, tn_data n' = Some d /\ find_key q m = Some d /\ In q (map fst m).
Proof.
  intros t m q n' P (Hw & Hnd & Hc & Hl) Hf Ht Hmin. destruct Hmin as (H1 & _).
  assert (E : lookup (t_root t) q = tn_data n').
  { unfold lookup. rewrite Hf. unfold node_val. rewrite Ht. reflexivity. }
  rewrite E in H1. destruct (tn_data n') as [d|]; [|congruence]. exists d. split; auto.
  rewrite Hl in E. split; auto.
  destruct (in_dec (list_eq_dec ascii_dec) q (map fst m)); auto.
  exfalso. apply find_key_In in n. congruence.
Qed.

Lemma iterate_from : forall fuel t m p n, trep t m -> short (t_root t) 0 ->
  find (t_root t) p = Some n -> above p m < fuel ->
  exists l : smap D, trie_iterate fuel t (mkI (t_root t) p) = Ok (trie_get_iterator, map entry l)
    /\ StronglySorted lex_lt (p :: map fst l)
    /\ (forall k d, In (k, d) l <-> find_key k m = Some d /\ lex_lt p k).
Proof.
  induction fuel as [|fuel IH]; intros t m p n R Hs Hf Hfu; [lia|].
  pose proof R as (Hw & Hnd & Hc & Hl). cbn [trie_iterate].
  destruct (next_spec t p n Hw Hf Hs) as [(q & n' & E & Hfq & Ht & Hmin)|[E Hno]];
    rewrite E; cbn [rbind].
  - destruct (least_data t m q n' _ R Hfq Ht Hmin) as (d & Hd & Hk & Hin).
    destruct Hmin as (H1 & H2 & H3).
    destruct (IH t m q n' R Hs Hfq) as (l & El & Hsort & Hin').
    { pose proof (above_less p q m H2 Hin). lia. }
    rewrite El. cbn [rbind]. exists ((q, d) :: l).
    rewrite current_string. 2:{ eapply find_admissible; eauto. } 2:{ eapply find_len; eauto. }
    rewrite Hd. split; [reflexivity|]. split.
    + cbn [map fst]. constructor; auto. constructor; auto.
      inversion Hsort; subst. eapply Forall_impl; [|exact H5]. intros a Ha. eapply lex_trans; eauto.
    + intros k d'. cbn [In]. rewrite Hin'. split.
      * intros [Ei|[Hk' Hlt]]. { inversion Ei; subst; auto. } split; auto. eapply lex_trans; eauto.
      * intros [Hk' Hlt]. destruct (H3 k) as [->|Hlt']; auto.
        { rewrite Hl, Hk'. discriminate. } left. congruence.
  - exists []. split; [reflexivity|]. split; [repeat constructor|].
    intros k d. split; [intros []|]. intros [Hk Hlt]. exfalso. apply (Hno k); auto.
    rewrite Hl, Hk. discriminate.
Qed.

Lemma iterate_spec : forall t m, trep t m ->
  (forall k d, In (k, d) m -> List.length k <= 28) ->
  exists l : smap D, trie_iterate (S (List.length m)) t trie_get_iterator = Ok (trie_get_iterator, map entry l)
    /\ Permutation l m /\ StronglySorted lex_lt (map fst l).
Proof.
  intros t m R Hlen. pose proof R as (Hw & Hnd & Hc & Hl).
  assert (Hin : forall k d, In (k, d) m <-> find_key k m = Some d).
  { clear - Hnd. induction m as [|[k' d'] m IH]; intros k d; simpl.
    - split; [tauto|discriminate].
    - simpl in Hnd. inversion Hnd; subst. destruct (streqb_spec k' k).
      + subst. split.
        * intros [E|Hi]; [inversion E; auto|]. exfalso. apply H1.
          change k with (fst (k, d)). apply in_map; auto.
        * intros E. inversion E; auto.
      + rewrite <- IH by auto. split; [intros [E|Hi]; [congruence|auto]|auto]. }
  assert (Hs : short (t_root t) 0).
  { intros q Hq. rewrite Hl in Hq. destruct (find_key q m) as [d|] eqn:E; [|congruence].
    apply Hin in E. apply Hlen in E. unfold TRIE_MAX_ITERATOR_DEPTH. cbn. lia. }
  cut (exists l : smap D, trie_iterate (S (List.length m)) t trie_get_iterator = Ok (trie_get_iterator, map entry l)
    /\ (forall k d, In (k, d) l <-> find_key k m = Some d) /\ StronglySorted lex_lt (map fst l)).
  { intros (l & E & Hi & Hsort). exists l. split; auto. split; auto.
    assert (Hfst : forall l : smap D, NoDup (map fst l) -> NoDup l).
    { clear. induction l as [|a l IH]; simpl; intros H; constructor; inversion H; subst; auto.
      intros Hi. apply H2. apply in_map; auto. }
    apply NoDup_Permutation.
    - apply Hfst. clear - Hsort. induction (map fst l) as [|a x IH]; constructor; inversion Hsort; subst; auto.
      intros Hi. rewrite Forall_forall in H2. apply H2 in Hi. apply lex_irrefl in Hi. auto.
    - apply Hfst; auto.
    - intros [k d]. rewrite Hi, Hin. tauto. }
  cbn [trie_iterate].
  destruct (first_spec t Hw Hs) as [(q & n' & E & Hfq & Ht & Hmin)|[E Hno]]; rewrite E; cbn [rbind].
  - destruct (least_data t m q n' _ R Hfq Ht Hmin) as (d & Hd & Hk & Hinq).
    destruct Hmin as (H1 & H2 & H3).
    destruct (iterate_from (List.length m) t m q n' R Hs Hfq) as (l & El & Hsort & Hin').
    { unfold above. clear - Hinq. induction m as [|[k d] m IH]; [destruct Hinq|].
      simpl in Hinq. cbn [filter fst]. destruct Hinq as [<-|Hi].
      - destruct (lexb k k) eqn:E2. { apply lexb_spec in E2. apply lex_irrefl in E2. tauto. }
        cbn [List.length]. clear. assert (forall l : smap D, List.length (filter (fun kd => lexb k (fst kd)) l) <= List.length l).
        { induction l as [|a l IH]; simpl; auto. destruct (lexb k (fst a)); simpl; lia. }
        specialize (H m). lia.
      - specialize (IH Hi). destruct (lexb q k); simpl; lia. }
    rewrite El. cbn [rbind]. exists ((q, d) :: l).
    rewrite current_string. 2:{ eapply find_admissible; eauto. } 2:{ eapply find_len; eauto. }
    rewrite Hd. split; [reflexivity|]. split; auto.
    intros k d'. cbn [In]. rewrite Hin'. split.
    * intros [Ei|[Hk' Hlt]]; auto. inversion Ei; subst; auto.
    * intros Hk'. destruct (H3 k) as [->|Hlt']; auto.
      { rewrite Hl, Hk'. discriminate. } left. congruence.
  - exists []. split; [reflexivity|]. split; [|constructor].
    intros k d. split; [intros []|]. intros Hk. exfalso. apply (Hno k); auto.
    rewrite Hl, Hk. discriminate.
Qed.
End It.
