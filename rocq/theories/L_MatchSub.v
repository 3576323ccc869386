(** What variables are bound to are parts of the tree that is matched. *)
From Coq Require Import List Ascii String NArith ZArith Bool Lia Arith.
From Verif Require Import M_Base M_Tree M_TreeUtil M_Match S_Tree S_Match L_Trie L_Tree L_Match L_MatchSem L_MatchTop L_MatchRule.
Import ListNotations.
Open Scope nat_scope.
Open Scope res_scope.

Section Sub.
Variable Q : node -> Prop.
Hypothesis Qdown : forall op cs t, Q (NOp op cs t) -> Forall Q cs.
Variable ck : node -> res bool.
Variable pat : pattern.

Definition from (m : matching) : Prop := forall i l, nth_error m i = Some (Some l) -> Forall Q (nl_nodes l).
Fixpoint ids_small (n : node) : Prop :=
  match n with
  | NConst _ _ => True
  | NVar _ i _ => i < MAX_MAPPED_VARS
  | NOp _ cs _ => (fix all (l : list node) : Prop := match l with [] => True | c :: l' => ids_small c /\ all l' end) cs
  end.
Lemma ids_op : forall op cs t, ids_small (NOp op cs t) <-> Forall ids_small cs.
Proof. clear. intros op cs t. cbn [ids_small]. induction cs as [|c cs IH]; simpl; [split; auto|]. rewrite Forall_cons_iff, IH. tauto. Qed.
Lemma Forall_skipn : forall A (P : A -> Prop) k l, Forall P l -> Forall P (skipn k l).
Proof. intros A P k. induction k as [|k IH]; intros l F; auto. destruct l; auto. inversion F; subst. simpl. auto. Qed.
Lemma set_mapped_len : forall m i l, List.length (set_mapped m i l) = List.length m.
Proof. induction m as [|o m IH]; intros [|i] l; simpl; auto. Qed.
Lemma set_mapped_from : forall m i l, from m -> Forall Q (nl_nodes l) -> from (set_mapped m i l).
Proof.
  induction m as [|o m IH]; intros [|i] l Fm Fl j l' E; simpl in E.
  - destruct j; discriminate E.
  - destruct j; discriminate E.
  - destruct j; simpl in E; [injection E as <-; auto|]. exact (Fm (S j) l' E).
  - destruct j; simpl in E; [exact (Fm 0 l' E)|]. eapply IH; eauto. intros k l2 E2. exact (Fm (S k) l2 E2).
Qed.

Lemma ext_from : forall p, ids_small p -> forall m tl ms m', List.length m = MAX_MAPPED_VARS -> from m -> Forall Q (nl_nodes tl) ->
  extend_matching ck pat p m tl = Ok ms -> In m' ms -> List.length m' = MAX_MAPPED_VARS /\ from m'.
Proof.
  induction p as [v t|x i t|op cs t IH] using node_ind'; intros Ids m tl ms m' Lm Fm Ft E I; cbn [extend_matching] in E.
  - destruct (nl_size tl =? 1)%N; [|injection E as <-; destruct I]. destruct (vget (nl_nodes tl) 0) as [u| |]; cbn [rbind] in E; try discriminate E.
    destruct (tree_equals (NConst v t) u); injection E as <-; [|destruct I]. destruct I as [<-|[]]. auto.
  - destruct (mapped m i) as [[l|]| |]; cbn [rbind] in E; try discriminate E.
    + destruct (nodelists_equal l tl) as [[|]| |]; cbn [rbind] in E; try discriminate E; injection E as <-; [|destruct I]. destruct I as [<-|[]]. auto.
    + destruct (check_constraints _ _ _) as [[|]| |]; cbn [rbind] in E; try discriminate E; injection E as <-; [|destruct I]. destruct I as [<-|[]].
      rewrite set_mapped_len. split; auto. apply set_mapped_from; auto.
  - apply ids_op in Ids. destruct (nl_size tl =? 1)%N; [|injection E as <-; destruct I]. destruct (vget (nl_nodes tl) 0) as [u| |] eqn:Eu; cbn [rbind] in E; try discriminate E.
    destruct u as [|?|op' tcs u]; [injection E as <-; destruct I|injection E as <-; destruct I|].
    destruct (o_id op =? o_id op'); [|injection E as <-; destruct I].
    assert (Qt : Forall Q tcs). { apply Qdown with (op := op') (t := u). rewrite Forall_forall in Ft. apply Ft. apply vget_nth in Eu. eapply nth_error_In; eauto. }
    rewrite mpl_spec in E; [|apply map_length|]. 2:{ intros p Ip. rewrite Forall_forall in Ids. specialize (Ids p Ip). destruct p; auto. simpl in Ids. lia. }
    destruct (dfs tcs m cs []) as [pl| |]; cbn [rbind] in E; try discriminate E.
    destruct (rflat_In _ _ _ _ _ _ E I) as (g & a & _ & Ea & Ia). clear E I pl. revert a m' Ea Ia.
    induction g as [|l g IHg]; intros a m' Ea Ia.
    + injection Ea as <-. destruct Ia as [<-|[]]. auto.
    + cbn [evr] in Ea. destruct (evr (map (extend_matching ck pat) cs) tcs m g) as [ms1| |] eqn:E1; cbn [rbind] in Ea; try discriminate Ea.
      unfold ext_at in Ea. destruct (vget (map (extend_matching ck pat) cs) (List.length g)) as [e| |] eqn:Ee; cbn [rbind] in Ea; try discriminate Ea.
      apply vget_nth in Ee. rewrite nth_error_map in Ee. destruct (nth_error cs (List.length g)) as [c|] eqn:Ec; [|discriminate Ee]. injection Ee as <-.
      destruct (rflat_In _ _ _ _ _ _ Ea Ia) as (m1 & a1 & I1 & E2 & I2). destruct (IHg ms1 m1 eq_refl I1) as [L1 F1].
      assert (Ic : In c cs) by (eapply nth_error_In; eauto). rewrite Forall_forall in IH, Ids.
      eapply (IH c Ic (Ids c Ic) m1 _ a1 m' L1 F1); [|exact E2|exact I2]. cbn [nl_nodes]. apply Forall_skipn. auto.
Qed.
End Sub.

Section Rule.
Variable Q : node -> Prop.
Hypothesis Qdown : forall op cs t, Q (NOp op cs t) -> Forall Q cs.
Variable ck : node -> res bool.
Variables (p : node) (cs : list node) (pat : pattern) (after : node) (r : rule).
Hypothesis HP : get_pattern p cs = PatOk pat.
Hypothesis HR : get_rule pat after = Some r.

Lemma named_small : forall n, named (var_names p) n -> ids_small n.
Proof.
  intros n. induction n as [v t|x i t|op ds t IH] using node_ind'; intros N; auto.
  - destruct N as [I ->]. pose proof (pos_lt (var_names p) (few_vars p cs pat HP) x I). simpl. lia.
  - apply named_op in N. apply ids_op. rewrite Forall_forall in IH, N |- *. auto.
Qed.
Lemma subtree_Q : forall q t sub, Q t -> subtree t q = Some sub -> Q sub.
Proof.
  induction q as [|i q IH]; intros t sub Qt E; simpl in E; [congruence|]. destruct t as [|?|op ds t]; try discriminate E.
  destruct (nth_error ds i) as [c|] eqn:Ec; [|discriminate E]. apply (IH c sub); auto. apply Qdown in Qt. rewrite Forall_forall in Qt. apply Qt. eapply nth_error_In; eauto.
Qed.
Theorem apply_rule_from : forall t t', Q t -> machine_sized t -> covered p cs -> apply_rule ck t r = Ok (Some t') ->
  exists q sub s new, fits s p /\ Forall2 alike (inst s p) [sub] /\ (var_names p <> [] -> Forall (holds ck s) cs) /\
      inst s (located (location sub) after) = [new] /\ replaced q sub new t t' /\ subtree t q = Some sub /\
      (forall x, In x (var_names p) -> Forall Q (s x)).
Proof.
  intros t t' Qt MS Cov E. unfold apply_rule in E. pose proof (rule_eq p cs pat after r HP HR) as RE. rewrite RE in E. cbn [r_pat] in E.
  destruct (find_matching ck pat t) as [f| |] eqn:F; cbn [rbind] in E; try discriminate E.
  apply find_spec in F. destruct f as [[q m]|]; [|discriminate E].
  destruct F as (l1 & l2 & sub & A & B & C & D). rewrite (deref_subtree _ _ _ B) in E. cbn [rbind] in E.
  assert (MSS : machine_sized sub) by (eapply sub_sized; eauto).
  unfold get_matching in C. destruct (get_all_matchings ck pat sub) as [ms| |] eqn:G; cbn [rbind] in C; try discriminate C.
  destruct ms as [|m0 ms]; [discriminate C|]. injection C as ->.
  destruct (all_sound ck p cs pat HP sub (m :: ms) m MSS G (or_introl eq_refl)) as (s & S1 & S2 & S3 & S4 & S5).
  rewrite <- RE in E. rewrite (new_tree p cs pat after r HP HR m s _ S5) in E. rewrite get_tok_location in E.
  destruct (inst s (located (location sub) after)) as [|new [|]] eqn:N; cbn [rbind] in E; try discriminate E. injection E as <-.
  exists q, sub, s, new. split; auto. split; auto. split; auto. split; auto. split; [apply replace_replaced; auto|]. split; auto.
  intros x Ix. destruct (rp_in _ _ _ _ S5 x Ix) as [_ (l & El & Rl & _)]. apply read_ok in Rl. destruct Rl as [-> _].
  assert (Fr : from Q m).
  { assert (F0 : from Q empty_matching).
    { intros i l' E'. unfold empty_matching in E'. apply nth_error_In in E'. apply repeat_spec in E'. discriminate E'. }
    assert (F1 : Forall Q (nl_nodes (mkNL 1 [sub]))). { cbn [nl_nodes]. constructor; auto. eapply subtree_Q; eauto. }
    assert (Sm : ids_small (pt_tree pat)) by (apply named_small; eapply tree_named; eauto).
    exact (proj2 (ext_from Q Qdown ck pat (pt_tree pat) Sm empty_matching _ _ m eq_refl F0 F1 G (or_introl eq_refl))). }
  specialize (Fr _ _ El). apply Forall_forall. intros y Iy. rewrite Forall_forall in Fr. apply Fr.
  unfold lst in Iy. apply In_nth_error in Iy. destruct Iy as [k Ek]. 
  assert (List.In y (firstn (N.to_nat (nl_size l)) (nl_nodes l))) as J by (eapply nth_error_In; eauto).
  rewrite <- (firstn_skipn (N.to_nat (nl_size l)) (nl_nodes l)). apply in_or_app. auto.
Qed.
End Rule.
