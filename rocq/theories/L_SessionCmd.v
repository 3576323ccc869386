(** What the other commands do to a session; every command keeps the invariant. *)
From Coq Require Import List Ascii String NArith ZArith Bool Lia Arith Permutation.
From Verif Require Import M_Base M_StringUtil M_LinkedList M_Trie M_Tree M_Context M_Tokenizer M_Parser M_TreeUtil M_Match M_RuleParsing M_ArithCtx
  M_Double M_Eval M_Simplify M_Session
  S_Util S_Engine S_Parse S_Tree S_Match S_Session L_StringUtil L_LinkedList L_Trie L_Tokenizer L_Context P_Context L_ArithCtx L_SetUp L_Lex
  L_Tree L_Match L_MatchRule P_Parse L_Expand L_SessionCtx L_OpsKept L_Session L_SessionDef.
Import ListNotations.
Open Scope list_scope.
Open Scope nat_scope.
Open Scope res_scope.

(** ** Removal of functions *)
Lemma rule_op_for : forall r f, rule_for r f -> params_ok f -> rule_op r = Ok (f_op f).
Proof. intros r f R P. destruct (rule_facts r f R P) as (k & vs & _ & E & _). unfold rule_op. rewrite E. reflexivity. Qed.
Lemma F2_length : forall A B (P : A -> B -> Prop) l l', Forall2 P l l' -> List.length l = List.length l'.
Proof. intros A B P l l' H. induction H; simpl; auto. Qed.
Lemma NoDup_tail : forall A (l l' : list A), NoDup (l ++ l') -> NoDup l'.
Proof. induction l as [|a l IH]; intros l' H; auto. inversion H; auto. Qed.
Lemma filter_all : forall A (p : A -> bool) l, (forall x, In x l -> p x = true) -> filter p l = l.
Proof. intros A p l H. induction l as [|a l IH]; auto. simpl. rewrite (H a) by (left; auto). f_equal. apply IH. intros x I. apply H. right. auto. Qed.
Lemma Forall2_mid : forall A B (P : A -> B -> Prop) l d1 f d2, Forall2 P l (d1 ++ f :: d2) -> exists l1 r l2, l = l1 ++ r :: l2 /\ List.length l1 = List.length d1 /\
  Forall2 P l1 d1 /\ P r f /\ Forall2 P l2 d2.
Proof.
  intros A B P l d1 f d2 H. apply Forall2_app_inv_r in H. destruct H as (l1 & l2 & H1 & H2 & ->). inversion H2; subst. exists l1, x, l. split; auto.
  split; auto. apply (F2_length _ _ _ _ _ H1).
Qed.
Lemma without_mid : forall c d1 f d2, sctx c (map f_op (d1 ++ f :: d2)) -> o_place (f_op f) = PFunction ->
  without (o_name (f_op f)) (map f_op (d1 ++ f :: d2)) = map f_op (d1 ++ d2).
Proof.
  intros c d1 f d2 S P. pose proof (NoDup_keyed _ _ (proj1 S)) as ND. rewrite map_app in ND. apply NoDup_tail in ND.
  assert (K : forall o, In o (map f_op (d1 ++ d2)) -> same_slot (o_name (f_op f)) PFunction o = false).
  { intros o I. destruct (same_slot (o_name (f_op f)) PFunction o) eqn:E; auto. exfalso.
    assert (Io : In o (map f_op (d1 ++ f :: d2))). { rewrite map_app in *. cbn [map]. apply in_app_or in I. apply in_or_app. destruct I; auto. right. right. auto. }
    assert (If : In (f_op f) (map f_op (d1 ++ f :: d2))). { apply in_map. apply in_or_app. right. left. auto. }
    destruct (sctx_unique _ _ _ S Io) as [U1 _]. destruct (sctx_unique _ _ _ S If) as [U2 _]. unfold same_slot in E. apply andb_prop in E. destruct E as [E1 E2].
    assert (o_name o = o_name (f_op f) /\ o_place o = PFunction) as [N1 N2].
    { split; [|destruct (o_place o); first [discriminate E2|discriminate E1|reflexivity]]. first [apply streqb_eq in E2; congruence|apply streqb_eq in E1; congruence]. }
    rewrite N1, N2 in U1. rewrite P in U2. rewrite U1 in U2. injection U2 as ->.
    rewrite map_app in ND. cbn [map] in ND. rewrite map_app in ND. cbn [map] in ND. apply NoDup_remove_2 in ND. apply ND.
    rewrite <- map_app. rewrite <- (map_app f_op). apply in_map. auto. }
  unfold without. rewrite map_app. cbn [map]. rewrite filter_app. cbn [filter]. rewrite same_slot_op by auto. cbn [negb].
  rewrite map_app. f_equal.
  - apply filter_all. intros o I. rewrite K; auto. rewrite map_app. apply in_or_app. auto.
  - apply filter_all. intros o I. rewrite K; auto. rewrite map_app. apply in_or_app. auto.
Qed.
Definition same_but_funs (s s' : session) : Prop := ss_pc s' = ss_pc s /\ ss_simp s' = ss_simp s /\ ss_world s' = ss_world s.
Lemma remove_node_ok : forall s d1 f d2, inv s (d1 ++ f :: d2) -> exists s', remove_node s (List.length d1) = Ok s' /\ inv s' (d1 ++ d2) /\ same_but_funs s s' /\
  (forall l1 r l2, ss_funs s = l1 ++ r :: l2 -> List.length l1 = List.length d1 -> ss_funs s' = l1 ++ l2).
Proof.
  intros s d1 f d2 V. destruct (Forall2_mid _ _ _ _ _ _ _ (i_rules _ _ V)) as (l1 & r & l2 & E & Len & F1 & Rf & F2).
  pose proof (i_funs _ _ V) as FO. assert (Fo : fun_ok f). { rewrite Forall_forall in FO. apply FO. apply in_or_app. right. left. auto. }
  pose proof Fo as (P & Ar & Ln & Ne & _ & Pk & _).
  assert (If : In (f_op f) (map f_op (d1 ++ f :: d2))). { apply in_map. apply in_or_app. right. left. auto. }
  destruct (sctx_unique _ _ _ (i_ctx _ _ V) If) as [U1 U2]. rewrite P in U1, U2.
  destruct (sctx_delete _ _ _ _ (i_ctx _ _ V) Ln Ne U2 U1) as (c' & D & S').
  unfold remove_node. rewrite E, nth_error_app2 by lia. rewrite <- Len, Nat.sub_diag. cbn [nth_error]. rewrite (rule_op_for _ _ Rf Pk). cbn [rbind]. rewrite D. cbn [rbind].
  eexists. split; [reflexivity|]. split.
  - constructor; cbn [with_funs with_ctx ss_ctx ss_funs ss_simp].
    + rewrite (without_mid _ _ _ _ (i_ctx _ _ V) P) in S'. exact S'.
    + rewrite firstn_app, Nat.sub_diag, firstn_all, firstn_O, app_nil_r, skipn_app.
      replace (S (List.length l1) - List.length l1) with 1 by lia. rewrite skipn_all2 by lia. cbn [skipn app]. apply Forall2_app; auto.
    + apply Forall_app in FO. destruct FO as [FO1 FO2]. inversion FO2; subst. apply Forall_app. auto.
  - split. { repeat split. } intros m1 r' m2 E' Len'. cbn [with_funs with_ctx ss_funs].
    assert (m1 = l1 /\ m2 = l2) as [-> ->].
    { clear - E' Len' Len. rewrite Len in *. revert l1 Len' Len E'. revert m1. generalize (List.length d1). intros n m1 l1 A <- E. revert l1 A E.
      induction m1 as [|x m1 IH]; intros [|y l1] A E; try discriminate A; simpl in E; [injection E; auto|]. injection E as -> E. injection A as A. destruct (IH l1 A E). subst. auto. }
    rewrite firstn_app, Nat.sub_diag, firstn_all, firstn_O, app_nil_r, skipn_app.
    replace (S (List.length l1) - List.length l1) with 1 by lia. rewrite skipn_all2 by lia. reflexivity.
Qed.
Lemma same_trans : forall a b c, same_but_funs a b -> same_but_funs b c -> same_but_funs a c.
Proof. unfold same_but_funs. intros a b c (A1 & A2 & A3) (B1 & B2 & B3). repeat split; congruence. Qed.
Lemma clear_ok : forall defs s, inv s defs -> exists s', clear_composite_functions s = Ok s' /\ inv s' [] /\ same_but_funs s s'.
Proof.
  intros defs s V. unfold clear_composite_functions. rewrite (F2_length _ _ _ _ _ (i_rules _ _ V)). revert s V.
  induction defs as [|f defs IH]; intros s V; cbn [List.length clear_loop]. { exists s. split; auto. split; auto. repeat split. }
  destruct (remove_node_ok s [] f defs V) as (s1 & E1 & V1 & K1 & _). cbn [List.length app] in *. rewrite E1. cbn [rbind].
  destruct (IH s1 V1) as (s2 & E2 & V2 & K2). exists s2. split; auto. split; auto. eapply same_trans; eauto.
Qed.

Lemma find_function_ok : forall op rs fs k, Forall2 rule_for rs fs -> Forall params_ok fs ->
  (exists d1 f d2, fs = d1 ++ f :: d2 /\ o_addr (f_op f) = o_addr op /\ find_function op rs k = Ok (Some (k + List.length d1))) \/
  ((forall f, In f fs -> o_addr (f_op f) <> o_addr op) /\ find_function op rs k = Ok None).
Proof.
  intros op rs fs k R. revert k. induction R as [|r f rs fs Rf R IH]; intros k P; cbn [find_function]. { right. split; auto. }
  inversion P; subst. rewrite (rule_op_for _ _ Rf H1). cbn [rbind]. destruct (Nat.eqb_spec (o_addr (f_op f)) (o_addr op)) as [E|N].
  - left. exists [], f, fs. cbn. rewrite Nat.add_0_r. auto.
  - destruct (IH (S k) H2) as [(d1 & g & d2 & -> & E & F)|[A F]].
    + left. exists (f :: d1), g, d2. cbn [List.length app]. replace (k + S (List.length d1)) with (S k + List.length d1) by lia. auto.
    + right. split; auto. intros g [<-|I]; auto.
Qed.
Definition clears (s : session) (defs : list fundef) (name : cstr) (r : step cmdres) : Prop :=
  exists d1 f d2 s', defs = d1 ++ f :: d2 /\ o_name (f_op f) = name /\ r = Done (Ok (Did s' [] true)) /\ inv s' (d1 ++ d2) /\ same_but_funs s s' /\
    forall l1 rl l2, ss_funs s = l1 ++ rl :: l2 -> List.length l1 = List.length d1 -> ss_funs s' = l1 ++ l2.
Lemma clear_named : forall s defs input, inv s defs -> streqb CLEAR_COMMAND input = false ->
  let name := skipn 6 input in
  clears s defs name (cmd_clear_exec s input) \/ ((forall f, In f defs -> o_name (f_op f) <> name) /\ cmd_clear_exec s input = Done (Ok (Did s [SError] false))).
Proof.
  intros s defs input V H name. unfold cmd_clear_exec. rewrite H. change (List.length CLEAR_COMMAND + 1) with 6. fold name.
  pose proof (i_ctx _ _ V) as S. rewrite (lookup_crep _ _ _ _ (proj1 S)). cbn [of_res sbind].
  pose proof (i_funs _ _ V) as FO. rewrite Forall_forall in FO.
  destruct (reg_find (arith_registry ++ map f_op defs) name PFunction) as [op|] eqn:E.
  - unfold remove_composite_function. destruct (find_function_ok op (ss_funs s) defs 0 (i_rules _ _ V) (inv_params _ _ V)) as [(d1 & f & d2 & -> & Ad & F)|[A F]]; rewrite F; cbn [rbind Nat.add].
    + left. destruct (remove_node_ok s d1 f d2 V) as (s' & R & V' & K & Fs). rewrite R. cbn [rbind of_res sbind].
      exists d1, f, d2, s'. split; auto. split; [|auto]. apply reg_find_In in E. destruct E as (Io & En & _).
      assert (op = f_op f); [|congruence].
      pose proof (NoDup_keyed _ _ (proj1 S)) as ND. assert (If : In (f_op f) (arith_registry ++ map f_op (d1 ++ f :: d2))). { apply in_or_app. right. apply in_map. apply in_or_app. right. left. auto. }
      clear - ND Io If Ad. induction (arith_registry ++ map f_op (d1 ++ f :: d2)) as [|o l IH]; [destruct Io|]. cbn [map] in ND. inversion ND; subst.
      destruct Io as [<-|Io], If as [->|If]; auto.
      * exfalso. apply H1. rewrite <- Ad. apply in_map. auto.
      * exfalso. apply H1. rewrite Ad. apply in_map. auto.
    + right. split; [|reflexivity]. intros f If En. apply reg_find_In in E. destruct E as (Io & Eo & Ep). apply (A f If).
      assert (Ic : In (f_op f) (map f_op defs)) by (apply in_map; auto). destruct (sctx_unique _ _ _ S Ic) as [U1 U2]. destruct (FO f If) as (P & _).
      rewrite P, En in U1, U2. apply in_app_or in Io. destruct Io as [Io|Io].
      * exfalso. assert (X : exists o, reg_find arith_registry name PFunction = Some o).
        { destruct (reg_find arith_registry name PFunction) eqn:Q; eauto. exfalso. unfold reg_find in Q. pose proof (find_none _ _ Q _ Io) as Z. cbn in Z.
          unfold same_slot in Z. rewrite Eo, Ep, streqb_refl in Z. discriminate Z. }
        destruct X as [o X]. congruence.
      * destruct (sctx_unique _ _ _ S Io) as [W1 _]. rewrite Eo, Ep in W1. congruence.
  - right. split; [|reflexivity]. intros f If En.
    assert (Ic : In (f_op f) (map f_op defs)) by (apply in_map; auto). destruct (sctx_unique _ _ _ S Ic) as [U1 U2]. destruct (FO f If) as (P & _).
    rewrite P, En in U1, U2. rewrite reg_find_app, U2, U1 in E. discriminate E.
Qed.

(** ** Evaluations and tables change only the history and the random numbers. *)
Definition world_only (s s' : session) : Prop := exists w, s' = with_world s w.
Lemma wo_refl : forall s, world_only s s.
Proof. intros s. exists (ss_world s). destruct s. reflexivity. Qed.
Lemma wo_trans : forall a b c, world_only a b -> world_only b c -> world_only a c.
Proof. intros a b c [w ->] [w' ->]. exists w'. reflexivity. Qed.
Lemma wo_history : forall s h, world_only s (with_history s h).
Proof. intros s h. eexists. reflexivity. Qed.
Lemma inv_world : forall s s' defs, world_only s s' -> inv s defs -> inv s' defs.
Proof. intros s s' defs [w ->] V. constructor; apply V. Qed.
Section Commands.
Variable L : libm.
Variable fuel : nat.
Variable strtod : cstr -> option double.
Variable files : cstr -> option (list ascii).
Definition only (s : session) (r : step cmdres) : Prop := forall s' o b, r = Done (Ok (Did s' o b)) -> world_only s s'.
Definition stays (r : step cmdres) : Prop := forall o b, r <> Done (Ok (Quit o b)).
Lemma simplify_only : forall s tokens t s' o, arith_simplify L fuel s tokens t = Done (Ok (s', o)) -> world_only s s'.
Proof. intros s tokens t s' o E. destruct (simplify_session _ _ _ _ _ _ _ E) as [w ->]. exists w. reflexivity. Qed.
Lemma parse_only : forall s i s' o, arith_parse L fuel strtod s i = Done (Ok (s', o)) -> world_only s s'.
Proof.
  intros s i s' o E. unfold arith_parse in E. apply of_res_ok in E. destruct E as ((tk & [t|]) & _ & E); [eapply simplify_only; eauto|]. injection E as <- _. apply wo_refl.
Qed.
Lemma reduce_only : forall s t s' v, reduce_value L fuel s t = Done (Ok (s', v)) -> world_only s s'.
Proof.
  intros s t s' v E. unfold reduce_value in E. destruct (tree_reduce (arith_listener L fuel) (Done (Ok (ss_world s))) t) as [[[w| |]|] [x|z p]]; try discriminate E; injection E as <- _; exists w; reflexivity.
Qed.
Lemma evaluate_only : forall s t s' v, evaluate L fuel s t = Done (Ok (s', v)) -> world_only s s'.
Proof.
  intros s t s' v E. unfold evaluate in E. apply sbind_ok in E. destruct E as ((s1 & x) & E1 & E). injection E as <- _. eapply reduce_only; eauto.
Qed.
Lemma loop_only : forall n s e x f i a b c d s' rows v, table_loop L fuel n s e x f i a b c d = Done (Ok (s', rows, v)) -> world_only s s'.
Proof.
  induction n as [|n IH]; intros s e x f i a b c d s' rows v E; cbn [table_loop] in E. { discriminate E. }
  match type of E with (if ?q then _ else _) = _ => destruct q end; [|injection E as <- _ _; apply wo_refl].
  apply sbind_ok in E. destruct E as ((s1 & r1) & E1 & E). apply sbind_ok in E. destruct E as ((s2 & v2) & E2 & E). apply sbind_ok in E. destruct E as (((s3 & r3) & f3) & E3 & E).
  injection E as <- _ _. apply reduce_only in E1. apply IH in E3.
  assert (W : world_only s1 s2). { destruct r1; [destruct f|]; try (injection E2 as <- _; apply wo_refl). eapply evaluate_only; eauto. }
  eapply wo_trans; [exact E1|]. eapply wo_trans; eauto.
Qed.
Lemma failed_only : forall s s1, world_only s s1 -> only s (failed s1) /\ stays (failed s1).
Proof. intros s s1 W. split; [intros s' o b E; injection E as <- _ _; auto|intros o b E; discriminate E]. Qed.
Lemma bind_both : forall A (x : step A) (f : A -> step cmdres) s, (forall a, x = Done (Ok a) -> only s (f a) /\ stays (f a)) -> only s (sbind x f) /\ stays (sbind x f).
Proof.
  intros A x f s H. split.
  - intros s' o b E. apply sbind_ok in E. destruct E as (a & E1 & E). apply (proj1 (H a E1)) in E. auto.
  - intros o b E. apply sbind_ok in E. destruct E as (a & E1 & E). apply (proj2 (H a E1)) in E. auto.
Qed.
Lemma eval_both : forall s i, only s (cmd_evaluation_exec L fuel strtod s i) /\ stays (cmd_evaluation_exec L fuel strtod s i).
Proof.
  intros s i. unfold cmd_evaluation_exec. apply bind_both. intros (s1 & [t|]) E; apply parse_only in E; [|apply failed_only; auto]. split; [|intros o b H; discriminate H].
  intros s' o b H. injection H as <- _ _. destruct t; auto. eapply wo_trans; [exact E|]. apply wo_history.
Qed.
Lemma run_both : forall s0 s e vs f a b c d, world_only s0 s -> only s0 (table_run L fuel s e vs f a b c d) /\ stays (table_run L fuel s e vs f a b c d).
Proof.
  intros s0 s e vs f a b c d W. unfold table_run. apply bind_both. intros ((s1 & rows) & v) E. apply loop_only in E. assert (W1 : world_only s0 s1) by (eapply wo_trans; eauto).
  destruct f; (split; [|intros o q H; discriminate H]); intros s' o q H; injection H as <- _ _; auto. eapply wo_trans; [exact W1|]. apply wo_history.
Qed.
Lemma tfold_both : forall s0 s e vs more a b c, world_only s0 s -> only s0 (table_fold L fuel strtod s e vs more a b c) /\ stays (table_fold L fuel strtod s e vs more a b c).
Proof.
  intros s0 s e vs more a b c W. unfold table_fold. destruct more as [|x [|y more]]; try (apply run_both; auto).
  apply bind_both. intros (s1 & [t|]) E; apply parse_only in E; pose proof (wo_trans _ _ _ W E) as W1; [|apply failed_only; auto].
  apply bind_both. intros (s2 & [u|]) E2; apply parse_only in E2; pose proof (wo_trans _ _ _ W1 E2) as W2; [|apply failed_only; auto].
  match goal with |- context[if ?q then _ else _] => destruct q end; [|apply failed_only; auto].
  destruct (no_variables u); [|apply failed_only; auto]. apply bind_both. intros (s3 & v) E3. apply evaluate_only in E3. apply run_both. eapply wo_trans; eauto.
Qed.
Lemma params_both : forall s0 s e vs a1 a2 a3 more, world_only s0 s -> only s0 (table_params L fuel strtod s e vs a1 a2 a3 more) /\ stays (table_params L fuel strtod s e vs a1 a2 a3 more).
Proof.
  intros s0 s e vs a1 a2 a3 more W. unfold table_params.
  apply bind_both. intros (s1 & [t|]) E; apply parse_only in E; pose proof (wo_trans _ _ _ W E) as W1; [|apply failed_only; auto].
  apply bind_both. intros (s2 & [u|]) E2; apply parse_only in E2; pose proof (wo_trans _ _ _ W1 E2) as W2; [|apply failed_only; auto].
  apply bind_both. intros (s3 & [v|]) E3; apply parse_only in E3; pose proof (wo_trans _ _ _ W2 E3) as W3; [|apply failed_only; auto].
  match goal with |- context[if ?q then _ else _] => destruct q end; [|apply failed_only; auto].
  apply bind_both. intros (s4 & x4) E4. apply evaluate_only in E4. pose proof (wo_trans _ _ _ W3 E4) as W4.
  apply bind_both. intros (s5 & x5) E5. apply evaluate_only in E5. pose proof (wo_trans _ _ _ W4 E5) as W5.
  apply bind_both. intros (s6 & x6) E6. apply evaluate_only in E6. pose proof (wo_trans _ _ _ W5 E6) as W6.
  destruct (deqb x6 d0); [apply failed_only; auto|]. apply tfold_both. auto.
Qed.
Lemma table_both : forall s i, only s (cmd_table_exec L fuel strtod s i) /\ stays (cmd_table_exec L fuel strtod s i).
Proof.
  intros s i. unfold cmd_table_exec. match goal with |- context[if ?q then _ else _] => destruct q end; [|apply failed_only; apply wo_refl].
  apply bind_both. intros args _. destruct args as [|a0 [|a1 [|a2 [|a3 more]]]]; try (split; intros ? ? ?; discriminate).
  all: try (split; [intros s' o b H; discriminate H|intros o b H; discriminate H]).
  apply bind_both. intros (tk & [t|]) _; [|apply failed_only; apply wo_refl].
  apply bind_both. intros (s1 & [u|]) E; apply simplify_only in E; [|apply failed_only; auto].
  destruct (list_variables u 1) as [[u' [vs|]] n]; [|apply failed_only; auto]. apply params_both. auto.
Qed.
End Commands.
