(** The history is the sequence of the numbers_shown shown (C82). *)
From Coq Require Import List Ascii String NArith ZArith Bool Lia Arith.
From Coq.Floats Require Import SpecFloat.
From Verif Require Import M_Base M_StringUtil M_Trie M_Tree M_Context M_Tokenizer M_Parser M_TreeUtil M_Match M_RuleParsing M_ArithCtx
  M_Double M_Eval M_Simplify M_Session M_Strtod S_Util S_Tree S_Rules S_Session S_History L_Tree L_SessionEx P_Session P_Simplify.
Import ListNotations.
Open Scope string_scope.
Open Scope list_scope.
Open Scope nat_scope.
Open Scope res_scope.

(** ** If a step ends, its outcome has the property. *)
Definition holds {A} (P : A -> Prop) (x : step A) : Prop := forall a, x = Done (Ok a) -> P a.
Lemma h_ret : forall A (P : A -> Prop) a, P a -> holds P (sret a).
Proof. intros A P a H b E. injection E as <-. exact H. Qed.
Lemma h_ub : forall A (P : A -> Prop), holds P (Done Ub). Proof. intros A P a E. discriminate E. Qed.
Lemma h_forever : forall A (P : A -> Prop), holds P Forever. Proof. intros A P a E. discriminate E. Qed.
Lemma h_bind : forall A B (P : A -> Prop) (Q : B -> Prop) (x : step A) f, holds P x -> (forall a, P a -> holds Q (f a)) -> holds Q (sbind x f).
Proof. intros A B P Q [[a| |]|] f H K; cbn [sbind]; try (intros b E; discriminate E). apply K. apply H. reflexivity. Qed.
Lemma h_res : forall A B (Q : B -> Prop) (r : res A) f, (forall a, holds Q (f a)) -> holds Q (sbind (of_res r) f).
Proof. intros A B Q [a| |] f K; cbn; try (intros b E; discriminate E). apply K. Qed.
Lemma h_obind : forall A B (P : world -> Prop) (Q : world * B -> Prop) (x : out A) f, holds (fun a => P (fst a)) x -> (forall w a, P w -> holds Q (f w a)) -> holds Q (obind x f).
Proof. intros A B P Q [[[w a]| |]|] f H K; cbn [obind]; try (intros b E; discriminate E). apply K. exact (H _ eq_refl). Qed.
Lemma h_lift : forall A B (Q : world * B -> Prop) (r : res A) f, (forall a, holds Q (f a)) -> holds Q (lift r f).
Proof. intros A B Q [a| |] f K; cbn; try (intros b E; discriminate E). apply K. Qed.
(** ** Evaluation *)
Definition after_world (w0 w : world) : Prop := w_history w = w_history w0 /\ drawn w0 w.
Lemma aw_refl : forall w, after_world w w. Proof. intros w. split; [reflexivity|]. exists []. reflexivity. Qed.
Lemma aw_trans : forall a b c, after_world a b -> after_world b c -> after_world a c.
Proof. intros a b c [A [u U]] [B [v V]]. split; [congruence|]. exists (u ++ v). rewrite U, V, app_assoc. reflexivity. Qed.
Section Ev.
Variable L : libm.
Variable fuel : nat.
Notation from w := (fun a => after_world w (fst a)).
Lemma op_keeps : forall w op args, holds (from w) (arith_op_evaluate L fuel w op args).
Proof.
  intros w op args. assert (O : forall v, holds (from w) (ok w v)) by (intros v; apply h_ret; apply aw_refl). assert (R : forall e, holds (from w) (err w e)) by (intros e; apply h_ret; apply aw_refl).
  assert (C : holds (from w) crash) by apply h_ub. assert (U : forall r, holds (from w) (ok_run w r)) by (intros [r|]; [apply O|apply h_forever]).
  assert (H : forall i, holds (from w) (from_history w i)) by (intros i; unfold from_history; destruct (history_get (w_history w) i); auto).
  unfold arith_op_evaluate, with1, with2. generalize (o_id op). intros n.
  assert (D : forall v, holds (from w) (ok (mkWorld (w_history w) (tl (w_rand w))) v)).
  { intros v. apply h_ret. cbn [fst]. split; [reflexivity|]. cbn [w_rand]. destruct (w_rand w) as [|z l] eqn:E; [exists []; exact E|exists [z]; exact E]. }
  do 58 (destruct n as [|n]; [repeat match goal with
    | |- holds _ (ok w ?v) => exact (O v)
    | |- holds _ (ok (mkWorld _ _) ?v) => exact (D v)
    | |- holds _ (ok (if ?b then _ else _) _) => destruct b
    | |- holds _ (err w ?e) => exact (R e)
    | |- holds _ crash => exact C
    | |- holds _ (ok_run w ?r) => exact (U r)
    | |- holds _ (from_history w ?i) => exact (H i)
    | |- holds _ Forever => exact (h_forever _ _)
    | |- holds _ (match ?x with _ => _ end) => destruct x
    end|]).
  apply R.
Qed.
(** the state of the listener *)
Definition lw (w0 : world) (s : lworld) : Prop := forall w, s = Done (Ok w) -> after_world w0 w.
Lemma listener_keeps : forall w0 s op args s' r, lw w0 s -> arith_listener L fuel s op args = (s', r) -> lw w0 s'.
Proof.
  intros w0 s op args s' r H E. unfold arith_listener in E. destruct s as [[w| |]|]; try (injection E as <- _; exact H).
  pose proof (op_keeps w op args) as K. destruct (arith_op_evaluate L fuel w op args) as [[[w1 ev]| |]|]; injection E as <- _; intros w2 X; try discriminate X.
  injection X as <-. eapply aw_trans; [exact (H w eq_refl)|]. exact (K _ eq_refl).
Qed.
Lemma reduce_keeps : forall w0 s n s' r, lw w0 s -> tree_reduce (arith_listener L fuel) s n = (s', r) -> lw w0 s'.
Proof.
  intros w0 s n s' r H E. apply reduce_sound in E. revert H. revert s n s' r E.
  apply (evals_mind _ (arith_listener L fuel) (fun s n s' r => lw w0 s -> lw w0 s') (fun s l s' vs => lw w0 s -> lw w0 s')); intros; eauto using listener_keeps.
Qed.
Lemma subtrees_keep : forall w0 n s s' r, lw w0 s -> tree_reduce_constant_subtrees (arith_listener L fuel) s n = (s', r) -> lw w0 s'.
Proof.
  intros w0. assert (Z : forall n s s' r, lw w0 s -> match tree_reduce (arith_listener L fuel) s n with (s', RVal v) => (s', (NConst v (get_token_index n), None)) | (s', RFail e p) => (s', (n, Some (e, p))) end = (s', r) -> lw w0 s').
  { intros n s s' r H E. destruct (tree_reduce (arith_listener L fuel) s n) as [s1 [v|e p]] eqn:X; injection E as <- _; eapply reduce_keeps; eauto. }
  induction n as [v t|x i t|op cs t IH] using node_ind'; intros s s' r H E; cbn [tree_reduce_constant_subtrees] in E.
  - destruct (_ =? 0); [eapply Z; eauto|injection E as <- _; exact H].
  - destruct (_ =? 0); [eapply Z; eauto|injection E as <- _; exact H].
  - destruct (_ =? 0); [eapply Z; eauto|]. match type of E with (let '(_, _) := ?g cs 0 s in _) = _ => set (go := g) in E end.
    assert (G : forall l i s s' r, Forall (fun n => forall s s' r, lw w0 s -> tree_reduce_constant_subtrees (arith_listener L fuel) s n = (s', r) -> lw w0 s') l -> lw w0 s -> go l i s = (s', r) -> lw w0 s').
    { induction l as [|c l IHl]; intros i s1 s2 r1 F H1 E1; cbn in E1; [injection E1 as <- _; exact H1|]. inversion F as [|? ? Fc Fl]; subst.
      destruct (tree_reduce_constant_subtrees (arith_listener L fuel) s1 c) as [s3 [c' [[e p]|]]] eqn:X; [injection E1 as <- _; eauto|].
      fold go in E1. destruct (go l (S i) s3) as [s4 [l' er]] eqn:Y; injection E1 as <- _. eapply IHl; [exact Fl| |exact Y]. eauto. }
    destruct (go cs 0 s) as [s1 [cs' er]] eqn:X. injection E as <- _. eapply G; eauto.
Qed.
Lemma constants_keep : forall w t, holds (from w) (reduce_constants L fuel w t).
Proof.
  intros w t. unfold reduce_constants. destruct (tree_reduce_constant_subtrees (arith_listener L fuel) (Done (Ok w)) t) as [s r] eqn:E.
  assert (H : lw w s). { eapply subtrees_keep; [|exact E]. intros w1 X. injection X as <-. apply aw_refl. }
  destruct s as [[w1| |]|]; try (intros b X; discriminate X). apply h_ret. apply H. reflexivity.
Qed.
Lemma from_trans : forall A (w w1 : world) (x : step (world * A)), after_world w w1 -> holds (fun a => after_world w1 (fst a)) x -> holds (from w) x.
Proof. intros A w w1 x H K a E. eapply aw_trans; [exact H|exact (K a E)]. Qed.
Variables (g pc : ctx).
Lemma loop_keeps : forall rounds w t rs, holds (from w) (simplification_loop L fuel pc rounds w t rs).
Proof.
  induction rounds as [|k IH]; intros w t rs; [apply h_forever|]. cbn [simplification_loop]. apply h_lift. intros [[t1 [|c]]|]; [apply h_ret, aw_refl| |apply h_forever].
  eapply (h_obind _ _ (after_world w)); [apply constants_keep|]. intros w1 a H. eapply from_trans; [exact H|apply IH].
Qed.
Lemma apply_keeps : forall w t rs, holds (from w) (apply_simplification L fuel g pc w t rs).
Proof. intros w t rs. unfold apply_simplification. eapply (h_obind _ _ (after_world w)); [apply loop_keeps|]. intros w1 a H. apply h_lift. intros m. apply h_ret. exact H. Qed.
Lemma shorthand_keeps : forall rounds s w t, holds (from w) (shorthand_loop rounds s w t).
Proof.
  induction rounds as [|k IH]; intros s w t; [apply h_forever|]. cbn [shorthand_loop]. destruct (s_before s) as [pat|]; [|apply h_ub]. apply h_lift. intros [[p m]|]; [|apply h_ret, aw_refl].
  apply h_lift. intros md. destruct (list_variables md 2) as [[md' vars] count]. destruct (1 <? count); [apply h_ret, aw_refl|].
  destruct (s_after s) as [[| |op [|a0 [|a1 rest]] j]|]; try exact (h_ub _ _). apply h_lift. intros [|x l]; [apply h_ub|apply IH].
Qed.
Lemma derivatives_keep : forall s w t, holds (from w) (apply_derivatives L fuel g pc s w t).
Proof.
  intros s w t. unfold apply_derivatives. eapply (h_obind _ _ (after_world w)); [apply shorthand_keeps|]. intros w1 [t1 [e|]] H; [apply h_ret; exact H|]. apply h_lift. intros [[p m]|]; [apply h_ret; exact H|].
  eapply (h_obind _ _ (after_world w)); [eapply from_trans; [exact H|apply apply_keeps]|]. intros w2 t2 H2. destruct (s_after s) as [[| |op cs j]|]; try exact (h_ub _ _). destruct (find_op t2 op); apply h_ret; exact H2.
Qed.
Lemma passes_keep : forall s w t, holds (from w) (simplify_without_derivative L fuel g pc s w t).
Proof.
  intros s w t. unfold simplify_without_derivative. assert (G : forall l x, holds (from w) x -> holds (from w) (fold_left (fun o i => obind o (fun w' t' => apply_simplification L fuel g pc w' t' (nth i (s_rulesets s) []))) l x)).
  { induction l as [|i l IH]; intros x H; [exact H|]. cbn [fold_left]. apply IH. eapply (h_obind _ _ (after_world w)); [exact H|]. intros w1 t1 H1. eapply from_trans; [exact H1|apply apply_keeps]. }
  apply G. apply h_ret, aw_refl.
Qed.
Lemma simplify_keeps : forall s w t, holds (from w) (simplify L fuel g pc s w t).
Proof.
  intros s w t. unfold simplify. eapply (h_obind _ _ (after_world w)); [apply constants_keep|]. intros w1 r H1. destruct s as [s|]; [|apply h_ret; exact H1].
  eapply (h_obind _ _ (after_world w)); [eapply from_trans; [exact H1|apply passes_keep]|]. intros w2 t2 H2. eapply (h_obind _ _ (after_world w)); [eapply from_trans; [exact H2|apply derivatives_keep]|].
  intros w3 [t3 [e|]] H3; [apply h_ret; exact H3|]. eapply (h_obind _ _ (after_world w)); [eapply from_trans; [exact H3|apply passes_keep]|]. intros w4 t4 H4.
  eapply (h_obind _ _ (after_world w)); [eapply from_trans; [exact H4|apply constants_keep]|]. intros w5 [t5 [e|]] H5; [apply h_ret; exact H5|]. apply h_lift. intros m. apply h_ret. exact H5.
Qed.
End Ev.

(** ** Sessions *)
Section Se.
Variable L : libm.
Variable fuel : nat.
Variable strtod : cstr -> option double.
Variable files : cstr -> option (list ascii).
Notation later s := (fun a : session * _ => after_world (ss_world s) (ss_world (fst a))).
Definition adds (s : session) (r : cmdres) : Prop :=
  match r with
  | Did s' o _ => w_history (ss_world s') = w_history (ss_world s) ++ numbers_shown o /\ drawn (ss_world s) (ss_world s')
  | Quit _ _ => True
  end.
Lemma adds_same : forall s s' o b, after_world (ss_world s) (ss_world s') -> numbers_shown o = [] -> adds s (Did s' o b).
Proof. intros s s' o b [A B] R. cbn [adds]. rewrite R, app_nil_r. auto. Qed.
Lemma adds_after : forall s s1 r, after_world (ss_world s) (ss_world s1) -> adds s1 r -> adds s r.
Proof. intros s s1 [s' o b|o b] [A [u B]] H; [|exact I]. cbn [adds] in *. destruct H as [H [v K]]. split; [congruence|]. exists (u ++ v). rewrite B, K, app_assoc. reflexivity. Qed.
Lemma h_after : forall s s1 x, after_world (ss_world s) (ss_world s1) -> holds (adds s1) x -> holds (adds s) x.
Proof. intros s s1 x H K a E. eapply adds_after; [exact H|exact (K a E)]. Qed.
Lemma h_later : forall A s s1 (x : step (session * A)), after_world (ss_world s) (ss_world s1) -> holds (fun a => after_world (ss_world s1) (ss_world (fst a))) x -> holds (fun a => after_world (ss_world s) (ss_world (fst a))) x.
Proof. intros A s s1 x H K a E. eapply aw_trans; [exact H|exact (K a E)]. Qed.
Lemma failed_adds : forall s s1, after_world (ss_world s) (ss_world s1) -> holds (adds s) (failed s1).
Proof. intros s s1 H. apply h_ret. apply adds_same; [exact H|reflexivity]. Qed.
Lemma simp_later : forall s tk t, holds (later s) (arith_simplify L fuel s tk t).
Proof.
  intros s tk t. unfold arith_simplify. apply h_res. intros [[t1 c]|]; [|apply h_forever]. eapply h_bind; [apply (simplify_keeps L fuel (ss_ctx s) (ss_pc s) (ss_simp s) (ss_world s) t1)|].
  intros [w [t2 [[e p]|]]] H; [|apply h_ret; exact H]. apply h_res. intros u. apply h_ret. exact H.
Qed.
Lemma parse_later : forall s i, holds (later s) (arith_parse L fuel strtod s i).
Proof. intros s i. unfold arith_parse. apply h_res. intros [tk [t|]]; [apply simp_later|]. apply h_ret. apply aw_refl. Qed.
Lemma value_later : forall s t, holds (later s) (reduce_value L fuel s t).
Proof.
  intros s t. unfold reduce_value. destruct (tree_reduce (arith_listener L fuel) (Done (Ok (ss_world s))) t) as [x r] eqn:E.
  assert (H : lw (ss_world s) x). { eapply reduce_keeps; [|exact E]. intros w1 X. injection X as <-. apply aw_refl. }
  destruct x as [[w| |]|], r; try (intros b X; discriminate X); apply h_ret; apply H; reflexivity.
Qed.
Lemma evaluate_later : forall s t, holds (later s) (evaluate L fuel s t).
Proof. intros s t. unfold evaluate. eapply h_bind; [apply value_later|]. intros [s1 v] H. apply h_ret. exact H. Qed.
Lemma table_later : forall n s e x f i a b c d, holds (fun r : session * list shown * double => after_world (ss_world s) (ss_world (fst (fst r))) /\ numbers_shown (snd (fst r)) = []) (table_loop L fuel n s e x f i a b c d).
Proof.
  induction n as [|n IH]; intros s e x f i a b c d; [apply h_forever|]. cbn [table_loop]. match goal with |- holds _ (if ?q then _ else _) => destruct q end; [|apply h_ret; split; [apply aw_refl|reflexivity]].
  eapply h_bind; [apply value_later|]. intros [s1 v] H1. eapply (h_bind _ _ (later s)).
  { destruct v as [r|]; [destruct f as [fe|]|]; try (apply h_ret; exact H1). eapply h_later; [exact H1|apply evaluate_later]. }
  intros [s2 fv] H2. eapply h_bind; [apply IH|]. intros [[s3 rows] r3] [H3 R3]. apply h_ret. split; [eapply aw_trans; [exact H2|exact H3]|exact R3].
Qed.
Lemma run_adds : forall s e vs f a b c d, holds (adds s) (table_run L fuel s e vs f a b c d).
Proof.
  intros s e vs f a b c d. unfold table_run. eapply h_bind; [apply table_later|]. intros [[s1 rows] v] [H R]. cbn [fst snd] in H, R. destruct f as [fe|]; [|apply h_ret; apply adds_same; [exact H|exact R]].
  apply h_ret. destruct H as [H D]. split; [|exact D]. cbn [with_history with_world ss_world w_history]. unfold history_add, numbers_shown. rewrite flat_map_app. fold (numbers_shown rows). rewrite R, H. reflexivity.
Qed.
Lemma fold_adds : forall s e vs more a b c, holds (adds s) (table_fold L fuel strtod s e vs more a b c).
Proof.
  intros s e vs more a b c. unfold table_fold. destruct more as [|ft [|it r]]; [apply run_adds|apply run_adds|]. eapply h_bind; [apply parse_later|]. intros [s1 [fe|]] H1; cbn [fst] in H1; [|apply failed_adds; exact H1].
  eapply (h_bind _ _ (later s)); [eapply h_later; [exact H1|apply parse_later]|]. intros [s2 [fi|]] H2; cbn [fst] in H2; [|apply failed_adds; exact H2]. destruct (_ =? _); [|apply failed_adds; exact H2].
  destruct (no_variables fi); [|apply failed_adds; exact H2]. eapply (h_bind _ _ (later s)); [eapply h_later; [exact H2|apply evaluate_later]|]. intros [s3 v] H3. eapply h_after; [exact H3|apply run_adds].
Qed.
Lemma params_adds : forall s e vs a1 a2 a3 more, holds (adds s) (table_params L fuel strtod s e vs a1 a2 a3 more).
Proof.
  intros s e vs a1 a2 a3 more. unfold table_params. eapply h_bind; [apply parse_later|]. intros [s1 [t1|]] H1; cbn [fst] in H1; [|apply failed_adds; exact H1].
  eapply (h_bind _ _ (later s)); [eapply h_later; [exact H1|apply parse_later]|]. intros [s2 [t2|]] H2; cbn [fst] in H2; [|apply failed_adds; exact H2].
  eapply (h_bind _ _ (later s)); [eapply h_later; [exact H2|apply parse_later]|]. intros [s3 [t3|]] H3; cbn [fst] in H3; [|apply failed_adds; exact H3].
  destruct (no_variables t1 && no_variables t2 && no_variables t3); [|apply failed_adds; exact H3].
  eapply (h_bind _ _ (later s)); [eapply h_later; [exact H3|apply evaluate_later]|]. intros [s4 v4] H4. eapply (h_bind _ _ (later s)); [eapply h_later; [exact H4|apply evaluate_later]|]. intros [s5 v5] H5.
  eapply (h_bind _ _ (later s)); [eapply h_later; [exact H5|apply evaluate_later]|]. intros [s6 v6] H6. cbn [fst] in H6. destruct (deqb v6 d0); [apply failed_adds; exact H6|]. eapply h_after; [exact H6|apply fold_adds].
Qed.
Lemma table_adds : forall s i, holds (adds s) (cmd_table_exec L fuel strtod s i).
Proof.
  intros s i. unfold cmd_table_exec. match goal with |- holds _ (if ?q then _ else _) => destruct q end; [|apply failed_adds, aw_refl]. apply h_res. intros [|a0 [|a1 [|a2 [|a3 more]]]]; try exact (h_ub _ _).
  apply h_res. intros [tk [raw|]]; [|apply failed_adds, aw_refl]. eapply h_bind; [apply simp_later|]. intros [s1 [e|]] H1; cbn [fst] in H1; [|apply failed_adds; exact H1].
  destruct (list_variables e 1) as [[e1 [vs|]] n]; [|apply failed_adds; exact H1]. eapply h_after; [exact H1|apply params_adds].
Qed.
Lemma error_adds : forall s s1 name, after_world (ss_world s) (ss_world s1) -> holds (adds s) (definition_error s1 name).
Proof. intros s s1 name H. unfold definition_error. apply h_res. intros [c x]. apply failed_adds. exact H. Qed.
Lemma right_adds : forall s name lt o right, holds (adds s) (define_right L fuel strtod s name lt o right).
Proof.
  intros s name lt o right. unfold define_right. apply h_res. intros [tk [raw|]]; [|apply error_adds, aw_refl]. destruct o as [op|]; [|apply h_ub]. destruct (find_op raw op); [apply error_adds, aw_refl|].
  eapply h_bind; [apply simp_later|]. intros [s1 [rt|]] H1; cbn [fst] in H1; [|apply h_ub]. destruct (get_pattern lt []) as [p|]; [|apply h_ub]. destruct (get_rule p rt) as [r|]; [|apply error_adds; exact H1].
  apply h_ret. apply adds_same; [exact H1|reflexivity].
Qed.
Lemma function_adds : forall s name left right k, holds (adds s) (add_function L fuel strtod s name left right k).
Proof.
  intros s name left right k. unfold add_function. apply h_res. intros [op|]; [apply failed_adds, aw_refl|]. apply h_res. intros [c1 added]. apply h_res. intros [tk [raw|]]; [|apply error_adds, aw_refl].
  destruct (do_left_checks raw) as [[|] lt]; [|apply error_adds, aw_refl]. destruct k; [eapply h_after; [|apply right_adds]; apply aw_refl|]. apply h_res. intros [c2 x]. apply h_res. intros [c3 y].
  eapply h_after; [|apply right_adds]. apply aw_refl.
Qed.
Lemma definition_adds : forall s i, holds (adds s) (cmd_definition_exec L fuel strtod s i).
Proof.
  intros s i. unfold cmd_definition_exec. destruct (strstr i DEFINITION_OP) as [n|]; [|apply h_ub]. apply h_res. intros tk. destruct (filter _ tk) as [|name others]; [apply failed_adds, aw_refl|].
  destruct name as [|c name]; [apply failed_adds, aw_refl|]. destruct (is_letter c); [apply function_adds|apply failed_adds, aw_refl].
Qed.
Lemma remove_world : forall s k s', remove_node s k = Ok s' -> ss_world s' = ss_world s.
Proof.
  intros s k s' E. unfold remove_node in E. destruct (nth_error (ss_funs s) k) as [r|]; [|discriminate E]. destruct (rule_op r) as [op| |]; try discriminate E. cbn [rbind] in E.
  destruct (ctx_delete_op (ss_ctx s) (o_name op) PFunction) as [[c x]| |]; try discriminate E. injection E as <-. reflexivity.
Qed.
Lemma clear_world : forall k s s', clear_loop k s = Ok s' -> ss_world s' = ss_world s.
Proof.
  induction k as [|k IH]; intros s s' E; cbn [clear_loop] in E; [injection E as <-; reflexivity|]. destruct (remove_node s 0) as [s1| |] eqn:X; try discriminate E. cbn [rbind] in E.
  rewrite (IH _ _ E). eapply remove_world; eauto.
Qed.
Lemma aw_eq : forall s s', ss_world s' = ss_world s -> after_world (ss_world s) (ss_world s').
Proof. intros s s' ->. apply aw_refl. Qed.
Lemma clear_adds : forall s i, holds (adds s) (cmd_clear_exec s i).
Proof.
  intros s i. unfold cmd_clear_exec. destruct (streqb CLEAR_COMMAND i).
  - unfold clear_composite_functions. destruct (clear_loop (List.length (ss_funs s)) s) as [s'| |] eqn:E; try (intros b X; discriminate X). apply h_ret. apply adds_same; [|reflexivity]. apply aw_eq. eapply clear_world; eauto.
  - apply h_res. intros [op|]; [|apply failed_adds, aw_refl]. unfold remove_composite_function. destruct (find_function op (ss_funs s) 0) as [[k|]| |]; try (intros b X; discriminate X); cbn [rbind of_res sbind]; [|apply failed_adds, aw_refl].
    destruct (remove_node s k) as [s'| |] eqn:E; try (intros b X; discriminate X). cbn [rbind of_res sbind]. apply h_ret. apply adds_same; [|reflexivity]. apply aw_eq. eapply remove_world; eauto.
Qed.
Lemma rules_adds : forall s path, holds (adds s) (load_simplification strtod files s path).
Proof. intros s path. unfold load_simplification. apply h_res. intros [| |sm n]; apply h_ret; (apply adds_same; [apply aw_refl|reflexivity]). Qed.
Lemma lines_add : forall ex, (forall s l, holds (adds s) (ex s l)) -> forall lines s k, holds (adds s) (process_lines ex s lines k).
Proof.
  intros ex H. induction lines as [|raw lines IH]; intros s k; cbn [process_lines]; [apply h_ret; apply adds_same; [apply aw_refl|reflexivity]|]. apply h_res. intros line.
  destruct (streqb line QUIT_COMMAND); [apply h_ret; exact I|]. destruct (ignored line); [apply IH|]. eapply h_bind; [apply H|]. intros [s1 o b|o b] A; [|apply h_ret; exact I].
  eapply h_bind; [apply IH|]. intros [s2 o2 b2|o2 b2] B; apply h_ret; [|exact I]. destruct A as [A [u U]], B as [B [v V]]. split.
  - unfold numbers_shown in *. rewrite flat_map_app, B, A, app_assoc. reflexivity.
  - exists (u ++ v). rewrite U, V, app_assoc. reflexivity.
Qed.
Lemma evaluation_adds : forall s i, holds (adds s) (cmd_evaluation_exec L fuel strtod s i).
Proof.
  intros s i. unfold cmd_evaluation_exec. eapply h_bind; [apply parse_later|]. intros [s1 [t|]] H; cbn [fst] in H; [|apply failed_adds; exact H]. apply h_ret. destruct H as [H D].
  destruct t as [v k|x j k|op cs k]; cbn [adds numbers_shown number_shown flat_map app]; rewrite ?app_nil_r; split; auto. cbn [with_history with_world ss_world w_history]. unfold history_add. rewrite H. reflexivity.
Qed.
Lemma command_adds : forall d s i, holds (adds s) (exec_command L fuel strtod files d s i).
Proof.
  induction d as [|d IH]; intros s i; [apply h_forever|]. cbn [exec_command]. destruct (cmd_help_check i); [apply h_ret; apply adds_same; [apply aw_refl|reflexivity]|]. destruct (cmd_table_check i); [apply table_adds|].
  destruct (cmd_definition_check i); [apply definition_adds|]. destruct (cmd_clear_check i); [apply clear_adds|]. destruct (cmd_load_check i); [|apply evaluation_adds].
  unfold cmd_load_exec. destruct (begins_with LOAD_SIMPLIFICATION i); [apply rules_adds|]. destruct (files (skipn (List.length LOAD_COMMAND) i)) as [content|]; [|apply failed_adds, aw_refl].
  eapply h_bind; [apply (lines_add _ IH)|]. intros [s' o b|o b] H; apply h_ret; exact H.
Qed.

(** ** C82 *)
(** A command adds exactly the results it shows to the history, in that order, and keeps the older ones. *)
Theorem C82_command : forall d s l s' o b, exec_command L fuel strtod files d s l = Done (Ok (Did s' o b)) ->
  w_history (ss_world s') = w_history (ss_world s) ++ numbers_shown o /\ drawn (ss_world s) (ss_world s').
Proof. intros d s l s' o b E. exact (command_adds d s l _ E). Qed.
(** The same for a whole input; so from the start of the program the history is what was shown. *)
Theorem C82_input : forall d s content s' o b, process_input L fuel strtod files d s content = Done (Ok (Did s' o b)) ->
  w_history (ss_world s') = w_history (ss_world s) ++ numbers_shown o /\ drawn (ss_world s) (ss_world s').
Proof. intros d s content s' o b E. exact (lines_add _ (command_adds d) _ s true _ E). Qed.
Theorem C82_from_start : forall path rand s d content s' o b, init_commands strtod files path rand = Ok s ->
  process_input L fuel strtod files d s content = Done (Ok (Did s' o b)) -> w_history (ss_world s') = numbers_shown o.
Proof.
  intros path rand s d content s' o b I E. destruct (C82_input d s content s' o b E) as [H _]. rewrite H. replace (w_history (ss_world s)) with (@nil double); [reflexivity|]. clear E H. revert I. unfold init_commands. generalize get_arith_ctx init_propositional_ctx. intros [g| |] [pc| |] I; cbn [rbind] in I; try discriminate I.
  destruct (init_simplification strtod g pc (files path)) as [r| |]; try discriminate I. injection I as <-. reflexivity.
Qed.
End Se.
(** Three results: 5, the fold 1+2+3 and -5; the error in between and the expression with a variable leave none. *)
Definition newline : ascii := ascii_of_nat 10.
Definition C82_text : list ascii := flat_map (fun l => str l ++ [newline]) ["2+3"; "table x;1;3;1 fold x+y;0"; "1/0"; "x+1"; "4-9"].
Definition C82_numbers : option (list double * list double) :=
  match init_commands strtod no_files (str "none") [] with
  | Ok s => match process_input no_libm 20 strtod no_files 1 s C82_text with
            | Done (Ok (Did s' o _)) => Some (w_history (ss_world s'), numbers_shown o)
            | _ => None
            end
  | _ => None
  end.
Example C82_case : match C82_numbers with
  | Some (h, n) => forallb (fun '(a, b) => same_double a b) (combine h [of_Z 5; of_Z 6; of_Z (-5)]) && (List.length h =? 3) && (List.length n =? 3)
  | None => false
  end = true.
Proof. vm_compute. reflexivity. Qed.
Print Assumptions C82_command.
Print Assumptions C82_input.
Print Assumptions C82_from_start.
