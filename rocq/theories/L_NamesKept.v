(** Simplification introduces no variables, but for the one of a derivative in the short form. *)
From Coq Require Import List Ascii String NArith ZArith Bool Lia Arith.
From Coq.Floats Require Import SpecFloat.
From Verif Require Import M_Base M_StringUtil M_Tree M_Context M_TreeUtil M_Match M_Double M_Eval M_Simplify S_Engine S_Tree L_Tree S_Match L_Match L_MatchRule S_Session L_Expand P_Tree.
Import ListNotations.
Open Scope list_scope.
Open Scope nat_scope.
Open Scope res_scope.

Section Kept.
Variable Vx : cstr -> Prop.
Definition G (t : node) : Prop := Forall Vx (var_names t).
Lemma G_op : forall op cs k, G (NOp op cs k) <-> Forall G cs.
Proof. intros. unfold G. cbn [var_names]. apply Forall_flat_map. Qed.
Lemma G_replace : forall q t n, G t -> G n -> G (replace_at t q n).
Proof.
  induction q as [|i q IH]; intros t n A B; auto. destruct t as [| |op l k]; auto. cbn [replace_at]. destruct (nth_error l i) as [c|] eqn:Ei; auto.
  apply G_op in A. apply G_op. apply vset_Forall; auto. apply IH; auto. rewrite Forall_forall in A. apply A. eapply nth_error_In; eauto.
Qed.

(** ** Matchings *)
Definition mgood (m : matching) : Prop := Forall (fun o => match o with Some l => Forall G (nl_nodes l) | None => True end) m.
Definition egood (ext : matching -> nodelist -> res (list matching)) : Prop :=
  forall m tl ms, mgood m -> Forall G (nl_nodes tl) -> ext m tl = Ok ms -> Forall mgood ms.
Lemma vget_In : forall A (l : list A) i x, vget l i = Ok x -> In x l.
Proof. intros A l i x E. unfold vget in E. destruct (nth_error l i) eqn:H; [|discriminate E]. injection E as <-. eapply nth_error_In; eauto. Qed.
Lemma fill_good : forall ext k i first loc out, (forall m ms, mgood m -> ext m = Ok ms -> Forall mgood ms) -> Forall mgood loc ->
  fill_loop ext k i first loc = Ok out -> Forall mgood out.
Proof.
  induction k as [|k IH]; intros i first loc out E L H; cbn [fill_loop] in H. { injection H as <-. auto. }
  destruct (vget loc (first + i)) as [m| |] eqn:V; cbn [rbind] in H; try discriminate H.
  destruct (ext m) as [new| |] eqn:X; cbn [rbind] in H; try discriminate H.
  apply IH in H; auto. apply Forall_app. split; auto. eapply E; eauto. apply vget_In in V. rewrite Forall_forall in L. auto.
Qed.
Section Lists.
Variable exts : list (matching -> nodelist -> res (list matching)).
Variables pcs tcs : list node.
Hypothesis EG : Forall egood exts.
Hypothesis TG : Forall G tcs.
Lemma suffix_good : forall fuel i sfx loc sfx' loc', Forall mgood loc -> fill_suffix exts tcs fuel i sfx loc = Ok (sfx', loc') -> Forall mgood loc'.
Proof.
  induction fuel as [|f IH]; intros i sfx loc sfx' loc' L H; cbn [fill_suffix] in H;
    destruct (vget sfx i) as [c| |]; cbn [rbind] in H; try discriminate H; destruct (sn_first c); try discriminate H; try (injection H as <- <-; auto; fail).
  destruct (fill_suffix exts tcs f (sn_parent c) sfx loc) as [[sfx1 loc1]| |] eqn:F; cbn [rbind] in H; try discriminate H.
  destruct (vget sfx1 (sn_parent c)) as [par| |]; cbn [rbind] in H; try discriminate H. destruct (sn_first par) as [pf|]; try discriminate H.
  destruct (vget exts (sn_dist c - 1)) as [ext| |] eqn:V; cbn [rbind] in H; try discriminate H.
  match type of H with rbind ?x _ = _ => destruct x as [loc2| |] eqn:F2 end; cbn [rbind] in H; try discriminate H. injection H as <- <-.
  eapply fill_good; [|eapply IH; eauto|exact F2]. intros m ms M. apply vget_In in V. rewrite Forall_forall in EG. apply (EG _ V); auto.
  cbn [nl_nodes]. clear - TG. generalize (N.to_nat (sn_sum c)). intros k. rewrite Forall_forall in *. intros x I. apply TG. rewrite <- (firstn_skipn k tcs). apply in_or_app. auto.
Qed.
Lemma mpl_good : forall fuel m i sfx loc out ms, Forall mgood loc -> Forall mgood out -> mpl_loop exts pcs tcs fuel m i sfx loc out = Ok ms -> Forall mgood ms.
Proof.
  induction fuel as [|f IH]; intros m i sfx loc out ms L O H; cbn [mpl_loop] in H; destruct (nth_error sfx i) as [curr|]; try discriminate H; try (injection H as <-; auto; fail).
  match type of H with rbind ?x _ = _ => destruct x as [[[sfx1 loc1] out1]| |] eqn:E end; cbn [rbind] in H; try discriminate H.
  assert (K : Forall mgood loc1 /\ Forall mgood out1).
  { destruct (_ && _) in E.
    - destruct (fill_suffix exts tcs (S i) i sfx loc) as [[sfx' loc']| |] eqn:F; cbn [rbind] in E; try discriminate E.
      destruct (vget sfx' i) as [c'| |]; cbn [rbind] in E; try discriminate E. destruct (sn_first c') as [a|]; try discriminate E. injection E as <- <- <-.
      pose proof (suffix_good _ _ _ _ _ _ L F) as L'. split; auto. apply Forall_app. split; auto.
      rewrite Forall_forall in *. intros x I. apply L'. rewrite <- (firstn_skipn a loc'). apply in_or_app. auto.
    - injection E as <- <- <-. auto. }
  destruct K as [K1 K2]. destruct (nth_error pcs (sn_dist curr)) as [p|]; [|eapply IH; [| |exact H]; auto].
  destruct (next_labels m p _ _ _) as [ls| |]; cbn [rbind] in H; try discriminate H. eapply IH; [| |exact H]; auto.
Qed.
End Lists.
Lemma set_good : forall m id l, mgood m -> Forall G (nl_nodes l) -> mgood (set_mapped m id l).
Proof. induction m as [|o m IH]; intros [|id] l M L; simpl; auto; inversion M; subst; constructor; auto. apply IH; auto. Qed.
Lemma extend_good : forall ck pat p, egood (extend_matching ck pat p).
Proof.
  intros ck pat. induction p as [v k|x i k|op cs k IH] using node_ind'; intros m tl ms M T E; cbn [extend_matching] in E.
  - destruct (_ =? _)%N; [|injection E as <-; constructor]. destruct (vget (nl_nodes tl) 0) as [t| |]; cbn [rbind] in E; try discriminate E.
    destruct (tree_equals _ t); injection E as <-; repeat constructor; auto.
  - destruct (mapped m i) as [[l|]| |]; cbn [rbind] in E; try discriminate E.
    + destruct (nodelists_equal l tl) as [[|]| |]; cbn [rbind] in E; try discriminate E; injection E as <-; repeat constructor; auto.
    + destruct (check_constraints _ _ _) as [[|]| |]; cbn [rbind] in E; try discriminate E; injection E as <-; repeat constructor; auto. apply set_good; auto.
  - destruct (_ =? _)%N; [|injection E as <-; constructor]. destruct (vget (nl_nodes tl) 0) as [t| |] eqn:V; cbn [rbind] in E; try discriminate E.
    destruct t as [| |op' cs' k']; try (injection E as <-; constructor). destruct (o_id op =? o_id op'); [|injection E as <-; constructor].
    apply vget_In in V. rewrite Forall_forall in T. apply T, G_op in V.
    unfold match_parameter_lists in E. eapply mpl_good; [| | | |exact E]; auto. rewrite Forall_forall in *. intros e I. apply in_map_iff in I. destruct I as (c & <- & I). apply IH. auto.
Qed.
Lemma get_good : forall ck pat t m, G t -> get_matching ck pat t = Ok (Some m) -> mgood m.
Proof.
  intros ck pat t m Gt E. unfold get_matching, get_all_matchings in E. destruct (extend_matching ck pat (pt_tree pat) empty_matching (mkNL 1 [t])) as [ms| |] eqn:X; cbn [rbind] in E; try discriminate E.
  apply (extend_good ck pat) in X; [|unfold mgood, empty_matching; generalize MAX_MAPPED_VARS; induction n; simpl; constructor; auto|cbn [nl_nodes]; auto].
  destruct ms; [discriminate E|]. injection E as <-. inversion X; auto.
Qed.
Lemma find_good : forall ck pat t q m, G t -> find_matching ck pat t = Ok (Some (q, m)) -> mgood m.
Proof.
  intros ck pat. assert (R : forall t q m, G t -> (r <- get_matching ck pat t ;; match r with Some m => Ok (Some ([], m)) | None => Ok None end) = Ok (Some (q : path, m)) -> mgood m).
  { intros t q m Gt E. destruct (get_matching ck pat t) as [[m'|]| |] eqn:X; cbn [rbind] in E; try discriminate E. injection E as _ <-. eapply get_good; eauto. }
  induction t as [v k|x i k|op cs k IH] using node_ind'; intros q m Gt E; cbn [find_matching] in E; try (eapply R; eauto; fail).
  destruct (get_matching ck pat (NOp op cs k)) as [[m'|]| |] eqn:X; cbn [rbind] in E; try discriminate E. { injection E as _ <-. eapply get_good; eauto. }
  apply G_op in Gt. revert q E. generalize 0. clear X. induction cs as [|c cs IHc]; intros i q E. { discriminate E. }
  inversion IH; subst. inversion Gt; subst. destruct (find_matching ck pat c) as [[[p m']|]| |] eqn:Fc; cbn [rbind] in E; try discriminate E.
  - injection E as _ <-. eapply H1; eauto.
  - eapply IHc; eauto.
Qed.

(** ** Trees built *)
Lemma mapped_good : forall m id l, mgood m -> mapped m id = Ok (Some l) -> Forall G (nl_nodes l).
Proof.
  intros m id l M E. unfold mapped in E. destruct (nth_error m id) eqn:N; [|discriminate E]. injection E as ->. apply nth_error_In in N. unfold mgood in M. rewrite Forall_forall in M. apply (M _ N).
Qed.
Lemma mapped_list_good : forall m id l, mgood m -> mapped_list m id = Ok l -> Forall G l.
Proof.
  intros m id l M E. unfold mapped_list in E. destruct (mapped m id) as [[nl|]| |] eqn:X; cbn [rbind] in E; try discriminate E; [|injection E as <-; constructor].
  apply mapped_good in X; auto. unfold nl_read in E. destruct (_ <=? _)%N; [|discriminate E]. injection E as <-. clear - X.
  generalize dependent (nl_nodes nl). intros l X. rewrite Forall_forall in *. intros x I. apply X. rewrite <- (firstn_skipn (N.to_nat (nl_size nl)) l). apply in_or_app. auto.
Qed.
Lemma copy_good : forall l, Forall G l -> Forall G (map tree_copy l).
Proof. intros l F. rewrite Forall_forall in *. intros x I. apply in_map_iff in I. destruct I as (y & <- & I). rewrite tree_copy_id. auto. Qed.
Lemma child_good : forall m n l, mgood m -> transform_child m n = Ok l -> Forall G l.
Proof.
  intros m. induction n as [v k|x i k|op cs k IH] using node_ind'; intros l M E; cbn [transform_child] in E.
  - injection E as <-. repeat constructor.
  - destruct (mapped_list m i) as [l'| |] eqn:X; cbn [rbind] in E; try discriminate E. injection E as <-. apply copy_good. eapply mapped_list_good; eauto.
  - match type of E with rbind ?x _ = _ => destruct x as [cs'| |] eqn:X end; cbn [rbind] in E; try discriminate E. injection E as <-.
    constructor; [|constructor]. apply G_op. revert cs' X. induction cs as [|c cs IHc]; intros cs' X. { injection X as <-. constructor. }
    inversion IH; subst. destruct (transform_child m c) as [a| |] eqn:Ec; cbn [rbind] in X; try discriminate X.
    match type of X with rbind ?x _ = _ => destruct x as [b| |] eqn:Eb end; cbn [rbind] in X; try discriminate X. injection X as <-. apply Forall_app. split; eauto.
Qed.
Lemma build_good : forall m n t, mgood m -> transform_by_matching m n = Ok t -> G t.
Proof.
  intros m [v k|x i k|op cs k] t M E; cbn [transform_by_matching] in E.
  - injection E as <-. constructor.
  - destruct (mapped m i) as [[nl|]| |] eqn:X; cbn [rbind] in E; try discriminate E. destruct (_ =? _)%N; [|discriminate E].
    apply mapped_good in X; auto. destruct (nl_nodes nl); [discriminate E|]. injection E as <-. rewrite tree_copy_id. inversion X; auto.
  - destruct (transform_matched_recursive m cs) as [cs'| |] eqn:X; cbn [rbind] in E; try discriminate E. injection E as <-.
    apply G_op. revert cs' X. induction cs as [|c cs IHc]; intros cs' X; cbn [transform_matched_recursive] in X. { injection X as <-. constructor. }
    destruct (transform_child m c) as [a| |] eqn:Ec; cbn [rbind] in X; try discriminate X.
    destruct (transform_matched_recursive m cs) as [b| |] eqn:Eb; cbn [rbind] in X; try discriminate X. injection X as <-. apply Forall_app. split; auto. eapply child_good; eauto.
Qed.
Lemma rule_good : forall ck t r t', G t -> apply_rule ck t r = Ok (Some t') -> G t'.
Proof.
  intros ck t r t' Gt E. unfold apply_rule in E. destruct (find_matching ck (r_pat r) t) as [[[q m]|]| |] eqn:F; cbn [rbind] in E; try discriminate E.
  destruct (deref t q) as [sub| |]; cbn [rbind] in E; try discriminate E.
  match type of E with rbind ?x _ = _ => destruct x as [new| |] eqn:X end; cbn [rbind] in E; try discriminate E. injection E as <-.
  apply G_replace; auto. eapply build_good; [|exact X]. exact (find_good _ _ _ _ _ Gt F).
Qed.
Lemma first_good : forall ck rs t t', G t -> apply_first ck t rs = Ok (Some t') -> G t'.
Proof.
  intros ck rs t t' Gt. induction rs as [|r rs IH]; intros E; cbn [apply_first] in E. { discriminate E. }
  destruct (apply_rule ck t r) as [[u|]| |] eqn:A; cbn [rbind] in E; try discriminate E; [|auto]. injection E as <-. eapply rule_good; [exact Gt|exact A].
Qed.
Lemma ruleset_good : forall fuel ck rs cap t c t' k, G t -> apply_ruleset_loop fuel ck rs cap t c = Ok (Some (t', k)) -> G t'.
Proof.
  induction fuel as [|f IH]; intros ck rs cap t c t' k Gt E; cbn [apply_ruleset_loop] in E. { discriminate E. }
  destruct (apply_first ck t rs) as [[u|]| |] eqn:A; cbn [rbind] in E; try discriminate E.
  - pose proof (first_good _ _ _ _ Gt A) as Gu. destruct (S c =? cap); [injection E as <- _; auto|eapply IH; [exact Gu|exact E]].
  - injection E as <- _. auto.
Qed.

(** ** The steps of simplification *)
Section Steps.
Variable L : libm.
Variable fuel : nat.
Lemma reduce_good : forall S (lis : @listener S) s t s' t' e, G t -> tree_reduce_constant_subtrees lis s t = (s', (t', e)) -> G t'.
Proof.
  intros S lis. intros s t. revert s. induction t as [v k|x i k|op cs k IH] using node_ind'; intros s s' t' e Gt E; cbn [tree_reduce_constant_subtrees] in E;
    destruct (_ =? _) in E; try (destruct (tree_reduce lis s _) as [s1 [v1|z p]]; injection E as _ <- _; first [assumption|constructor]; fail);
    try (injection E as _ <- _; exact Gt; fail).
  match type of E with match ?x with _ => _ end = _ => destruct x as [s1 [cs' err]] eqn:X end. injection E as _ <- _.
  apply G_op in Gt. rename Gt into Gc. apply G_op. revert cs' s s1 err X. generalize 0.
  induction cs as [|c cs IHc]; intros i cs' s s1 err X. { injection X as _ <- _. constructor. }
  inversion IH; subst. inversion Gc; subst. destruct (tree_reduce_constant_subtrees lis s c) as [s2 [c' [[z p]|]]] eqn:Ec.
  - injection X as _ <- _. constructor; eauto.
  - match type of X with match ?x with _ => _ end = _ => destruct x as [s3 [l'' err']] eqn:Y end. injection X as _ <- _. constructor; eauto.
Qed.
Lemma constants_good : forall w t w' t' e, G t -> reduce_constants L fuel w t = Done (Ok (w', (t', e))) -> G t'.
Proof.
  intros w t w' t' e Gt E. unfold reduce_constants in E. destruct (tree_reduce_constant_subtrees (arith_listener L fuel) (Done (Ok w)) t) as [s' [t1 e1]] eqn:X.
  apply reduce_good in X; auto. destruct s' as [[w1| |]|]; try discriminate E. injection E as _ <- _. auto.
Qed.
Variables (g pc : ctx).
Lemma neg_good : forall m t, G t -> G (replace_negative_consts m t).
Proof.
  intros m t. induction t as [v k|x i k|op cs k IH] using node_ind'; intros Gt; cbn [replace_negative_consts]; auto.
  - destruct (dltb v d0); [|constructor]. apply G_op. repeat constructor.
  - apply G_op in Gt. rename Gt into Gc. apply G_op. rewrite Forall_forall in *. intros c I. apply in_map_iff in I. destruct I as (c' & <- & I). auto.
Qed.
Lemma obind_inv : forall A B (o : out A) (f : world -> A -> out B) w b, obind o f = Done (Ok (w, b)) -> exists w1 a, o = Done (Ok (w1, a)) /\ f w1 a = Done (Ok (w, b)).
Proof. intros A B o f w b E. destruct o as [[[w1 a]| |]|]; try discriminate E. eauto. Qed.
Lemma lift_inv : forall A B (r : res A) (f : A -> out B) w b, lift r f = Done (Ok (w, b)) -> exists a, r = Ok a /\ f a = Done (Ok (w, b)).
Proof. intros A B [a| |] f w b E; try discriminate E. eauto. Qed.
Lemma loop_good : forall rounds w t rs w' t', G t ->
  simplification_loop L fuel pc rounds w t rs = Done (Ok (w', t')) -> G t'.
Proof.
  induction rounds as [|k IH]; intros w t rs w' t' Gt E; cbn [simplification_loop] in E. { discriminate E. }
  apply lift_inv in E. destruct E as (o & A & E). destruct o as [[t1 n]|]; [|discriminate E].
  pose proof (ruleset_good _ _ _ _ _ _ _ _ Gt A) as G1. destruct n as [|n].
  - injection E as _ <-. auto.
  - apply obind_inv in E. destruct E as (w1 & [t2 e] & Ec & E). apply constants_good in Ec; auto. eapply IH; [|exact E]; auto.
Qed.
Lemma apply_good : forall w t rs w' t', G t ->
  apply_simplification L fuel g pc w t rs = Done (Ok (w', t')) -> G t'.
Proof.
  intros w t rs w' t' Gt E. unfold apply_simplification in E. apply obind_inv in E. destruct E as (w1 & t1 & A & E).
  apply lift_inv in E. destruct E as (m & Em & E). injection E as _ <-. apply neg_good; auto. eapply loop_good; [exact Gt|exact A].
Qed.
(** The variable put into the short form of derivatives of constants *)
Definition tame (s : simp) : Prop := forall a, s_after s = Some a -> G a.
Variable s : simp.
Hypothesis TS : tame s.
Lemma shorthand_good : forall rounds w t w' t' e, G t -> shorthand_loop rounds s w t = Done (Ok (w', (t', e))) -> G t'.
Proof.
  induction rounds as [|k IH]; intros w t w' t' e Gt E; cbn [shorthand_loop] in E. { discriminate E. }
  destruct (s_before s) as [pat|]; [|discriminate E]. apply lift_inv in E. destruct E as ([[q m]|] & F & E); [|injection E as _ <- _; auto].
  apply lift_inv in E. destruct E as (matched & Dm & E).
  assert (Gm : G matched).
  { clear - Gt Dm. revert t matched Gt Dm. induction q as [|i q IH]; intros t matched Gt Dm. { injection Dm as <-. auto. }
    destruct t as [| |op cs j]; try discriminate Dm. cbn [deref] in Dm. destruct (vget cs i) as [c| |] eqn:V; cbn [rbind] in Dm; try discriminate Dm.
    apply vget_In in V. apply G_op in Gt. rewrite Forall_forall in Gt. eauto. }
  assert (LV : forall n buf f, G n -> G (fst (list_variables_rec n buf f))).
  { clear. induction n as [v k|x i k|op cs k IH] using node_ind'; intros buf f Gn; cbn [list_variables_rec]; destruct f as [vs|]; auto.
    - destruct (index_of x vs); [exact Gn|]. destruct (_ <? _); exact Gn.
    - apply G_op in Gn. rename Gn into Gc.
      match goal with |- G (fst match ?x with _ => _ end) => assert (K : Forall G (fst x)); [|destruct x; apply G_op; auto] end.
      generalize (Some vs). induction cs as [|c cs IHc]; intros f; [constructor|]. inversion IH; subst. inversion Gc; subst.
      pose proof (H1 buf f H3) as Hc. destruct (list_variables_rec c buf f) as [c' f1]. specialize (IHc H2 H4 f1).
      match goal with |- context [match ?x with pair _ _ => _ end] => destruct x as [l'' f2] end. constructor; auto. }
  destruct (list_variables matched 2) as [[matched' vars] count] eqn:EL.
  assert (Gm' : G matched'). { unfold list_variables in EL. pose proof (LV matched 2 (Some []) Gm) as X. destruct (list_variables_rec matched 2 (Some [])) as [a [b|]]; injection EL as <- _ _; exact X. }
  destruct (1 <? count). { injection E as _ <- _. apply G_replace; auto. }
  pose proof TS as TA. unfold tame in TA. destruct (s_after s) as [[| |op [|a0 [|a1 rest]] j]|] eqn:SA; try discriminate E.
  specialize (TA _ eq_refl). apply G_op in TA. inversion TA as [|? ? Ga0 TA1]; subst. inversion TA1 as [|? ? Ga1 TA2]; subst.
  apply lift_inv in E. destruct E as (l & El & E). apply mapped_list_good in El; [|exact (find_good _ _ _ _ _ Gt F)]. destruct l as [|x l]; [discriminate E|]. inversion El; subst.
  eapply IH; [|exact E]. apply G_replace; auto. apply G_op. rewrite tree_copy_id. constructor; [|constructor; auto].
  { match goal with H : G x |- _ => pose proof (LV x 2 (Some []) H) as X end. unfold list_variables. destruct (list_variables_rec x 2 (Some [])) as [a [b|]]; exact X. }
  destruct vars as [[|v vs]|]; auto. pose proof (C26_list_variables matched 2) as H. rewrite EL in H. destruct H as [A B].
  destruct (Nat.le_gt_cases (List.length (firsts (var_names matched))) 2) as [Le|Gr]; [|destruct (B Gr) as [X _]; discriminate X].
  destruct (A Le) as (X & _). injection X as X. constructor; [|constructor]. unfold G in Gm. rewrite Forall_forall in Gm. apply Gm. destruct (C26_firsts (var_names matched)) as [_ I].
  apply I. rewrite <- X. left. reflexivity.
Qed.
Lemma derivatives_good : forall w t w' t' e, G t -> apply_derivatives L fuel g pc s w t = Done (Ok (w', (t', e))) -> G t'.
Proof.
  intros w t w' t' e Gt E. unfold apply_derivatives in E. apply obind_inv in E. destruct E as (w1 & [t1 [e1|]] & A & E); apply shorthand_good in A; auto.
  - injection E as _ <- _. auto.
  - apply lift_inv in E. destruct E as ([[p m]|] & F & E). { injection E as _ <- _. auto. }
    apply obind_inv in E. destruct E as (w2 & t2 & B & E). apply apply_good in B; auto. destruct (s_after s) as [[| |op cs j]|]; try discriminate E.
    destruct (find_op t2 op); injection E as _ <- _; auto.
Qed.
Lemma without_good : forall w t w' t', G t -> simplify_without_derivative L fuel g pc s w t = Done (Ok (w', t')) -> G t'.
Proof.
  intros w t w' t' Gt. unfold simplify_without_derivative.
  assert (K : forall l (o : out node), (forall w1 t1, o = Done (Ok (w1, t1)) -> G t1) ->
    forall w' t', fold_left (fun o i => obind o (fun w' t' => apply_simplification L fuel g pc w' t' (nth i (s_rulesets s) []))) l o = Done (Ok (w', t')) -> G t').
  { induction l as [|i l IH]; intros o H w1 t1 E; cbn [fold_left] in E; eauto. eapply IH; [|exact E]. intros w2 t2 E2.
    apply obind_inv in E2. destruct E2 as (w3 & t3 & -> & E3). eapply apply_good; [|exact E3]. eauto. }
  apply K. intros w1 t1 E. injection E as _ <-. auto.
Qed.
End Steps.
Theorem simplify_good : forall L fuel g pc so w t w' t' e, (forall s, so = Some s -> tame s) -> G t ->
  simplify L fuel g pc so w t = Done (Ok (w', (t', e))) -> G t'.
Proof.
  intros L fuel g pc so w t w' t' e TS Gt E. unfold simplify in E. apply obind_inv in E. destruct E as (w1 & [t1 e1] & A & E). apply constants_good in A; auto.
  destruct so as [s|]; [|injection E as _ <- _; auto]. specialize (TS s eq_refl). cbn [fst] in E.
  apply obind_inv in E. destruct E as (w2 & t2 & B & E). apply without_good in B; auto.
  apply obind_inv in E. destruct E as (w3 & [t3 [e3|]] & C & E); apply derivatives_good in C; auto.
  - injection E as _ <- _. auto.
  - apply obind_inv in E. destruct E as (w4 & t4 & D & E). apply without_good in D; auto.
    apply obind_inv in E. destruct E as (w5 & [t5 [e5|]] & F & E); apply constants_good in F; auto.
    + injection E as _ <- _. auto.
    + apply lift_inv in E. destruct E as (m & Em & E). injection E as _ <- _. apply neg_good; auto.
Qed.
End Kept.
