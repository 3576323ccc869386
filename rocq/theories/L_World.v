(** Evaluation and simplification without the operators that read the history or draw random numbers: C80. *)
From Coq Require Import List Ascii String NArith ZArith Bool Lia Arith.
From Coq.Floats Require Import SpecFloat.
From Verif Require Import M_Base M_StringUtil M_Tree M_Context M_TreeUtil M_Match M_Double M_Eval M_Simplify S_Engine S_Tree L_Tree S_Match L_Match L_MatchRule S_Session L_Expand L_OpsKept.
Import ListNotations.
Open Scope list_scope.
Open Scope nat_scope.
Open Scope res_scope.

(** ** Checkers that agree on good trees *)
Section Agree.
Variable Q : operator -> Prop.
Notation G := (L_OpsKept.G Q).
Notation mgood := (mgood Q).
Notation egood := (egood Q).
Definition eagree (e e' : matching -> nodelist -> res (list matching)) : Prop := forall m tl, mgood m -> Forall G (nl_nodes tl) -> e m tl = e' m tl.
Lemma fill_agree : forall e e' k i first loc, (forall m, mgood m -> e m = e' m) -> (forall m ms, mgood m -> e m = Ok ms -> Forall mgood ms) -> Forall mgood loc ->
  fill_loop e k i first loc = fill_loop e' k i first loc.
Proof.
  induction k as [|k IH]; intros i first loc E Ge L; cbn [fill_loop]; [reflexivity|]. destruct (vget loc (first + i)) as [m| |] eqn:V; cbn [rbind]; try reflexivity.
  apply vget_In in V. assert (M : mgood m) by (rewrite Forall_forall in L; auto). rewrite <- (E m M). destruct (e m) as [new| |] eqn:X; cbn [rbind]; try reflexivity.
  apply IH; auto. apply Forall_app. split; eauto.
Qed.
Section Lists.
Variables exts exts' : list (matching -> nodelist -> res (list matching)).
Variables pcs tcs : list node.
Hypothesis EG : Forall egood exts.
Hypothesis EA : Forall2 eagree exts exts'.
Hypothesis TG : Forall G tcs.
Lemma tail_good : forall k, Forall G (skipn k tcs).
Proof. intros k. rewrite Forall_forall in *. intros x I. apply TG. rewrite <- (firstn_skipn k tcs). apply in_or_app. auto. Qed.
Lemma vget_agree : forall i, match vget exts i, vget exts' i with Ok e, Ok e' => eagree e e' /\ egood e | Ub, Ub => True | _, _ => False end.
Proof.
  intros i. unfold vget. revert i. induction EA as [|e e' l l' A F IH]; intros [|i]; cbn [nth_error]; auto; inversion EG; subst; auto. apply IH; auto.
Qed.
Lemma suffix_agree : forall fuel i sfx loc, Forall mgood loc -> fill_suffix exts tcs fuel i sfx loc = fill_suffix exts' tcs fuel i sfx loc.
Proof.
  induction fuel as [|f IH]; intros i sfx loc L; cbn [fill_suffix]; destruct (vget sfx i) as [c| |]; cbn [rbind]; try reflexivity; destruct (sn_first c); try reflexivity.
  rewrite <- (IH (sn_parent c) sfx loc L). destruct (fill_suffix exts tcs f (sn_parent c) sfx loc) as [[sfx1 loc1]| |] eqn:F; cbn [rbind]; try reflexivity.
  destruct (vget sfx1 (sn_parent c)) as [par| |]; cbn [rbind]; try reflexivity. destruct (sn_first par) as [pf|]; try reflexivity.
  pose proof (vget_agree (sn_dist c - 1)) as A. destruct (vget exts (sn_dist c - 1)) as [e| |], (vget exts' (sn_dist c - 1)) as [e'| |]; try (destruct A; fail); cbn [rbind]; try reflexivity.
  destruct A as [A Ge]. rewrite (fill_agree (fun m => e m (mkNL (sn_label c) (skipn (N.to_nat (sn_sum c)) tcs))) (fun m => e' m (mkNL (sn_label c) (skipn (N.to_nat (sn_sum c)) tcs)))); [reflexivity| | |].
  - intros m M. apply A; auto. apply tail_good.
  - intros m ms M X. eapply Ge; [exact M| |exact X]. apply tail_good.
  - eapply suffix_good; eauto.
Qed.
Lemma mpl_agree : forall fuel m i sfx loc out, Forall mgood loc -> mpl_loop exts pcs tcs fuel m i sfx loc out = mpl_loop exts' pcs tcs fuel m i sfx loc out.
Proof.
  induction fuel as [|f IH]; intros m i sfx loc out L; cbn [mpl_loop]; destruct (nth_error sfx i) as [curr|]; try reflexivity.
  destruct ((_ =? _)%N && _).
  - rewrite <- (suffix_agree (S i) i sfx loc L). destruct (fill_suffix exts tcs (S i) i sfx loc) as [[sfx' loc']| |] eqn:F; cbn [rbind]; try reflexivity.
    assert (L' : Forall mgood loc') by (eapply suffix_good; eauto).
    destruct (vget sfx' i) as [c'| |]; cbn [rbind]; try reflexivity. destruct (sn_first c'); cbn [rbind]; try reflexivity.
    destruct (nth_error pcs (sn_dist curr)); [|apply IH; auto]. destruct (next_labels _ _ _ _ _); cbn [rbind]; try reflexivity. apply IH; auto.
  - cbn [rbind]. destruct (nth_error pcs (sn_dist curr)); [|apply IH; auto]. destruct (next_labels _ _ _ _ _); cbn [rbind]; try reflexivity. apply IH; auto.
Qed.
End Lists.
Variables ck ck' : node -> res bool.
Hypothesis CK : forall t, G t -> ck t = ck' t.
Definition pgood (pat : pattern) : Prop := Forall (Forall G) (pt_constraints pat).
Lemma constraints_agree : forall cs m, Forall G cs -> mgood m -> check_constraints ck cs m = check_constraints ck' cs m.
Proof.
  induction cs as [|c cs IH]; intros m F M; cbn [check_constraints]; [reflexivity|]. inversion F; subst.
  destruct (transform_by_matching m (tree_copy c)) as [t| |] eqn:T; cbn [rbind]; try reflexivity. rewrite <- CK; [|eapply build_good; [exact M| |exact T]; rewrite tree_copy_id; auto].
  destruct (ck t) as [[|]| |]; cbn [rbind]; auto.
Qed.
Variable pat : pattern.
Hypothesis PG : pgood pat.
Lemma extend_agree : forall p, eagree (extend_matching ck pat p) (extend_matching ck' pat p).
Proof.
  induction p as [v k|x i k|op cs k IH] using node_ind'; intros m tl M T; cbn [extend_matching]; [reflexivity| |].
  - destruct (mapped m i) as [[l|]| |]; cbn [rbind]; try reflexivity. rewrite constraints_agree; [reflexivity| |apply set_good; auto].
    destruct (nth_in_or_default i (pt_constraints pat) []) as [I|E]; [unfold pgood in PG; rewrite Forall_forall in PG; auto|rewrite E; constructor].
  - destruct (_ =? _)%N; [|reflexivity]. destruct (vget (nl_nodes tl) 0) as [t| |] eqn:V; cbn [rbind]; try reflexivity. destruct t as [| |op' cs' k']; try reflexivity. destruct (_ =? _); [|reflexivity].
    apply vget_In in V. rewrite Forall_forall in T. apply T, G_op in V. destruct V as [_ V].
    unfold match_parameter_lists. apply mpl_agree; auto.
    + apply Forall_forall. intros e I. apply in_map_iff in I. destruct I as (c & <- & _). apply extend_good.
    + clear - IH. induction cs as [|c cs IHc]; cbn [map]; constructor; inversion IH; subst; auto.
Qed.
Lemma empty_good : mgood empty_matching.
Proof. unfold L_OpsKept.mgood, empty_matching. generalize MAX_MAPPED_VARS. induction n; simpl; constructor; auto. Qed.
Lemma get_agree : forall t, G t -> get_matching ck pat t = get_matching ck' pat t.
Proof. intros t Gt. unfold get_matching, get_all_matchings. rewrite (extend_agree (pt_tree pat) empty_matching (mkNL 1 [t])); [reflexivity|apply empty_good|cbn [nl_nodes]; auto]. Qed.
Lemma find_agree : forall t, G t -> find_matching ck pat t = find_matching ck' pat t.
Proof.
  induction t as [v k|x i k|op cs k IH] using node_ind'; intros Gt; cbn [find_matching]; rewrite (get_agree _ Gt); try reflexivity.
  destruct (get_matching ck' pat (NOp op cs k)) as [[m|]| |]; cbn [rbind]; try reflexivity. apply G_op in Gt. destruct Gt as [_ Gt]. generalize 0.
  induction cs as [|c cs IHc]; intros i; [reflexivity|]. inversion IH; subst. inversion Gt; subst. rewrite H1 by auto. destruct (find_matching ck' pat c) as [[[p m]|]| |]; cbn [rbind]; try reflexivity. apply IHc; auto.
Qed.
End Agree.
Section Rules.
Variable Q : operator -> Prop.
Notation G := (L_OpsKept.G Q).
Variables ck ck' : node -> res bool.
Hypothesis CK : forall t, G t -> ck t = ck' t.
Definition rgood (r : rule) : Prop := pgood Q (r_pat r) /\ G (r_after r).
Lemma first_agree : forall rs t, G t -> Forall rgood rs -> apply_first ck t rs = apply_first ck' t rs.
Proof.
  induction rs as [|r rs IH]; intros t Gt F; cbn [apply_first]; [reflexivity|]. inversion F as [|? ? [P A] F']; subst. unfold apply_rule. rewrite (find_agree Q ck ck' CK _ P _ Gt).
  match goal with |- rbind ?x _ = _ => destruct x as [[u|]| |] end; cbn [rbind]; auto.
Qed.
Lemma ruleset_agree : forall fuel rs cap t c, G t -> Forall rgood rs -> apply_ruleset_loop fuel ck rs cap t c = apply_ruleset_loop fuel ck' rs cap t c.
Proof.
  induction fuel as [|f IH]; intros rs cap t c Gt F; cbn [apply_ruleset_loop]; [reflexivity|]. rewrite <- (first_agree rs t Gt F). destruct (apply_first ck t rs) as [[u|]| |] eqn:A; cbn [rbind]; try reflexivity.
  destruct (_ =? _); [reflexivity|]. apply IH; auto. eapply first_good; [exact Gt| |exact A]. rewrite Forall_forall in *. intros r I. apply F. auto.
Qed.
End Rules.

(** ** Evaluation with two pasts *)
Definition quiet (op : operator) : Prop := o_id op <> 1 /\ o_id op <> 48 /\ o_id op <> 57.
Notation GQ := (L_OpsKept.G quiet).
Section Worlds.
Variable L : libm.
Variable fuel : nat.
Variables w w' : world.
Definition lsame (s s' : lworld) : Prop := (s = Done (Ok w) /\ s' = Done (Ok w')) \/ (s = s' /\ forall x, s <> Done (Ok x)).
Definition osame {A} (o o' : run (res (world * A))) : Prop :=
  (exists a, o = Done (Ok (w, a)) /\ o' = Done (Ok (w', a))) \/ (o = o' /\ forall x, o <> Done (Ok x)).
Lemma osame_ok : forall A (a : A), osame (Done (Ok (w, a))) (Done (Ok (w', a))).
Proof. intros A a. left. eauto. Qed.
Lemma osame_bad : forall A (o : run (res (world * A))), (forall x, o <> Done (Ok x)) -> osame o o.
Proof. intros A o H. right. auto. Qed.
Ltac obad := apply osame_bad; discriminate.
Lemma quiet_eval : forall op args, quiet op -> osame (arith_op_evaluate L fuel w op args) (arith_op_evaluate L fuel w' op args).
Proof.
  intros op args (N1 & N2 & N3). unfold arith_op_evaluate. revert N1 N2 N3. generalize (o_id op). intros n N1 N2 N3.
  assert (One : forall f, osame (with1 args (fun x => ok w (f x))) (with1 args (fun x => ok w' (f x)))) by (intros f; destruct args; [obad|apply osame_ok]).
  assert (Run : forall r, osame (ok_run w r) (ok_run w' r)) by (intros [v|]; [apply osame_ok|obad]).
  Ltac one_case w w' args fuel One Run :=
    cbv iota; first [apply One|apply osame_ok|
      destruct args as [|x [|y args]]; cbn [with1 with2];
      repeat first [apply osame_bad; discriminate|apply osame_ok|apply Run|match goal with
        | |- context [if ?b then _ else _] => destruct b
        | |- context [euclid fuel ?x ?y] => destruct (euclid fuel x y)
        | |- context [fibonacci ?x] => destruct (fibonacci x)
        end]].
  do 58 (destruct n as [|n]; [first [exfalso; (apply N1 + apply N2 + apply N3); reflexivity|solve [one_case w w' args fuel One Run]]|]). apply osame_ok.
Qed.
Lemma prop_eval : forall op args, quiet op -> osame (prop_op_evaluate L fuel w op args) (prop_op_evaluate L fuel w' op args).
Proof.
  intros op args H. unfold prop_op_evaluate. destruct (_ <? _); [apply quiet_eval; exact H|]. generalize (o_id op - NUM_ARITH_OPS). intros n.
  do 15 (destruct n as [|n]; [cbv iota; first [obad|apply osame_ok|destruct args as [|x [|y args]]; cbn [with1 with2]; first [obad|apply osame_ok]]|]). obad.
Qed.
Definition fair (lis : @listener lworld) : Prop := forall op args s s', quiet op -> lsame s s' -> lsame (fst (lis s op args)) (fst (lis s' op args)) /\ snd (lis s op args) = snd (lis s' op args).
Lemma fair_of : forall (ev : world -> operator -> list double -> M_Eval.outcome) (lis : @listener lworld),
  (forall op args, quiet op -> osame (ev w op args) (ev w' op args)) ->
  (forall s op args, lis s op args = match s with Done (Ok w) => match ev w op args with Done (Ok (w', e)) => (Done (Ok w'), e) | Done Ub => (Done Ub, (0%Z, d0)) | Done Halt => (Done Halt, (0%Z, d0)) | Forever => (Forever, (0%Z, d0)) end | _ => (s, (0%Z, d0)) end) ->
  fair lis.
Proof.
  intros ev lis H E op args s s' Qo [[-> ->]|[-> N]]; rewrite !E.
  - destruct (H op args Qo) as [(a & -> & ->)|[X N]]; [split; [left; auto|reflexivity]|]. rewrite <- X. destruct (ev w op args) as [[[w1 e]| |]|]; [exfalso; eapply N; reflexivity| | |]; (split; [right; split; [reflexivity|discriminate]|reflexivity]).
  - destruct s' as [[x| |]|]; [exfalso; eapply N; reflexivity| | |]; (split; [right; split; [reflexivity|discriminate]|reflexivity]).
Qed.
Lemma arith_fair : fair (arith_listener L fuel).
Proof. apply (fair_of (arith_op_evaluate L fuel)); [apply quiet_eval|reflexivity]. Qed.
Lemma prop_fair : fair (prop_listener L fuel).
Proof. apply (fair_of (prop_op_evaluate L fuel)); [apply prop_eval|reflexivity]. Qed.
Lemma reduce_same : forall lis, fair lis -> forall t s s', GQ t -> lsame s s' -> lsame (fst (tree_reduce lis s t)) (fst (tree_reduce lis s' t)) /\ snd (tree_reduce lis s t) = snd (tree_reduce lis s' t).
Proof.
  intros lis F. induction t as [v k|x i k|op cs k IH] using node_ind'; intros s s' Gt R; cbn [tree_reduce]; try (split; [exact R|reflexivity]).
  apply G_op in Gt. destruct Gt as [Qo Gc].
  match goal with |- context [match ?x with pair a b => _ end] => match x with context [s] => set (one := x) end end.
  match goal with |- context [match ?x with pair a b => _ end] => match x with context [s'] => set (two := x) end end.
  assert (K : lsame (fst one) (fst two) /\ snd one = snd two).
  { subst one two. clear - F IH Gc R. match goal with |- lsame (fst (?go cs 0 s [])) _ /\ _ => enough (E : forall i args, lsame (fst (go cs i s args)) (fst (go cs i s' args)) /\ snd (go cs i s args) = snd (go cs i s' args)) by (exact (E 0 [])) end.
    revert s s' R. induction cs as [|c cs IHc]; intros s s' R i args; [split; [exact R|reflexivity]|]. inversion IH; subst. inversion Gc; subst.
    destruct (H1 s s' H3 R) as [A B]. destruct (tree_reduce lis s c) as [s1 r1], (tree_reduce lis s' c) as [s2 r2]. cbn [fst snd] in A, B. subst r2. destruct r1 as [v|e p]; [apply IHc; auto|split; [exact A|reflexivity]]. }
  destruct one as [s1 r1], two as [s2 r2]. cbn [fst snd] in K. destruct K as [A <-]. destruct r1 as [args|[e p]]; [|split; [exact A|reflexivity]].
  destruct (F op args s1 s2 Qo A) as [B C]. destruct (lis s1 op args) as [s3 [e v]], (lis s2 op args) as [s4 [e' v']]. cbn [fst snd] in B, C. injection C as <- <-. destruct (e =? 0)%Z; (split; [exact B|reflexivity]).
Qed.
Lemma subtrees_same : forall lis, fair lis -> forall t s s', GQ t -> lsame s s' ->
  lsame (fst (tree_reduce_constant_subtrees lis s t)) (fst (tree_reduce_constant_subtrees lis s' t)) /\ snd (tree_reduce_constant_subtrees lis s t) = snd (tree_reduce_constant_subtrees lis s' t).
Proof.
  intros lis F. induction t as [v k|x i k|op cs k IH] using node_ind'; intros s s' Gt R; cbn [tree_reduce_constant_subtrees].
  1, 2: destruct (_ =? _); [|split; [exact R|reflexivity]]; split; [exact R|reflexivity].
  destruct (_ =? 0).
  - destruct (reduce_same lis F (NOp op cs k) s s' Gt R) as [A B]. destruct (tree_reduce lis s (NOp op cs k)) as [s1 r1], (tree_reduce lis s' (NOp op cs k)) as [s2 r2]. cbn [fst snd] in A, B. subst r2.
    destruct r1; (split; [exact A|reflexivity]).
  - apply G_op in Gt. destruct Gt as [Qo Gc].
    match goal with |- context [match ?x with pair a b => _ end] => match x with context [s] => set (one := x) end end.
    match goal with |- context [match ?x with pair a b => _ end] => match x with context [s'] => set (two := x) end end.
    assert (K : lsame (fst one) (fst two) /\ snd one = snd two).
    { subst one two. generalize 0. revert s s' R. induction cs as [|c cs IHc]; intros s s' R i; [split; [exact R|reflexivity]|]. inversion IH; subst. inversion Gc; subst.
      destruct (H1 s s' H3 R) as [A B]. destruct (tree_reduce_constant_subtrees lis s c) as [s1 [c1 [[e p]|]]], (tree_reduce_constant_subtrees lis s' c) as [s2 [c2 o]]; cbn [fst snd] in A, B; injection B as <- <-; [split; [exact A|reflexivity]|].
      specialize (IHc H2 H4 s1 s2 A (Datatypes.S i)).
      match type of IHc with lsame (fst ?x) (fst ?y) /\ _ => destruct x as [s3 [l3 e3]], y as [s4 [l4 e4]] end. cbn [fst snd] in *. destruct IHc as [A2 B2]. injection B2 as <- <-. split; [exact A2|reflexivity]. }
    destruct one as [s1 [l1 e1]], two as [s2 [l2 e2]]. cbn [fst snd] in K. destruct K as [A B]. injection B as <- <-. split; [exact A|reflexivity].
Qed.
Lemma constants_same : forall t, GQ t -> osame (reduce_constants L fuel w t) (reduce_constants L fuel w' t).
Proof.
  intros t Gt. unfold reduce_constants. destruct (subtrees_same _ arith_fair t (Done (Ok w)) (Done (Ok w')) Gt (or_introl (conj eq_refl eq_refl))) as [A B].
  destruct (tree_reduce_constant_subtrees (arith_listener L fuel) (Done (Ok w)) t) as [s1 r1], (tree_reduce_constant_subtrees (arith_listener L fuel) (Done (Ok w')) t) as [s2 r2]. cbn [fst snd] in A, B. subst r2.
  destruct A as [[-> ->]|[-> N]]; [apply osame_ok|]. destruct s2 as [[x| |]|]; [exfalso; eapply N; reflexivity| | |]; obad.
Qed.
Lemma ops_good : forall op cb t, GQ t -> GQ (tree_reduce_ops t op cb).
Proof.
  intros op cb. induction t as [v k|x i k|o cs k IH] using node_ind'; intros Gt; cbn [tree_reduce_ops]; auto. destruct (_ =? _); [exact Logic.I|]. apply G_op in Gt. destruct Gt as [Qo Gc]. apply G_op. split; auto.
  rewrite Forall_forall in *. intros c I. apply in_map_iff in I. destruct I as (c' & <- & I). auto.
Qed.
Lemma calls_good : forall t o k cb t', GQ t -> reduce_calls t o k cb = Ok t' -> GQ t'.
Proof. intros t [op|] k cb t' Gt E; cbn [reduce_calls] in E; [|injection E as <-; auto]. destruct (short_call t op k); [discriminate E|]. injection E as <-. apply ops_good. exact Gt. Qed.
Lemma checker_same : forall pc t, GQ t -> propositional_checker L fuel pc w t = propositional_checker L fuel pc w' t.
Proof.
  intros pc t Gt. unfold propositional_checker. destruct (ctx_lookup_op pc (str "type") PFunction) as [ty| |]; cbn [rbind]; try reflexivity.
  destruct (reduce_calls t ty 1 type_eval) as [t1| |] eqn:E1; cbn [rbind]; try reflexivity. apply calls_good in E1; auto.
  destruct (ctx_lookup_op pc (str "equal") PFunction) as [eq| |]; cbn [rbind]; try reflexivity. destruct (reduce_calls t1 eq 2 equal_eval) as [t2| |] eqn:E2; cbn [rbind]; try reflexivity. apply calls_good in E2; auto.
  destruct (reduce_same _ prop_fair t2 (Done (Ok w)) (Done (Ok w')) E2 (or_introl (conj eq_refl eq_refl))) as [A B].
  destruct (tree_reduce (prop_listener L fuel) (Done (Ok w)) t2) as [s1 r1], (tree_reduce (prop_listener L fuel) (Done (Ok w')) t2) as [s2 r2]. cbn [fst snd] in A, B. subst r2. destruct A as [[-> ->]|[-> N]]; reflexivity.
Qed.
(** ** Simplification with two pasts *)
Lemma osame_bind : forall A B (o o' : out A) (f f' : world -> A -> out B), osame o o' -> (forall a, o = Done (Ok (w, a)) -> osame (f w a) (f' w' a)) -> osame (obind o f) (obind o' f').
Proof. intros A B o o' f f' [(a & -> & ->)|[<- N]] H; cbn [obind]; [apply H; reflexivity|]. destruct o as [[[x y]| |]|]; [exfalso; eapply N; reflexivity| | |]; obad. Qed.
Lemma osame_lift : forall A B (r : res A) (f f' : A -> out B), (forall a, r = Ok a -> osame (f a) (f' a)) -> osame (lift r f) (lift r f').
Proof. intros A B [a| |] f f' H; cbn [lift]; [apply H; reflexivity|obad|obad]. Qed.
Variables (g pc : ctx).
Hypothesis MQ : forall m, minus_op g = Ok m -> quiet m.
Lemma after_good : forall rs, Forall (rgood quiet) rs -> Forall (fun r => GQ (r_after r)) rs.
Proof. intros rs F. rewrite Forall_forall in *. intros r I. apply F. exact I. Qed.
Lemma loop_same : forall rounds t rs, GQ t -> Forall (rgood quiet) rs -> osame (simplification_loop L fuel pc rounds w t rs) (simplification_loop L fuel pc rounds w' t rs).
Proof.
  induction rounds as [|k IH]; intros t rs Gt F; cbn [simplification_loop]; [obad|]. unfold apply_ruleset. rewrite <- (ruleset_agree quiet _ _ (checker_same pc) 1 rs 1 t 0 Gt F).
  apply osame_lift. intros [[t1 n]|] A; [|obad]. pose proof (ruleset_good _ _ _ _ _ _ _ _ _ Gt (after_good _ F) A) as G1. destruct n as [|n]; [apply osame_ok|].
  apply osame_bind; [apply constants_same; exact G1|]. intros [t2 e] E. cbn [fst]. apply IH; [|exact F]. eapply constants_good; [exact G1|exact E].
Qed.
Lemma apply_same : forall t rs, GQ t -> Forall (rgood quiet) rs -> osame (apply_simplification L fuel g pc w t rs) (apply_simplification L fuel g pc w' t rs).
Proof. intros t rs Gt F. unfold apply_simplification. apply osame_bind; [apply loop_same; auto|]. intros t1 _. apply osame_lift. intros m _. apply osame_ok. Qed.
Variable s : simp.
Definition sgood : Prop := Forall (Forall (rgood quiet)) (s_rulesets s) /\ pgood quiet (s_malformed s) /\ (forall a, s_after s = Some a -> GQ a).
Hypothesis SG : sgood.
Lemma sgood_tame : tame quiet s.
Proof. destruct SG as (A & _ & C). split; [|exact C]. rewrite Forall_forall in *. intros rs I. apply after_good. auto. Qed.
Lemma set_sgood : forall i, Forall (rgood quiet) (nth i (s_rulesets s) []).
Proof. intros i. destruct SG as [A _]. destruct (nth_in_or_default i (s_rulesets s) []) as [I|E]; [rewrite Forall_forall in A; auto|rewrite E; constructor]. Qed.
Lemma shorthand_same : forall rounds t, osame (shorthand_loop rounds s w t) (shorthand_loop rounds s w' t).
Proof.
  induction rounds as [|k IH]; intros t; cbn [shorthand_loop]; [obad|]. destruct (s_before s) as [pat|]; [|obad]. apply osame_lift. intros [[p m]|] _; [|apply osame_ok]. apply osame_lift. intros matched _.
  destruct (list_variables matched 2) as [[matched' vars] count]. destruct (1 <? count); [apply osame_ok|]. destruct (s_after s) as [[| |op [|a0 [|a1 rest]] j]|]; try obad. apply osame_lift. intros [|x l] _; [obad|]. apply IH.
Qed.
Lemma derivatives_same : forall t, GQ t -> osame (apply_derivatives L fuel g pc s w t) (apply_derivatives L fuel g pc s w' t).
Proof.
  intros t Gt. unfold apply_derivatives. apply osame_bind; [apply shorthand_same|]. intros [t1 [e|]] E; [apply osame_ok|]. pose proof (shorthand_good _ s sgood_tame _ _ _ _ _ _ Gt E) as G1.
  rewrite <- (find_agree quiet _ _ (checker_same pc) (s_malformed s) (proj1 (proj2 SG)) t1 G1). apply osame_lift. intros [[p m]|] _; [apply osame_ok|].
  apply osame_bind; [apply apply_same; [exact G1|apply set_sgood]|]. intros t2 _. destruct (s_after s) as [[| |op cs j]|]; try obad. destruct (find_op t2 op); apply osame_ok.
Qed.
Lemma without_same : forall t, GQ t -> osame (simplify_without_derivative L fuel g pc s w t) (simplify_without_derivative L fuel g pc s w' t).
Proof.
  intros t Gt. unfold simplify_without_derivative.
  assert (K : forall l (o o' : out node), osame o o' -> (forall t1, o = Done (Ok (w, t1)) -> GQ t1) ->
    osame (fold_left (fun o i => obind o (fun w' t' => apply_simplification L fuel g pc w' t' (nth i (s_rulesets s) []))) l o)
      (fold_left (fun o i => obind o (fun w' t' => apply_simplification L fuel g pc w' t' (nth i (s_rulesets s) []))) l o')).
  { induction l as [|i l IH]; intros o o' S H; cbn [fold_left]; [exact S|]. apply IH.
    - apply osame_bind; [exact S|]. intros a E. apply apply_same; [auto|apply set_sgood].
    - intros t1 E. apply obind_inv in E. destruct E as (w1 & t2 & E1 & E2). destruct S as [(a & S1 & _)|[_ N]]; [|exfalso; eapply N; exact E1]. rewrite S1 in E1. injection E1 as <- <-.
      eapply apply_good; [exact MQ| | |exact E2]; [auto|apply after_good, set_sgood]. }
  apply K; [apply osame_ok|]. intros t1 E. injection E as <-. exact Gt.
Qed.
End Worlds.
Theorem simplify_same : forall L fuel w w' g pc so t, (forall m, minus_op g = Ok m -> quiet m) -> (forall s, so = Some s -> sgood s) -> GQ t ->
  osame w w' (simplify L fuel g pc so w t) (simplify L fuel g pc so w' t).
Proof.
  intros L fuel w w' g pc so t MQ SG Gt. unfold simplify. apply osame_bind; [apply constants_same; exact Gt|]. intros [t1 e1] E1. apply constants_good with (Q := quiet) in E1; [|exact Gt]. destruct so as [s|]; [|apply osame_ok].
  specialize (SG s eq_refl). cbn [fst]. apply osame_bind; [apply without_same; auto|]. intros t2 E2. apply without_good with (Q := quiet) in E2; [|exact MQ|apply sgood_tame; exact SG|exact E1].
  apply osame_bind; [apply derivatives_same; auto|]. intros [t3 [e3|]] E3; [apply osame_ok|]. apply derivatives_good with (Q := quiet) in E3; [|exact MQ|apply sgood_tame; exact SG|exact E2].
  apply osame_bind; [apply without_same; auto|]. intros t4 E4. apply without_good with (Q := quiet) in E4; [|exact MQ|apply sgood_tame; exact SG|exact E3].
  apply osame_bind; [apply constants_same; exact E4|]. intros [t5 [e5|]] _; [apply osame_ok|]. apply osame_lift. intros m _. apply osame_ok.
Qed.
