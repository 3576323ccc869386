(** Property C75: the passes of simplification. *)
From Coq Require Import Reals.
From Coq Require Import List Ascii String NArith ZArith Bool Lia Arith.
From Coq.Floats Require Import SpecFloat.
From Verif Require Import M_Base M_StringUtil M_Tree M_Context M_Parser M_TreeUtil M_Match M_RuleParsing M_ArithCtx M_Strtod M_Double M_Eval M_Simplify M_ShippedRules S_Engine S_Tree S_Parse S_Match S_Rules S_Simplify
  S_Constraint S_Deriv S_Passes L_Context L_Tree L_ArithCtx L_SetUp L_Expand L_MatchRule L_RuleParsing L_SessionDef L_Constraint L_SimpLoop L_NegConst L_Deriv P_Simplify P_Constraint P_Deriv.
Import ListNotations.
Open Scope string_scope.
Open Scope list_scope.
Open Scope nat_scope.
Open Scope res_scope.

Section Passes.
Variable L : libm.
Variable fuel : nat.
Variables g pc : ctx.
Lemma first_found : forall ck t rs t', first_applies ck rs t t' -> apply_first ck t rs = Ok (Some t').
Proof.
  intros ck t rs t' (rs1 & r & rs2 & -> & N & A). induction rs1 as [|r1 rs1 IH]; cbn [app apply_first]. { rewrite A. reflexivity. }
  rewrite (N r1 (or_introl eq_refl)). cbn [rbind]. apply IH. intros r' I. apply N. right. auto.
Qed.
Lemma none_found : forall ck t rs, (forall r, In r rs -> apply_rule ck t r = Ok None) -> apply_first ck t rs = Ok None.
Proof. intros ck t. induction rs as [|r rs IH]; intros N; cbn [apply_first]; auto. rewrite (N r (or_introl eq_refl)). cbn [rbind]. apply IH. intros r' I. apply N. right. auto. Qed.
Lemma loop_exhausts : forall rs k w t w' t', simplification_loop L fuel pc k w t rs = Done (Ok (w', t')) <-> exists n, n < k /\ exhausts L fuel pc rs n w t w' t'.
Proof.
  intros rs. induction k as [|k IH]; intros w t w' t'. { split; [discriminate|intros (n & A & _); lia]. }
  cbn [simplification_loop]. unfold apply_ruleset. cbn [apply_ruleset_loop]. split.
  - intros E. destruct (apply_first (propositional_checker L fuel pc w) t rs) as [[t1|]| |] eqn:A; cbn [rbind lift Nat.eqb] in E; try discriminate E; apply apply_first_spec in A.
    + destruct (reduce_constants L fuel w t1) as [[(w2 & t2 & e)| |]|] eqn:R; cbn [obind] in E; try discriminate E. apply IH in E. destruct E as (n & Ln & X). exists (S n). split; [lia|]. econstructor; [exact A|exact R|exact X].
    + injection E as <- <-. exists 0. split; [lia|]. constructor. exact A.
  - intros (n & Ln & X). destruct X as [w t N|n w t t1 w2 t2 e w3 t3 F E X].
    + unfold none_applies, checks in N. rewrite (none_found _ _ _ N). reflexivity.
    + unfold checks in F. rewrite (first_found _ _ _ _ F). cbn [rbind Nat.eqb lift]. unfold evaluated in E. rewrite E. cbn [obind fst]. apply IH. exists n. split; [lia|exact X].
Qed.
Lemma minus_with : forall A t (f : node -> out A) w a, lift (minus_op g) (fun m => f (replace_negative_consts m t)) = Done (Ok (w, a)) <-> exists t', with_minus g t t' /\ f t' = Done (Ok (w, a)).
Proof.
  intros A t f w a. unfold minus_op, with_minus. split.
  - destruct (ctx_lookup_op g (str "-") PPrefix) as [[m|]| |]; cbn [rbind lift]; intros E; try discriminate E. eauto.
  - intros (t' & (m & -> & ->) & E). exact E.
Qed.
Lemma pass_spec : forall rs w t w' t', apply_simplification L fuel g pc w t rs = Done (Ok (w', t')) <-> pass L fuel g pc rs w t w' t'.
Proof.
  intros rs w t w' t'. unfold apply_simplification, pass. split.
  - intros E. destruct (simplification_loop L fuel pc fuel w t rs) as [[(w1 & u)| |]|] eqn:Lo; cbn [obind] in E; try discriminate E. apply loop_exhausts in Lo. destruct Lo as (n & Ln & X).
    apply (minus_with _ u (fun x => oret w1 x)) in E. destruct E as (v & M & E). injection E as <- <-. eauto.
  - intros (n & u & Ln & X & M). assert (Lo : simplification_loop L fuel pc fuel w t rs = Done (Ok (w', u))) by (apply loop_exhausts; eauto). rewrite Lo. cbn [obind].
    apply (minus_with _ u (fun x => oret w' x)). eauto.
Qed.
Definition all_passes (ls : list (list rule)) (o : out node) : out node := fold_left (fun o rs => obind o (fun w' t' => apply_simplification L fuel g pc w' t' rs)) ls o.
Lemma no_passes : forall ls o, (forall w t, o <> Done (Ok (w, t))) -> forall w t, all_passes ls o <> Done (Ok (w, t)).
Proof. induction ls as [|rs ls IH]; intros o N; [exact N|]. cbn [all_passes fold_left]. apply IH. intros w t. destruct o as [[(w1 & t1)| |]|]; cbn [obind]; try discriminate. destruct (N w1 t1 eq_refl). Qed.
Lemma passes_fold : forall ls w t w' t', all_passes ls (oret w t) = Done (Ok (w', t')) <-> passes L fuel g pc ls w t w' t'.
Proof.
  induction ls as [|rs ls IH]; intros w t w' t'.
  - split; [intros E; injection E as <- <-; constructor|intros P; inversion P; reflexivity].
  - change (all_passes (rs :: ls) (oret w t)) with (all_passes ls (apply_simplification L fuel g pc w t rs)). split.
    + intros E. destruct (apply_simplification L fuel g pc w t rs) as [[(w1 & t1)| |]|] eqn:A; try (exfalso; revert E; apply no_passes; discriminate). apply pass_spec in A. apply IH in E. econstructor; eauto.
    + intros P. inversion P as [|? ? ? ? w1 t1 ? ? A B]; subst. apply pass_spec in A. rewrite A. apply IH. exact B.
Qed.
Lemma passes_spec : forall sm w t w' t', simplify_without_derivative L fuel g pc sm w t = Done (Ok (w', t')) <-> passes L fuel g pc (other_sections sm) w t w' t'.
Proof. intros sm w t w' t'. rewrite <- passes_fold. reflexivity. Qed.

(** Simplification with any rules: it ends with an expression or an error iff this is reached by the passes. *)
Theorem C75_simplify : forall sm w t w' t' err,
  simplify L fuel g pc (Some sm) w t = Done (Ok (w', (t', err))) <-> simplified L fuel g pc sm w t w' t' err.
Proof.
  intros sm w t w' t' err. unfold simplify. split.
  - intros E. destruct (reduce_constants L fuel w t) as [[(w1 & t1 & e1)| |]|] eqn:R; cbn [obind fst] in E; try discriminate E.
    destruct (simplify_without_derivative L fuel g pc sm w1 t1) as [[(w2 & t2)| |]|] eqn:P; cbn [obind] in E; try discriminate E. apply passes_spec in P.
    destruct (apply_derivatives L fuel g pc sm w2 t2) as [[(w3 & t3 & [e|])| |]|] eqn:D; cbn [obind] in E; try discriminate E. { injection E as <- <- <-. eapply si_bad; eauto. }
    destruct (simplify_without_derivative L fuel g pc sm w3 t3) as [[(w4 & t4)| |]|] eqn:P'; cbn [obind] in E; try discriminate E. apply passes_spec in P'.
    destruct (reduce_constants L fuel w4 t4) as [[(w5 & t5 & [e|])| |]|] eqn:R'; cbn [obind] in E; try discriminate E. { injection E as <- <- <-. eapply si_undefined; eauto. }
    apply (minus_with _ t5 (fun x => oret w5 (x, None))) in E. destruct E as (t6 & M & E). injection E as <- <- <-. eapply si_good; eauto.
  - intros S. destruct S as [w1 t1 e1 w2 t2 w3 t3 e R P D|w1 t1 e1 w2 t2 w3 t3 w4 t4 w5 t5 e R P D P' R'|w1 t1 e1 w2 t2 w3 t3 w4 t4 w5 t5 t6 R P D P' R' M];
      unfold evaluated in *; rewrite R; cbn [obind fst]; apply passes_spec in P; rewrite P; cbn [obind]; rewrite D; cbn [obind]; auto; apply passes_spec in P'; rewrite P'; cbn [obind]; rewrite R'; cbn [obind]; auto.
    apply (minus_with _ t5 (fun x => oret w5 (x, None))). eauto.
Qed.
(** Without rules only constants are evaluated. *)
Theorem C75_no_rules : forall w t w' t' err, simplify L fuel g pc None w t = Done (Ok (w', (t', err))) <-> evaluated L fuel w t w' t' err.
Proof.
  intros w t w' t' err. unfold simplify, evaluated. destruct (reduce_constants L fuel w t) as [[(w1 & r)| |]|]; cbn [obind]; split; intros E; try discriminate E; injection E as <- ->; reflexivity.
Qed.
End Passes.

(** ** An expression to which no rule can be applied is not changed. *)
Lemma minus_names : forall m u, var_names (replace_negative_consts m u) = var_names u.
Proof.
  intros m. induction u as [v k|x i k|op cs k IH] using node_ind'; cbn [replace_negative_consts]; auto. { destruct (dltb v d0); reflexivity. }
  cbn [var_names]. rewrite flat_map_concat_map, map_map, <- flat_map_concat_map. induction IH as [|c cs E _ IHl]; cbn [flat_map]; auto. rewrite E, IHl. reflexivity.
Qed.
Lemma minus_twice : forall m u, replace_negative_consts m (replace_negative_consts m u) = replace_negative_consts m u.
Proof.
  intros m. induction u as [v k|x i k|op cs k IH] using node_ind'; cbn [replace_negative_consts]; auto.
  - destruct (dltb v d0) eqn:N; cbn [replace_negative_consts map]; [|rewrite N; reflexivity]. destruct (dltb (fabs v) d0) eqn:A; [|reflexivity]. exfalso. destruct v; cbn in A; discriminate A.
  - f_equal. rewrite map_map. induction IH as [|c cs E _ IHl]; cbn [map]; auto. rewrite E, IHl. reflexivity.
Qed.
Lemma minus_reduced : forall L fuel m, o_id m = 12 -> forall u w, S_Tree.folded u -> tree_reduce_constant_subtrees (arith_listener L fuel) (Done (Ok w)) (replace_negative_consts m u) = (Done (Ok w), (u, None)).
Proof.
  intros L fuel m Id. induction u as [v k|x i k|op cs k IH] using node_ind'; intros w F; cbn [replace_negative_consts].
  - destruct (dltb v d0) eqn:N; [|reflexivity].
    assert (Zc : (count_all_variable_nodes (NOp m [NConst (fabs v) k] k) =? 0) = true) by reflexivity.
    assert (R : tree_reduce (arith_listener L fuel) (Done (Ok w)) (NOp m [NConst (fabs v) k] k) = (Done (Ok w), RVal v)).
    { cbn [tree_reduce app]. unfold arith_listener, arith_op_evaluate. rewrite Id. cbn [with1 ok]. rewrite (neg_abs v N). reflexivity. }
    cbn [tree_reduce_constant_subtrees]. rewrite Zc, R. reflexivity.
  - reflexivity.
  - destruct F as [V F]. assert (Zc : (count_all_variable_nodes (NOp op (map (replace_negative_consts m) cs) k) =? 0) = false).
    { destruct (count_all_variable_nodes (NOp op (map (replace_negative_consts m) cs) k) =? 0) eqn:Zc; auto. apply count_zero in Zc. destruct V. change (var_names (replace_negative_consts m (NOp op cs k)) = []) in Zc. rewrite minus_names in Zc. exact Zc. }
    cbn [tree_reduce_constant_subtrees]. rewrite Zc.
    assert (K : forall l i, (forall c, In c l -> In c cs) ->
      (fix go (l : list node) (i : nat) (s : lworld) : lworld * (list node * option (Z * path)) :=
           match l with
           | [] => (s, ([], None))
           | c :: l' =>
             match tree_reduce_constant_subtrees (arith_listener L fuel) s c with
             | (s', (c', Some (e, p))) => (s', (c' :: l', Some (e, i :: p)))
             | (s', (c', None)) =>
               let '(s'', (l'', err)) := go l' (Datatypes.S i) s' in (s'', (c' :: l'', err))
             end
           end) (map (replace_negative_consts m) l) i (Done (Ok w)) = (Done (Ok w), (l, None))).
    { assert (Fa : forall c, In c cs -> S_Tree.folded c). { clear - F. induction cs as [|c cs IH]; intros d D; [destruct D|]. destruct F as [A B]. destruct D as [<-|D]; auto. }
      induction l as [|c l IHl]; intros i B; cbn [map]; [reflexivity|]. rewrite Forall_forall in IH. rewrite (IH c (B c (or_introl eq_refl)) w (Fa c (B c (or_introl eq_refl)))).
      rewrite IHl; auto. intros d D. apply B. right. exact D. }
    rewrite K by auto. reflexivity.
Qed.
Lemma minus_id : forall m, ctx_lookup_op the_arith_ctx (str "-") PPrefix = Ok (Some m) -> o_id m = 12.
Proof. intros m. vm_compute. intros H. injection H as <-. reflexivity. Qed.
Lemma pass_still : forall L fuel g pc rs w u t, 0 < fuel -> none_applies L fuel pc w rs u -> with_minus g u t -> pass L fuel g pc rs w u w t.
Proof. intros L fuel g pc rs w u t F N M. exists 0, u. split; auto. split; auto. constructor. exact N. Qed.
Lemma passes_still : forall L fuel g pc ls w t, 0 < fuel -> Forall (fun rs => none_applies L fuel pc w rs t) ls -> with_minus g t t -> passes L fuel g pc ls w t w t.
Proof. intros L fuel g pc. induction ls as [|rs ls IH]; intros w t F N M; [constructor|]. inversion N; subst. econstructor; [apply pass_still; eauto|apply IH; auto]. Qed.
Lemma no_shorts : forall prime t, (forall q op cs k, subtree t q = Some (NOp op cs k) -> o_id op <> o_id prime) -> shorts prime t = 0.
Proof.
  intros prime. induction t as [v k|x i k|op cs k IH] using node_ind'; intros N; auto. cbn [shorts]. destruct (Nat.eqb_spec (o_id op) (o_id prime)) as [E|_]; [destruct (N [] op cs k eq_refl E)|].
  assert (K : forall c, In c cs -> shorts prime c = 0). { intros c I. rewrite Forall_forall in IH. apply IH; auto. intros q op' cs' k' E. apply In_nth_error in I. destruct I as [i I]. apply (N (i :: q) op' cs' k'). cbn [subtree]. rewrite I. exact E. }
  clear - K. induction cs as [|c cs IHl]; cbn [map list_sum fold_right Nat.add]; auto. rewrite (K c (or_introl eq_refl)). apply IHl. intros d D. apply K. right. exact D.
Qed.
Lemma absent_op : forall op t, (forall q o cs k, subtree t q = Some (NOp o cs k) -> o_id o <> o_id op) -> find_op t op = None.
Proof. intros op t N. destruct (find_op t op) as [p|] eqn:F; auto. apply found_op in F. destruct F as (o & cs & k & S & E). destruct (N p o cs k S E). Qed.
Lemma no_derivatives : forall L fuel g content sm prime deriv t w, has_loaded content sm -> derivative_operators prime deriv -> of_calculator t ->
  (forall q op cs k, subtree t q = Some (NOp op cs k) -> o_id op <> o_id prime /\ o_id op <> o_id deriv) ->
  apply_simplification L fuel g the_prop_ctx w t (nth 1 (s_rulesets sm) []) = Done (Ok (w, t)) -> 0 < fuel ->
  apply_derivatives L fuel g the_prop_ctx sm w t = Done (Ok (w, (t, None))).
Proof.
  intros L fuel g content sm prime deriv t w H O C N A F. destruct (loaded_parts _ _ H) as (B & Af & M). destruct (operators_are _ _ O) as [-> D].
  destruct fuel as [|fuel]; [lia|]. unfold apply_derivatives. rewrite (loop_none the_prime 0 1 sm B fuel w t).
  - cbn [obind oret]. rewrite M, Af. destruct (checked L (S fuel) w t deriv D C) as [[Fm _]|(p & m & e' & b' & _ & (op & k & T & E) & _)].
    + intros q op cs k T E. destruct (N q op cs k T) as [_ N']. destruct (N' E).
    + rewrite Fm. cbn [lift]. rewrite A. cbn [obind]. rewrite <- D. rewrite (absent_op deriv t); [reflexivity|]. intros q o cs k T. apply (N q o cs k T).
    + destruct (N p op [e'; b'] k T) as [_ N']. destruct (N' E).
  - intros q op cs k T E. destruct (N q op cs k T) as [N' _]. destruct (N' E).
  - apply no_shorts. intros q op cs k T. apply (N q op cs k T).
Qed.
Section Folds.
Variable St : Type.
Variable lis : @listener St.
Lemma reduced_folded : forall t s s' u e, tree_reduce_constant_subtrees lis s t = (s', (u, e)) -> var_names u = var_names t /\ (e = None -> S_Tree.folded u).
Proof.
  induction t as [v k|x i k|op cs k IH] using node_ind'; intros s s' u e E.
  - injection E as _ <- <-. split; [reflexivity|]. intros _. exact I.
  - injection E as _ <- <-. split; [reflexivity|]. intros _. exact I.
  - cbn [tree_reduce_constant_subtrees] in E. destruct (count_all_variable_nodes (NOp op cs k) =? 0) eqn:Zc.
    + apply count_zero in Zc. destruct (tree_reduce lis s (NOp op cs k)) as [s1 [v|e1 p1]]; injection E as _ <- <-.
      * split; [rewrite Zc; reflexivity|]. intros _. exact I.
      * split; [reflexivity|discriminate].
    + assert (V : var_names (NOp op cs k) <> []). { intros N. apply count_zero in N. rewrite N in Zc. discriminate Zc. }
      assert (K : forall l i s s' l' e, Forall (fun c => forall s s' u e, tree_reduce_constant_subtrees lis s c = (s', (u, e)) -> var_names u = var_names c /\ (e = None -> S_Tree.folded u)) l ->
        (fix go (l : list node) (i : nat) (s : St) : St * (list node * option (BinNums.Z * path)) :=
           match l with
           | [] => (s, ([], None))
           | c :: l' =>
             match tree_reduce_constant_subtrees lis s c with
             | (s', (c', Some (e, p))) => (s', (c' :: l', Some (e, i :: p)))
             | (s', (c', None)) =>
               let '(s'', (l'', err)) := go l' (Datatypes.S i) s' in (s'', (c' :: l'', err))
             end
           end) l i s = (s', (l', e)) -> flat_map var_names l' = flat_map var_names l /\ (e = None -> Forall S_Tree.folded l')).
      { clear. induction l as [|c l IHl]; intros i s s' l' e F E. { injection E as _ <- <-. split; auto. }
        inversion F as [|? ? Hc Hl]; subst. destruct (tree_reduce_constant_subtrees lis s c) as [s1 [c' [[e1 p1]|]]] eqn:Ec; apply Hc in Ec; destruct Ec as [A B].
        - injection E as _ <- <-. split; [cbn [flat_map]; rewrite A; reflexivity|discriminate].
        - match type of E with context [let '(_, _) := ?x in _] => destruct x as [s2 [l2 e2]] eqn:El end. injection E as _ <- <-. apply IHl in El; auto. destruct El as [C D].
          split; [cbn [flat_map]; rewrite A, C; reflexivity|]. intros ->. constructor; auto. }
      match type of E with context [let '(_, _) := ?x in _] => destruct x as [s2 [l2 e2]] eqn:El end. injection E as _ <- <-. apply K in El; [|exact IH]. destruct El as [A B].
      split; [exact A|]. intros N. split; [cbn [var_names]; rewrite A; exact V|]. specialize (B N). clear - B. induction B; auto.
Qed.
End Folds.
(** If no rule can be applied to an expression once its constants are evaluated ([u]), nor after the minus signs are written
    out ([t]), this is the result. *)
Theorem C75_unchanged : forall L fuel content sm prime deriv typed u t w w', has_loaded content sm -> derivative_operators prime deriv ->
  evaluated L fuel w typed w' u None -> with_minus the_arith_ctx u t -> of_calculator t ->
  (forall q op cs k, subtree t q = Some (NOp op cs k) -> o_id op <> o_id prime /\ o_id op <> o_id deriv) ->
  none_applies L fuel the_prop_ctx w' (nth 0 (s_rulesets sm) []) u ->
  (forall i, i < 7 -> none_applies L fuel the_prop_ctx w' (nth i (s_rulesets sm) []) t) -> 0 < fuel ->
  simplify L fuel the_arith_ctx the_prop_ctx (Some sm) w typed = Done (Ok (w', (t, None))) /\
  simplify L fuel the_arith_ctx the_prop_ctx (Some sm) w' t = Done (Ok (w', (t, None))).
Proof.
  intros L fuel content sm prime deriv typed u t w w' H O E M C N N0 Nt Fu.
  assert (F : S_Tree.folded u).
  { unfold evaluated, reduce_constants in E. destruct (tree_reduce_constant_subtrees (arith_listener L fuel) (Done (Ok w)) typed) as [[[x| |]|] r] eqn:R; try discriminate E. injection E as -> ->. apply reduced_folded in R. apply R. reflexivity. }
  assert (R : evaluated L fuel w' t w' u None). { destruct M as (m & Lm & ->). unfold evaluated, reduce_constants. rewrite (minus_reduced L fuel m (minus_id m Lm) u w' F). reflexivity. }
  assert (T : with_minus the_arith_ctx t t). { destruct M as (m & Lm & ->). exists m. split; auto. symmetry. apply minus_twice. }
  assert (G : forall w0 t0, evaluated L fuel w0 t0 w' u None -> simplify L fuel the_arith_ctx the_prop_ctx (Some sm) w0 t0 = Done (Ok (w', (t, None)))).
  { intros w0 t0 R0. apply C75_simplify. eapply si_good with (t3 := t).
    - exact R0.
    - unfold other_sections. cbn [map]. econstructor; [apply pass_still; eauto|]. apply passes_still; auto. repeat constructor; apply Nt; lia.
    - apply (no_derivatives L fuel the_arith_ctx content sm prime deriv t w' H O C N); auto. apply pass_spec. apply pass_still; auto. apply Nt. lia.
    - apply passes_still; [exact Fu| |exact T]. unfold other_sections. cbn [map]. repeat constructor; apply Nt; lia.
    - exact R.
    - exact M. }
  split; apply G; auto.
Qed.
Print Assumptions C75_simplify.
Print Assumptions C75_no_rules.
Print Assumptions C75_unchanged.

(** ** Examples *)
Definition the_minus : operator := Eval vm_compute in match minus_op the_arith_ctx with Ok m => m | _ => the_prime end.
Lemma minus_found : ctx_lookup_op the_arith_ctx (str "-") PPrefix = Ok (Some the_minus). Proof. vm_compute. reflexivity. Qed.
(** max(x^2, sin(y), -2) as typed, with constants evaluated and with minus signs *)
Definition still_typed : node := Eval vm_compute in expr "max(x^2, sin(y), -2)".
Definition still_folded : node := Eval vm_compute in match reduce_constants no_libm 20 w0 still_typed with Done (Ok (_, (u, _))) => u | _ => still_typed end.
Definition still : node := Eval vm_compute in replace_negative_consts the_minus still_folded.
Definition none_of (rs : list rule) (t : node) : bool := forallb (fun r => match apply_rule (checks no_libm 20 the_prop_ctx w0) t r with Ok None => true | _ => false end) rs.
Lemma none_of_spec : forall rs t, none_of rs t = true -> none_applies no_libm 20 the_prop_ctx w0 rs t.
Proof. intros rs t H r I. unfold none_of in H. rewrite forallb_forall in H. specialize (H r I). destruct (apply_rule (checks no_libm 20 the_prop_ctx w0) t r) as [[?|]| |]; try discriminate H. reflexivity. Qed.
Lemma ops_below : forall t p d, forallb (fun op => negb (o_id op =? p) && negb (o_id op =? d)) (operators_of t) = true ->
  forall q op cs k, subtree t q = Some (NOp op cs k) -> o_id op <> p /\ o_id op <> d.
Proof.
  intros t p d H q. revert t H. induction q as [|i q IH]; intros t H op cs k S.
  - injection S as ->. cbn [operators_of forallb] in H. apply andb_prop in H. destruct H as [H _]. apply andb_prop in H. destruct H as [A B].
    split; intros E; [apply negb_true_iff, Nat.eqb_neq in A|apply negb_true_iff, Nat.eqb_neq in B]; auto.
  - destruct t as [| |o ds j]; try discriminate S. cbn [subtree] in S. destruct (nth_error ds i) as [c|] eqn:N; [|discriminate S]. apply (IH c) with (2 := S). rewrite forallb_forall in *. intros o' I. apply H. cbn [operators_of]. right.
    apply in_flat_map. exists c. split; auto. eapply nth_error_In; eauto.
Qed.
Example C75_case : evaluated no_libm 20 w0 still_typed w0 still_folded None /\ with_minus the_arith_ctx still_folded still /\ of_calculator still /\ has_loaded (str shipped_ruleset) the_s /\
  (forall q op cs k, subtree still q = Some (NOp op cs k) -> o_id op <> o_id the_prime /\ o_id op <> o_id the_deriv) /\
  none_applies no_libm 20 the_prop_ctx w0 (nth 0 (s_rulesets the_s) []) still_folded /\
  (forall i, i < 7 -> none_applies no_libm 20 the_prop_ctx w0 (nth i (s_rulesets the_s) []) still).
Proof.
  split; [vm_compute; reflexivity|]. split; [exists the_minus; split; [exact minus_found|vm_compute; reflexivity]|].
  split. { intros op J. assert (K : forallb (fun op => (o_id op <? 58) && (o_addr op <? 58)) (operators_of still) = true) by (vm_compute; reflexivity). rewrite forallb_forall in K. specialize (K op J). apply andb_prop in K. destruct K as [A B]. apply Nat.ltb_lt in A, B. auto. }
  split; [exact C73_shipped|]. split; [apply ops_below; vm_compute; reflexivity|]. split; [apply none_of_spec; vm_compute; reflexivity|].
  intros i J. apply none_of_spec. do 7 (destruct i as [|i]; [vm_compute; reflexivity|]). lia.
Qed.
Lemma rewritten_computed : match simplify no_libm 40 the_arith_ctx the_prop_ctx (Some the_s) w0 (expr "(x^2)' + 0") with Done (Ok (_, (t', None))) => negb (tree_equals t' (expr "(x^2)' + 0")) | _ => false end = true.
Proof. vm_compute. reflexivity. Qed.
Lemma rewritten_case : forall sm t, match simplify no_libm 40 the_arith_ctx the_prop_ctx (Some sm) w0 t with Done (Ok (_, (t', None))) => negb (tree_equals t' t) | _ => false end = true ->
  exists w' t', simplified no_libm 40 the_arith_ctx the_prop_ctx sm w0 t w' t' None /\ tree_equals t' t = false.
Proof.
  intros sm t H. destruct (simplify no_libm 40 the_arith_ctx the_prop_ctx (Some sm) w0 t) as [[(w' & t' & [e|])| |]|] eqn:E; try discriminate H. exists w', t'. split; [apply C75_simplify; exact E|]. apply negb_true_iff. exact H.
Qed.
(** (x^2)' + 0 is simplified to something else. *)
Example C75_simplify_case : exists w' t', simplified no_libm 40 the_arith_ctx the_prop_ctx the_s w0 (expr "(x^2)' + 0") w' t' None /\ tree_equals t' (expr "(x^2)' + 0") = false.
Proof. apply rewritten_case. exact rewritten_computed. Qed.

Lemma length_concat_sum : forall (A : Type) (l : list (list A)), List.length (List.concat l) = list_sum (map (@List.length A) l).
Proof. induction l as [|x l IH]; cbn [List.concat map list_sum fold_right]; auto. rewrite app_length, IH. reflexivity. Qed.
(** ** Rule files: seven sections are needed. *)
Theorem C59_seven_sections : forall pre secs rss, Forall plain_line (pre ++ flat_map section_lines secs) ->
  Forall (fun l => ~ is_header l) pre -> Forall well_formed secs ->
  Forall2 (fun (s : section) rs => Forall2 (L_RuleParsing.parsed strtod the_prop_ctx) (rule_texts (snd s)) rs) secs rss ->
  (List.length secs = 7 -> exists sm, init_simplification strtod the_arith_ctx the_prop_ctx (Some (file_of (pre ++ flat_map section_lines secs))) = Ok (ILoaded sm (List.length (List.concat rss))) /\ s_rulesets sm = rss) /\
  (List.length secs < 7 -> init_simplification strtod the_arith_ctx the_prop_ctx (Some (file_of (pre ++ flat_map section_lines secs))) = Ok IMalformed).
Proof.
  intros pre secs rss P NH W F. assert (Ln : List.length secs = List.length rss) by (clear - F; induction F; cbn [List.length]; auto). unfold init_simplification. split; intros Le.
  - rewrite (rulesets_spec strtod the_prop_ctx NUM_RULESETS pre secs rss) by (auto; unfold NUM_RULESETS; lia). cbn [rbind]. rewrite Le. unfold NUM_RULESETS. cbn [Nat.eqb Nat.sub repeat]. rewrite app_nil_r.
    rewrite x_prime_parsed, after_parsed, malformed_parsed. cbn [rbind]. rewrite x_prime_pattern. rewrite length_concat_sum. match goal with |- exists sm, Ok (ILoaded ?x _) = _ /\ _ => exists x end. split; reflexivity.
  - rewrite (rulesets_spec strtod the_prop_ctx NUM_RULESETS pre secs rss) by (auto; unfold NUM_RULESETS; lia). cbn [rbind]. assert (X : (List.length secs =? NUM_RULESETS) = false) by (apply Nat.eqb_neq; unfold NUM_RULESETS; lia). rewrite X. reflexivity.
Qed.
Print Assumptions C59_seven_sections.
(** Six sections are too few. *)
Example C59_seven_case : forall h, In h [str "RULESET"] -> is_header h /\
  init_simplification strtod the_arith_ctx the_prop_ctx (Some (file_of (List.concat (repeat [str "RULESET"; str "x+0 -> x"] 6)))) = Ok IMalformed.
Proof. intros h [<-|[]]. split; [exists []; reflexivity|vm_compute; reflexivity]. Qed.
