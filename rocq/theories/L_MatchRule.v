(** Rules and rule sets. *)
From Coq Require Import List Ascii String NArith ZArith Bool Lia Arith.
From Verif Require Import M_Base M_Tree M_TreeUtil M_Match S_Tree S_Match L_Trie L_Tree L_Match L_MatchSem L_MatchTop.
Import ListNotations.
Open Scope nat_scope.
Open Scope res_scope.

Lemma with_ids_twice : forall f g p, with_ids f (with_ids g p) = with_ids f p.
Proof.
  intros f g. induction p as [v t|x i t|op cs t IH] using node_ind'; simpl; auto. f_equal. rewrite map_map. apply map_ext_in. rewrite Forall_forall in IH. auto.
Qed.
Lemma set_tok_located : forall k n, set_tok_index_for_all n k = located k n.
Proof.
  intros k. induction n as [v t|x i t|op cs t IH] using node_ind'; simpl; auto. f_equal. apply map_ext_in. rewrite Forall_forall in IH. auto.
Qed.
Lemma names_located : forall k n, var_names (located k n) = var_names n.
Proof.
  intros k. induction n as [v t|x i t|op cs t IH] using node_ind'; simpl; auto. rewrite map_flat. apply flat_map_in_ext. rewrite Forall_forall in IH. auto.
Qed.
Lemma inst_located_ids : forall s k f n, inst s (located k (with_ids f n)) = inst s (located k n).
Proof.
  intros s k f. induction n as [v t|x i t|op cs t IH] using node_ind'; simpl; auto. do 2 f_equal. rewrite map_map, !map_flat. apply flat_map_in_ext. rewrite Forall_forall in IH. auto.
Qed.
Lemma named_located : forall W k n, named W n -> named W (located k n).
Proof.
  intros W k. induction n as [v t|x i t|op cs t IH] using node_ind'; intros N; auto. cbn [located]. apply named_op. apply named_op in N.
  apply Forall_forall. intros c Ic. apply in_map_iff in Ic. destruct Ic as (d & <- & Id). rewrite Forall_forall in *. auto.
Qed.
Lemma firsts_incl_len : forall l m, incl l m -> List.length (firsts l) <= List.length (firsts m).
Proof. intros l m I. apply NoDup_incl_length. apply firsts_NoDup. intros x Ix. apply firsts_In. apply I. apply firsts_In. auto. Qed.
Lemma lv_top : forall n buf, List.length (firsts (var_names n)) <= buf ->
  list_variables_rec n buf (Some []) = (with_ids (pos_in (firsts (var_names n))) n, Some (firsts (var_names n))).
Proof.
  intros n buf L. pose proof (lv_spec buf n [] (Nat.le_0_l buf)) as H. cbn [app] in H. cbn zeta in H. rewrite news_firsts in H.
  apply Nat.leb_le in L. rewrite L in H. exact H.
Qed.
Lemma lv_top_none : forall n buf, buf < List.length (firsts (var_names n)) -> exists n', list_variables_rec n buf (Some []) = (n', None).
Proof.
  intros n buf L. pose proof (lv_spec buf n [] (Nat.le_0_l buf)) as H. cbn [app] in H. cbn zeta in H. rewrite news_firsts in H.
  destruct (Nat.leb_spec (List.length (firsts (var_names n))) buf); [lia|]. destruct (list_variables_rec n buf (Some [])) as [n' o]. simpl in H. subst. eauto.
Qed.

Lemma get_rule_spec : forall p cs pat after, get_pattern p cs = PatOk pat ->
  (incl (var_names after) (var_names p) -> get_rule pat after = Some (mkRule pat (with_ids (pos_in (firsts (var_names p))) after))) /\
  (~ incl (var_names after) (var_names p) -> get_rule pat after = None).
Proof.
  intros p cs pat after HP. destruct (get_pattern_spec _ _ _ HP) as (L & ET & _). unfold get_rule.
  pose proof (tree_names _ _ _ HP) as TN.
  assert (LV : list_variables_rec (pt_tree pat) MAX_MAPPED_VARS (Some []) = (pt_tree pat, Some (firsts (var_names p)))).
  { rewrite lv_top by (rewrite TN; auto). rewrite TN, ET, with_ids_twice. reflexivity. }
  unfold list_variables. rewrite LV, count_names. cbn [pt_tree pt_constraints].
  assert (FA : forall vs, forallb (fun x => negb (fst (get_variable_nodes (pt_tree pat) x 0 0) =? 0)) vs = true <-> incl vs (var_names p)).
  { intros vs. rewrite forallb_forall. split; intros H x Ix.
    - specialize (H x Ix). apply negb_true_iff in H. destruct (in_dec name_dec x (var_names p)) as [|N]; auto. exfalso. rewrite <- TN in N. apply gv_zero in N. congruence.
    - apply negb_true_iff. destruct (fst (get_variable_nodes (pt_tree pat) x 0 0) =? 0) eqn:G; auto. apply gv_zero in G. rewrite TN in G. exfalso. apply G. auto. }
  split.
  - intros I. assert (E : exists f, (if 0 <? List.length (var_names after)
             then let (p0, _) := let '(n', vs) := list_variables_rec after MAX_MAPPED_VARS (Some []) in (n', vs, match vs with Some l => List.length l | None => MAX_MAPPED_VARS end) in
               let (after', o) := p0 in match o with Some vars => (forallb (fun x => negb (fst (get_variable_nodes (pt_tree pat) x 0 0) =? 0)) vars, after') | None => (false, after') end
             else (true, after)) = (true, with_ids f after) \/ (var_names after = [] /\ f = pos_in [])).
    { exists (pos_in (firsts (var_names after))). destruct (Nat.ltb_spec 0 (List.length (var_names after))) as [P|P].
      - left. rewrite lv_top by (pose proof (firsts_incl_len _ _ I); lia). replace (forallb _ (firsts (var_names after))) with true; auto.
        symmetry. apply FA. intros x Ix. apply I. apply firsts_In. auto.
      - right. destruct (var_names after) eqn:Q; auto. simpl in P. lia. }
    assert (CI : forall f, tree_copy_IDs (with_ids f after) (firsts (var_names p)) = with_ids (pos_in (firsts (var_names p))) after).
    { intros f. rewrite copy_ids_spec, with_ids_twice; auto. intros x Ix. rewrite names_ids in Ix. apply firsts_In. auto. }
    destruct E as [f [E|[E _]]].
    + unfold list_variables in *. match goal with |- context [if 0 <? ?n then ?a else ?b] => set (X := if 0 <? n then a else b) in * end.
      assert (EX : X = (true, with_ids f after)). { rewrite <- E. unfold X. destruct (list_variables_rec after MAX_MAPPED_VARS (Some [])) as [? [?|]]; reflexivity. }
      rewrite EX. rewrite CI. destruct pat; reflexivity.
    + rewrite E. cbn [List.length Nat.ltb Nat.leb]. rewrite <- (CI (fun _ => 0)).
      assert (Wi : with_ids (fun _ => 0) after = after).
      { clear - E. induction after as [v t|x i t|op cs t IH] using node_ind'; auto. { discriminate E. } simpl. f_equal. apply map_id_in. simpl in E.
        rewrite Forall_forall in *. intros c Ic. apply IH; auto. destruct (var_names c) eqn:Q; auto. exfalso. assert (In c0 (flat_map var_names cs)). { apply in_flat_map. exists c. rewrite Q. simpl. auto. } rewrite E in H. destruct H. }
      rewrite Wi. destruct pat; reflexivity.
  - intros NI. assert (NE : 0 < List.length (var_names after)). { destruct (var_names after); simpl; [exfalso; apply NI; intros ? []|lia]. }
    apply Nat.ltb_lt in NE. rewrite NE.
    destruct (Nat.leb_spec (List.length (firsts (var_names after))) MAX_MAPPED_VARS) as [K|K].
    + rewrite lv_top by auto. destruct (forallb (fun x => negb (fst (get_variable_nodes (pt_tree pat) x 0 0) =? 0)) (firsts (var_names after))) eqn:F; auto.
      apply FA in F. exfalso. apply NI. intros x Ix. apply F. apply firsts_In. auto.
    + destruct (lv_top_none _ _ K) as [n' E]. rewrite E. reflexivity.
Qed.

(** ** Positions *)
Lemma positions_complete : forall t q sub, subtree t q = Some sub -> In q (positions t).
Proof.
  induction t as [v k|x i k|op l k IH] using node_ind'; intros [|j q] sub E; try discriminate E; cbn [positions]; try (left; reflexivity).
  right. cbn [subtree] in E. destruct (nth_error l j) as [c|] eqn:Ej; [|discriminate E].
  fold (pos_list l 0).
  assert (K : forall l' i, Forall (fun n => forall q sub, subtree n q = Some sub -> In q (positions n)) l' -> nth_error l' j = Some c -> In ((i + j) :: q) (pos_list l' i)).
  { clear IH Ej. revert j. intros j l'. revert j. induction l' as [|d l' IHl]; intros j i F Ej. { destruct j; discriminate Ej. }
    inversion F; subst. cbn [pos_list]. fold (pos_list l' (S i)). apply in_or_app. destruct j as [|j].
    - left. simpl in Ej. injection Ej as ->. rewrite Nat.add_0_r. unfold under. apply in_map. eauto.
    - right. replace (i + S j) with (S i + j) by lia. apply IHl; auto. }
  apply (K l 0); auto.
Qed.
Lemma sub_sized : forall t q sub, machine_sized t -> subtree t q = Some sub -> machine_sized sub.
Proof.
  induction t as [v k|x i k|op l k IH] using node_ind'; intros [|j q] sub MS E; try discriminate E; try (injection E as <-; auto).
  cbn [subtree] in E. destruct (nth_error l j) as [c|] eqn:Ej; [|discriminate E]. apply machine_op in MS. destruct MS as [_ MS].
  rewrite Forall_forall in *. apply nth_error_In in Ej. eauto.
Qed.
Lemma deref_subtree : forall q t sub, subtree t q = Some sub -> deref t q = Ok sub.
Proof.
  induction q as [|i q IH]; intros t sub E. { injection E as <-. reflexivity. }
  destruct t as [| |op l k]; try discriminate E. cbn [subtree] in E. cbn [deref]. unfold vget. destruct (nth_error l i); [|discriminate E]. cbn [rbind]. auto.
Qed.
Lemma vset_split : forall A (l r : list A) c d, vset (l ++ c :: r) (List.length l) d = l ++ d :: r.
Proof. induction l; simpl; intros; auto. f_equal. auto. Qed.
Lemma replace_replaced : forall q t sub new, subtree t q = Some sub -> replaced q sub new t (replace_at t q new).
Proof.
  induction q as [|i q IH]; intros t sub new E. { injection E as <-. constructor. }
  destruct t as [| |op l k]; try discriminate E. cbn [subtree] in E. destruct (nth_error l i) as [c|] eqn:Ei; [|discriminate E].
  cbn [replace_at]. rewrite Ei. destruct (nth_error_split _ _ Ei) as (l1 & l2 & -> & <-). rewrite vset_split. constructor; auto.
Qed.
Lemma get_tok_location : forall n, get_token_index n = location n.
Proof. intros [| |]; reflexivity. Qed.

Section Rule.
Variable ck : node -> res bool.
Variables (p : node) (cs : list node) (pat : pattern) (after : node) (r : rule).
Hypothesis HP : get_pattern p cs = PatOk pat.
Hypothesis HR : get_rule pat after = Some r.

Lemma rule_vars : incl (var_names after) (var_names p).
Proof.
  destruct (get_rule_spec p cs pat after HP) as [_ B].
  assert (D : {incl (var_names after) (var_names p)} + {~ incl (var_names after) (var_names p)}).
  { destruct (forallb (fun x => if in_dec name_dec x (var_names p) then true else false) (var_names after)) eqn:F; [left|right].
    - rewrite forallb_forall in F. intros x Ix. specialize (F x Ix). destruct (in_dec name_dec x (var_names p)); [auto|discriminate F].
    - intros I. assert (forallb (fun x => if in_dec name_dec x (var_names p) then true else false) (var_names after) = true); [|congruence].
      apply forallb_forall. intros x Ix. destruct (in_dec name_dec x (var_names p)) as [|K]; auto. }
  destruct D as [|N]; auto. rewrite B in HR by auto. discriminate HR.
Qed.
Lemma rule_eq : r = mkRule pat (with_ids (pos_in (firsts (var_names p))) after).
Proof. destruct (get_rule_spec p cs pat after HP) as [A _]. rewrite (A rule_vars) in HR. congruence. Qed.

Lemma new_tree : forall m s k, rep (var_names p) m (var_names p) s ->
  transform_by_matching m (set_tok_index_for_all (tree_copy (r_after r)) k) = match inst s (located k after) with [t] => Ok t | _ => Halt end.
Proof.
  intros m s k R. rewrite rule_eq. cbn [r_after]. rewrite tree_copy_id, set_tok_located.
  rewrite (transform_rep (var_names p) (few_vars p cs pat HP) m (var_names p) s _ R).
  - rewrite inst_located_ids. reflexivity.
  - apply named_located. apply named_ids. apply rule_vars.
  - rewrite names_located, names_ids. apply rule_vars.
Qed.
Lemma none_instance : forall t, machine_sized t -> covered p cs -> get_matching ck pat t = Ok None -> forall s, ~ stable_instance ck p cs t s.
Proof.
  intros t MS Cov E s St. unfold get_matching in E. destruct (get_all_matchings ck pat t) as [ms| |] eqn:G; cbn [rbind] in E; try discriminate E.
  destruct (all_complete ck p cs pat HP t ms s MS Cov G St) as (m & s' & I & _). destruct ms; [destruct I|discriminate E].
Qed.
Theorem apply_rule_spec : forall t res, machine_sized t -> covered p cs -> apply_rule ck t r = Ok res ->
  match res with
  | None => forall q sub s, subtree t q = Some sub -> ~ stable_instance ck p cs sub s
  | Some t' => exists l1 q l2 sub s new, positions t = l1 ++ q :: l2 /\
      fits s p /\ Forall2 alike (inst s p) [sub] /\ (var_names p <> [] -> Forall (holds ck s) cs) /\
      inst s (located (location sub) after) = [new] /\ replaced q sub new t t' /\
      (forall q' sub' s', In q' l1 -> subtree t q' = Some sub' -> ~ stable_instance ck p cs sub' s')
  end.
Proof.
  intros t res MS Cov E. unfold apply_rule in E. rewrite rule_eq in E. cbn [r_pat] in E.
  destruct (find_matching ck pat t) as [f| |] eqn:F; cbn [rbind] in E; try discriminate E.
  apply find_spec in F. destruct f as [[q m]|].
  - destruct F as (l1 & l2 & sub & A & B & C & D). rewrite (deref_subtree _ _ _ B) in E. cbn [rbind] in E.
    assert (MSS : machine_sized sub) by (eapply sub_sized; eauto).
    unfold get_matching in C. destruct (get_all_matchings ck pat sub) as [ms| |] eqn:G; cbn [rbind] in C; try discriminate C.
    destruct ms as [|m0 ms]; [discriminate C|]. injection C as ->.
    destruct (all_sound ck p cs pat HP sub (m :: ms) m MSS G (or_introl eq_refl)) as (s & S1 & S2 & S3 & S4 & S5).
    rewrite <- rule_eq in E. rewrite (new_tree m s _ S5) in E. rewrite get_tok_location in E.
    destruct (inst s (located (location sub) after)) as [|new [|]] eqn:N; cbn [rbind] in E; try discriminate E. injection E as <-.
    exists l1, q, l2, sub, s, new. split; auto. split; auto. split; auto. split; auto. split; auto. split; [apply replace_replaced; auto|].
    intros q' sub' s' I' E'. rewrite Forall_forall in D. apply none_instance; auto. { eapply (sub_sized t); eauto. } apply (D q' I'). auto.
  - injection E as <-. intros q sub s Eq. rewrite Forall_forall in F. apply none_instance; auto. { eapply (sub_sized t); eauto. }
    apply (F q); auto. eapply positions_complete; eauto.
Qed.
Theorem apply_rule_total : forall t, machine_sized t -> covered p cs -> no_overrun [] p -> answered ck p cs -> ~ list_var after ->
  exists res, apply_rule ck t r = Ok res.
Proof.
  intros t MS Cov No An NL. unfold apply_rule. rewrite rule_eq. cbn [r_pat].
  assert (G : forall t, machine_sized t -> exists o, get_matching ck pat t = Ok o).
  { intros u MU. destruct (all_safe ck p cs pat HP u MU Cov No An) as [ms E]. unfold get_matching. rewrite E. cbn [rbind]. destruct ms; eauto. }
  destruct (find_safe ck pat G t MS) as [f F]. rewrite F. cbn [rbind]. destruct f as [[q m]|]; eauto.
  apply find_spec in F. destruct F as (l1 & l2 & sub & A & B & C & D). rewrite (deref_subtree _ _ _ B). cbn [rbind].
  unfold get_matching in C. destruct (get_all_matchings ck pat sub) as [ms| |] eqn:E; cbn [rbind] in C; try discriminate C.
  destruct ms as [|m0 ms]; [discriminate C|]. injection C as ->.
  destruct (all_sound ck p cs pat HP sub (m :: ms) m (sub_sized _ _ _ MS B) E (or_introl eq_refl)) as (s & S1 & S2 & S3 & S4 & S5).
  rewrite <- rule_eq. rewrite (new_tree m s _ S5).
  assert (exists new, inst s (located (get_token_index sub) after) = [new]) as [new N].
  { pose proof rule_vars as RV. clear S5. revert RV NL. clear HR. destruct after as [v k|x i k|op l k]; intros RV NL; simpl; eauto. assert (K : List.length (s x) = 1). { apply S2; [|exact NL]. apply RV. left. auto. }
    destruct (s x) as [|a [|]]; try discriminate K. eauto. }
  rewrite N. cbn [rbind]. eauto.
Qed.
End Rule.

(** ** Variables of the result *)
Lemma alike_names : forall a b, alike a b -> var_names a = var_names b.
Proof.
  induction a as [v t|x i t|op cs t IH] using node_ind'; intros b A; inversion A; subst; auto. simpl.
  match goal with H : Forall2 alike _ _ |- _ => rename H into F end. clear A. induction F; auto. inversion IH; subst. simpl. f_equal; auto.
Qed.
Lemma alikes_names : forall l m, Forall2 alike l m -> flat_map var_names l = flat_map var_names m.
Proof. intros l m F. induction F; simpl; auto. f_equal; auto. apply alike_names. auto. Qed.
Lemma inst_names : forall s p x y, In x (var_names p) -> In y (flat_map var_names (s x)) -> In y (flat_map var_names (inst s p)).
Proof.
  intros s. induction p as [v t|z i t|op cs t IH] using node_ind'; intros x y I J; simpl in I.
  - destruct I.
  - destruct I as [->|[]]. auto.
  - simpl. rewrite app_nil_r. apply in_flat_map in I. destruct I as (c & Ic & Ix). rewrite Forall_forall in IH. specialize (IH c Ic x y Ix J).
    apply in_flat_map in IH. destruct IH as (d & Id & Iy). apply in_flat_map. exists d. split; auto. apply in_flat_map. eauto.
Qed.
Lemma inst_names_inv : forall s p y, In y (flat_map var_names (inst s p)) -> exists x, In x (var_names p) /\ In y (flat_map var_names (s x)).
Proof.
  intros s. induction p as [v t|z i t|op cs t IH] using node_ind'; intros y I; simpl in I.
  - destruct I.
  - exists z. simpl. auto.
  - rewrite app_nil_r in I. apply in_flat_map in I. destruct I as (d & Id & Iy). apply in_flat_map in Id. destruct Id as (c & Ic & Id).
    rewrite Forall_forall in IH. destruct (IH c Ic y) as (x & Ix & J). { apply in_flat_map. eauto. } exists x. split; auto. simpl. apply in_flat_map. eauto.
Qed.
Lemma replaced_names : forall q a b t u, replaced q a b t u -> incl (var_names b) (var_names a) -> incl (var_names u) (var_names t).
Proof.
  intros q a b t u R I. induction R; auto. specialize (IHR I). simpl. rewrite !flat_map_app. simpl. intros y Iy. rewrite !in_app_iff in *. firstorder.
Qed.

(** ** Rule sets *)
Lemma apply_first_spec : forall ck t rs res, apply_first ck t rs = Ok res ->
  match res with Some t' => first_applies ck rs t t' | None => forall r, In r rs -> apply_rule ck t r = Ok None end.
Proof.
  intros ck t. induction rs as [|r rs IH]; intros res E; cbn [apply_first] in E.
  - injection E as <-. intros r [].
  - destruct (apply_rule ck t r) as [[t'|]| |] eqn:A; cbn [rbind] in E; try discriminate E.
    + injection E as <-. exists [], r, rs. split; auto. split; auto. intros r' [].
    + specialize (IH res E). destruct res as [t'|].
      * destruct IH as (rs1 & r1 & rs2 & -> & B & C). exists (r :: rs1), r1, rs2. split; auto. split; auto. intros r' [<-|I]; auto.
      * intros r' [<-|I]; auto.
Qed.
Lemma ruleset_spec : forall fuel ck rs cap t c t' k, apply_ruleset_loop fuel ck rs cap t c = Ok (Some (t', k)) ->
  c <= k /\ rounds ck rs (k - c) t t' /\ ((k = cap /\ c < k) \/ forall r, In r rs -> apply_rule ck t' r = Ok None) /\ (c < cap -> k <= cap).
Proof.
  induction fuel as [|f IH]; intros ck rs cap t c t' k E; cbn [apply_ruleset_loop] in E. { discriminate E. }
  destruct (apply_first ck t rs) as [[t1|]| |] eqn:A; cbn [rbind] in E; try discriminate E; apply apply_first_spec in A.
  - destruct (Nat.eqb_spec (S c) cap) as [Q|Q].
    + injection E as <- <-. split; [lia|]. split; [|split; [left; lia|lia]]. replace (S c - c) with 1 by lia. econstructor; [exact A|constructor].
    + destruct (IH _ _ _ _ _ _ _ E) as (B & C & D & F). split; [lia|]. split; [|split; [|lia]].
      * replace (k - c) with (S (k - S c)) by lia. econstructor; eauto.
      * destruct D as [[D1 D2]|D]; [left; lia|auto].
  - injection E as <- <-. split; auto. split; [|split; [auto|lia]]. rewrite Nat.sub_diag. constructor.
Qed.
Lemma ruleset_fuel : forall fuel ck rs cap t c, c < cap -> cap <= c + fuel -> apply_ruleset_loop fuel ck rs cap t c <> Ok None.
Proof.
  induction fuel as [|f IH]; intros ck rs cap t c A B; cbn [apply_ruleset_loop]; [lia|].
  destruct (apply_first ck t rs) as [[t1|]| |]; cbn [rbind]; try discriminate.
  destruct (Nat.eqb_spec (S c) cap); [discriminate|]. apply IH; lia.
Qed.
