(** Theorems about trees: C25-C29, C57. *)
From Coq Require Import List Ascii String NArith ZArith Bool Lia Arith.
From Coq.Floats Require Import SpecFloat.
From Verif Require Import M_Base M_Tree M_TreeUtil S_Tree L_Tree.
Import ListNotations.
Open Scope string_scope.
Open Scope list_scope.
Open Scope nat_scope.

(** ** C25 *)
Theorem C25_equality_symmetric_transitive :
  (forall a b, tree_equals a b = tree_equals b a)
  /\ (forall a b c, tree_equals a b = true -> tree_equals b c = true -> tree_equals a c = true).
Proof. split; [exact tree_equals_sym|exact tree_equals_trans]. Qed.
(** A copy is not equal to its original if that holds a NaN. *)
Theorem C25_copy_equal_refuted : ~ (forall n, tree_equals n (tree_copy n) = true).
Proof. intros H. specialize (H (NConst S754_nan 0)). vm_compute in H. discriminate H. Qed.
Theorem C25_copy_equal_partial : forall n, Forall (fun v => v <> S754_nan) (constants n) ->
  tree_copy n = n /\ tree_equals n (tree_copy n) = true.
Proof.
  intros n F. rewrite tree_copy_id. split; auto. apply tree_equals_refl.
  eapply Forall_impl; [|exact F]. intros v H. destruct v; auto. congruence.
Qed.
(** Equal trees have equal values. Zero and minus zero count as equal constants, so a semantics that tells
    them apart is the exception. *)
Theorem C25_equal_values_refuted :
  ~ (forall f a b, (forall p q args, o_id p = o_id q -> f p args = f q args) ->
     tree_equals a b = true -> result f a = result f b).
Proof.
  intros H. set (f := fun (_ : operator) (args : list double) => (0%Z, match args with [v] => SFdiv 53 1024 (S754_finite false 1 0) v | _ => S754_nan end)).
  specialize (H f (NOp (op_get_function [] (Some 1)) [NConst (S754_zero false) 0] 0) (NOp (op_get_function [] (Some 1)) [NConst (S754_zero true) 0] 0)).
  specialize (H (fun p q args _ => eq_refl) eq_refl). vm_compute in H. discriminate H.
Qed.
Theorem C25_equal_values_partial : forall f a b env, (forall p q args, o_id p = o_id q -> f p args = f q args) ->
  Forall (fun v => v <> S754_zero true) (constants a ++ constants b) ->
  tree_equals a b = true -> result f (assign env a) = result f (assign env b).
Proof.
  intros f a b env Hf. revert b. induction a as [v t|x i t|p cs t IH] using node_ind'; intros [w u|y j u|q ds u] F E; try discriminate.
  - simpl in *. apply deqb_eq in E. inversion F as [|? ? F1 F2]; subst. inversion F2 as [|? ? F3 F4]; subst.
    destruct E as [[-> _]|[E1 E2]]; [reflexivity|]. destruct v as [[]| | |], w as [[]| | |]; try discriminate; try congruence; reflexivity.
  - simpl in E. apply andb_true_iff in E. destruct E as [E _]. destruct (L_Trie.streqb_spec x y); [|discriminate]. subst. reflexivity.
  - rewrite tree_equals_op in E. rewrite !andb_true_iff, !Nat.eqb_eq in E. destruct E as ((E1 & E2) & E3). cbn [assign].
    assert (K : Forall2 (fun a b => result f a = result f b) (map (assign env) cs) (map (assign env) ds)).
    { clear E1. cbn [constants] in F. apply Forall_app in F. destruct F as [F1 F2]. apply Forall_flat_map' in F1, F2. revert ds E2 E3 F2.
      induction IH as [|c cs Hc G IH']; intros [|d ds] L E F2; try discriminate; [constructor|].
      simpl in E. apply andb_true_iff in E. destruct E. inversion F1; subst. inversion F2; subst. simpl. constructor; auto.
      apply Hc; auto. apply Forall_app. auto. }
    rewrite !result_op. rewrite (results_ext f _ _ 0 K). destruct (results f (map (assign env) ds) 0) as [vs|[e pp]]; auto. rewrite (Hf p q); auto.
Qed.
Definition num (n : positive) : double := S754_finite false n 0.
Definition op_of (name : string) (id arity : nat) : operator := mkOp (str name) id (Some arity) 255 ALeft PFunction id.
Definition C25_tree : node := NOp (op_of "f" 3 2) [NConst (num 7) 1; NOp (op_of "g" 4 1) [NVar (str "x") 0 5] 4] 0.
Example C25_case : Forall (fun v => v <> S754_nan /\ v <> S754_zero true) (constants C25_tree) /\ tree_equals C25_tree C25_tree = true.
Proof. split; [repeat constructor; discriminate|vm_compute; reflexivity]. Qed.
Print Assumptions C25_equality_symmetric_transitive.
Print Assumptions C25_copy_equal_refuted.
Print Assumptions C25_copy_equal_partial.
Print Assumptions C25_equal_values_refuted.
Print Assumptions C25_equal_values_partial.

(** ** C26 *)
Theorem C26_list_variables : forall n buf,
  let '(n', vs, k) := list_variables n buf in
  (List.length (firsts (var_names n)) <= buf ->
     vs = Some (firsts (var_names n)) /\ k = List.length (firsts (var_names n))
     /\ exists pos, n' = with_ids pos n /\ forall x, In x (var_names n) -> nth_error (firsts (var_names n)) (pos x) = Some x)
  /\ (buf < List.length (firsts (var_names n)) -> vs = None /\ k = buf).
Proof.
  intros n buf. unfold list_variables. pose proof (lv_spec buf n [] (le_0_n buf)) as H. cbn [app] in H. cbn zeta in H.
  rewrite news_firsts in H. destruct (Nat.leb_spec (List.length (firsts (var_names n))) buf) as [L|L].
  - rewrite H. split; [|lia]. intros _. split; auto. split; auto. exists (pos_in (firsts (var_names n))). split; auto.
    intros x Hx. apply pos_in_nth. apply firsts_In. auto.
  - destruct (list_variables_rec n buf (Some [])) as [n' r]. simpl in H. subst r. split; [lia|auto].
Qed.
(** What [firsts] is *)
Theorem C26_firsts : forall l, NoDup (firsts l) /\ (forall x, In x (firsts l) <-> In x l).
Proof. intros l. split; [apply firsts_NoDup|apply firsts_In]. Qed.
Theorem C26_copy_ids : forall n vs, (forall x, In x (var_names n) -> In x vs) ->
  exists pos, tree_copy_IDs n vs = with_ids pos n /\ forall x, In x (var_names n) -> nth_error vs (pos x) = Some x.
Proof.
  intros n vs H. exists (pos_in vs). split; [apply copy_ids_spec; auto|]. intros x Hx. apply pos_in_nth. auto.
Qed.
Theorem C26_count : forall n, count_all_variable_nodes n = List.length (var_names n).
Proof. exact count_names. Qed.
Definition C26_tree : node := NOp (op_of "f" 3 3) [NVar (str "y") 9 1; NVar (str "x") 9 2; NOp (op_of "g" 4 1) [NVar (str "y") 9 5] 4] 0.
Example C26_case : list_variables C26_tree 2 =
    (NOp (op_of "f" 3 3) [NVar (str "y") 0 1; NVar (str "x") 1 2; NOp (op_of "g" 4 1) [NVar (str "y") 0 5] 4] 0, Some [str "y"; str "x"], 2)
  /\ snd (list_variables C26_tree 1) = 1 /\ snd (fst (list_variables C26_tree 1)) = None.
Proof. vm_compute. auto. Qed.
Print Assumptions C26_list_variables.
Print Assumptions C26_firsts.
Print Assumptions C26_copy_ids.

(** ** C27 *)
Theorem C27_replace_is_substitution : forall n r x,
  replace_variable_nodes n r x = (substitute x r n, count_occ name_dec (var_names n) x).
Proof. intros. apply replace_spec. Qed.
(** The value of the result is the one of the original with the value of the replacement for the variable. *)
Theorem C27_substitution_value : forall f env x r v n, result f (assign env r) = RVal v ->
  let new := result f (assign env (fst (replace_variable_nodes n r x))) in
  let old := result f (assign (fun y => if name_dec x y then v else env y) n) in
  match old with RVal w => new = RVal w | RFail e _ => exists p, new = RFail e p end.
Proof.
  intros f env x r v n H. cbn zeta. rewrite replace_spec. cbn [fst].
  pose proof (substitute_result f env x r v ltac:(rewrite H; reflexivity) n) as E. unfold extend in E.
  destruct (result f (assign env (substitute x r n))), (result f (assign _ n)); simpl in E; inversion E; subst; eauto.
Qed.
Theorem C27_absent : forall n r x, ~ In x (var_names n) -> replace_variable_nodes n r x = (n, 0).
Proof. intros n r x H. rewrite replace_spec. rewrite substitute_absent; auto. f_equal. apply count_occ_not_In. auto. Qed.
Example C27_case : replace_variable_nodes C26_tree (NConst (num 5) 9) (str "y") =
  (NOp (op_of "f" 3 3) [NConst (num 5) 9; NVar (str "x") 9 2; NOp (op_of "g" 4 1) [NConst (num 5) 9] 4] 0, 2).
Proof. vm_compute. reflexivity. Qed.
Print Assumptions C27_replace_is_substitution.
Print Assumptions C27_substitution_value.

(** ** C28 *)
Theorem C28_reduce_is_evaluation : forall S (lis : @listener S) s n s' r,
  tree_reduce lis s n = (s', r) <-> evals lis s n s' r.
Proof. intros. split; [apply reduce_sound|apply reduce_complete]. Qed.
(** The operators are called in the order of [postorder]: all of them on success, else none behind the failing one. *)
Theorem C28_calls : forall f n calls r, tree_reduce (noting f) [] n = (calls, r) ->
  match r with
  | RVal _ => calls = postorder n
  | RFail _ _ => exists rest, postorder n = calls ++ rest
  end.
Proof.
  intros f n calls r E. destruct (noting_log f n [] calls r E) as (l1 & l2 & P & -> & H). simpl in *. destruct r; [|eauto].
  subst l2. rewrite P, app_nil_r. reflexivity.
Qed.
Definition C28_f : operator -> list double -> Z * double :=
  fun op args => match args with
                 | [a; b] => (0%Z, SFadd 53 1024 a b)
                 | _ => (7%Z, S754_nan)
                 end.
Example C28_case :
  let t := NOp (op_of "f" 3 2) [NConst (num 1) 1; NOp (op_of "f" 3 2) [NConst (num 2) 3; NConst (num 3) 4] 2] 0 in
  let u := NOp (op_of "f" 3 2) [NOp (op_of "g" 3 1) [NConst (num 2) 3] 2; NOp (op_of "h" 4 1) [] 5] 0 in
  result C28_f t = RVal (SFadd 53 1024 (num 1) (SFadd 53 1024 (num 2) (num 3)))
  /\ result C28_f u = RFail 7 [0] /\ fst (tree_reduce (noting C28_f) [] u) = [op_of "g" 3 1].
Proof. vm_compute. auto. Qed.
Print Assumptions C28_reduce_is_evaluation.
Print Assumptions C28_calls.

(** ** C29 *)
Theorem C29_folding_keeps_value : forall f n n' err,
  snd (tree_reduce_constant_subtrees (pure f) tt n) = (n', err) ->
  (forall env, result f (assign env n') = result f (assign env n)) /\ var_names n' = var_names n.
Proof. intros f n n' err E. destruct (fold_correct f n n' err E) as (A & B & _). auto. Qed.
Theorem C29_folding_complete : forall f n n',
  snd (tree_reduce_constant_subtrees (pure f) tt n) = (n', None) -> folded n'.
Proof. intros f n n' E. destruct (fold_correct f n n' None E) as (_ & _ & C). exact C. Qed.
(** Folding fails only for a tree that has no value under any assignment, and names one of its operators. *)
Theorem C29_folding_fails : forall f n n' e p,
  snd (tree_reduce_constant_subtrees (pure f) tt n) = (n', Some (e, p)) ->
  (forall env, exists e' p', result f (assign env n) = RFail e' p') /\ exists op cs t, subtree n p = Some (NOp op cs t).
Proof.
  intros f n n' e p E. destruct (fold_correct f n n' _ E) as (_ & _ & (C & m & q & D)). split; auto. rewrite D. eauto.
Qed.
Example C29_case :
  let t := NOp (op_of "f" 3 2) [NVar (str "x") 0 1; NOp (op_of "f" 3 2) [NConst (num 2) 3; NConst (num 3) 4] 2] 0 in
  match snd (tree_reduce_constant_subtrees (pure C28_f) tt t) with
  | (NOp _ [NVar _ _ _; NConst v 2] 0, None) => deqb v (SFadd 53 1024 (num 2) (num 3)) = true
  | _ => False
  end.
Proof. vm_compute. reflexivity. Qed.
Print Assumptions C29_folding_keeps_value.
Print Assumptions C29_folding_complete.
Print Assumptions C29_folding_fails.

(** ** C57 *)
Theorem C57_variable_places : forall n x buf,
  get_variable_nodes n x buf 0 = (List.length (places x n), combine (List.seq 0 (List.length (firstn buf (places x n)))) (firstn buf (places x n)))
  /\ NoDup (places x n) /\ (forall p, In p (places x n) <-> exists i t, subtree n p = Some (NVar x i t)).
Proof. intros n x buf. split; [apply gv_spec|]. split; [apply places_NoDup|apply places_spec]. Qed.
Example C57_case : get_variable_nodes C26_tree (str "y") 1 0 = (2, [(0, [0])]) /\ get_variable_nodes C26_tree (str "y") 5 0 = (2, [(0, [0]); (1, [2; 0])]).
Proof. vm_compute. auto. Qed.
Print Assumptions C57_variable_places.
