(** Proofs about trees. *)
From Coq Require Import List Ascii String NArith ZArith Bool Lia Arith FinFun.
From Coq.Floats Require Import SpecFloat.
From Verif Require Import M_Base M_StringUtil M_Tree M_TreeUtil S_Tree L_Trie.
Import ListNotations.
Open Scope nat_scope.

Lemma map_id_in : forall (A : Type) (f : A -> A) l, Forall (fun x => f x = x) l -> map f l = l.
Proof. intros A f l F. induction F; simpl; congruence. Qed.
Lemma tree_copy_id : forall n, tree_copy n = n.
Proof. induction n as [| |op cs t IH] using node_ind'; simpl; auto. rewrite map_id_in; auto. Qed.

(** ** Equality *)
Definition all2 (l m : list node) : bool :=
  (fix all (l m : list node) : bool :=
          match l, m with
          | x :: l', y :: m' => tree_equals x y && all l' m'
          | _, _ => true
          end) l m.
Lemma tree_equals_op : forall p cs t q ds u,
  tree_equals (NOp p cs t) (NOp q ds u) = (o_id p =? o_id q) && (List.length cs =? List.length ds) && all2 cs ds.
Proof. reflexivity. Qed.

Lemma deqb_sym : forall a b, deqb a b = deqb b a.
Proof.
  unfold deqb, SFeqb, SFcompare. intros [s|s| |s m e] [s'|s'| |s' m' e']; try destruct s; try destruct s'; auto.
  - rewrite (Z.compare_antisym e e'). destruct (e ?= e')%Z; simpl; auto.
    change (Pos.compare_cont Eq m m') with (Pos.compare m m'). change (Pos.compare_cont Eq m' m) with (Pos.compare m' m).
    rewrite (Pos.compare_antisym m m'). destruct (m ?= m')%positive; auto.
  - rewrite (Z.compare_antisym e e'). destruct (e ?= e')%Z; simpl; auto.
    change (Pos.compare_cont Eq m m') with (Pos.compare m m'). change (Pos.compare_cont Eq m' m) with (Pos.compare m' m).
    rewrite (Pos.compare_antisym m m'). destruct (m ?= m')%positive; auto.
Qed.
Definition is_zero (v : double) : bool := match v with S754_zero _ => true | _ => false end.
Definition is_nan (v : double) : bool := match v with S754_nan => true | _ => false end.
Lemma deqb_eq : forall a b, deqb a b = true <-> ((a = b /\ is_nan a = false) \/ (is_zero a = true /\ is_zero b = true)).
Proof.
  unfold deqb, SFeqb, SFcompare. split.
  - destruct a as [s|s| |s m e], b as [s'|s'| |s' m' e']; simpl; auto; try discriminate; try destruct s; try destruct s'; auto; try discriminate.
    + destruct (e ?= e')%Z eqn:E; simpl; try discriminate. apply Z.compare_eq in E. subst.
      destruct (Pos.compare_cont Eq m m') eqn:P; try discriminate. apply Pos.compare_eq in P. subst. auto.
    + destruct (e ?= e')%Z eqn:E; simpl; try discriminate. apply Z.compare_eq in E. subst.
      destruct (Pos.compare_cont Eq m m') eqn:P; try discriminate. apply Pos.compare_eq in P. subst. auto.
  - intros [[-> H]|[A B]].
    + destruct b as [s|s| |s m e]; try discriminate; try destruct s; auto; rewrite Z.compare_refl; rewrite Pos.compare_cont_refl; reflexivity.
    + destruct a, b; try discriminate. reflexivity.
Qed.
Lemma deqb_trans : forall a b c, deqb a b = true -> deqb b c = true -> deqb a c = true.
Proof.
  intros a b c A B. apply deqb_eq in A, B. apply deqb_eq.
  destruct A as [[-> A]|[A A']]; auto. destruct B as [[-> B]|[B B']]; auto.
Qed.

Lemma streqb_sym : forall a b, streqb a b = streqb b a.
Proof. intros a b. destruct (streqb_spec a b), (streqb_spec b a); congruence. Qed.

Lemma tree_equals_sym : forall a b, tree_equals a b = tree_equals b a.
Proof.
  induction a as [v t|x i t|p cs t IH] using node_ind'; intros [w u|y j u|q ds u]; try reflexivity.
  - apply deqb_sym.
  - simpl. rewrite streqb_sym, Nat.eqb_sym. reflexivity.
  - rewrite !tree_equals_op. rewrite (Nat.eqb_sym (o_id p)), (Nat.eqb_sym (List.length cs)). f_equal.
    revert ds. induction IH as [|c cs Hc F IH']; intros [|d ds]; simpl; auto. rewrite Hc. f_equal. apply IH'.
Qed.
Lemma tree_equals_trans : forall a b c, tree_equals a b = true -> tree_equals b c = true -> tree_equals a c = true.
Proof.
  induction a as [v t|x i t|p cs t IH] using node_ind'; intros [w u|y j u|q ds u] [z r|z k r|o es r] A B; try discriminate.
  - simpl in *. eapply deqb_trans; eauto.
  - simpl in *. apply andb_true_iff in A, B. destruct A as [A A'], B as [B B']. apply Nat.eqb_eq in A', B'.
    destruct (streqb_spec x y), (streqb_spec y z); try discriminate. subst. rewrite Nat.eqb_refl. destruct (streqb_spec z z); auto.
  - rewrite tree_equals_op in *. rewrite !andb_true_iff, !Nat.eqb_eq in *.
    destruct A as ((A & A') & A''), B as ((B & B') & B''). split; [split; congruence|].
    clear A B. revert ds es A' B' A'' B''. induction IH as [|c cs Hc F IH']; intros [|d ds] [|e es] L1 L2 A B; try discriminate; auto.
    simpl in *. apply andb_true_iff in A, B. destruct A, B. apply andb_true_iff. split; eauto.
Qed.

Lemma flat_map_nil : forall (A B : Type) (f : A -> list B) l, flat_map f l = [] <-> Forall (fun x => f x = []) l.
Proof.
  induction l; simpl. { split; constructor. }
  split. { intros H. apply app_eq_nil in H. destruct H. constructor; auto. apply IHl; auto. }
  intros H. inversion H; subst. rewrite H2. simpl. apply IHl. auto.
Qed.
Lemma Forall_flat_map' : forall (A B : Type) (P : B -> Prop) (f : A -> list B) l, Forall P (flat_map f l) -> Forall (fun x => Forall P (f x)) l.
Proof.
  induction l; simpl; intros H; [constructor|]. apply Forall_app in H. destruct H. constructor; auto.
Qed.

Lemma tree_equals_refl : forall n, Forall (fun v => is_nan v = false) (constants n) -> tree_equals n n = true.
Proof.
  induction n as [v t|x i t|p cs t IH] using node_ind'; intros H.
  - simpl in *. inversion H; subst. apply deqb_eq. auto.
  - simpl. rewrite Nat.eqb_refl. destruct (streqb_spec x x); auto.
  - rewrite tree_equals_op, !Nat.eqb_refl. simpl. simpl in H. apply Forall_flat_map' in H.
    induction IH as [|c cs Hc F IH']; auto. inversion H; subst. simpl. rewrite Hc; auto.
Qed.

(** ** Evaluation *)
Section Reduce.
Context {S : Type}.
Variable lis : @listener S.
Definition go_args (l : list node) (i : nat) (s : S) (args : list double) : S * (list double + Z * path) :=
      (fix go (l : list node) (i : nat) (s : S) (args : list double) : S * (list double + Z * path) :=
         match l with
         | [] => (s, inl args)
         | c :: l' =>
           let '(s', r) := tree_reduce lis s c in
           match r with
           | RVal v => go l' (Datatypes.S i) s' (args ++ [v])
           | RFail e p => (s', inr (e, i :: p))
           end
         end) l i s args.
Lemma reduce_op : forall s op cs t, tree_reduce lis s (NOp op cs t) =
    let '(s', r) := go_args cs 0 s [] in
    match r with
    | inr (e, p) => (s', RFail e p)
    | inl args =>
      let '(s'', (e, v)) := lis s' op args in
      if (e =? 0)%Z then (s'', RVal v) else (s'', RFail e [])
    end.
Proof. reflexivity. Qed.
Lemma go_cons : forall c l i s args, go_args (c :: l) i s args =
           let '(s', r) := tree_reduce lis s c in
           match r with
           | RVal v => go_args l (Datatypes.S i) s' (args ++ [v])
           | RFail e p => (s', inr (e, i :: p))
           end.
Proof. reflexivity. Qed.

Lemma go_spec : forall cs, Forall (fun c => forall s s' r, tree_reduce lis s c = (s', r) -> evals lis s c s' r) cs ->
  forall i s args s' r, go_args cs i s args = (s', r) ->
  match r with
  | inl vs => exists ws, vs = args ++ ws /\ evals_all lis s cs s' ws
  | inr (e, p) => exists l c rest s1 vs q, cs = l ++ c :: rest /\ evals_all lis s l s1 vs /\ evals lis s1 c s' (RFail e q) /\ p = (i + List.length l) :: q
  end.
Proof.
  intros cs F. induction F as [|c cs Hc F IH]; intros i s args s' r E.
  - inversion E; subst. exists []. rewrite app_nil_r. split; auto. constructor.
  - rewrite go_cons in E. destruct (tree_reduce lis s c) as [s1 [v|e p]] eqn:Ec.
    + apply IH in E. destruct r as [vs|[e p]].
      * destruct E as (ws & -> & E). exists (v :: ws). rewrite <- app_assoc. split; auto. econstructor; eauto.
      * destruct E as (l & c' & rest & s2 & vs & q & -> & E1 & E2 & ->). exists (c :: l), c', rest, s2, (v :: vs), q.
        split; auto. split; [econstructor; eauto|]. split; auto. simpl. f_equal. lia.
    + inversion E; subst. exists [], c, cs, s, [], p. split; auto. split; [constructor|]. split; auto. simpl. f_equal. lia.
Qed.
Lemma reduce_sound : forall n s s' r, tree_reduce lis s n = (s', r) -> evals lis s n s' r.
Proof.
  induction n as [v t|x i t|p cs t IH] using node_ind'; intros s s' r E.
  - inversion E; subst. constructor.
  - inversion E; subst. constructor.
  - rewrite reduce_op in E. destruct (go_args cs 0 s []) as [s1 r1] eqn:G. apply go_spec in G; auto. destruct r1 as [vs|[e q]].
    + destruct G as (ws & -> & G). simpl in E. destruct (lis s1 p ws) as [s2 [e v]] eqn:L.
      destruct (Z.eqb_spec e 0); inversion E; subst; [eapply ev_apply; eauto|eapply ev_fail; eauto].
    + inversion E; subst. destruct G as (l & c & rest & s2 & vs & q' & -> & G1 & G2 & ->). simpl. eapply ev_operand; eauto.
Qed.
Scheme evals_mind := Minimality for evals Sort Prop with evals_all_mind := Minimality for evals_all Sort Prop.
Lemma reduce_complete : forall s n s' r, evals lis s n s' r -> tree_reduce lis s n = (s', r).
Proof.
  apply (evals_mind S lis (fun s n s' r => tree_reduce lis s n = (s', r))
    (fun s l s' vs => forall rest i args, go_args (l ++ rest) i s args = go_args rest (i + List.length l) s' (args ++ vs))).
  - reflexivity.
  - reflexivity.
  - intros s op cs t s1 vs s2 v _ H L. rewrite reduce_op. specialize (H [] 0 []). rewrite app_nil_r in H. rewrite H. simpl. rewrite L. reflexivity.
  - intros s op cs t s1 vs s2 e v _ H L N. rewrite reduce_op. specialize (H [] 0 []). rewrite app_nil_r in H. rewrite H. simpl. rewrite L.
    destruct (Z.eqb_spec e 0); congruence.
  - intros s op l c r t s1 vs s2 e p _ H _ E. rewrite reduce_op, H, go_cons, E. reflexivity.
  - intros s rest i args. simpl. rewrite Nat.add_0_r, app_nil_r. reflexivity.
  - intros s c l s1 v s2 vs _ E _ H rest i args. cbn [app]. rewrite go_cons, E, H, <- app_assoc. simpl. f_equal. lia.
Qed.
End Reduce.

Lemma noting_log : forall f n s s' r, tree_reduce (noting f) s n = (s', r) ->
  exists l1 l2, postorder n = l1 ++ l2 /\ s' = s ++ l1 /\ (match r with RVal _ => l2 = [] | RFail _ _ => True end).
Proof.
  intros f n s s' r E. apply reduce_sound in E. revert s n s' r E.
  apply (evals_mind _ _ (fun s n s' r => exists l1 l2, postorder n = l1 ++ l2 /\ s' = s ++ l1 /\ (match r with RVal _ => l2 = [] | RFail _ _ => True end))
    (fun s l s' vs => s' = s ++ flat_map postorder l)).
  - intros. exists [], []. split; [reflexivity|]. rewrite app_nil_r. auto.
  - intros. exists [], []. split; [reflexivity|]. rewrite app_nil_r. auto.
  - intros s op cs t s1 vs s2 v _ -> L. unfold noting in L. inversion L; subst. exists (flat_map postorder cs ++ [op]), [].
    split; [rewrite app_nil_r; reflexivity|]. rewrite app_assoc. auto.
  - intros s op cs t s1 vs s2 e v _ -> L N. unfold noting in L. inversion L; subst. exists (flat_map postorder cs ++ [op]), [].
    split; [rewrite app_nil_r; reflexivity|]. rewrite app_assoc. auto.
  - intros s op l c r t s1 vs s2 e p _ -> _ (l1 & l2 & E1 & -> & _). exists (flat_map postorder l ++ l1), (l2 ++ flat_map postorder r ++ [op]).
    split; [|rewrite app_assoc; auto]. simpl. rewrite flat_map_app. simpl. rewrite E1, <- !app_assoc. reflexivity.
  - intros. simpl. rewrite app_nil_r. reflexivity.
  - intros s c l s1 v s2 vs _ (l1 & l2 & E1 & -> & ->) _ ->. simpl. rewrite E1, app_nil_r, app_assoc. reflexivity.
Qed.

(** ** Pure listeners *)
Section Pure.
Variable f : operator -> list double -> Z * double.
Notation reduce := (tree_reduce (pure f) tt).
Lemma unit_any : forall (x y : unit), x = y.
Proof. intros [] []. reflexivity. Qed.
Lemma reduce_result : forall n, reduce n = (tt, result f n).
Proof. intros n. unfold result. destruct (reduce n) as [[] r]. reflexivity. Qed.
Fixpoint results (l : list node) (i : nat) : list double + Z * path :=
  match l with
  | [] => inl []
  | c :: l' =>
    match result f c with
    | RFail e p => inr (e, i :: p)
    | RVal v => match results l' (S i) with inl vs => inl (v :: vs) | inr x => inr x end
    end
  end.
Lemma go_results : forall l i args, go_args (pure f) l i tt args =
  (tt, match results l i with inl vs => inl (args ++ vs) | inr x => inr x end).
Proof.
  induction l as [|c l IH]; intros i args. { simpl. rewrite app_nil_r. reflexivity. }
  rewrite go_cons, reduce_result. simpl. destruct (result f c) as [v|e p]; auto. rewrite IH.
  destruct (results l (S i)); auto. rewrite <- app_assoc. reflexivity.
Qed.
Lemma result_op : forall op cs t, result f (NOp op cs t) =
  match results cs 0 with
  | inr (e, p) => RFail e p
  | inl vs => let '(e, v) := f op vs in if (e =? 0)%Z then RVal v else RFail e []
  end.
Proof.
  intros op cs t. unfold result at 1. rewrite reduce_op, go_results. destruct (results cs 0) as [vs|[e p]]; auto.
  simpl. unfold pure. destruct (f op vs) as [e v]. destruct (e =? 0)%Z; reflexivity.
Qed.
Lemma results_ext : forall l m i, Forall2 (fun a b => result f a = result f b) l m -> results l i = results m i.
Proof.
  intros l m i F. revert i. induction F as [|a b l m E F IH]; intros i; auto. simpl. rewrite E, IH. reflexivity.
Qed.
Lemma result_ext : forall op l m t u, Forall2 (fun a b => result f a = result f b) l m -> result f (NOp op l t) = result f (NOp op m u).
Proof. intros. rewrite !result_op. rewrite (results_ext l m); auto. Qed.

(** results up to the place of the error *)
Definition code (r : rres) : double + Z := match r with RVal v => inl v | RFail e _ => inr e end.
Lemma results_code : forall l m i j, Forall2 (fun a b => code (result f a) = code (result f b)) l m ->
  match results l i, results m j with inl a, inl b => a = b | inr (e, _), inr (e', _) => e = e' | _, _ => False end.
Proof.
  intros l m i j F. revert i j. induction F as [|a b l m E F IH]; intros i j; simpl; auto.
  destruct (result f a), (result f b); simpl in E; inversion E; subst; auto.
  specialize (IH (S i) (S j)). destruct (results l (S i)) as [?|[? ?]], (results m (S j)) as [?|[? ?]]; auto. congruence.
Qed.
Lemma result_code : forall op l m t u, Forall2 (fun a b => code (result f a) = code (result f b)) l m ->
  code (result f (NOp op l t)) = code (result f (NOp op m u)).
Proof.
  intros op l m t u F. rewrite !result_op. pose proof (results_code l m 0 0 F) as H.
  destruct (results l 0) as [a|[e p]], (results m 0) as [b|[e' p']]; try contradiction; subst; auto.
Qed.

(** ** Folding *)
Notation fold := (tree_reduce_constant_subtrees (pure f) tt).
Definition fold_args (l : list node) (i : nat) : unit * (list node * option (Z * path)) :=
        (fix go (l : list node) (i : nat) (s : unit) : unit * (list node * option (Z * path)) :=
           match l with
           | [] => (s, ([], None))
           | c :: l' =>
             match tree_reduce_constant_subtrees (pure f) s c with
             | (s', (c', Some (e, p))) => (s', (c' :: l', Some (e, i :: p)))
             | (s', (c', None)) =>
               let '(s'', (l'', err)) := go l' (Datatypes.S i) s' in (s'', (c' :: l'', err))
             end
           end) l i tt.
Definition folding (n : node) : node * option (Z * path) := snd (fold n).
Definition foldings (l : list node) (i : nat) : list node * option (Z * path) := snd (fold_args l i).
Lemma fold_pair : forall n, fold n = (tt, folding n).
Proof. intros n. unfold folding. destruct (fold n) as [[] r]. reflexivity. Qed.
Lemma foldings_cons : forall c l i, foldings (c :: l) i =
  match folding c with
  | (c', Some (e, p)) => (c' :: l, Some (e, i :: p))
  | (c', None) => let '(l'', err) := foldings l (S i) in (c' :: l'', err)
  end.
Proof.
  intros c l i. unfold foldings at 1. unfold fold_args. rewrite fold_pair. destruct (folding c) as [c' [[e p]|]]; auto.
  fold (fold_args l (S i)). unfold foldings. destruct (fold_args l (S i)) as [s'' [l'' err]]. reflexivity.
Qed.
Lemma folding_eq : forall n, folding n =
  if count_all_variable_nodes n =? 0 then
    match result f n with RVal v => (NConst v (get_token_index n), None) | RFail e p => (n, Some (e, p)) end
  else match n with
       | NOp op cs t => let '(cs', err) := foldings cs 0 in (NOp op cs' t, err)
       | _ => (n, None)
       end.
Proof.
  intros n. unfold folding. destruct n as [v t|x i t|op cs t]; try reflexivity.
  cbn [tree_reduce_constant_subtrees]. destruct (count_all_variable_nodes (NOp op cs t) =? 0).
  - rewrite reduce_result. destruct (result f (NOp op cs t)); reflexivity.
  - fold (fold_args cs 0). unfold foldings. destruct (fold_args cs 0) as [s [l e]]. reflexivity.
Qed.

Lemma fold_sum : forall (A : Type) (g : A -> nat) l a, fold_left (fun sum c => sum + g c) l a = a + list_sum (map g l).
Proof. induction l; intros; simpl; [lia|]. rewrite IHl. lia. Qed.
Lemma count_names : forall n, count_all_variable_nodes n = List.length (var_names n).
Proof.
  induction n as [v t|x i t|op cs t IH] using node_ind'; auto. simpl. rewrite fold_sum. simpl.
  induction IH as [|c cs Hc F IH']; auto. simpl. rewrite app_length, Hc, IH'. reflexivity.
Qed.
Lemma count_zero : forall n, (count_all_variable_nodes n =? 0) = true <-> var_names n = [].
Proof. intros n. rewrite count_names, Nat.eqb_eq. destruct (var_names n); simpl; split; intros; auto; discriminate. Qed.
Lemma assign_closed : forall env n, var_names n = [] -> assign env n = n.
Proof.
  intros env. induction n as [v t|x i t|op cs t IH] using node_ind'; intros H; auto; [discriminate|].
  simpl in *. apply flat_map_nil in H. f_equal. apply map_id_in. rewrite Forall_forall in *. auto.
Qed.

Definition folded_all (l : list node) : Prop :=
  (fix all (l : list node) : Prop := match l with [] => True | c :: l' => folded c /\ all l' end) l.
Lemma fold_correct : forall n n' err, folding n = (n', err) ->
  (forall env, result f (assign env n') = result f (assign env n))
  /\ var_names n' = var_names n
  /\ (match err with
      | None => folded n'
      | Some (e, p) => (forall env, exists e' p', result f (assign env n) = RFail e' p')
          /\ exists m q, subtree n p = Some (NOp m q (match subtree n p with Some x => get_token_index x | None => 0 end))
      end).
Proof.
  induction n as [v t|x i t|op cs t IH] using node_ind'; intros n' err E; rewrite folding_eq in E.
  - simpl in E. inversion E; subst. simpl. auto.
  - simpl in E. inversion E; subst. simpl. auto.
  - destruct (count_all_variable_nodes (NOp op cs t) =? 0) eqn:Z.
    + apply count_zero in Z. destruct (result f (NOp op cs t)) as [v|e p] eqn:R; inversion E; subst.
      * split; [|split; [auto|exact I]]. intros env. rewrite (assign_closed env (NOp op cs t) Z), R. reflexivity.
      * split; auto. split; auto. split.
        { intros env. rewrite (assign_closed env _ Z). eauto. }
        assert (SP : forall s0 n s' r, evals (pure f) s0 n s' r -> match r with RVal _ => True | RFail e p => var_names n = [] -> exists m q t, subtree n p = Some (NOp m q t) end).
        { clear. apply (evals_mind _ _ (fun s0 n s' r => match r with RVal _ => True | RFail e p => var_names n = [] -> exists m q t, subtree n p = Some (NOp m q t) end)
            (fun s0 l s' vs => True)); auto.
          - simpl. discriminate.
          - intros. simpl. eauto.
          - intros s op l c r t s1 vs s2 e p _ _ _ H N. simpl in N. rewrite flat_map_app in N. apply app_eq_nil in N. destruct N as [_ N].
            simpl in N. apply app_eq_nil in N. destruct N as [N _]. destruct (H N) as (m & q & u & Hs). exists m, q, u. simpl.
            rewrite nth_error_app2, Nat.sub_diag by lia. exact Hs. }
        assert (EV : evals (pure f) tt (NOp op cs t) tt (RFail e p)) by (apply reduce_sound; rewrite reduce_result, R; reflexivity).
        destruct (SP _ _ _ _ EV Z) as (m & q & u & Hs). exists m, q. rewrite Hs. reflexivity.
    + destruct (foldings cs 0) as [cs' err'] eqn:G. inversion E; subst n' err'. clear E.
      assert (K : forall i cs' err, foldings cs i = (cs', err) ->
        (forall env, Forall2 (fun a b => result f (assign env a) = result f (assign env b)) cs' cs)
        /\ flat_map var_names cs' = flat_map var_names cs
        /\ (match err with
            | None => folded_all cs'
            | Some (e, p) => (forall env, exists c, In c cs /\ exists e' p', result f (assign env c) = RFail e' p')
               /\ exists k q c m q', p = (i + k) :: q /\ nth_error cs k = Some c /\ subtree c q = Some (NOp m q' (match subtree c q with Some x => get_token_index x | None => 0 end))
            end)).
      { clear G Z. induction IH as [|c cs Hc F IH']; intros i cs2 err2 G.
        - inversion G; subst. split; [constructor|]. split; auto. exact I.
        - rewrite foldings_cons in G. destruct (folding c) as [c' [[e p]|]] eqn:Ec.
          + inversion G; subst. destruct (Hc _ _ eq_refl) as (A & B & (C & m & q & D)).
            split. { intros env. constructor; auto. clear. induction cs; constructor; auto. }
            split. { simpl. rewrite B. reflexivity. }
            split. { intros env. exists c. split; [left; auto|]. apply C. }
            exists 0, p, c, m, q. rewrite Nat.add_0_r. auto.
          + destruct (foldings cs (S i)) as [l'' err''] eqn:Eg. inversion G; subst. destruct (Hc _ _ eq_refl) as (A & B & C).
            destruct (IH' _ _ _ Eg) as (A' & B' & C').
            split. { intros env. constructor; auto. }
            split. { simpl. rewrite B, B'. reflexivity. }
            destruct err2 as [[e p]|].
            * destruct C' as (C1 & k & q & c0 & m & q' & -> & D1 & D2). split.
              { intros env. destruct (C1 env) as (c1 & Hi & H). exists c1. split; [right; auto|exact H]. }
              exists (S k), q, c0, m, q'. split; [f_equal; lia|]. auto.
            * simpl. auto. }
      destruct (K _ _ _ G) as (A & B & C). split.
      { intros env. simpl. apply result_ext. clear - A. specialize (A env). induction A; simpl; constructor; auto. }
      split; [exact B|]. destruct err as [[e p]|].
      * destruct C as (C1 & k & q & c & m & q' & -> & D1 & D2). split.
        { intros env. destruct (C1 env) as (c1 & Hi & e' & p' & H). simpl. rewrite result_op.
          assert (X : forall i, exists e p, results (map (assign env) cs) i = inr (e, p)).
          { clear - Hi H. induction cs as [|a cs IH]; [contradiction|]. intros i. simpl. destruct Hi as [->|Hi].
            - rewrite H. eauto.
            - destruct (result f (assign env a)); eauto. destruct (IH Hi (S i)) as (e0 & p0 & ->). eauto. }
          destruct (X 0) as (e0 & p0 & ->). eauto. }
        exists m, q'. simpl. rewrite D1, D2. reflexivity.
      * change (var_names (NOp op cs' t) <> [] /\ folded_all cs'). split; auto. simpl. rewrite B.
        intros N. assert (Z' : var_names (NOp op cs t) = []) by exact N. apply count_zero in Z'. congruence.
Qed.
End Pure.

(** ** Substitution *)
Lemma replace_spec : forall x r n, replace_variable_nodes n r x =
  (substitute x r n, count_occ name_dec (var_names n) x).
Proof.
  intros x r. induction n as [v t|y i t|op cs t IH] using node_ind'; auto.
  - simpl. rewrite tree_copy_id. destruct (streqb_spec x y), (name_dec x y), (name_dec y x); subst; congruence.
  - cbn [replace_variable_nodes substitute var_names]. rewrite fold_sum. simpl. f_equal.
    + f_equal. rewrite map_map. induction IH as [|c cs Hc F IH']; auto. simpl. rewrite Hc, IH'. reflexivity.
    + induction IH as [|c cs Hc F IH']; auto. simpl. rewrite Hc, IH', count_occ_app. reflexivity.
Qed.
Definition extend (env : cstr -> double) (x : cstr) (v : double) : cstr -> double := fun y => if name_dec x y then v else env y.
Lemma substitute_result : forall f env x r v, code (result f (assign env r)) = inl v ->
  forall n, code (result f (assign env (substitute x r n))) = code (result f (assign (extend env x v) n)).
Proof.
  intros f env x r v Hv. induction n as [w t|y i t|op cs t IH] using node_ind'; auto.
  - simpl. unfold extend. destruct (name_dec x y); auto.
  - simpl. rewrite map_map. apply result_code. induction IH; simpl; constructor; auto.
Qed.
Lemma substitute_absent : forall x r n, ~ In x (var_names n) -> substitute x r n = n.
Proof.
  intros x r. induction n as [v t|y i t|op cs t IH] using node_ind'; intros H; auto.
  - simpl in *. destruct (name_dec x y); auto. subst. tauto.
  - simpl in *. f_equal. apply map_id_in. rewrite Forall_forall in *. intros c Hc. apply IH; auto. intros Hi. apply H. apply in_flat_map. eauto.
Qed.

(** ** Listing of variables *)
Definition lv_list (l : list node) (buf : nat) (found : option (list cstr)) : list node * option (list cstr) :=
        (fix go (l : list node) (found : option (list cstr)) : list node * option (list cstr) :=
           match l with
           | [] => ([], found)
           | c :: l' =>
             let '(c', f1) := list_variables_rec c buf found in
             let '(l'', f2) := go l' f1 in
             (c' :: l'', f2)
           end) l found.
Lemma lv_op : forall op cs t buf vs, list_variables_rec (NOp op cs t) buf (Some vs) =
  let '(cs', r) := lv_list cs buf (Some vs) in (NOp op cs' t, r).
Proof. reflexivity. Qed.
Lemma lv_none : forall n buf, list_variables_rec n buf None = (n, None).
Proof. intros [| |] buf; reflexivity. Qed.
Lemma lv_list_none : forall l buf, lv_list l buf None = (l, None).
Proof. induction l as [|c l IH]; intros buf; auto. simpl. rewrite lv_none, IH. reflexivity. Qed.
Lemma lv_cons : forall c l buf f, lv_list (c :: l) buf f = let '(c', f1) := list_variables_rec c buf f in let '(l'', f2) := lv_list l buf f1 in (c' :: l'', f2).
Proof. reflexivity. Qed.

Lemma index_of_Some : forall x l k, index_of x l = Some k -> nth_error l k = Some x.
Proof.
  induction l as [|y l IH]; intros k E; simpl in E; [discriminate|].
  destruct (streqb_spec x y). { inversion E; subst. reflexivity. }
  destruct (index_of x l) eqn:I; inversion E; subst. simpl. auto.
Qed.
Lemma index_of_None : forall x l, index_of x l = None <-> ~ In x l.
Proof.
  induction l as [|y l IH]; simpl; [tauto|]. destruct (streqb_spec x y). { subst. split; [discriminate|tauto]. }
  destruct (index_of x l); simpl. { split; [discriminate|]. intros H. exfalso. apply H. right. destruct (in_dec name_dec x l) as [|N]; auto. apply IH in N. discriminate. }
  split; auto. intros _ [->|H]; [congruence|]. apply IH in H; auto.
Qed.
Lemma index_of_app : forall x l m k, index_of x l = Some k -> index_of x (l ++ m) = Some k.
Proof.
  induction l as [|y l IH]; intros m k E; simpl in *; [discriminate|]. destruct (streqb x y); auto.
  destruct (index_of x l) eqn:I; inversion E; subst. erewrite IH; eauto.
Qed.
(** what list_variables adds to the names already found *)
Fixpoint news (seen l : list cstr) : list cstr :=
  match l with
  | [] => []
  | x :: l' => if in_dec name_dec x seen then news seen l' else x :: news (seen ++ [x]) l'
  end.
Lemma news_app : forall l m seen, news seen (l ++ m) = news seen l ++ news (seen ++ news seen l) m.
Proof.
  induction l as [|x l IH]; intros m seen; simpl. { rewrite app_nil_r. reflexivity. }
  destruct (in_dec name_dec x seen); auto. simpl. f_equal. rewrite IH, <- app_assoc. reflexivity.
Qed.
Lemma news_all : forall l seen x, In x l -> In x (seen ++ news seen l).
Proof.
  induction l as [|y l IH]; intros seen x H; [contradiction|]. simpl. destruct (in_dec name_dec y seen) as [i|i].
  - destruct H as [->|H]; auto. apply in_or_app. auto.
  - destruct H as [->|H]. { apply in_or_app. right. left. reflexivity. }
    specialize (IH (seen ++ [y]) x H). rewrite <- app_assoc in IH. exact IH.
Qed.
Definition pos_in (l : list cstr) (x : cstr) : nat := match index_of x l with Some k => k | None => 0 end.
Lemma with_ids_ext : forall p q n, (forall x, In x (var_names n) -> p x = q x) -> with_ids p n = with_ids q n.
Proof.
  intros p q. induction n as [v t|y i t|op cs t IH] using node_ind'; intros H; auto.
  - simpl. rewrite H; auto. simpl. auto.
  - simpl. f_equal. apply map_ext_in. intros c Hc. rewrite Forall_forall in IH. apply IH; auto. intros x Hx. apply H. simpl. apply in_flat_map. eauto.
Qed.
Lemma lv_spec : forall buf n vs, List.length vs <= buf ->
  let all := vs ++ news vs (var_names n) in
  if List.length all <=? buf
  then list_variables_rec n buf (Some vs) = (with_ids (pos_in all) n, Some all)
  else snd (list_variables_rec n buf (Some vs)) = None.
Proof.
  intros buf. induction n as [v t|y i t|op cs t IH] using node_ind'; intros vs L; cbn zeta.
  - simpl. rewrite app_nil_r. replace (List.length vs <=? buf) with true by (symmetry; apply Nat.leb_le; auto). reflexivity.
  - cbn [var_names list_variables_rec]. simpl news. destruct (index_of y vs) as [k|] eqn:I.
    + destruct (in_dec name_dec y vs) as [i0|n0]. 2: { apply index_of_None in n0. congruence. }
      rewrite app_nil_r. replace (List.length vs <=? buf) with true by (symmetry; apply Nat.leb_le; auto).
      simpl. unfold pos_in. rewrite I. reflexivity.
    + pose proof I as I'. apply index_of_None in I'. destruct (in_dec name_dec y vs); [contradiction|]. rewrite app_length. simpl.
      destruct (Nat.ltb_spec (List.length vs) buf); destruct (Nat.leb_spec (List.length vs + 1) buf); try lia; auto.
      simpl. f_equal. f_equal. unfold pos_in.
      assert (X : forall l, ~ In y l -> index_of y (l ++ [y]) = Some (List.length l)).
      { clear. induction l as [|z l IHl]; intros N; simpl. { destruct (streqb_spec y y); congruence. }
        destruct (streqb_spec y z). { subst. exfalso. apply N. left; auto. } rewrite IHl; auto. intros H. apply N. right; auto. }
      rewrite (X vs); auto.
  - rewrite lv_op. cbn [var_names].
    assert (K : forall l, Forall (fun n => forall vs, List.length vs <= buf ->
        let all := vs ++ news vs (var_names n) in
        if List.length all <=? buf then list_variables_rec n buf (Some vs) = (with_ids (pos_in all) n, Some all)
        else snd (list_variables_rec n buf (Some vs)) = None) l -> forall vs, List.length vs <= buf ->
      let all := vs ++ news vs (flat_map var_names l) in
      if List.length all <=? buf then lv_list l buf (Some vs) = (map (with_ids (pos_in all)) l, Some all)
      else snd (lv_list l buf (Some vs)) = None).
    { clear. intros l F. induction F as [|c l Hc F IH']; intros vs L; cbn zeta.
      - simpl. rewrite app_nil_r. replace (List.length vs <=? buf) with true by (symmetry; apply Nat.leb_le; auto). reflexivity.
      - simpl flat_map. rewrite news_app, app_assoc. specialize (Hc vs L). cbn zeta in Hc. rewrite lv_cons.
        set (a1 := vs ++ news vs (var_names c)) in *. destruct (Nat.leb_spec (List.length a1) buf) as [L1|L1].
        + rewrite Hc. specialize (IH' a1 L1). cbn zeta in IH'. set (a2 := a1 ++ news a1 (flat_map var_names l)) in *.
          destruct (List.length a2 <=? buf).
          * rewrite IH'. simpl. f_equal. f_equal. apply with_ids_ext. intros x Hx. unfold pos_in.
            assert (Hx1 : In x a1) by (apply news_all; auto). destruct (index_of x a1) as [k|] eqn:I.
            -- unfold a2. rewrite (index_of_app x a1 _ k I). reflexivity.
            -- apply index_of_None in I. contradiction.
          * destruct (lv_list l buf (Some a1)). simpl in *. auto.
        + destruct (list_variables_rec c buf (Some vs)) as [c' f1]. simpl in Hc. subst f1. rewrite lv_list_none.
          rewrite app_length. replace (_ <=? buf) with false; auto. symmetry. apply Nat.leb_gt. lia. }
    specialize (K cs IH vs L). cbn zeta in K. set (all := vs ++ news vs (flat_map var_names cs)) in *.
    destruct (List.length all <=? buf). { rewrite K. reflexivity. }
    destruct (lv_list cs buf (Some vs)). simpl in *. auto.
Qed.
Lemma firsts_news : forall l seen, news seen l = filter (fun y => if in_dec name_dec y seen then false else true) (firsts l).
Proof.
  induction l as [|x l IH]; intros seen; auto. simpl. destruct (in_dec name_dec x seen) as [i|i]; rewrite IH; clear IH.
  - induction (firsts l) as [|y m IHm]; auto. simpl. destruct (name_dec x y).
    + subst. destruct (in_dec name_dec y seen); [|contradiction]. auto.
    + simpl. destruct (in_dec name_dec y seen); auto. f_equal. auto.
  - f_equal. induction (firsts l) as [|y m IHm]; auto. simpl. destruct (name_dec x y).
    + subst. destruct (in_dec name_dec y (seen ++ [y])) as [|n]; auto. exfalso. apply n. apply in_or_app. right. left. auto.
    + simpl. rewrite <- IHm. destruct (in_dec name_dec y (seen ++ [x])) as [a|a], (in_dec name_dec y seen) as [b|b]; auto.
      * apply in_app_or in a. simpl in a. destruct a as [a|[a|[]]]; [contradiction|congruence].
      * exfalso. apply a. apply in_or_app. auto.
Qed.
Lemma news_firsts : forall l, news [] l = firsts l.
Proof. intros l. rewrite firsts_news. induction (firsts l) as [|a m IH]; [reflexivity|]. cbn [filter]. destruct (in_dec name_dec a []) as [[]|]. f_equal. exact IH. Qed.
Lemma firsts_NoDup : forall l, NoDup (firsts l).
Proof.
  induction l as [|x l IH]; simpl; constructor.
  - intros H. apply filter_In in H. destruct H as [_ H]. destruct (name_dec x x); congruence.
  - apply NoDup_filter. auto.
Qed.
Lemma firsts_In : forall l x, In x (firsts l) <-> In x l.
Proof.
  induction l as [|y l IH]; intros x; simpl; [tauto|]. rewrite filter_In, IH. destruct (name_dec y x); subst; intuition congruence.
Qed.
Lemma pos_in_nth : forall l x, In x l -> nth_error l (pos_in l x) = Some x.
Proof.
  intros l x H. unfold pos_in. destruct (index_of x l) eqn:E; [apply index_of_Some; auto|]. apply index_of_None in E. contradiction.
Qed.
Lemma copy_ids_spec : forall vs n, (forall x, In x (var_names n) -> In x vs) -> tree_copy_IDs n vs = with_ids (pos_in vs) n.
Proof.
  intros vs. induction n as [v t|y i t|op cs t IH] using node_ind'; intros H; auto.
  - simpl. unfold pos_in. destruct (index_of y vs) eqn:E; auto. apply index_of_None in E. exfalso. apply E. apply H. left. auto.
  - simpl. f_equal. apply map_ext_in. intros c Hc. rewrite Forall_forall in IH. apply IH; auto. intros x Hx. apply H. simpl. apply in_flat_map. eauto.
Qed.

(** ** Places of a variable *)
Definition places_list (x : cstr) (l : list node) (i : nat) : list path :=
    (fix go (l : list node) (i : nat) : list path :=
       match l with [] => [] | c :: l' => under i (places x c) ++ go l' (S i) end) l i.
Definition gv_list (x : cstr) (l : list node) (i buf res off : nat) : nat * list (nat * path) :=
    (fix go (l : list node) (i buf res : nat) : nat * list (nat * path) :=
       match l with
       | [] => (res, [])
       | c :: l' =>
         let '(k, ws) := get_variable_nodes c x buf (off + res) in
         let '(k', ws') := go l' (S i) (if k <=? buf then buf - k else 0) (res + k) in
         (k', map (fun w => (fst w, i :: snd w)) ws ++ ws')
       end) l i buf res.
Definition numbered_from (off : nat) (ps : list path) : list (nat * path) := combine (List.seq off (List.length ps)) ps.
Lemma numbered_under : forall i off ps, map (fun w => (fst w, i :: snd w)) (numbered_from off ps) = numbered_from off (under i ps).
Proof.
  intros i off ps. revert off. induction ps as [|p ps IH]; intros off; auto. unfold numbered_from in *. simpl. f_equal. apply IH.
Qed.
Lemma numbered_app : forall off a b, numbered_from off (a ++ b) = numbered_from off a ++ numbered_from (off + List.length a) b.
Proof.
  intros off a b. revert off. induction a as [|p a IH]; intros off; simpl. { rewrite Nat.add_0_r. reflexivity. }
  unfold numbered_from in *. simpl. f_equal. rewrite IH. do 3 f_equal. lia.
Qed.
Lemma firstn_under : forall k i ps, firstn k (under i ps) = under i (firstn k ps).
Proof. intros. unfold under. apply firstn_map. Qed.
Lemma gv_spec : forall x n buf off, get_variable_nodes n x buf off =
  (List.length (places x n), numbered_from off (firstn buf (places x n))).
Proof.
  intros x. induction n as [v t|y i t|op cs t IH] using node_ind'; intros buf off.
  - simpl. rewrite firstn_nil. reflexivity.
  - simpl. destruct (streqb_spec y x), (name_dec x y); subst; try congruence; [|rewrite firstn_nil; reflexivity].
    destruct buf as [|[|b]]; reflexivity.
  - change (gv_list x cs 0 buf 0 off = (List.length (places_list x cs 0), numbered_from off (firstn buf (places_list x cs 0)))).
    assert (K : forall i buf res, gv_list x cs i buf res off = (res + List.length (places_list x cs i), numbered_from (off + res) (firstn buf (places_list x cs i)))).
    { clear buf. induction IH as [|c cs Hc F IH']; intros i buf res.
      - simpl. rewrite firstn_nil, Nat.add_0_r. reflexivity.
      - cbn [gv_list places_list]. rewrite Hc. fold (places_list x cs (S i)).
        set (k := List.length (places x c)).
        assert (E : (if k <=? buf then buf - k else 0) = buf - k) by (destruct (Nat.leb_spec k buf); lia). rewrite E. clear E.
        fold (gv_list x cs (S i) (buf - k) (res + k) off). rewrite IH'.
        assert (Lu : List.length (under i (places x c)) = k) by (unfold under; apply map_length).
        rewrite app_length, firstn_app, Lu, firstn_under, numbered_app, numbered_under. f_equal; [lia|]. f_equal.
        destruct (le_lt_dec k buf) as [L|L].
        + f_equal. unfold under. rewrite map_length, firstn_length. change (List.length (places x c)) with k. lia.
        + replace (buf - k) with 0 by lia. reflexivity. }
    rewrite K. simpl. rewrite Nat.add_0_r. reflexivity.
Qed.
Lemma places_spec : forall x n p, In p (places x n) <-> exists i t, subtree n p = Some (NVar x i t).
Proof.
  intros x. induction n as [v t|y i t|op cs t IH] using node_ind'; intros p.
  - simpl. split; [tauto|]. intros (i & u & H). destruct p; discriminate.
  - simpl. destruct (name_dec x y); subst; simpl.
    + split. { intros [<-|[]]. simpl. eauto. } intros (j & u & H). destruct p; [auto|discriminate].
    + split; [tauto|]. intros (j & u & H). destruct p; simpl in H; inversion H; congruence.
  - change (In p (places_list x cs 0) <-> exists i u, subtree (NOp op cs t) p = Some (NVar x i u)).
    assert (K : forall i, In p (places_list x cs i) <-> exists k q c, p = (i + k) :: q /\ nth_error cs k = Some c /\ In q (places x c)).
    { clear. induction cs as [|c cs IH]; intros i.
      - simpl. split; [tauto|]. intros (k & q & c & _ & H & _). destruct k; discriminate.
      - cbn [places_list]. fold (places_list x cs (S i)). rewrite in_app_iff, IH. unfold under. rewrite in_map_iff. split.
        + intros [(q & <- & H)|(k & q & c' & -> & H1 & H2)].
          * exists 0, q, c. rewrite Nat.add_0_r. auto.
          * exists (S k), q, c'. split; [f_equal; lia|auto].
        + intros (k & q & c' & -> & H1 & H2). destruct k as [|k].
          * left. exists q. simpl in H1. inversion H1; subst. rewrite Nat.add_0_r. auto.
          * right. exists k, q, c'. split; [f_equal; lia|auto]. }
    rewrite K. split.
    + intros (k & q & c & -> & H1 & H2). simpl. rewrite H1. rewrite Forall_forall in IH. apply (IH c); auto. eapply nth_error_In; eauto.
    + intros (i & u & H). destruct p as [|k q]; [discriminate|]. simpl in H. destruct (nth_error cs k) as [c|] eqn:E; [|discriminate].
      exists k, q, c. split; auto. split; auto. rewrite Forall_forall in IH. apply (IH c); eauto using nth_error_In.
Qed.
Lemma places_NoDup : forall x n, NoDup (places x n).
Proof.
  intros x. induction n as [v t|y i t|op cs t IH] using node_ind'.
  - constructor.
  - simpl. destruct (name_dec x y); repeat constructor. simpl; tauto.
  - change (NoDup (places_list x cs 0)). generalize 0. induction IH as [|c cs Hc F IH']; intros i; [constructor|].
    cbn [places_list]. fold (places_list x cs (S i)).
    assert (Lo : forall cs i p, In p (places_list x cs i) -> exists k q, p = k :: q /\ i <= k).
    { clear. induction cs as [|c cs IH]; intros i p H; [contradiction|]. cbn [places_list] in H. fold (places_list x cs (S i)) in H.
      apply in_app_or in H. destruct H as [H|H].
      - unfold under in H. apply in_map_iff in H. destruct H as (q & <- & _). eauto.
      - destruct (IH _ _ H) as (k & q & -> & L). exists k, q. split; auto. lia. }
    assert (NA : forall (A : Type) (l m : list A), NoDup l -> NoDup m -> (forall a, In a l -> In a m -> False) -> NoDup (l ++ m)).
    { clear. intros A l m N. induction N as [|a l Hn N IH]; intros M D; auto. simpl. constructor.
      - intros H. apply in_app_or in H. destruct H as [H|H]; [contradiction|]. apply (D a); simpl; auto.
      - apply IH; auto. intros b H1 H2. apply (D b); simpl; auto. }
    apply NA; [apply FinFun.Injective_map_NoDup; auto; intros a b H; inversion H; auto|apply IH'|].
    intros p H1 H2. unfold under in H1. apply in_map_iff in H1. destruct H1 as (q & <- & _). destruct (Lo _ _ _ H2) as (k & q' & E & L). inversion E; subst. lia.
Qed.
