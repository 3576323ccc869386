(** Lemmas on the meaning of expressions: replacing a subtree, patterns and their instances *)
From Coq Require Import Reals Lra.
From Coquelicot Require Import Coquelicot.
From Flocq Require Import Core.
From Coq Require Import List Ascii String NArith ZArith Bool Lia Arith.
From Coq.Floats Require Import SpecFloat.
From Verif Require Import M_Base M_Tree M_Context M_TreeUtil M_Match S_Tree S_Match L_MatchRule S_Eval S_Simplify.
Import ListNotations.
Open Scope list_scope.
Open Scope R_scope.

Section M.
Variable F : others.
Notation value := (value F).
Notation defined := (defined F).

Lemma all_Forall : forall (P : node -> Prop) cs,
  (fix all (l : list node) : Prop := match l with [] => True | c :: l' => P c /\ all l' end) cs <-> Forall P cs.
Proof. intros P cs. induction cs as [|c cs IH]; split; intros H; auto; [|inversion H; subst; tauto]. destruct H. constructor; tauto. Qed.

Lemma value_other : forall op cs t env, o_id op <> 2%nat -> o_id op <> 3%nat ->
  value (NOp op cs t) env = opval F (o_id op) (map (fun c => value c env) cs).
Proof. intros op cs t env A B. cbn [S_Simplify.value]. destruct (o_id op) as [|[|[|[|k]]]]; congruence || reflexivity. Qed.
Lemma defined_other : forall op cs t env, o_id op <> 2%nat -> o_id op <> 3%nat ->
  (defined (NOp op cs t) env <-> Forall (fun c => defined c env) cs /\ opdom F (o_id op) (map (fun c => value c env) cs)).
Proof.
  intros op cs t env A B. cbn [S_Simplify.defined].
  assert (X := all_Forall (fun c => defined c env) cs).
  destruct (o_id op) as [|[|[|[|k]]]]; try congruence; rewrite <- X; reflexivity.
Qed.
Lemma value_2 : forall op e t env, o_id op = 2%nat ->
  value (NOp op [e] t) env = match var_names e with [] => 0 | x :: _ => Derive (fun t => value e (upd env x t)) (env x) end.
Proof. intros op e t env A. cbn [S_Simplify.value]. rewrite A. reflexivity. Qed.
Lemma defined_2 : forall op cs t env, o_id op = 2%nat -> defined (NOp op cs t) env -> exists e, cs = [e].
Proof. intros op cs t env A H. cbn [S_Simplify.defined] in H. rewrite A in H. destruct cs as [|e [|]]; try easy. eauto. Qed.
Lemma defined_2' : forall op e t env, o_id op = 2%nat -> defined (NOp op [e] t) env =
  match var_names e with [] => defined e env
  | x :: xs => Forall (eq x) xs /\ locally (env x) (fun t => defined e (upd env x t)) /\ ex_derive (fun t => value e (upd env x t)) (env x) end.
Proof. intros op e t env A. cbn [S_Simplify.defined]. rewrite A. reflexivity. Qed.
Lemma value_3 : forall op e x i t' t env, o_id op = 3%nat ->
  value (NOp op [e; NVar x i t'] t) env = Derive (fun t => value e (upd env x t)) (env x).
Proof. intros op e x i t' t env A. cbn [S_Simplify.value]. rewrite A. reflexivity. Qed.
Lemma defined_3 : forall op cs t env, o_id op = 3%nat -> defined (NOp op cs t) env -> exists e x i t', cs = [e; NVar x i t'].
Proof. intros op cs t env A H. cbn [S_Simplify.defined] in H. rewrite A in H. destruct cs as [|e [|[| |] [|]]]; try easy. eauto. Qed.
Lemma defined_3' : forall op e x i t' t env, o_id op = 3%nat -> defined (NOp op [e; NVar x i t'] t) env =
  (locally (env x) (fun t => defined e (upd env x t)) /\ ex_derive (fun t => value e (upd env x t)) (env x)).
Proof. intros op e x i t' t env A. cbn [S_Simplify.defined]. rewrite A. reflexivity. Qed.

Lemma upd_same : forall env x t, upd env x t x = t.
Proof. intros. unfold upd. destruct (name_dec x x); congruence. Qed.
Lemma upd_other : forall env x y t, y <> x -> upd env x t y = env y.
Proof. intros. unfold upd. destruct (name_dec y x); congruence. Qed.
Lemma upd_id : forall env x y, upd env x (env x) y = env y.
Proof. intros. unfold upd. destruct (name_dec y x); congruence. Qed.

(** Only the variables that occur matter. *)
Lemma indep : forall n env env', (forall x, In x (var_names n) -> env x = env' x) ->
  value n env = value n env' /\ (defined n env <-> defined n env').
Proof.
  intros n. induction n as [v t|x i t|op cs t IH] using node_ind'; intros env env' H.
  - split; reflexivity.
  - split; [apply H; left; reflexivity|reflexivity].
  - assert (U : forall e x, In e cs -> (forall y, In y (var_names e) -> In y (var_names (NOp op cs t))) ->
      (forall s, value e (upd env x s) = value e (upd env' x s) /\ (defined e (upd env x s) <-> defined e (upd env' x s)))).
    { intros e x I S s. rewrite Forall_forall in IH. apply IH; auto. intros y Iy.
      unfold upd. destruct (name_dec y x); auto. }
    assert (D1 : forall e x, In e cs -> env x = env' x -> (forall y, In y (var_names e) -> In y (var_names (NOp op cs t))) ->
       Derive (fun s => value e (upd env x s)) (env x) = Derive (fun s => value e (upd env' x s)) (env' x)
       /\ (locally (env x) (fun s => defined e (upd env x s)) <-> locally (env' x) (fun s => defined e (upd env' x s)))
       /\ (ex_derive (fun s => value e (upd env x s)) (env x) <-> ex_derive (fun s => value e (upd env' x s)) (env' x))).
    { intros e x I Ex S. rewrite Ex. specialize (U e x I S). split; [|split].
      - apply Derive_ext. intros s. apply U.
      - split; apply filter_imp; intros s; apply U.
      - split; apply ex_derive_ext; intros s; destruct (U s); congruence. }
    destruct (Nat.eq_dec (o_id op) 2) as [E2|N2]; [|destruct (Nat.eq_dec (o_id op) 3) as [E3|N3]].
    + destruct cs as [|e [|e2 cs']].
      * cbn [S_Simplify.value S_Simplify.defined]. rewrite E2. split; reflexivity.
      * rewrite !value_2, !defined_2' by auto. destruct (var_names e) as [|x xs] eqn:Ve.
        { split; auto. inversion IH; subst. apply H2. rewrite Ve. simpl. tauto. }
        assert (S : forall y, In y (var_names e) -> In y (var_names (NOp op [e] t))).
        { intros y. cbn [var_names flat_map]. rewrite app_nil_r. auto. }
        destruct (D1 e x) as (Da & Db & Dc); auto; [left; auto| |].
        { apply H. apply S. rewrite Ve. left; auto. }
        split; auto. tauto.
      * split; [|cbn [S_Simplify.defined]; rewrite E2; reflexivity].
        cbn [S_Simplify.value]. rewrite E2. f_equal. apply map_ext_in. intros c Ic. rewrite Forall_forall in IH. apply IH; auto.
        intros y Iy. apply H. cbn [var_names]. apply in_flat_map. eauto.
    + destruct (match cs with [e; NVar x i t'] => true | _ => false end) eqn:Sh.
      * destruct cs as [|e [|[|x i t'|] [|]]]; try discriminate Sh. rewrite !value_3, !defined_3' by auto.
        destruct (D1 e x) as (Da & Db & Dc); auto; [left; auto| | |].
        { apply H. cbn [var_names flat_map]. rewrite in_app_iff. simpl. auto. }
        { intros y Iy. cbn [var_names flat_map]. rewrite in_app_iff. auto. }
        split; auto. tauto.
      * assert (V : forall env, value (NOp op cs t) env = opval F 3 (map (fun c => value c env) cs) /\ (defined (NOp op cs t) env <-> False)).
        { intros env0. cbn [S_Simplify.value S_Simplify.defined]. rewrite E3. destruct cs as [|e [|[|x i t'|] [|]]]; try discriminate Sh; split; try reflexivity. }
        destruct (V env) as [-> ->]. destruct (V env') as [-> ->]. split; [|reflexivity]. f_equal. apply map_ext_in. intros c Ic. rewrite Forall_forall in IH. apply IH; auto.
        intros y Iy. apply H. cbn [var_names]. apply in_flat_map. eauto.
    + rewrite !value_other, !defined_other by auto.
      assert (X : forall c, In c cs -> value c env = value c env' /\ (defined c env <-> defined c env')).
      { intros c Ic. rewrite Forall_forall in IH. apply IH; auto. intros y Iy. apply H. cbn [var_names]. apply in_flat_map. eauto. }
      assert (E : map (fun c => value c env) cs = map (fun c => value c env') cs) by (apply map_ext_in; intros c Ic; apply X; auto).
      rewrite E. split; auto. rewrite !Forall_forall. split; intros [A B]; split; auto; intros c Ic; apply X; auto.
Qed.
Lemma indep_upd : forall n env x t, ~ In x (var_names n) -> value n (upd env x t) = value n env /\ (defined n (upd env x t) <-> defined n env).
Proof. intros n env x t H. apply indep. intros y Iy. apply upd_other. congruence. Qed.
Lemma at_same : forall n env x, value n (upd env x (env x)) = value n env /\ (defined n (upd env x (env x)) <-> defined n env).
Proof. intros n env x. apply indep. intros y _. apply upd_id. Qed.

Definition is_var (n : node) : bool := match n with NVar _ _ _ => true | _ => false end.
(** no operator number 2 *)
Fixpoint quote_free (n : node) : bool :=
  match n with NOp op cs _ => negb (o_id op =? 2)%nat && forallb quote_free cs | _ => true end.

Definition keep (t u : node) : Prop := forall env, defined t env -> defined u env /\ value u env = value t env.
Definition agre (t u : node) : Prop := forall env, defined t env -> defined u env -> value u env = value t env.
Lemma keep_means : forall t u, keep t u <-> keeps_value F t u.
Proof.
  intros t u. split.
  - intros H env v [D V]. destruct (H env D). split; congruence.
  - intros H env D. apply (H env (value t env)). split; auto.
Qed.
Lemma agre_means : forall t u, agre t u <-> agrees F t u.
Proof.
  intros t u. split.
  - intros H env v v' [D V] [D' V']. specialize (H env D D'). congruence.
  - intros H env D D'. symmetry. eapply (H env); split; eauto.
Qed.
Lemma replaced_incl : forall q a b t u, replaced q a b t u -> incl (var_names b) (var_names a) -> incl (var_names u) (var_names t).
Proof.
  intros q a b t u R I. induction R; auto. cbn [var_names]. rewrite !flat_map_app. cbn [flat_map].
  intros y Iy. rewrite !in_app_iff in *. destruct Iy as [Iy|[Iy|Iy]]; auto. right. left. apply IHR; auto.
Qed.
Lemma replaced_quote : forall q a b t u, replaced q a b t u -> quote_free t = true -> quote_free a = true.
Proof.
  intros q a b t u R. induction R; auto. cbn [quote_free]. rewrite andb_true_iff, forallb_app. cbn [forallb]. rewrite !andb_true_iff. tauto.
Qed.
Lemma var_sub_cases : forall x (xs ys : list cstr), Forall (eq x) xs -> incl ys (x :: xs) -> ys = [] \/ exists zs, ys = x :: zs /\ Forall (eq x) zs.
Proof.
  intros x xs ys F1 I. destruct ys as [|y ys]; auto. right.
  assert (A : forall z, In z (y :: ys) -> x = z). { intros z Iz. destruct (I z Iz); auto. rewrite Forall_forall in F1. auto. }
  assert (x = y) by (apply A; left; auto). subst y. exists ys. split; auto. apply Forall_forall. intros z Iz. apply A. right. auto.
Qed.

Lemma split_one : forall {A} l (c : A) r e, l ++ c :: r = [e] -> l = [] /\ c = e /\ r = [].
Proof. intros A l c r e H. destruct l as [|a l]; simpl in H; [injection H; auto|]. destruct l; discriminate H. Qed.
Lemma split_two : forall {A} l (c : A) r e f, l ++ c :: r = [e; f] -> (l = [] /\ c = e /\ r = [f]) \/ (l = [e] /\ c = f /\ r = []).
Proof.
  intros A l c r e f H. destruct l as [|a l]; simpl in H. { injection H as -> ->. auto. }
  injection H as -> H. right. apply split_one in H. destruct H as (-> & -> & ->). auto.
Qed.
Lemma replaced_var : forall q a b x i t u, replaced q a b (NVar x i t) u -> is_var a = true.
Proof. intros q a b x i t u R. inversion R; subst. reflexivity. Qed.

Lemma keep_cong : forall q a b t u, keep a b -> is_var a = false -> replaced q a b t u ->
  (incl (var_names b) (var_names a) \/ quote_free t = true) -> keep t u.
Proof.
  intros q a b t u K Nv R. induction R as [a b|i q a b op l c r t d Li R IH]; intros I; auto. specialize (IH K Nv).
  assert (I' : incl (var_names b) (var_names a) \/ quote_free c = true).
  { destruct I as [I|I]; auto. right. cbn [quote_free] in I. rewrite andb_true_iff, forallb_app in I. cbn [forallb] in I. rewrite !andb_true_iff in I. tauto. }
  specialize (IH I'). intros env D.
  destruct (Nat.eq_dec (o_id op) 2) as [E2|N2]; [|destruct (Nat.eq_dec (o_id op) 3) as [E3|N3]].
  - destruct (defined_2 _ _ _ _ E2 D) as [e He]. destruct (split_one _ _ _ _ He) as (-> & -> & ->). cbn [app] in *.
    assert (Ib : incl (var_names b) (var_names a)). { destruct I as [I|I]; auto. cbn [quote_free] in I. rewrite E2 in I. discriminate I. }
    assert (Id := replaced_incl _ _ _ _ _ R Ib).
    rewrite !value_2 by auto. rewrite !defined_2' in * by auto.
    destruct (var_names e) as [|x xs] eqn:Ve.
    + destruct (var_names d) as [|y ys]; [|exfalso; eapply Id; left; reflexivity]. split; auto. apply IH; auto.
    + destruct D as (Fx & Dx & Ex).
      assert (LE : locally (env x) (fun s => value e (upd env x s) = value d (upd env x s))).
      { revert Dx. apply filter_imp. intros s Ds. symmetry. apply (IH _ Ds). }
      destruct (var_sub_cases _ _ _ Fx Id) as [Vd|(zs & Vd & Fz)]; rewrite Vd.
      * split. { apply (at_same d env x). apply IH. apply locally_singleton in Dx. exact Dx. }
        symmetry. etransitivity. { apply Derive_ext_loc. exact LE. }
        etransitivity; [|apply (Derive_const (value d env) (env x))]. apply Derive_ext.
        intros s. apply indep_upd. rewrite Vd. simpl. tauto.
      * split; [split; [auto|split]|].
        -- revert Dx. apply filter_imp. intros s Ds. apply (IH _ Ds).
        -- eapply ex_derive_ext_loc; [exact LE|exact Ex].
        -- symmetry. apply Derive_ext_loc. exact LE.
  - destruct (defined_3 _ _ _ _ E3 D) as (e & x & i0 & t0 & He).
    destruct (split_two _ _ _ _ _ He) as [(-> & -> & ->)|(-> & -> & ->)].
    + cbn [app] in *. rewrite !value_3 by auto. rewrite !defined_3' in * by auto. destruct D as (Dx & Ex).
      assert (LE : locally (env x) (fun s => value e (upd env x s) = value d (upd env x s))).
      { revert Dx. apply filter_imp. intros s Ds. symmetry. apply (IH _ Ds). }
      split; [split|].
      * revert Dx. apply filter_imp. intros s Ds. apply (IH _ Ds).
      * eapply ex_derive_ext_loc; [exact LE|exact Ex].
      * symmetry. apply Derive_ext_loc. exact LE.
    + apply replaced_var in R. congruence.
  - rewrite value_other, value_other by auto. rewrite defined_other in * by auto. destruct D as [A B].
    apply Forall_app in A. destruct A as [Al A]. inversion A as [|? ? Ac Ar]; subst. destruct (IH env Ac) as [Dd Vd].
    rewrite !map_app in *. cbn [map] in *. rewrite Vd. split; auto. split; auto. apply Forall_app. split; auto.
Qed.
Lemma agre_cong : forall q a b t u, agre a b -> is_var a = false -> replaced q a b t u ->
  (incl (var_names b) (var_names a) \/ quote_free t = true) -> agre t u.
Proof.
  intros q a b t u K Nv R. induction R as [a b|i q a b op l c r t d Li R IH]; intros I; auto. specialize (IH K Nv).
  assert (I' : incl (var_names b) (var_names a) \/ quote_free c = true).
  { destruct I as [I|I]; auto. right. cbn [quote_free] in I. rewrite andb_true_iff, forallb_app in I. cbn [forallb] in I. rewrite !andb_true_iff in I. tauto. }
  specialize (IH I'). intros env D D'.
  destruct (Nat.eq_dec (o_id op) 2) as [E2|N2]; [|destruct (Nat.eq_dec (o_id op) 3) as [E3|N3]].
  - destruct (defined_2 _ _ _ _ E2 D) as [e He]. destruct (split_one _ _ _ _ He) as (-> & -> & ->). cbn [app] in *.
    assert (Ib : incl (var_names b) (var_names a)). { destruct I as [I|I]; auto. cbn [quote_free] in I. rewrite E2 in I. discriminate I. }
    assert (Id := replaced_incl _ _ _ _ _ R Ib).
    rewrite !value_2 by auto. rewrite !defined_2' in * by auto.
    destruct (var_names e) as [|x xs] eqn:Ve.
    + destruct (var_names d) as [|y ys]; [|exfalso; eapply Id; left; reflexivity]. reflexivity.
    + destruct D as (Fx & Dx & Ex).
      destruct (var_sub_cases _ _ _ Fx Id) as [Vd|(zs & Vd & Fz)]; rewrite Vd in *.
      * assert (LE : locally (env x) (fun s => value e (upd env x s) = value d (upd env x s))).
        { revert Dx. apply filter_imp. intros s Ds. symmetry. apply IH; auto. apply indep_upd; auto. rewrite Vd. simpl. tauto. }
        symmetry. etransitivity. { apply Derive_ext_loc. exact LE. }
        etransitivity; [|apply (Derive_const (value d env) (env x))]. apply Derive_ext.
        intros s. apply indep_upd. rewrite Vd. simpl. tauto.
      * destruct D' as (_ & Dx' & _). symmetry. apply Derive_ext_loc.
        generalize (filter_and _ _ Dx Dx'). apply filter_imp. intros s [D1 D2]. symmetry. apply IH; auto.
  - destruct (defined_3 _ _ _ _ E3 D) as (e & x & i0 & t0 & He).
    destruct (split_two _ _ _ _ _ He) as [(-> & -> & ->)|(-> & -> & ->)].
    + cbn [app] in *. rewrite !value_3 by auto. rewrite !defined_3' in * by auto. destruct D as (Dx & Ex). destruct D' as (Dx' & Ex').
      symmetry. apply Derive_ext_loc. generalize (filter_and _ _ Dx Dx'). apply filter_imp. intros s [D1 D2]. symmetry. apply IH; auto.
    + apply replaced_var in R. congruence.
  - rewrite value_other, value_other by auto. rewrite defined_other in * by auto. destruct D as [A B]. destruct D' as [A' B'].
    apply Forall_app in A. destruct A as [Al A]. inversion A as [|? ? Ac Ar]; subst.
    apply Forall_app in A'. destruct A' as [Al' A']. inversion A' as [|? ? Ac' Ar']; subst.
    rewrite !map_app. cbn [map]. rewrite (IH env Ac Ac'). reflexivity.
Qed.

(** Alike trees mean the same. *)
Lemma alike_const : forall v w, v = w \/ deqb v w = true -> val v = val w /\ (finite v <-> finite w).
Proof.
  intros v w [->|H]; [split; reflexivity|]. unfold deqb, SFeqb in H.
  destruct v as [s|s| |s m e], w as [s'|s'| |s' m' e']; try (vm_compute in H; repeat match goal with s : bool |- _ => destruct s end; discriminate H); try (split; simpl; tauto).
  - simpl in H. destruct s, s'; try discriminate H; destruct (Z.compare_spec e e'); try discriminate H; subst;
      destruct (Pos.compare_cont Eq m m') eqn:C; try discriminate H; apply Pos.compare_eq in C; subst; split; reflexivity.
Qed.
Lemma alike_sem : forall a b, alike a b -> forall env, value a env = value b env /\ (defined a env <-> defined b env).
Proof.
  intros a. induction a as [v t|x i t|op cs t IH] using node_ind'; intros b A; inversion A as [? w ? u Hv|? ? ? u|? op' ? ds ? u Hid Hcs]; subst; intros env.
  - destruct (alike_const _ _ Hv). split; auto.
  - split; reflexivity.
  - destruct (Nat.eq_dec (o_id op) 2) as [E2|N2]; [|destruct (Nat.eq_dec (o_id op) 3) as [E3|N3]].
    + assert (E2' : o_id op' = 2%nat) by congruence.
      destruct cs as [|e [|e2 cs']]; inversion Hcs as [|? d ? ds' He Hr]; subst.
      * cbn [S_Simplify.value S_Simplify.defined]. rewrite E2, E2'. split; reflexivity.
      * inversion Hr; subst. rewrite !value_2, !defined_2' by auto. inversion IH as [|? ? IHe _]; subst. specialize (IHe _ He).
        rewrite (alike_names _ _ He). destruct (var_names d) as [|x xs]. { split; auto. apply IHe. }
        split. { apply Derive_ext. intros s. apply IHe. }
        assert (locally (env x) (fun t0 => defined e (upd env x t0)) <-> locally (env x) (fun t0 => defined d (upd env x t0))) by (split; apply filter_imp; intros s; apply IHe).
        assert (ex_derive (fun t0 => value e (upd env x t0)) (env x) <-> ex_derive (fun t0 => value d (upd env x t0)) (env x)).
        { split; apply ex_derive_ext; intros s; destruct (IHe (upd env x s)); congruence. }
        tauto.
      * inversion Hr; subst. split; [|cbn [S_Simplify.defined]; rewrite E2, E2'; reflexivity].
        cbn [S_Simplify.value]. rewrite E2, E2'. f_equal. clear -IH Hcs. induction Hcs; auto. inversion IH; subst. simpl. f_equal; auto. apply H2. auto.
    + assert (E3' : o_id op' = 3%nat) by congruence.
      destruct (match cs with [e; NVar x i t'] => true | _ => false end) eqn:Sh.
      * destruct cs as [|e [|[|x i t'|] [|]]]; try discriminate Sh. inversion Hcs as [|? d ? ds' He Hr]; subst. inversion Hr as [|? d2 ? ds2 Hv Hr2]; subst. inversion Hr2; subst. inversion Hv; subst.
        rewrite !value_3, !defined_3' by auto. inversion IH as [|? ? IHe _]; subst. specialize (IHe _ He).
        split. { apply Derive_ext. intros s. apply IHe. }
        assert (locally (env x) (fun t0 => defined e (upd env x t0)) <-> locally (env x) (fun t0 => defined d (upd env x t0))) by (split; apply filter_imp; intros s; apply IHe).
        assert (ex_derive (fun t0 => value e (upd env x t0)) (env x) <-> ex_derive (fun t0 => value d (upd env x t0)) (env x)).
        { split; apply ex_derive_ext; intros s; destruct (IHe (upd env x s)); congruence. }
        tauto.
      * assert (Sh' : match ds with [e; NVar x i t'] => true | _ => false end = false).
        { clear - Sh Hcs. inversion Hcs as [|? ? ? ? ? H2]; subst; auto. inversion H2 as [|? ? ? ? A H3]; subst; auto. inversion A; subst; auto. inversion H3; subst; auto. }
        assert (V : forall op cs t env, o_id op = 3%nat -> match cs with [e; NVar x i t'] => true | _ => false end = false ->
          value (NOp op cs t) env = opval F 3 (map (fun c => value c env) cs) /\ (defined (NOp op cs t) env <-> False)).
        { clear. intros op cs t env0 E3 Sh. cbn [S_Simplify.value S_Simplify.defined]. rewrite E3. destruct cs as [|e [|[|x i t'|] [|]]]; try discriminate Sh; split; try reflexivity. }
        destruct (V op cs t env E3 Sh) as [-> ->]. destruct (V op' ds u env E3' Sh') as [-> ->]. split; [|reflexivity]. f_equal.
        clear -IH Hcs. induction Hcs; auto. inversion IH; subst. simpl. f_equal; auto. apply H2. auto.
    + rewrite !value_other, !defined_other by congruence. rewrite Hid.
      assert (E : map (fun c => value c env) cs = map (fun c => value c env) ds).
      { clear -IH Hcs. induction Hcs; auto. inversion IH; subst. simpl. f_equal; auto. apply H2. auto. }
      rewrite E. split; auto.
      assert (Forall (fun c => defined c env) cs <-> Forall (fun c => defined c env) ds); [|tauto].
      clear -IH Hcs. induction Hcs; [tauto|]. inversion IH; subst. rewrite !Forall_cons_iff, IHHcs by auto. rewrite (proj2 (H2 _ H env)). tauto.
Qed.
End M.
