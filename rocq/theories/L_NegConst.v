(** replace_negative_consts (simplification.c:45-67) does not change what a tree evaluates to. *)
From Coq Require Import Reals Lra.
From Coquelicot Require Import Coquelicot.
From Flocq Require Import Core.
From Coq Require Import List Ascii String NArith ZArith Bool Lia Arith.
From Coq.Floats Require Import SpecFloat.
From Verif Require Import M_Base M_Tree M_Context M_TreeUtil M_Double M_Eval M_Simplify S_Tree L_Tree S_Eval S_Simplify L_Simplify.
Import ListNotations.
Open Scope list_scope.
Open Scope nat_scope.

Section Red.
Variables (L : libm) (fuel : nat).
Notation lis := (arith_listener L fuel).
Definition alive (s : lworld) : Prop := match s with Done (Ok _) => True | _ => False end.

(** The operands of a node, from left to right *)
Fixpoint reduce_all (l : list node) (i : nat) (s : lworld) (args : list double) : lworld * (list double + Z * path) :=
  match l with
  | [] => (s, inl args)
  | c :: l' =>
    let '(s', r) := tree_reduce lis s c in
    match r with
    | RVal v => reduce_all l' (S i) s' (args ++ [v])
    | RFail e p => (s', inr (e, i :: p))
    end
  end.
Lemma reduce_op : forall s op cs t, tree_reduce lis s (NOp op cs t) =
  let '(s', r) := reduce_all cs 0 s [] in
  match r with
  | inr (e, p) => (s', RFail e p)
  | inl args => let '(s'', (e, v)) := lis s' op args in if (e =? 0)%Z then (s'', RVal v) else (s'', RFail e [])
  end.
Proof. reflexivity. Qed.
Lemma lis_stuck : forall s op args, ~ alive s -> lis s op args = (s, (0%Z, d0)).
Proof. intros [[w| |]|] op args H; simpl in *; tauto. Qed.
Lemma stuck : forall n s, ~ alive s -> fst (tree_reduce lis s n) = s.
Proof.
  induction n as [v t|x i t|op cs t IH] using node_ind'; intros s H; auto. rewrite reduce_op.
  assert (G : forall l, Forall (fun n => forall s, ~ alive s -> fst (tree_reduce lis s n) = s) l -> forall i args, fst (reduce_all l i s args) = s).
  { intros l F. induction F as [|c l Hc F IHF]; intros i args; auto. simpl. specialize (Hc s H). destruct (tree_reduce lis s c) as [s' r]. simpl in Hc. subst s'.
    destruct r; auto. }
  specialize (G cs IH 0 []). destruct (reduce_all cs 0 s []) as [s' r]. simpl in G. subst s'. destruct r as [args|[e p]]; auto.
  rewrite lis_stuck by auto. auto.
Qed.
Definition like {A} (same : A -> A -> Prop) (a b : lworld * A) : Prop := fst a = fst b /\ (alive (fst a) -> same (snd a) (snd b)).
Definition same_args (a b : list double + Z * path) : Prop :=
  match a, b with inl x, inl y => x = y | inr (e, _), inr (e', _) => e = e' | _, _ => False end.
Lemma alive_dec : forall s, alive s \/ ~ alive s.
Proof. intros [[w| |]|]; simpl; tauto. Qed.
Lemma stuck_all : forall l i s args, ~ alive s -> fst (reduce_all l i s args) = s.
Proof.
  induction l as [|c l IH]; intros i s args H; auto. simpl. pose proof (stuck c s H) as G. destruct (tree_reduce lis s c) as [s' r]. simpl in G. subst s'. destruct r; auto.
Qed.

Variables (minus : operator) (e : cstr -> double).
Hypothesis Minus : o_id minus = 12.
Lemma minus_lis : forall w a, lis (Done (Ok w)) minus [a] = (Done (Ok w), (0%Z, dneg a)).
Proof. intros w a. unfold arith_listener, arith_op_evaluate. rewrite Minus. reflexivity. Qed.
Lemma neg_abs : forall v, dltb v d0 = true -> dneg (fabs v) = v.
Proof. intros [[]|[]| |[] m x] H; try discriminate H; reflexivity. Qed.

Lemma same_reduce : forall n s, like same_result (tree_reduce lis s (assigned e n)) (tree_reduce lis s (assigned e (replace_negative_consts minus n))).
Proof.
  induction n as [v t|x i t|op cs t IH] using node_ind'; intros s.
  - cbn [assigned replace_negative_consts]. destruct (dltb v d0) eqn:E; [|split; simpl; auto]. cbn [assigned map]. rewrite reduce_op. cbn [reduce_all tree_reduce app].
    destruct s as [[w| |]|]; try (split; simpl; tauto). rewrite minus_lis. split; simpl; auto. intros _. symmetry. apply neg_abs; auto.
  - split; simpl; auto.
  - cbn [assigned replace_negative_consts]. rewrite !reduce_op.
    assert (G : forall l, Forall (fun n => forall s, like same_result (tree_reduce lis s (assigned e n)) (tree_reduce lis s (assigned e (replace_negative_consts minus n)))) l ->
      forall i s args, like same_args (reduce_all (map (assigned e) l) i s args) (reduce_all (map (assigned e) (map (replace_negative_consts minus) l)) i s args)).
    { intros l F. induction F as [|c l Hc F IHF]; intros i s0 args; [split; simpl; auto|]. cbn [map reduce_all]. specialize (Hc s0).
      destruct (tree_reduce lis s0 (assigned e c)) as [s1 r1]. destruct (tree_reduce lis s0 (assigned e (replace_negative_consts minus c))) as [s2 r2].
      destruct Hc as [E H]. simpl in E, H. subst s2. destruct (alive_dec s1) as [A|A].
      - specialize (H A). destruct r1, r2; simpl in H; try contradiction; subst; [apply IHF|split; simpl; auto].
      - split.
        + destruct r1, r2; simpl; rewrite ?stuck_all by auto; reflexivity.
        + intros A'. exfalso. apply A. destruct r1; simpl in A'; rewrite ?stuck_all in A' by auto; auto. }
    specialize (G cs IH 0 s []). destruct (reduce_all (map (assigned e) cs) 0 s []) as [s1 r1].
    destruct (reduce_all (map (assigned e) (map (replace_negative_consts minus) cs)) 0 s []) as [s2 r2].
    destruct G as [E H]. simpl in E, H. subst s2. destruct (alive_dec s1) as [A|A].
    + specialize (H A). destruct r1 as [a|[e1 p1]], r2 as [b|[e2 p2]]; simpl in H; try contradiction; subst.
      * destruct (lis s1 op b) as [s3 [e3 v3]]. destruct (e3 =? 0)%Z; split; simpl; auto.
      * split; simpl; auto.
    + assert (X : forall r, fst (match r with
         | inl args => let '(s'', (e, v)) := lis s1 op args in if (e =? 0)%Z then (s'', RVal v) else (s'', RFail e []) | inr (e, p) => (s1, RFail e p) end) = s1).
      { intros [a|[e1 p1]]; simpl; auto. rewrite lis_stuck by auto. reflexivity. }
      pose proof (X r1) as X1. pose proof (X r2) as X2. split; [etransitivity; [exact X1|symmetry; exact X2]|]. intros A'. exfalso. apply A. rewrite <- X1. exact A'.
Qed.
End Red.

Section Real.
Variable F : others.
Variable minus : operator.
Hypothesis Minus : o_id minus = 12.
Notation value := (value F).
Notation defined := (defined F).
Notation rnc := (replace_negative_consts minus).
Lemma rnc_names : forall n, var_names (rnc n) = var_names n.
Proof.
  induction n as [v t|x i t|op cs t IH] using node_ind'; auto.
  - cbn [replace_negative_consts]. destruct (dltb v d0); reflexivity.
  - cbn [replace_negative_consts var_names]. induction IH; auto. cbn [map flat_map]. rewrite H, IHIH. reflexivity.
Qed.
Lemma rnc_sem : forall n env, value (rnc n) env = value n env /\ (defined (rnc n) env <-> defined n env).
Proof.
  induction n as [v t|x i t|op cs t IH] using node_ind'; intros env.
  - cbn [replace_negative_consts]. destruct (dltb v d0) eqn:E; [|split; reflexivity]. rewrite value_other, defined_other by (rewrite Minus; discriminate).
    rewrite Minus. cbn [map opval opdom on1 S_Simplify.value]. split.
    + destruct v as [[]|[]| |[] m x]; try discriminate E; simpl; try lra. rewrite Ropp_mult_distr_l, <- opp_IZR. reflexivity.
    + rewrite Forall_cons_iff. cbn [S_Simplify.defined]. destruct v as [[]|[]| |[] m x]; try discriminate E; simpl; intuition auto.
  - split; reflexivity.
  - cbn [replace_negative_consts].
    assert (X : forall c, In c cs -> forall env, value (rnc c) env = value c env /\ (defined (rnc c) env <-> defined c env)).
    { intros c Ic. rewrite Forall_forall in IH. auto. }
    assert (M : forall env, map (fun c => value c env) (map rnc cs) = map (fun c => value c env) cs).
    { intros env0. rewrite map_map. apply map_ext_in. intros c Ic. apply X; auto. }
    assert (D1 : forall e x, In e cs ->
       Derive (fun s => value (rnc e) (upd env x s)) (env x) = Derive (fun s => value e (upd env x s)) (env x)
       /\ (locally (env x) (fun s => defined (rnc e) (upd env x s)) <-> locally (env x) (fun s => defined e (upd env x s)))
       /\ (ex_derive (fun s => value (rnc e) (upd env x s)) (env x) <-> ex_derive (fun s => value e (upd env x s)) (env x))).
    { intros e x I. pose proof (fun s => X e I (upd env x s)) as U. split; [|split].
      - apply Derive_ext. intros s. apply U.
      - split; apply filter_imp; intros s; apply U.
      - split; apply ex_derive_ext; intros s; destruct (U s); congruence. }
    destruct (Nat.eq_dec (o_id op) 2) as [E2|N2]; [|destruct (Nat.eq_dec (o_id op) 3) as [E3|N3]].
    + destruct cs as [|e [|e2 cs']].
      * split; reflexivity.
      * cbn [map]. rewrite !value_2, !defined_2', rnc_names by auto. destruct (var_names e) as [|x xs].
        { split; auto. apply X. left; auto. }
        destruct (D1 e x) as (Da & Db & Dc); [left; auto|]. split; auto. tauto.
      * specialize (M env). cbn [map] in M |- *. cbn [S_Simplify.value S_Simplify.defined]. rewrite E2. split; [|reflexivity]. cbn [map]. rewrite M. reflexivity.
    + assert (Sh' : match map rnc cs with [e; NVar x i t'] => true | _ => false end = match cs with [e; NVar x i t'] => true | _ => false end).
      { destruct cs as [|e [|[v t0|x i t0|o l t0] [|]]]; try reflexivity; cbn [map replace_negative_consts]; destruct (dltb v d0); reflexivity. }
      destruct (match cs with [e; NVar x i t'] => true | _ => false end) eqn:Sh.
      * destruct cs as [|e [|[|x i t'|] [|]]]; try discriminate Sh. cbn [map replace_negative_consts].
        rewrite !value_3, !defined_3' by auto. destruct (D1 e x) as (Da & Db & Dc); [left; auto|]. split; auto. tauto.
      * assert (V : forall op cs t env, o_id op = 3 -> match cs with [e; NVar x i t'] => true | _ => false end = false ->
          value (NOp op cs t) env = opval F 3 (map (fun c => value c env) cs) /\ (defined (NOp op cs t) env <-> False)).
        { clear. intros op cs t env0 E3 Sh. cbn [S_Simplify.value S_Simplify.defined]. rewrite E3. destruct cs as [|e [|[|x i t'|] [|]]]; try discriminate Sh; split; try reflexivity. }
        destruct (V op _ t env E3 Sh') as [-> ->]. destruct (V op cs t env E3 Sh) as [-> ->]. rewrite M. split; reflexivity.
    + rewrite !value_other, !defined_other by auto. rewrite M. split; auto.
      assert (Forall (fun c => defined c env) (map rnc cs) <-> Forall (fun c => defined c env) cs); [|tauto].
      rewrite Forall_map, !Forall_forall. split; intros H c Ic; apply X; auto.
Qed.
End Real.
