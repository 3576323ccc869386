(** The context in which rules are read, and the checker of constraints *)
From Coq Require Import Reals Lra.
From Coquelicot Require Import Coquelicot.
From Flocq Require Import Core.
From Coq Require Import List Ascii String NArith ZArith Bool Lia Arith.
From Coq.Floats Require Import SpecFloat.
From Verif Require Import M_Base M_LinkedList M_Trie M_Tree M_Context M_Parser M_StringUtil M_TreeUtil M_Match M_RuleParsing M_ArithCtx M_Strtod M_Double M_Eval M_Simplify S_Engine S_Tree S_Match S_Simplify S_Constraint L_Trie L_Context L_ArithCtx L_SetUp L_Tree L_SimpCheck S_Parse.
Import ListNotations.
Open Scope string_scope.
Open Scope list_scope.
Open Scope nat_scope.
Open Scope res_scope.

Definition prop_registry : registry := numbered (arith_ops ++ prop_ops).

Lemma prop_storable : Forall cop_storable (map CAdd (arith_ops ++ prop_ops)).
Proof.
  apply Forall_forall. intros o Ho. apply in_map_iff in Ho. destruct Ho as (op & <- & Ho). simpl.
  apply storableb_spec.
  assert (H : forallb (fun op => storableb (o_name op)) (arith_ops ++ prop_ops) = true) by (vm_compute; reflexivity).
  rewrite forallb_forall in H. auto.
Qed.
Lemma prop_built : Forall built_call (map CAdd (arith_ops ++ prop_ops)).
Proof.
  rewrite map_app. apply Forall_app. split; [apply arith_built|].
  unfold prop_ops. cbn [map]. repeat (apply Forall_cons); try apply Forall_nil; unfold built_call, built, op_get_constant;
    solve [left; eauto | right; left; eexists; eexists; eexists; split; [reflexivity|left; lia]
          | right; right; left; eexists; eexists; split; [reflexivity|lia] | right; right; right; eauto].
Qed.
Lemma prop_noted : forallb (fun op => noted (o_name op)) (arith_ops ++ prop_ops) = true.
Proof. vm_compute; reflexivity. Qed.
(** The order of adding does not matter here: as if all had been added at once, and no operator were implied. *)
Lemma prop_form : init_propositional_ctx =
  ('(c, ok) <- ctx_add_ops ctx_create (arith_ops ++ prop_ops) ;;
   if ok : bool then
     o <- ctx_lookup_op c (str "+=+") PInfix ;;
     '(c', _) <- ctx_set_glue_op c (option_map o_addr o) ;;
     Ok c'
   else Halt).
Proof. vm_compute. reflexivity. Qed.
Lemma prop_ctx_ok : init_propositional_ctx = Ok the_prop_ctx /\ crep the_prop_ctx prop_registry /\ ctx_glue the_prop_ctx = Ok None /\ set_up the_prop_ctx.
Proof.
  assert (D : match init_propositional_ctx with Ok c => list_iterate (S (l_count (c_list c))) (c_heap c) (c_list c) None = Ok prop_registry
      /\ ctx_glue c = Ok None | _ => False end) by (vm_compute; split; reflexivity).
  assert (K : forall c, init_propositional_ctx = Ok c -> (exists r, crep c r) /\ set_up c).
  { intros c. rewrite prop_form. generalize prop_storable, prop_built, prop_noted. generalize (arith_ops ++ prop_ops). intros ops F B N E.
    split; [exact (built_ctx_crep ops _ c F E)|exact (built_set_up ops _ c F B N E)]. }
  unfold the_prop_ctx. destruct init_propositional_ctx as [c| |]; try contradiction.
  destruct D as [D1 D2]. destruct (K c eq_refl) as ((r & C) & Su). split; [reflexivity|]. split; [|split; [exact D2|exact Su]].
  pose proof (iterate_crep c r C) as Hi. rewrite D1 in Hi. injection Hi as ->. exact C.
Qed.
Lemma prop_lookup : forall n p, ctx_lookup_op the_prop_ctx n p = Ok (reg_find prop_registry n p).
Proof. intros n p. apply lookup_crep. apply prop_ctx_ok. Qed.

Ltac known H := unfold word in H; rewrite prop_lookup in H; vm_compute in H; injection H as <-; split; reflexivity.
Lemma word_eq : forall op, word the_prop_ctx "==" PInfix op -> o_id op = 60 /\ o_addr op = 60. Proof. intros op H. known H. Qed.
Lemma word_ne : forall op, word the_prop_ctx "!=" PInfix op -> o_id op = 61 /\ o_addr op = 61. Proof. intros op H. known H. Qed.
Lemma word_type : forall op, word the_prop_ctx "type" PFunction op -> o_id op = 58 /\ o_addr op = 58. Proof. intros op H. known H. Qed.
Lemma word_equal : forall op, word the_prop_ctx "equal" PFunction op -> o_id op = 59 /\ o_addr op = 59. Proof. intros op H. known H. Qed.
Definition kind_number (k : nodekind) : nat := match k with KindConst => 62 | KindVar => 63 | KindOp => 64 end.
Lemma word_kind : forall k op, word the_prop_ctx (kind_word k) PFunction op -> o_id op = kind_number k /\ o_addr op = kind_number k.
Proof. intros [] op H; cbn [kind_word] in H; known H. Qed.
Definition sign_number (c : comparison_sign) : nat := match c with Equal => 60 | Unequal => 61 | Greater => 65 | Less => 66 | AtLeast => 67 | AtMost => 68 end.
Lemma word_sign : forall c op, word the_prop_ctx (sign_word c) PInfix op -> o_id op = sign_number c /\ o_addr op = sign_number c.
Proof. intros [] op H; cbn [sign_word] in H; known H. Qed.
Lemma word_truth : forall (b : bool) op, word the_prop_ctx (if b then "TRUE" else "FALSE") PFunction op -> o_id op = (if b then 70 else 71) /\ o_addr op = (if b then 70 else 71).
Proof. intros [] op H; known H. Qed.
Lemma word_or : forall op, word the_prop_ctx "||" PInfix op -> o_id op = 69 /\ o_addr op = 69. Proof. intros op H. known H. Qed.
Lemma word_not : forall op, word the_prop_ctx "!" PPrefix op -> o_id op = 72 /\ o_addr op = 72. Proof. intros op H. known H. Qed.

Section Check.
Variables (L : libm) (fuel : nat) (w : world).
Notation AL := (arith_listener L fuel).
Notation PL := (prop_listener L fuel).

Lemma listeners_agree : forall s op args, o_id op < 58 -> PL s op args = AL s op args.
Proof.
  intros s op args H. unfold prop_listener, arith_listener. destruct s as [[w'| |]|]; auto. unfold prop_op_evaluate, NUM_ARITH_OPS.
  rewrite (proj2 (Nat.ltb_lt _ _) H). reflexivity.
Qed.
Lemma evals_agree : forall s t s' r, evals AL s t s' r -> (forall op, In op (operators_of t) -> o_id op < 58) -> evals PL s t s' r.
Proof.
  apply (evals_mind _ AL (fun s n s' r => (forall op, In op (operators_of n) -> o_id op < 58) -> evals PL s n s' r)
    (fun s l s' vs => (forall op, In op (flat_map operators_of l) -> o_id op < 58) -> evals_all PL s l s' vs)).
  - intros. constructor.
  - intros. constructor.
  - intros s op cs t s1 vs s2 v _ H E K. cbn [operators_of] in K. eapply ev_apply; [apply H; intros; apply K; right; auto|]. rewrite listeners_agree; auto. apply K. left; auto.
  - intros s op cs t s1 vs s2 e v _ H E N K. cbn [operators_of] in K. eapply ev_fail; [apply H; intros; apply K; right; auto| |exact N]. rewrite listeners_agree; [exact E|]. apply K. left; auto.
  - intros s op l c r t s1 vs s2 e p _ H _ E K. cbn [operators_of] in K. eapply ev_operand; [apply H|apply E]; intros o Ho; apply K; right; rewrite flat_map_app; apply in_or_app; [left|right]; auto.
    cbn [flat_map]. apply in_or_app. auto.
  - intros. constructor.
  - intros s c l s1 v s2 vs _ E _ H K. cbn [flat_map] in K. econstructor; [apply E|apply H]; intros; apply K; apply in_or_app; auto.
Qed.
Lemma calculator_built : forall t, of_calculator t -> Built t.
Proof.
  induction t as [v i|x i j|op cs i IH] using node_ind'; intros H; try reflexivity. apply Built_op.
  assert (o_addr op < 58) by (apply H; left; auto). split; [lia|]. split; [lia|]. rewrite Forall_forall in *. intros c Hc. apply IH; auto.
  intros o Ho. apply H. right. apply in_flat_map. eauto.
Qed.

Definition reduced (t : node) : node := tree_reduce_ops (tree_reduce_ops t type_op type_eval) equal_op equal_eval.
Definition unshort (t : node) : Prop := short_call t type_op 1 = false /\ short_call (tree_reduce_ops t type_op type_eval) equal_op 2 = false.
Lemma built_reduced : forall t, Built t -> reduced t = t.
Proof. intros t B. unfold reduced. rewrite (built_reduce t) by (rewrite ?type_addr; auto). apply built_reduce; rewrite ?equal_addr; auto. Qed.
Lemma built_unshort : forall t, Built t -> unshort t.
Proof. intros t B. split; [apply built_short; rewrite ?type_addr; auto|]. rewrite (built_reduce t) by (rewrite ?type_addr; auto). apply built_short; rewrite ?equal_addr; auto. Qed.
Lemma reduced_op : forall op cs t, o_addr op <> 58 -> o_addr op <> 59 -> reduced (NOp op cs t) = NOp op (map reduced cs) t.
Proof.
  intros op cs t H1 H2. unfold reduced. cbn [tree_reduce_ops]. rewrite type_addr. apply Nat.eqb_neq in H1, H2. rewrite H1. cbn [tree_reduce_ops]. rewrite equal_addr, H2.
  rewrite map_map. reflexivity.
Qed.
Lemma unshort_op : forall op cs t, o_addr op <> 58 -> o_addr op <> 59 -> Forall unshort cs -> unshort (NOp op cs t).
Proof.
  intros op cs t H1 H2 F. apply Nat.eqb_neq in H1, H2. unfold unshort. cbn [tree_reduce_ops short_call]. rewrite type_addr, H1. cbn [short_call]. rewrite equal_addr, H2. cbn [andb orb].
  induction F as [|c cs [Hc1 Hc2] F [IH1 IH2]]; [split; reflexivity|]. cbn [existsb map]. rewrite Hc1, Hc2. auto.
Qed.
Lemma type_reduced : forall ty x i, o_addr ty = 58 -> Built x -> reduced (NOp ty [x] i) = NConst (type_eval [x]) i.
Proof.
  intros ty x i H B. unfold reduced. cbn [tree_reduce_ops]. rewrite type_addr, H. cbn [Nat.eqb tree_reduce_ops map].
  rewrite (built_reduce x) by (rewrite ?type_addr; auto). reflexivity.
Qed.
Lemma type_unshort : forall ty x i, o_addr ty = 58 -> Built x -> unshort (NOp ty [x] i).
Proof.
  intros ty x i H B. split; cbn [short_call tree_reduce_ops]; rewrite type_addr, H; cbn [Nat.eqb short_call]; auto.
  cbn [List.length Nat.ltb Nat.leb andb orb existsb]. rewrite built_short; rewrite ?type_addr; auto.
Qed.
Lemma equal_reduced : forall e a b i, o_addr e = 59 -> Built a -> Built b -> reduced (NOp e [a; b] i) = NConst (truth (tree_equals a b)) i.
Proof.
  intros e a b i H Ba Bb. unfold reduced. cbn [tree_reduce_ops]. rewrite type_addr, H. cbn [Nat.eqb map]. rewrite !(built_reduce _ type_op) by (rewrite ?type_addr; auto).
  cbn [tree_reduce_ops]. rewrite equal_addr, H. cbn [Nat.eqb map]. rewrite !(built_reduce _ equal_op) by (rewrite ?equal_addr; auto). reflexivity.
Qed.
Lemma equal_unshort : forall e a b i, o_addr e = 59 -> Built a -> Built b -> unshort (NOp e [a; b] i).
Proof.
  intros e a b i H Ba Bb. split; cbn [short_call tree_reduce_ops]; rewrite type_addr, H; cbn [Nat.eqb andb orb existsb map short_call].
  - rewrite !built_short; rewrite ?type_addr; auto.
  - rewrite !(built_reduce _ type_op) by (rewrite ?type_addr; auto). rewrite equal_addr, H. cbn [Nat.eqb List.length Nat.ltb Nat.leb andb orb]. rewrite !built_short; rewrite ?equal_addr; auto.
Qed.

Definition gives (t : node) (r : option double) : Prop :=
  match r with
  | Some v => evals PL (Done (Ok w)) t (Done (Ok w)) (RVal v)
  | None => exists e p, evals PL (Done (Ok w)) t (Done (Ok w)) (RFail e p)
  end.
Lemma gives_two : forall op a b i x y f, (forall u v, PL (Done (Ok w)) op [u; v] = (Done (Ok w), (0%Z, f u v))) -> gives a x -> gives b y ->
  gives (NOp op [a; b] i) (match x, y with Some u, Some v => Some (f u v) | _, _ => None end).
Proof.
  intros op a b i x y f K A B. destruct x as [u|]; cbn [gives] in A.
  - destruct y as [v|]; cbn [gives] in *.
    + eapply ev_apply; [|apply K]. econstructor; [exact A|]. econstructor; [exact B|]. constructor.
    + destruct B as (e & p & B). exists e. eexists. apply (ev_operand PL (Done (Ok w)) op [a] b [] i (Done (Ok w)) [u]); [|exact B]. econstructor; [exact A|constructor].
  - destruct A as (e & p & A). exists e. eexists. apply (ev_operand PL (Done (Ok w)) op [] a [b] i (Done (Ok w)) []); [constructor|exact A].
Qed.
Lemma gives_one : forall op a i x f, (forall u, PL (Done (Ok w)) op [u] = (Done (Ok w), (0%Z, f u))) -> gives a x -> gives (NOp op [a] i) (option_map f x).
Proof.
  intros op a i x f K A. destruct x as [u|]; cbn [gives option_map] in *.
  - eapply ev_apply; [|apply K]. econstructor; [exact A|]. constructor.
  - destruct A as (e & p & A). exists e. eexists. apply (ev_operand PL (Done (Ok w)) op [] a [] i (Done (Ok w)) []); [constructor|exact A].
Qed.

Lemma compare_sign : forall c x y, truth (compare_doubles c x y) = truth (match c with Equal => deqb x y | Unequal => dneb x y | Less => dltb x y | Greater => dgtb x y | AtMost => dleb x y | AtLeast => dgeb x y end).
Proof.
  intros c x y. f_equal. unfold compare_doubles, deqb, dneb, dltb, dgtb, dleb, dgeb, deqb, SFeqb, SFltb, SFleb.
  assert (Sw : SFcompare y x = match SFcompare x y with Some Lt => Some Gt | Some Gt => Some Lt | o => o end).
  { destruct x as [[]|[]| |[] mx ex], y as [[]|[]| |[] my ey]; cbn [SFcompare]; try reflexivity;
      rewrite (Z.compare_antisym ex ey); destruct (Z.compare ex ey); cbn [CompOpp]; try reflexivity;
      change (Pos.compare_cont Eq my mx) with (Pos.compare my mx); change (Pos.compare_cont Eq mx my) with (Pos.compare mx my);
      rewrite (Pos.compare_antisym mx my); destruct (Pos.compare mx my); reflexivity. }
  rewrite Sw. destruct (SFcompare x y) as [[]|], c; reflexivity.
Qed.
Lemma PL_compare : forall c op u v, o_id op = sign_number c -> PL (Done (Ok w)) op [u; v] = (Done (Ok w), (0%Z, truth (compare_doubles c u v))).
Proof. intros c op u v H. rewrite compare_sign. unfold prop_listener, prop_op_evaluate. rewrite H. destruct c; reflexivity. Qed.
Lemma truth_test : forall b, dneb (truth b) d0 = b. Proof. intros []; reflexivity. Qed.

Lemma constraint_gives : forall value t c, stands_for the_prop_ctx t c -> all_operands of_calculator (evaluates L fuel w value) c ->
  unshort t /\ gives (reduced t) (option_map truth (meaning value c)).
Proof.
  intros value t c H. induction H as [eqo ty ko t k i j l H1 H2 H3|eqo ty ko t k i j l H1 H2 H3|e a b l H|s op a b l H|b op l H|op s t c d l H _ IH1 _ IH2|op t c l H _ IH]; cbn [all_operands meaning]; intros O.
  - apply word_eq in H1. apply word_type in H2. apply word_kind in H3. destruct H1 as [I1 A1], H2 as [I2 A2], H3 as [I3 A3]. apply calculator_built in O.
    assert (A3' : o_addr ko <> 58 /\ o_addr ko <> 59) by (rewrite A3; destruct k; cbn; lia). destruct A3' as [N1 N2].
    split. { apply unshort_op; [lia|lia|]. constructor; [apply type_unshort; auto|]. constructor; [|constructor]. apply unshort_op; auto. }
    rewrite reduced_op by lia. cbn [map]. rewrite type_reduced by auto. rewrite reduced_op by auto. cbn [map option_map].
    set (kd := match k with KindConst => EVAL_TYPE_CONST | KindVar => EVAL_TYPE_VAR | KindOp => EVAL_TYPE_OP end).
    replace (Some (truth (same_kind (kind_of_node t) k))) with (Some (truth (compare_doubles Equal (type_eval [t]) kd))).
    + apply (gives_two eqo _ _ l (Some _) (Some kd) (fun u v => truth (compare_doubles Equal u v))); [intros; apply (PL_compare Equal); auto|constructor|].
      eapply ev_apply; [constructor|]. unfold prop_listener, prop_op_evaluate. rewrite I3. destruct k; reflexivity.
    + destruct t, k; reflexivity.
  - apply word_ne in H1. apply word_type in H2. apply word_kind in H3. destruct H1 as [I1 A1], H2 as [I2 A2], H3 as [I3 A3]. apply calculator_built in O.
    assert (A3' : o_addr ko <> 58 /\ o_addr ko <> 59) by (rewrite A3; destruct k; cbn; lia). destruct A3' as [N1 N2].
    split. { apply unshort_op; [lia|lia|]. constructor; [apply type_unshort; auto|]. constructor; [|constructor]. apply unshort_op; auto. }
    rewrite reduced_op by lia. cbn [map]. rewrite type_reduced by auto. rewrite reduced_op by auto. cbn [map option_map].
    set (kd := match k with KindConst => EVAL_TYPE_CONST | KindVar => EVAL_TYPE_VAR | KindOp => EVAL_TYPE_OP end).
    replace (Some (truth (negb (same_kind (kind_of_node t) k)))) with (Some (truth (compare_doubles Unequal (type_eval [t]) kd))).
    + apply (gives_two eqo _ _ l (Some _) (Some kd) (fun u v => truth (compare_doubles Unequal u v))); [intros; apply (PL_compare Unequal); auto|constructor|].
      eapply ev_apply; [constructor|]. unfold prop_listener, prop_op_evaluate. rewrite I3. destruct k; reflexivity.
    + destruct t, k; reflexivity.
  - apply word_equal in H. destruct H as [I A]. destruct O as [Oa Ob]. apply calculator_built in Oa, Ob. split; [apply equal_unshort; auto|]. rewrite equal_reduced by auto. constructor.
  - apply word_sign in H. destruct H as [I A]. destruct O as [[Oa Ea] [Ob Eb]]. pose proof (calculator_built _ Oa) as Ba. pose proof (calculator_built _ Ob) as Bb.
    assert (N : o_addr op <> 58 /\ o_addr op <> 59) by (rewrite A; destruct s; cbn; lia). destruct N as [N1 N2].
    split; [apply unshort_op; auto; repeat constructor; apply built_unshort; auto|]. rewrite reduced_op by auto. cbn [map]. rewrite !built_reduced by auto.
    assert (Ga : gives a (value a)). { unfold evaluates in Ea. destruct (value a); [|destruct Ea as (e & p & Ea); exists e, p]; cbn [gives]; apply evals_agree; auto; intros o Ho; apply Oa; auto. }
    assert (Gb : gives b (value b)). { unfold evaluates in Eb. destruct (value b); [|destruct Eb as (e & p & Eb); exists e, p]; cbn [gives]; apply evals_agree; auto; intros o Ho; apply Ob; auto. }
    pose proof (gives_two op a b l _ _ _ (fun u v => PL_compare s op u v I) Ga Gb) as G. destruct (value a), (value b); exact G.
  - apply word_truth in H. destruct H as [I A]. assert (N : o_addr op <> 58 /\ o_addr op <> 59) by (rewrite A; destruct b; lia). destruct N as [N1 N2].
    split; [apply unshort_op; auto|]. rewrite reduced_op by auto. cbn [map option_map gives]. eapply ev_apply; [constructor|]. unfold prop_listener, prop_op_evaluate. rewrite I. destruct b; reflexivity.
  - apply word_or in H. destruct H as [I A]. destruct O as [O1 O2]. destruct (IH1 O1) as [U1 G1]. destruct (IH2 O2) as [U2 G2].
    split; [apply unshort_op; [lia|lia|auto]|]. rewrite reduced_op by lia. cbn [map].
    pose proof (gives_two op _ _ l _ _ (fun u v => truth (dneb u d0 || dneb v d0)) (fun u v => ltac:(unfold prop_listener, prop_op_evaluate; rewrite I; reflexivity)) G1 G2) as G.
    destruct (meaning value c), (meaning value d); cbn [option_map] in *; rewrite ?truth_test in G; exact G.
  - apply word_not in H. destruct H as [I A]. destruct (IH O) as [U G0].
    split; [apply unshort_op; [lia|lia|auto]|]. rewrite reduced_op by lia. cbn [map].
    pose proof (gives_one op _ l _ (fun u => truth (negb (dneb u d0))) (fun u => ltac:(unfold prop_listener, prop_op_evaluate; rewrite I; reflexivity)) G0) as G.
    destruct (meaning value c); cbn [option_map] in *; rewrite ?truth_test in G; exact G.
Qed.
Lemma constraint_checked : forall value t c, stands_for the_prop_ctx t c -> all_operands of_calculator (evaluates L fuel w value) c ->
  propositional_checker L fuel the_prop_ctx w t = Ok (match meaning value c with Some b => b | None => false end).
Proof.
  intros value t c H O. destruct (constraint_gives _ _ _ H O) as [[U1 U2] G]. unfold propositional_checker. rewrite type_found, equal_found. cbn [rbind]. unfold reduce_calls.
  rewrite U1. cbn [rbind]. rewrite U2. cbn [rbind]. fold (reduced t). destruct (meaning value c) as [b|]; cbn [option_map gives] in G.
  - apply reduce_complete in G. rewrite G, truth_test. reflexivity.
  - destruct G as (e & p & G). apply reduce_complete in G. rewrite G. reflexivity.
Qed.
End Check.
