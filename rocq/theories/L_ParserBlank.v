(** Proofs about the parser: token positions, blanks and bracket shape do not matter. *)
From Coq Require Import List Ascii String NArith ZArith Bool Lia Arith Permutation.
From Verif Require Import M_Base M_StringUtil M_Tree M_Context M_Tokenizer M_Parser S_Engine S_Parse L_Trie L_Context L_Parser.
Import ListNotations.
Open Scope nat_scope.
Open Scope res_scope.

Definition rod (a b : opdata) : Prop := od_op a = od_op b /\ od_arity a = od_arity b.
Definition rst (s s' : pstate) : Prop :=
  map unplaced (p_nodes s) = map unplaced (p_nodes s') /\ Forall2 rod (p_ops s) (p_ops s')
  /\ p_res s = p_res s' /\ p_ai s = p_ai s' /\ p_ap s = p_ap s'.
Definition lift {A} (Q : A -> A -> Prop) (r r' : res A) : Prop :=
  match r, r' with Ok x, Ok y => Q x y | Ub, Ub => True | Halt, Halt => True | _, _ => False end.
Definition rsb (x y : pstate * bool) : Prop := rst (fst x) (fst y) /\ snd x = snd y.
Definition rctl (x y : ctl) : Prop :=
  match x, y with Next s, Next s' => rst s s' | Exit s, Exit s' => rst s s' | _, _ => False end.

Lemma lift_bind : forall A B (Q : A -> A -> Prop) (P : B -> B -> Prop) r r' f g,
  lift Q r r' -> (forall x y, Q x y -> lift P (f x) (g y)) -> lift P (rbind r f) (rbind r' g).
Proof. intros A B Q P r r' f g H K. destruct r, r'; simpl in *; auto; contradiction. Qed.

Lemma pop_r : forall s s', rst s s' -> lift rsb (op_pop_and_insert s) (op_pop_and_insert s').
Proof.
  intros s s' (Hn & Ho & Hr & Ha & Hp). unfold op_pop_and_insert.
  inversion Ho as [E1 E2|od od' l l' [R1 R2] R3 E1 E2]; simpl; auto.
  rewrite <- R1. destruct (od_op od) as [op|].
  - rewrite <- R2. destruct (_ && _).
    + simpl. split; auto. repeat split; auto.
    + destruct (count_of (od_arity od)) as [k| |]; cbn [rbind lift]; auto.
      assert (L : List.length (p_nodes s) = List.length (p_nodes s')).
      { rewrite <- (map_length unplaced (p_nodes s)), Hn, map_length. auto. }
      rewrite <- L. destruct (_ <? _); simpl; split; auto; repeat split; simpl; auto.
      rewrite !map_rev, <- !firstn_map, <- !skipn_map, Hn. auto.
  - simpl. split; auto. repeat split; auto.
Qed.

Lemma pop_while_r : forall f f' cond s s', List.length (p_ops s) <= f -> List.length (p_ops s') <= f' -> rst s s' ->
  lift rsb (pop_while f cond s) (pop_while f' cond s').
Proof.
  induction f as [|f IH]; intros f' cond s s' L L' H; pose proof H as (Hn & Ho & _).
  - destruct (p_ops s) eqn:E; [|simpl in L; lia]. inversion Ho as [E1 E2|].
    simpl. rewrite E. destruct f'; simpl; rewrite <- E2; split; auto.
  - inversion Ho as [E1 E2|od od' l l' [R1 R2] R3 E1 E2].
    + simpl. rewrite <- E1. destruct f'; simpl; rewrite <- E2; split; auto.
    + rewrite <- E1 in L. rewrite <- E2 in L'. simpl in L, L'.
      destruct f' as [|f']; [lia|]. simpl. rewrite <- E1, <- E2, <- R1.
      destruct (od_op od) as [op|]; [|split; auto]. destruct (cond op); [|split; auto].
      pose proof (pop_r s s' H) as P.
      destruct (op_pop_and_insert s) as [[s1 b1]| |] eqn:P1, (op_pop_and_insert s') as [[s2 b2]| |] eqn:P2; simpl in P; try contradiction; cbn [rbind]; auto.
      destruct P as [P P']. simpl in P, P'. subst b2. destruct b1; [|split; auto].
      apply pop_insert_ops in P1. destruct P1 as (o1 & P1). apply pop_insert_ops in P2. destruct P2 as (o2 & P2).
      rewrite <- E1 in P1. rewrite <- E2 in P2. inversion P1. inversion P2. subst.
      apply IH; auto; lia.
Qed.
Lemma pop_all_r : forall cond s s', rst s s' -> lift rsb (pop_all_while cond s) (pop_all_while cond s').
Proof. intros. apply pop_while_r; auto. Qed.

Lemma op_push_r : forall s s' od od', rst s s' -> rod od od' -> lift rsb (op_push s od) (op_push s' od').
Proof.
  intros s s' od od' H [R1 R2]. unfold op_push. rewrite <- R1.
  assert (P : forall x y, rst x y -> rst (push_od x od) (push_od y od')).
  { intros x y (Hn & Ho & Hr & Ha & Hp). repeat split; simpl; auto. constructor; auto. split; auto. }
  assert (D : forall cond, lift rsb (' (s1, ok) <- pop_all_while cond s;; (if ok : bool then Ok (push_od s1 od, true) else Ok (s1, false)))
                          (' (s1, ok) <- pop_all_while cond s';; (if ok : bool then Ok (push_od s1 od', true) else Ok (s1, false)))).
  { intros cond. eapply lift_bind; [apply pop_all_r; eauto|]. intros [x b] [y b'] [Q1 Q2]. simpl in *. subst b'.
    destruct b; simpl; split; auto. apply P; auto. }
  destruct (od_op od) as [op|]; [destruct (o_place op)|]; auto; split; auto; apply P; auto.
Qed.
Lemma push_operator_r : forall s s' op, rst s s' -> lift rsb (push_operator s op) (push_operator s' op).
Proof. intros s s' op H. unfold push_operator. destruct (o_place op); apply op_push_r; auto; split; auto. Qed.

Lemma rst_ai : forall s s' b, rst s s' -> rst (set_ai s b) (set_ai s' b).
Proof. intros s s' b (A & B & C & D & E). repeat split; auto. Qed.
Lemma rst_ap : forall s s' b, rst s s' -> rst (set_ap s b) (set_ap s' b).
Proof. intros s s' b (A & B & C & D & E). repeat split; auto. Qed.
Lemma rst_res : forall s s' e, rst s s' -> rst (set_res s e) (set_res s' e).
Proof. intros s s' b (A & B & C & D & E). repeat split; auto. Qed.
Lemma rst_tok : forall s s' i j, rst s s' -> rst (set_tok s i) (set_tok s' j).
Proof. intros s s' i j (A & B & C & D & E). repeat split; auto. Qed.
Lemma rst_top : forall s s' a, rst s s' -> rst (set_top_arity s a) (set_top_arity s' a).
Proof.
  intros s s' a (A & B & C & D & E). unfold set_top_arity.
  inversion B as [E1 E2|od od' l l' [R1 R2] R3 E1 E2].
  - repeat split; auto.
  - repeat split; simpl; auto. constructor; auto. split; auto.
Qed.
Lemma rst_node : forall s s' n n', rst s s' -> unplaced n = unplaced n' -> rst (push_node s n) (push_node s' n').
Proof. intros s s' n n' (A & B & C & D & E) H. repeat split; simpl; auto. congruence. Qed.
Local Hint Resolve rst_ai rst_ap rst_res rst_tok rst_top rst_node : core.

Section Blank.
Variable strtod : cstr -> option double.
Variable pc : pctx.

Lemma glue_r : forall s s' t, rst s s' -> lift rctl (step_glue pc s t) (step_glue pc s' t).
Proof.
  intros s s' t H. unfold step_glue. destruct (pc_glue pc) as [g|]; [|exact H].
  pose proof H as (_ & _ & _ & Ha & _). rewrite <- Ha.
  destruct (_ && _); [|exact H].
  eapply lift_bind; [apply push_operator_r; eauto|]. intros [x b] [y b'] [Q1 Q2]. simpl in *. subst b'.
  destruct b; simpl; auto.
Qed.

Lemma closing_r : forall s s' i j, rst s s' -> lift rctl (step_closing s i) (step_closing s' j).
Proof.
  intros s s' i j H. unfold step_closing.
  eapply lift_bind; [apply pop_all_r; eauto|]. intros [x b] [y b'] [Q1 Q2]. cbn [fst snd] in *. subst b'.
  destruct b; cbn [negb]; [|simpl; auto].
  pose proof Q1 as (_ & Ho & _). inversion Ho as [E1 E2|od od' l l' [R1 R2] R3 E1 E2]; [simpl; auto|].
  eapply lift_bind; [apply pop_r; eauto|]. intros [x2 b2] [y2 b2'] [Q3 Q4]. cbn [fst snd] in *.
  pose proof Q3 as (_ & Ho2 & _ & Ha2 & _). rewrite <- Ha2.
  destruct (p_ai x2).
  - inversion Ho2 as [F1 F2|od1 od1' l1 l1' [R4 R5] R6 F1 F2]; [simpl; auto|].
    rewrite <- R4, <- R5. destruct (od_op od1); [|simpl; auto]. destruct (placement_eqb _ _); simpl; auto.
  - inversion Ho2 as [F1 F2|od1 od1' l1 l1' [R4 R5] R6 F1 F2]; [simpl; auto|].
    rewrite <- R4, <- R5. destruct (od_op od1); [|simpl; auto]. destruct (_ && _); simpl; auto.
Qed.

Lemma delimiter_r : forall s s', rst s s' -> lift rctl (step_delimiter s) (step_delimiter s').
Proof.
  intros s s' H. unfold step_delimiter. pose proof H as (_ & _ & _ & Ha & _). rewrite <- Ha.
  destruct (negb (p_ai s)); [simpl; auto|].
  eapply lift_bind; [apply pop_all_r; eauto|]. intros [x b] [y b'] [Q1 Q2]. cbn [fst snd] in *. subst b'.
  destruct b; cbn [negb]; [|simpl; auto].
  pose proof Q1 as (Hn & Ho & Hr & Hx & Hy). inversion Ho as [E1 E2|od od' l l' R1 R3 E1 E2]; [simpl; auto|].
  inversion R3 as [F1 F2|od1 od1' l1 l1' [R4 R5] R6 F1 F2]; [simpl; auto|].
  rewrite <- R4, <- R5. destruct (od_op od1) as [op|]; simpl; auto.
  destruct (placement_eqb _ _); simpl; auto.
  repeat split; simpl; auto. constructor; auto. constructor; auto. split; auto.
Qed.

Lemma operator_r : forall s s' i j t, rst s s' -> lift rctl (step_operator strtod pc s i t) (step_operator strtod pc s' j t).
Proof.
  intros s s' i j t H. unfold step_operator. pose proof H as (_ & _ & _ & Ha & _). rewrite <- Ha.
  destruct (negb (p_ai s)).
  - destruct (pc_lookup pc PFunction t) as [op|].
    + eapply lift_bind; [apply push_operator_r; eauto|]. intros [x b] [y b'] [Q1 Q2]. cbn [fst snd] in *. subst b'.
      destruct b; cbn [negb]; [|simpl; auto]. destruct (arity_eqb _ _); [|simpl; auto].
      eapply lift_bind; [apply pop_r; eauto|]. intros [x2 b2] [y2 b2'] [Q3 Q4]. cbn [fst snd] in *. subst b2'.
      destruct b2; simpl; auto.
    + destruct (pc_lookup pc PPrefix t) as [op|].
      * eapply lift_bind; [apply push_operator_r; eauto|]. intros [x b] [y b'] [Q1 Q2]. cbn [fst snd] in *. subst b'.
        destruct b; simpl; auto.
      * unfold step_leaf. destruct (strtod t); [simpl; auto|]. destruct (_ || _); [simpl; auto|].
        destruct (negb _); simpl; auto.
  - destruct (pc_lookup pc PInfix t) as [op|].
    + eapply lift_bind; [apply push_operator_r; eauto|]. intros [x b] [y b'] [Q1 Q2]. cbn [fst snd] in *. subst b'.
      destruct b; simpl; auto.
    + destruct (pc_lookup pc PPostfix t) as [op|]; [|simpl; auto].
      eapply lift_bind; [apply push_operator_r; eauto|]. intros [x b] [y b'] [Q1 Q2]. cbn [fst snd] in *. subst b'.
      destruct b; cbn [negb]; [|simpl; auto].
      eapply lift_bind; [apply pop_r; eauto|]. intros [x2 b2] [y2 b2'] [Q3 Q4]. cbn [fst snd] in *. simpl; auto.
Qed.

Lemma step_r : forall s s' i j t, rst s s' -> lift rctl (step strtod pc s i t) (step strtod pc s' j t).
Proof.
  intros s s' i j t H. unfold step. destruct (is_space _); [simpl; auto|].
  eapply lift_bind; [apply glue_r; eauto|]. intros [x|x] [y|y] Q; simpl in Q; try contradiction; [|simpl; auto].
  unfold step_main. pose proof Q as (_ & _ & _ & Ha & Hp). rewrite <- Ha, <- Hp.
  destruct (is_opening_parenthesis t).
  - destruct (negb (p_ai x)); [|simpl; auto].
    eapply lift_bind; [apply op_push_r; eauto; split; auto|]. intros [x2 b] [y2 b'] [Q1 Q2]. cbn [fst snd] in *. subst b'.
    destruct b; simpl; auto.
  - destruct (p_ap x); [simpl; auto|]. destruct (is_closing_parenthesis t); [apply closing_r; auto|].
    destruct (is_delimiter t); [apply delimiter_r; auto|]. apply operator_r; auto.
Qed.

(** parentheses are no operator names *)
Hypothesis no_paren_names : forall p n, pc_lookup pc p n <> None -> is_opening_parenthesis n = false /\ is_closing_parenthesis n = false.
Lemma paren_has : forall p n, is_opening_parenthesis n = true \/ is_closing_parenthesis n = true -> has pc p n = false.
Proof.
  intros p n H. unfold has. destruct (pc_lookup pc p n) eqn:E; auto.
  destruct (no_paren_names p n) as [A B]; [congruence|]. destruct H; congruence.
Qed.

Lemma step_shape : forall s i a b, alike a b -> step strtod pc s i (snd a) = step strtod pc s i (snd b).
Proof.
  intros s i a b [->|[[O1 O2]|[C1 C2]]]; auto.
  - destruct (opening_cases a O1) as (B1 & X1 & Y1). destruct (opening_cases b O2) as (B2 & X2 & Y2).
    unfold step. unfold blank in B1, B2. rewrite B1, B2. unfold step_glue, step_main.
    unfold opening, closing, delimiter in *.
    rewrite !paren_has by auto. rewrite O1, O2.
    rewrite (proj1 (not_true_iff_false _) X1), (proj1 (not_true_iff_false _) X2), (proj1 (not_true_iff_false _) Y1), (proj1 (not_true_iff_false _) Y2).
    reflexivity.
  - destruct (closing_cases a C1) as (B1 & X1 & Y1). destruct (closing_cases b C2) as (B2 & X2 & Y2).
    unfold step. unfold blank in B1, B2. rewrite B1, B2. unfold step_glue, step_main.
    unfold opening, closing, delimiter in *.
    rewrite !paren_has by auto. rewrite C1, C2.
    rewrite (proj1 (not_true_iff_false _) X1), (proj1 (not_true_iff_false _) X2), (proj1 (not_true_iff_false _) Y1), (proj1 (not_true_iff_false _) Y2).
    reflexivity.
Qed.

Lemma run_r : forall ts ts' s s', Forall2 alike ts ts' -> rst s s' -> lift rctl (run strtod pc s ts) (run strtod pc s' ts').
Proof.
  induction ts as [|t ts IH]; intros ts' s s' F H; inversion F as [|a b l l' A B]; subst.
  - simpl. auto.
  - cbn [run]. rewrite (step_shape s (fst t) t b A).
    eapply lift_bind; [apply step_r; eauto|]. intros [x|x] [y|y] Q; simpl in Q; try contradiction; [|simpl; auto].
    apply IH; auto.
Qed.

Lemma conclude_r : forall r r' n n', lift rctl r r' -> lift same_outcome (conclude r n) (conclude r' n').
Proof.
  intros r r' n n' H. unfold conclude. eapply lift_bind; [eauto|]. intros [x|x] [y|y] Q; simpl in Q; try contradiction.
  - assert (F : lift rctl (finish x n) (finish y n')).
    { unfold finish. pose proof Q as (_ & _ & _ & Ha & Hp). cbn [set_tok p_ap p_ai]. rewrite <- Ha, <- Hp.
      destruct (p_ap x); [simpl; auto|]. destruct (negb _); [simpl; auto|].
      unfold pop_rest. eapply lift_bind; [apply pop_all_r; eapply rst_tok; eauto|].
      intros [x2 b] [y2 b'] [Q1 Q2]. cbn [fst snd] in *. subst b'. destruct b; cbn [negb]; [|simpl; auto].
      pose proof Q1 as (_ & Ho & _). inversion Ho; simpl; auto. }
    eapply lift_bind; [exact F|]. intros [x2|x2] [y2|y2] Q2; simpl in Q2; try contradiction.
    + pose proof Q2 as (Hn & _ & Hr & _). rewrite <- Hr. destruct (p_nodes x2), (p_nodes y2); try discriminate; simpl; auto.
      inversion Hn. destruct (perr_is_success _); simpl; auto.
    + simpl. unfold at_exit. pose proof Q2 as (_ & _ & Hr & _). rewrite <- Hr. destruct (perr_is_success _); simpl; auto.
  - simpl. unfold at_exit. pose proof Q as (_ & _ & Hr & _). rewrite <- Hr. destruct (perr_is_success _); simpl; auto.
Qed.

Lemma parse_shape : forall ts ts', Forall2 alike (unblanked ts) (unblanked ts') ->
  lift same_outcome (parse_tokens strtod pc ts) (parse_tokens strtod pc ts').
Proof.
  intros ts ts' F. rewrite !parse_unblanked. apply conclude_r. apply run_r; auto. repeat split; constructor.
Qed.
End Blank.
