(** Proofs about the parser: invariants that hold for every token list. *)
From Coq Require Import List Ascii String NArith ZArith Bool Lia Arith Permutation.
From Verif Require Import M_Base M_StringUtil M_Tree M_Context M_Tokenizer M_Parser S_Engine S_Parse L_Trie L_Context L_Parser L_ParserSound.
Import ListNotations.
Open Scope nat_scope.
Open Scope res_scope.

(** ** A predicate kept by all primitive actions is kept by the parser. *)
Section Closure.
Variable strtod : cstr -> option double.
Variable pc : pctx.
Variable Q : nat -> pstate -> Prop.
Hypothesis Q_pop : forall i s s' b, Q i s -> op_pop_and_insert s = Ok (s', b) -> Q i s'.
Hypothesis Q_push : forall i s op a, Q i s -> Q i (push_od s (mkOd op a (p_tok s))).
Hypothesis Q_top : forall i s a, Q i s -> Q i (set_top_arity s a).
Hypothesis Q_second : forall i ns top od a ops r k ai ap, Q i (mkSt ns (top :: od :: ops) r k ai ap) ->
  Q i (mkSt ns (top :: mkOd (od_op od) a (od_tok od) :: ops) r k ai ap).
Hypothesis Q_flags : forall i ns ops r k ai ap r' ai' ap', Q i (mkSt ns ops r k ai ap) -> Q i (mkSt ns ops r' k ai' ap').
Hypothesis Q_tok : forall i s, Q i s -> Q i (set_tok s i).
Hypothesis Q_next : forall i s, Q i s -> Q (S i) s.
Hypothesis Q_const : forall i s v, Q i s -> (exists n, strtod n = Some v) -> Q i (push_node s (NConst v i)).
Hypothesis Q_var : forall i s n, Q i s -> (forall p, pc_lookup pc p n = None) /\ strtod n = None /\ is_letter (hd NUL n) = true -> Q i (push_node s (NVar n 0 i)).

Definition Qc (i : nat) (c : ctl) : Prop := match c with Next s | Exit s => Q i s end.

Lemma flags : forall i s r ai ap, Q i s -> Q i (mkSt (p_nodes s) (p_ops s) r (p_tok s) ai ap).
Proof. intros i [ns ops r k ai ap] r' ai' ap' H. simpl. eapply Q_flags; eauto. Qed.

Lemma pop_while_Q : forall i f cond s s' b, Q i s -> pop_while f cond s = Ok (s', b) -> Q i s'.
Proof.
  induction f as [|f IH]; intros cond s s' b H E; simpl in E;
    destruct (p_ops s) as [|od ops]; try (inversion E; subst; auto; fail);
    destruct (od_op od); try (inversion E; subst; auto; fail);
    destruct (cond o); try discriminate; try (inversion E; subst; auto; fail).
  destruct (op_pop_and_insert s) as [[s1 b1]| |] eqn:Ep; cbn [rbind] in E; try discriminate.
  destruct b1; [eapply IH; [|exact E]|inversion E; subst]; eapply Q_pop; eauto.
Qed.
Lemma pop_all_Q : forall i cond s s' b, Q i s -> pop_all_while cond s = Ok (s', b) -> Q i s'.
Proof. intros. eapply pop_while_Q; eauto. Qed.

Lemma op_push_Q : forall i s od s' b, Q i s -> od_tok od = p_tok s -> p_tok s = i ->
  op_push s od = Ok (s', b) -> Q i s'.
Proof.
  intros i s [oo a k] s' b H Ht Hi E. simpl in Ht. subst k.
  assert (Hpush : forall x, p_tok x = i -> Q i x -> Q i (push_od x (mkOd oo a i))).
  { intros x Hx Hq. rewrite <- Hx. apply Q_push. rewrite Hx. auto. }
  unfold op_push in E. cbn [od_op] in E.
  assert (D : forall cond, (' (s1, ok) <- pop_all_while cond s;; (if ok : bool then Ok (push_od s1 (mkOd oo a (p_tok s)), true) else Ok (s1, false))) = Ok (s', b) -> Q i s').
  { intros cond E'. destruct (pop_all_while cond s) as [[s1 ok]| |] eqn:Ep; cbn [rbind] in E'; try discriminate.
    pose proof (pop_all_Q i _ _ _ _ H Ep) as Q1.
    destruct ok; inversion E'; subst; auto.
    (* the token does not change while popping succeeds *)
    assert (Ht : p_tok s1 = p_tok s).
    { clear - Ep. unfold pop_all_while in Ep. remember (List.length (p_ops s)) as f. clear Heqf.
      revert s s1 Ep. induction f as [|f IH]; intros s s1 E; simpl in E;
        destruct (p_ops s) as [|od ops] eqn:Eo; try (inversion E; subst; auto; fail);
        destruct (od_op od) eqn:Eop; try (inversion E; subst; auto; fail);
        destruct (cond o); try discriminate; try (inversion E; subst; auto; fail).
      destruct (op_pop_and_insert s) as [[s2 b1]| |] eqn:Ep; cbn [rbind] in E; try discriminate.
      destruct b1; [|inversion E].
      apply IH in E. rewrite E. unfold op_pop_and_insert in Ep. rewrite Eo, Eop in Ep.
      destruct (_ && _); [inversion Ep|]. destruct (count_of (od_arity od)); cbn [rbind] in Ep; try discriminate.
      destruct (_ <? _); inversion Ep; subst; auto. }
    apply Hpush; auto. }
  destruct oo as [op|]; [|inversion E; subst; apply Q_push; auto].
  destruct (o_place op); try (eapply D; eauto; fail);
    (inversion E; subst; apply Q_push; auto).
Qed.

Lemma push_operator_Q : forall i s op s' b, Q i s -> p_tok s = i -> push_operator s op = Ok (s', b) -> Q i s'.
Proof. intros i s op s' b H Hi E. unfold push_operator in E. destruct (o_place op); eapply op_push_Q; eauto; reflexivity. Qed.

Lemma glue_Q : forall i s t c, Q i s -> p_tok s = i -> step_glue pc s t = Ok c -> Qc i c.
Proof.
  intros i s t c H Hi E. unfold step_glue in E. destruct (pc_glue pc) as [g|]; [|inversion E; subst; auto].
  destruct (_ && _); [|inversion E; subst; auto].
  destruct (push_operator s g) as [[s' ok]| |] eqn:Ep; cbn [rbind] in E; try discriminate.
  pose proof (push_operator_Q i s g s' ok H Hi Ep) as Q1.
  destruct ok; inversion E; subst; simpl; auto.
  unfold set_ai. apply flags. apply Q_top. auto.
Qed.

Lemma glue_tok : forall i s t s', p_tok s = i -> step_glue pc s t = Ok (Next s') -> p_tok s' = i.
Proof.
  intros i s t s' Hi E. unfold step_glue in E. destruct (pc_glue pc) as [g|]; [|inversion E; subst; auto].
  destruct (_ && _); [|inversion E; subst; auto].
  destruct (push_operator s g) as [[s1 ok]| |] eqn:Ep; cbn [rbind] in E; try discriminate.
  destruct ok; inversion E; subst.
  unfold set_ai, set_top_arity. simpl.
  assert (p_tok s1 = p_tok s).
  { unfold push_operator in Ep.
    assert (D : forall od, op_push s od = Ok (s1, true) -> p_tok s1 = p_tok s).
    { clear. intros od E. unfold op_push in E.
      assert (A : forall cond s2, pop_all_while cond s = Ok (s2, true) -> p_tok s2 = p_tok s).
      { clear. intros cond s2 Ep. unfold pop_all_while in Ep. remember (List.length (p_ops s)) as f. clear Heqf.
        revert s s2 Ep. induction f as [|f IH]; intros s s1 E; simpl in E;
        destruct (p_ops s) as [|od ops] eqn:Eo; try (inversion E; subst; auto; fail);
        destruct (od_op od) eqn:Eop; try (inversion E; subst; auto; fail);
        destruct (cond o); try discriminate; try (inversion E; subst; auto; fail).
        destruct (op_pop_and_insert s) as [[s2 b1]| |] eqn:Ep; cbn [rbind] in E; try discriminate.
        destruct b1; [|inversion E].
        apply IH in E. rewrite E. unfold op_pop_and_insert in Ep. rewrite Eo, Eop in Ep.
        destruct (_ && _); [inversion Ep|]. destruct (count_of (od_arity od)); cbn [rbind] in Ep; try discriminate.
        destruct (_ <? _); inversion Ep; subst; auto. }
      destruct (od_op od) as [op|]; [|inversion E; subst; auto].
      destruct (o_place op); try (inversion E; subst; auto; fail);
        destruct (pop_all_while (yields op) s) as [[s2 ok]| |] eqn:Ep; cbn [rbind] in E; try discriminate;
        destruct ok; inversion E; subst; simpl; eauto. }
    destruct (o_place g); eapply D; eauto. }
  destruct (p_ops s1); auto.
Qed.

Lemma main_Q : forall i s t c, Q i s -> p_tok s = i -> step_main strtod pc s i t = Ok c -> Qc i c.
Proof.
  intros i s t c H Hi E. unfold step_main in E.
  destruct (is_opening_parenthesis t).
  { destruct (negb (p_ai s)).
    - unfold push_opening_parenthesis in E.
      destruct (op_push (set_ap s false) _) as [[s1 ok]| |] eqn:Ep; cbn [rbind] in E; try discriminate.
      assert (Q1 : Q i s1) by (eapply op_push_Q; [| | |exact Ep]; auto; apply flags; auto).
      destruct ok; inversion E; subst; auto.
    - inversion E; subst. apply flags; auto. }
  destruct (p_ap s). { inversion E; subst. apply flags; auto. }
  destruct (is_closing_parenthesis t).
  { unfold step_closing in E.
    destruct (pop_all_while _ s) as [[s1 ok]| |] eqn:Ep; cbn [rbind] in E; try discriminate.
    pose proof (pop_all_Q i _ _ _ _ H Ep) as Q1.
    destruct ok; cbn [negb] in E. 2:{ inversion E; subst. apply (flags _ (set_tok s1 (p_tok s))). apply Q_tok; auto. }
    destruct (p_ops s1) as [|od1 ops1] eqn:Eo1. { inversion E; subst. apply (flags _ (set_tok s1 (p_tok s))). apply Q_tok; auto. }
    destruct (op_pop_and_insert s1) as [[s2 ok2]| |] eqn:Ep2; cbn [rbind] in E; try discriminate.
    pose proof (Q_pop i _ _ _ Q1 Ep2) as Q2.
    destruct (p_ai s2).
    - destruct (p_ops s2) as [|od ops]; [inversion E; subst; apply flags; auto|].
      destruct (od_op od); [|inversion E; subst; apply flags; auto].
      destruct (placement_eqb _ _); inversion E; subst; apply flags; auto.
    - destruct (p_ops s2) as [|od ops]; [inversion E; subst; apply flags; auto|].
      destruct (od_op od); [|inversion E; subst; apply flags; auto].
      destruct (_ && _); inversion E; subst; apply flags; auto. }
  destruct (is_delimiter t).
  { unfold step_delimiter in E. destruct (negb (p_ai s)). { inversion E; subst. apply flags; auto. }
    destruct (pop_all_while _ s) as [[s1 ok]| |] eqn:Ep; cbn [rbind] in E; try discriminate.
    pose proof (pop_all_Q i _ _ _ _ H Ep) as Q1.
    destruct ok; cbn [negb] in E. 2:{ inversion E; subst; auto. }
    destruct (p_ops s1) as [|top [|od ops]] eqn:Eo; try (inversion E; subst; apply flags; auto; fail).
    destruct (od_op od) eqn:Eop; [|discriminate].
    destruct (placement_eqb _ _); inversion E; subst; [|apply flags; auto].
    simpl. destruct s1 as [ns ops1 r k ai ap]. simpl in *. subst ops1.
    rewrite <- Eop. apply Q_second. eapply Q_flags; eauto. }
  unfold step_operator in E. destruct (p_ai s); cbn [negb] in E.
  - destruct (pc_lookup pc PInfix t).
    + destruct (push_operator s o) as [[s1 ok]| |] eqn:Ep; cbn [rbind] in E; try discriminate.
      pose proof (push_operator_Q i s o s1 ok H Hi Ep).
      destruct ok; inversion E; subst; simpl; auto. apply flags; auto.
    + destruct (pc_lookup pc PPostfix t); [|inversion E; subst; apply flags; auto].
      destruct (push_operator s o) as [[s1 ok]| |] eqn:Ep; cbn [rbind] in E; try discriminate.
      pose proof (push_operator_Q i s o s1 ok H Hi Ep).
      destruct ok; cbn [negb] in E; [|inversion E; subst; simpl; auto].
      destruct (op_pop_and_insert s1) as [[s2 ok2]| |] eqn:Ep2; cbn [rbind] in E; try discriminate.
      inversion E; subst. apply flags. eapply Q_pop; eauto.
  - destruct (pc_lookup pc PFunction t) as [o|] eqn:EF.
    + destruct (push_operator s o) as [[s1 ok]| |] eqn:Ep; cbn [rbind] in E; try discriminate.
      pose proof (push_operator_Q i s o s1 ok H Hi Ep).
      destruct ok; cbn [negb] in E; [|inversion E; subst; simpl; auto].
      destruct (arity_eqb _ _).
      * destruct (op_pop_and_insert s1) as [[s2 ok2]| |] eqn:Ep2; cbn [rbind] in E; try discriminate.
        destruct ok2; inversion E; subst; [apply flags|]; eapply Q_pop; eauto.
      * inversion E; subst. unfold set_ap, set_ai. simpl. apply flags; auto.
    + destruct (pc_lookup pc PPrefix t) as [o|] eqn:EP.
      * destruct (push_operator s o) as [[s1 ok]| |] eqn:Ep; cbn [rbind] in E; try discriminate.
        pose proof (push_operator_Q i s o s1 ok H Hi Ep).
        destruct ok; inversion E; subst; simpl; auto. apply flags; auto.
      * unfold step_leaf in E. destruct (strtod t) eqn:ES.
        -- inversion E; subst. apply Q_const; [apply flags; auto|exists t; auto].
        -- destruct (_ || _) eqn:EI; [inversion E; subst; apply flags; auto|].
           destruct (negb _) eqn:EL; inversion E; subst; [apply flags; auto|]. apply Q_var. { apply flags; auto. }
           apply orb_false_iff in EI. unfold has in EI. apply negb_false_iff in EL. split; auto.
           intros p. destruct EI. destruct p; auto; match goal with |- ?x = _ => destruct x; auto; congruence end.
Qed.

Lemma step_Q : forall i s t c, Q i s -> step strtod pc s i t = Ok c -> Qc i c.
Proof.
  intros i s t c H E. unfold step in E. cbv zeta in E.
  destruct (is_space _). { inversion E; subst. apply Q_tok; auto. }
  destruct (step_glue pc (set_tok s i) t) as [[s1|s1]| |] eqn:Eg; cbn [rbind] in E; try discriminate.
  - pose proof (glue_Q i _ _ _ (Q_tok _ _ H) eq_refl Eg) as Q1.
    pose proof (glue_tok i (set_tok s i) _ _ eq_refl Eg) as T1. eapply main_Q; eauto.
  - inversion E; subst. apply (glue_Q i _ _ _ (Q_tok _ _ H) eq_refl Eg).
Qed.

Lemma loop_Q : forall ts s i c, Q i s -> tokens_loop strtod pc s i ts = Ok c ->
  exists j, j <= i + List.length ts /\ Qc j c /\ (match c with Next _ => j = i + List.length ts | Exit _ => j < i + List.length ts end).
Proof.
  induction ts as [|t ts IH]; intros s i c H E; simpl in E.
  - inversion E; subst. exists i. simpl. repeat split; auto; lia.
  - destruct (step strtod pc s i t) as [[s1|s1]| |] eqn:Es; cbn [rbind] in E; try discriminate.
    + pose proof (step_Q i s t _ H Es) as Q1. simpl in Q1.
      destruct (IH s1 (S i) c (Q_next _ _ Q1) E) as (j & A & B & C).
      exists j. simpl. repeat split; auto; try lia. destruct c; lia.
    + inversion E; subst. exists i. pose proof (step_Q i s t _ H Es). simpl in *. repeat split; auto; lia.
Qed.

Lemma finish_Q : forall s n c, Q n s -> finish s n = Ok c -> Qc n c.
Proof.
  intros s n c H E. unfold finish in E. cbv zeta in E.
  destruct (p_ap _). { inversion E; subst. apply flags. apply Q_tok; auto. }
  destruct (negb _). { inversion E; subst. apply flags. apply Q_tok; auto. }
  unfold pop_rest in E.
  destruct (pop_all_while _ _) as [[s1 ok]| |] eqn:Ep; cbn [rbind] in E; try discriminate.
  pose proof (pop_all_Q n _ _ _ _ (Q_tok _ _ H) Ep) as Q1.
  destruct ok; cbn [negb] in E; [|inversion E; subst; auto].
  destruct (p_ops s1); inversion E; subst; simpl; auto. apply flags; auto.
Qed.
End Closure.

(** ** C24: positions *)
Definition pos_ok (i : nat) (s : pstate) : Prop := p_tok s <= i /\ Forall (fun od => od_tok od <= i) (p_ops s).

Lemma pos_pop : forall i s s' b, pos_ok i s -> op_pop_and_insert s = Ok (s', b) -> pos_ok i s'.
Proof.
  intros i s s' b [H1 H2] E. unfold op_pop_and_insert in E. destruct (p_ops s) as [|od ops] eqn:Eo; [discriminate|].
  inversion H2; subst. destruct (od_op od).
  - destruct (_ && _); [inversion E; subst; split; auto|].
    destruct (count_of _); cbn [rbind] in E; try discriminate.
    destruct (_ <? _); inversion E; subst; split; auto.
  - inversion E; subst. split; auto.
Qed.
Lemma parse_position : forall strtod pc ts e k, parse_tokens strtod pc ts = Ok (PErr e k) -> k <= List.length ts.
Proof.
  intros strtod pc ts e k E. unfold parse_tokens in E.
  destruct (tokens_loop strtod pc init_pstate 0 ts) as [c| |] eqn:El; cbn [rbind] in E; try discriminate.
  assert (HH : exists j, j <= 0 + List.length ts /\ Qc pos_ok j c /\ (match c with Next _ => j = 0 + List.length ts | Exit _ => j < 0 + List.length ts end)).
  { eapply (loop_Q strtod pc pos_ok); eauto using pos_pop.
    - intros i s op a [A B]. split; auto. simpl. constructor; auto.
    - intros i s a [A B]. unfold set_top_arity. destruct (p_ops s) eqn:Eo; split; auto; try (rewrite Eo; auto; fail).
      inversion B; subst. simpl. constructor; auto.
    - intros i ns top od a ops r k0 ai ap [A B]. split; auto. simpl in *. inversion B; subst. inversion H2; subst. auto.
    - intros i s [A B]. split; auto.
    - intros i s [A B]. split; auto. eapply Forall_impl; [|exact B]. simpl. lia.
    - split; simpl; auto. }
  destruct HH as (j & A & B & C).
  destruct c as [s|s].
  - subst j. simpl in B. destruct (finish s (List.length ts)) as [[s2|s2]| |] eqn:Ef; cbn [rbind] in E; try discriminate.
    + assert (HF : Qc pos_ok (List.length ts) (Next s2)).
      { eapply (finish_Q pos_ok); [| | | | exact Ef]; eauto using pos_pop; intros i0 s0 [X Y]; split; auto. }
      destruct (p_nodes s2); [discriminate|]. destruct (perr_is_success _); inversion E; subst. apply HF.
    + assert (HF : Qc pos_ok (List.length ts) (Exit s2)).
      { eapply (finish_Q pos_ok); [| | | | exact Ef]; eauto using pos_pop; intros i0 s0 [X Y]; split; auto. }
      unfold at_exit in E. destruct (perr_is_success _); inversion E; subst. apply HF.
  - simpl in B, C. unfold at_exit in E. destruct (perr_is_success _); inversion E; subst. destruct B. simpl in *. lia.
Qed.

(** ** C17: arities *)
Lemma all_Forall : forall (P : node -> Prop) l,
  (fix all (l : list node) : Prop := match l with [] => True | x :: l' => P x /\ all l' end) l <-> Forall P l.
Proof. induction l; split; intros H; auto; try constructor; try (inversion H; subst); tauto. Qed.
Definition nodes_ok (i : nat) (s : pstate) : Prop := Forall arities_ok (p_nodes s).
Lemma Forall_firstn : forall (A : Type) (P : A -> Prop) k l, Forall P l -> Forall P (firstn k l).
Proof. induction k; intros [|x l] H; simpl; auto. inversion H; subst. auto. Qed.
Lemma Forall_skipn : forall (A : Type) (P : A -> Prop) k l, Forall P l -> Forall P (skipn k l).
Proof. induction k; intros [|x l] H; simpl; auto. inversion H; subst. auto. Qed.
Lemma nodes_pop : forall i s s' b, nodes_ok i s -> op_pop_and_insert s = Ok (s', b) -> nodes_ok i s'.
Proof.
  intros i s s' b H E. unfold nodes_ok in *. unfold op_pop_and_insert in E. destruct (p_ops s) as [|od ops] eqn:Eo; [discriminate|].
  destruct (od_op od) as [op|].
  - destruct (_ && _) eqn:Ea; [inversion E; subst; auto|].
    destruct (count_of _) as [k| |] eqn:Ec; cbn [rbind] in E; try discriminate.
    destruct (_ <? _) eqn:El; inversion E; subst; simpl; auto.
    constructor; [|apply Forall_skipn; auto]. simpl. split.
    + rewrite rev_length, firstn_length. apply Nat.ltb_ge in El. rewrite Nat.min_l by auto.
      unfold count_of in Ec. destruct (od_arity od) as [k'|]; inversion Ec; subst.
      destruct (arity_eqb_spec (o_arity op) None); auto. destruct (arity_eqb_spec (o_arity op) (Some k)); auto. discriminate.
    + apply all_Forall. apply Forall_rev. apply Forall_firstn; auto.
  - inversion E; subst. auto.
Qed.
Lemma parse_arities : forall strtod pc ts t, parse_tokens strtod pc ts = Ok (PTree t) -> arities_ok t.
Proof.
  intros strtod pc ts t E. unfold parse_tokens in E.
  destruct (tokens_loop strtod pc init_pstate 0 ts) as [c| |] eqn:El; cbn [rbind] in E; try discriminate.
  assert (HH : exists j, j <= 0 + List.length ts /\ Qc nodes_ok j c /\ (match c with Next _ => j = 0 + List.length ts | Exit _ => j < 0 + List.length ts end)).
  { eapply (loop_Q strtod pc nodes_ok); eauto using nodes_pop; unfold nodes_ok; intros; simpl; auto.
    - unfold set_top_arity. destruct (p_ops s); auto.
    - constructor; simpl; auto.
    - constructor; simpl; auto. }
  destruct HH as (j & A & B & C).
  destruct c as [s|s].
  - subst j. simpl in B. destruct (finish s (List.length ts)) as [[s2|s2]| |] eqn:Ef; cbn [rbind] in E; try discriminate.
    + assert (HF : Qc nodes_ok (List.length ts) (Next s2)).
      { eapply (finish_Q nodes_ok); [| | | | exact Ef]; eauto using nodes_pop. }
      simpl in HF. unfold nodes_ok in HF. destruct (p_nodes s2); [discriminate|]. inversion HF; subst.
      destruct (perr_is_success _); inversion E; subst. auto.
    + unfold at_exit in E. destruct (perr_is_success _); inversion E.
  - unfold at_exit in E. destruct (perr_is_success _); inversion E.
Qed.
