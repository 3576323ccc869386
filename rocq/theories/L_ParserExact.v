(** Proofs about the parser: the accepted token lists are the expressions of the grammar, apart from those
    with a dangling operator. *)
From Coq Require Import List Ascii String NArith ZArith Bool Lia Arith Permutation.
From Verif Require Import M_Base M_StringUtil M_Tree M_Context M_Tokenizer M_Parser S_Engine S_Parse L_Trie L_Context
  L_Parser L_ParserSound L_ParserInv L_ParserBal.
Import ListNotations.
Open Scope nat_scope.
Open Scope res_scope.

Section Exact.
Variable strtod : cstr -> option double.
Variable pc : pctx.
Hypothesis U : usual pc.
Notation wfs := (wfs strtod pc).
Notation wfa := (wfa strtod pc).
Notation no_dangling := (no_dangling strtod pc).
Notation inv := (inv strtod pc).
Notation run := (run strtod pc).

Lemma dangling_cons : forall b p t ts, no_dangling b p (t :: ts) ->
  no_dangling (snd (role1 strtod pc b t)) (snd (open1 [] p t)) ts /\ (closing t -> b = true \/ p = true).
Proof.
  intros b p t ts H. cbn [S_Parse.no_dangling] in H. unfold role1, open1, closing.
  destruct (is_opening_parenthesis (snd t)) eqn:Eo.
  { split; auto. intros C. destruct (opening_cases t Eo) as (_ & X & _). contradiction. }
  destruct (is_closing_parenthesis (snd t)) eqn:Ec. { split; simpl; tauto. }
  destruct (is_delimiter (snd t)) eqn:Ed. { split; [auto|congruence]. }
  split; [|congruence].
  destruct b; auto. destruct (pc_lookup pc PInfix (snd t)); auto. destruct (pc_lookup pc PPostfix (snd t)); auto.
Qed.
Lemma open1_prev : forall o o' p t, snd (open1 o p t) = snd (open1 o' p t).
Proof.
  intros. unfold open1. destruct (is_opening_parenthesis (snd t)); auto. destruct (is_closing_parenthesis (snd t)); auto.
  destruct (is_delimiter (snd t)); auto.
Qed.

Lemma c_run : forall ts its c k x R opened prev, inv its c -> bal (st its c PERR_SUCCESS k) R opened prev ->
  Forall (fun t => blank t = false) ts -> no_dangling (cur_ai c) prev ts ->
  run (st its c PERR_SUCCESS k) ts = Ok (Next x) ->
  exists its' c' k', x = st its' c' PERR_SUCCESS k' /\ inv its' c' /\ toks its' c' = toks its c ++ ts.
Proof.
  induction ts as [|t ts IH]; intros its c k x R opened prev I0 B F N E.
  - simpl in E. inversion E. exists its, c, k. split; auto. split; auto. rewrite app_nil_r; auto.
  - inversion F; subst. cbn [L_Parser.run] in E. apply dangling_cons in N. destruct N as [N Nc].
    destruct (step strtod pc (st its c PERR_SUCCESS k) (fst t) (snd t)) as [[y|y]| |] eqn:Es; cbn [rbind] in E; try discriminate.
    destruct (c_step strtod pc U its c t PERR_SUCCESS k y I0 H1) as (its1 & c1 & -> & I1 & T1); auto.
    { intros C ->. specialize (Nc C). destruct Nc as [Nc|Nc]; [discriminate|]. subst prev.
      unfold st in B. cbn in B. inversion B; subst.
      destruct its as [|[op u|l op u|l g u|o|f u o done] its]; auto; discriminate. }
    destruct (b_step strtod pc U _ R opened prev t B H1) as [[(s1 & E1 & B1 & A1)|(s1 & E1 & X)]|(E1 & _)]; rewrite Es in E1; try discriminate.
    inversion E1; subst s1. cbn [st p_ai] in A1.
    destruct (IH its1 c1 (fst t) x _ _ _ I1 B1 H2) as (its2 & c2 & k2 & -> & I2 & T2); auto.
    { rewrite A1. cbn [st p_ai]. rewrite (open1_prev opened []). exact N. }
    exists its2, c2, k2. split; auto. split; auto. rewrite T2, T1, <- app_assoc. reflexivity.
Qed.

Lemma parse_sound : forall ts n t, Forall (fun t => blank t = false) ts -> no_dangling false false ts ->
  conclude (run init_pstate ts) n = Ok (PTree t) ->
  exists s, wfs s /\ correct s /\ t = erase s /\ flatten s = ts.
Proof.
  intros ts n t F N E.
  destruct (run init_pstate ts) as [[x|x]| |] eqn:Er; try discriminate.
  - change init_pstate with (st [] CNone PERR_SUCCESS 0) in Er.
    destruct (c_run ts [] CNone 0 x [] [] false) as (its & c & k & -> & I0 & T); auto.
    { split; exact I. } { apply bal_init. }
    destruct (c_conclude strtod pc U its c k n t I0 E) as (s & W & C & Et & Tt).
    exists s. conjs; auto. rewrite <- Tt. exact T.
  - unfold conclude in E. cbn in E. unfold at_exit in E. destruct (perr_is_success (p_res x)); discriminate.
Qed.

(** ** Expressions have no dangling operators *)
Lemma operand_function0 : forall t op, named pc PFunction t op -> o_arity op = Some 0 -> snd (operand_role strtod pc t) = true.
Proof. intros t op N A. unfold operand_role. rewrite N, A. reflexivity. Qed.
Lemma operand_function : forall t op, named pc PFunction t op -> o_arity op <> Some 0 -> snd (operand_role strtod pc t) = false.
Proof. intros t op N A. unfold operand_role. rewrite N. destruct (arity_eqb_spec (o_arity op) (Some 0)); [congruence|reflexivity]. Qed.
Lemma operand_leaf : forall t, no_name pc PFunction t -> no_name pc PPrefix t -> snd (operand_role strtod pc t) = true.
Proof. intros t N A. unfold operand_role. rewrite N, A. reflexivity. Qed.
Lemma operand_prefix : forall t op, no_name pc PFunction t -> named pc PPrefix t op -> snd (operand_role strtod pc t) = false.
Proof. intros t op N A. unfold operand_role. rewrite N, A. reflexivity. Qed.

Lemma d_plain : forall p t ts, plain t -> no_dangling (snd (operand_role strtod pc t)) false ts -> no_dangling false p (t :: ts).
Proof.
  intros p t ts P H. destruct (plain_inv t P) as (_ & E1 & E2 & E3). cbn [S_Parse.no_dangling]. rewrite E1, E2, E3. auto.
Qed.
Lemma d_open : forall b p t ts, opening t -> no_dangling false true ts -> no_dangling b p (t :: ts).
Proof. intros b p t ts O H. cbn [S_Parse.no_dangling]. unfold opening in O. rewrite O. auto. Qed.
Lemma d_close : forall p t ts b, closing t -> b = true \/ p = true -> no_dangling true false ts -> no_dangling b p (t :: ts).
Proof.
  intros p t ts b C Hb H. destruct (closing_cases t C) as (_ & O & _). cbn [S_Parse.no_dangling]. unfold opening in O.
  rewrite (proj1 (not_true_iff_false _) O). unfold closing in C. rewrite C. auto.
Qed.
Lemma d_delim : forall b p t ts, delimiter t -> no_dangling false true ts -> no_dangling b p (t :: ts).
Proof.
  intros b p t ts D H. destruct (delimiter_cases t D) as (_ & O & C). cbn [S_Parse.no_dangling]. unfold opening, closing in *.
  rewrite (proj1 (not_true_iff_false _) O), (proj1 (not_true_iff_false _) C). unfold delimiter in D. rewrite D. auto.
Qed.
Lemma d_glue : forall t ts p, ~ closing t -> no_name pc PInfix t -> no_name pc PPostfix t ->
  no_dangling false p (t :: ts) -> no_dangling true p (t :: ts).
Proof.
  intros t ts p C N1 N2 H. cbn [S_Parse.no_dangling] in *. destruct (is_opening_parenthesis (snd t)); auto.
  unfold closing in C. rewrite (proj1 (not_true_iff_false _) C) in *. rewrite N1, N2. auto.
Qed.

Lemma wf_no_dangling :
  (forall s, wfs s -> forall p ts, no_dangling true false ts -> no_dangling false p (flatten s ++ ts))
  /\ (forall a, wfa a -> forall p ts, no_dangling true false ts -> no_dangling false p (flatten_args a ++ ts)).
Proof.
  apply sterm_sargs_ind.
  - intros t v W p ts H. cbn in W. destruct W as (P & W1 & W2 & W3). cbn [flatten app]. apply d_plain; auto. rewrite operand_leaf; auto.
  - intros t W p ts H. cbn in W. destruct W as (P & W1 & W2 & W3). cbn [flatten app]. apply d_plain; auto. rewrite operand_leaf; auto.
  - intros op t W p ts H. cbn in W. destruct W as (P & W1 & W2). cbn [flatten app]. apply d_plain; auto. rewrite (operand_function0 t op); auto.
  - intros o s IH c W p ts H. cbn in W. destruct W as (Wo & W & Wc). cbn [flatten app]. apply d_open; auto.
    rewrite <- app_assoc. apply IH; auto. cbn [app]. apply d_close; auto.
  - intros op t o args IH W p ts H. cbn in W. destruct W as (P & W1 & W2 & W3 & W4 & W5). cbn [flatten app].
    apply d_plain; auto. rewrite (operand_function t op); auto. apply d_open; auto.
  - intros op t o c W p ts H. cbn in W. destruct W as (P & W1 & W2 & W3 & W4). cbn [flatten app].
    apply d_plain; auto. rewrite (operand_function t op) by (auto; congruence). apply d_open; auto. apply d_close; auto.
  - intros op t s IH W p ts H. cbn in W. destruct W as (P & W1 & W2 & W3). cbn [flatten app].
    apply d_plain; auto. rewrite (operand_prefix t op); auto.
  - intros op s IH t W p ts H. cbn in W. destruct W as (W & P & W1 & W2). cbn [flatten]. rewrite <- app_assoc. apply IH; auto.
    cbn [app]. destruct (plain_inv t P) as (_ & E1 & E2 & E3). cbn [S_Parse.no_dangling]. rewrite E1, E2, E3, W1, W2. auto.
  - intros op l IHl t rr IHr W p ts H. cbn in W. destruct W as (Wl & P & W1 & Wr). cbn [flatten]. rewrite <- app_assoc. apply IHl; auto.
    cbn [app]. destruct (plain_inv t P) as (_ & E1 & E2 & E3). cbn [S_Parse.no_dangling]. rewrite E1, E2, E3, W1. auto.
  - intros g l IHl rr IHr W p ts H. cbn in W. destruct W as (Wg & Wl & Wr & W1 & W2). cbn [flatten]. rewrite <- app_assoc. apply IHl; auto.
    destruct (first_head rr) as (rest & Ef). destruct (first_inner strtod pc rr Wr) as (B1 & B2 & B3).
    pose proof (IHr Wr false ts H) as K. rewrite Ef in *. cbn [app] in *. apply d_glue; auto.
  - intros s IH c W p ts H. cbn in W. destruct W as (W & Wc). cbn [flatten_args]. rewrite <- app_assoc. apply IH; auto. cbn [app]. apply d_close; auto.
  - intros s IH d a IHa W p ts H. cbn in W. destruct W as (W & Wd & Wa). cbn [flatten_args]. rewrite <- app_assoc. apply IH; auto.
    cbn [app]. apply d_delim; auto.
Qed.

Lemma flatten_nonblank :
  (forall s, wfs s -> Forall (fun t => blank t = false) (flatten s))
  /\ (forall a, wfa a -> Forall (fun t => blank t = false) (flatten_args a)).
Proof.
  assert (Pl : forall t, plain t -> blank t = false) by (intros t P; apply P).
  assert (Op : forall t, opening t -> blank t = false) by (intros t P; apply (opening_cases t P)).
  assert (Cl : forall t, closing t -> blank t = false) by (intros t P; apply (closing_cases t P)).
  assert (De : forall t, delimiter t -> blank t = false) by (intros t P; apply (delimiter_cases t P)).
  apply sterm_sargs_ind; intros; match goal with H : _ |- _ => cbn in H end;
    repeat match goal with H : _ /\ _ |- _ => destruct H end; cbn [flatten flatten_args];
    repeat first [apply Forall_cons | apply Forall_nil | apply Forall_app; split]; auto.
Qed.
End Exact.
