(** The invariant of sessions: the functions known, their rules and the operators. *)
From Coq Require Import List Ascii String NArith ZArith Bool Lia Arith Permutation.
From Verif Require Import M_Base M_StringUtil M_LinkedList M_Trie M_Tree M_Context M_Tokenizer M_Parser M_TreeUtil M_Match M_ArithCtx
  M_Double M_Eval M_Simplify M_Session
  S_Util S_Engine S_Parse S_Tree S_Match S_Session L_StringUtil L_LinkedList L_Trie L_Tokenizer L_Context P_Context L_ArithCtx L_SetUp L_Lex
  L_Tree L_Match L_MatchRule P_Parse L_Expand L_SessionCtx L_OpsKept.
Import ListNotations.
Open Scope list_scope.
Open Scope nat_scope.
Open Scope res_scope.

(** ** Operators and variables of a parsed tree *)
Lemma op_somewhere : forall t op, arities_ok t -> In op (operators_of t) ->
  (exists i, In (op, i) (tree_ops t)) \/ (exists cs i, In (NOp op cs i) (leaves t)).
Proof.
  induction t as [v k|x i k|op0 cs k IH] using node_ind'; intros op A I; cbn [operators_of] in I; [destruct I|destruct I|].
  cbn [arities_ok] in A. destruct A as [A1 A2]. cbn [tree_ops leaves]. destruct (arity_eqb (o_arity op0) (Some 0)) eqn:Z.
  - destruct I as [<-|I]; [right; exists cs, k; left; auto|].
    assert (cs = []). { destruct (o_arity op0) as [[|n]|]; try discriminate Z. destruct A1 as [A1|A1]; [discriminate A1|]. injection A1 as A1. destruct cs; [auto|discriminate A1]. }
    subst cs. destruct I.
  - destruct I as [<-|I]; [left; exists k; left; auto|]. apply in_flat_map in I. destruct I as (c & Ic & I).
    rewrite Forall_forall in IH. assert (Ac : arities_ok c).
    { clear - A2 Ic. induction cs as [|d cs IHc]; [destruct Ic|]. destruct A2 as [H1 H2]. destruct Ic as [<-|Ic]; auto. }
    destruct (IH c Ic op Ac I) as [(i & H)|(ds & i & H)].
    + left. exists i. right. apply in_flat_map. exists c. auto.
    + right. exists ds, i. apply in_flat_map. exists c. auto.
Qed.
Lemma var_leaf : forall t x, arities_ok t -> In x (var_names t) -> exists d i, In (NVar x d i) (leaves t).
Proof.
  induction t as [v k|y i k|op0 cs k IH] using node_ind'; intros x A I; cbn [var_names] in I.
  - destruct I.
  - destruct I as [<-|[]]. exists i, k. left. auto.
  - cbn [arities_ok] in A. destruct A as [A1 A2]. cbn [leaves]. apply in_flat_map in I. destruct I as (c & Ic & I).
    destruct (arity_eqb (o_arity op0) (Some 0)) eqn:Z.
    + assert (cs = []). { destruct (o_arity op0) as [[|n]|]; try discriminate Z. destruct A1 as [A1|A1]; [discriminate A1|]. injection A1 as A1. destruct cs; [auto|discriminate A1]. }
      subst cs. destruct Ic.
    + rewrite Forall_forall in IH. assert (Ac : arities_ok c).
      { clear - A2 Ic. induction cs as [|d cs IHc]; [destruct Ic|]. destruct A2 as [H1 H2]. destruct Ic as [<-|Ic]; auto. }
      destruct (IH c Ic x Ac I) as (d & i & H). exists d, i. apply in_flat_map. exists c. auto.
Qed.
Section Roles.
Variable strtod : cstr -> option double.
Variable pc : pctx.
Variable P : operator -> Prop.
Hypothesis HL : forall p n o, pc_lookup pc p n = Some o -> P o.
Hypothesis HG : forall g, pc_glue pc = Some g -> P g.
Lemma roles_known : forall ts b, (forall op i, In (op, i) (operators (roles strtod pc b ts)) -> P op)
  /\ (forall op cs i, In (NOp op cs i) (operands (roles strtod pc b ts)) -> P op)
  /\ (forall x d i, In (NVar x d i) (operands (roles strtod pc b ts)) -> In x (map snd ts) /\ d = 0).
Proof.
  assert (HR : forall t, (forall op i, In (op, i) (operators [fst (operand_role strtod pc t)]) -> P op)
    /\ (forall op cs i, In (NOp op cs i) (operands [fst (operand_role strtod pc t)]) -> P op)
    /\ (forall x d i, In (NVar x d i) (operands [fst (operand_role strtod pc t)]) -> x = snd t /\ d = 0)).
  { intros t. unfold operand_role. destruct (pc_lookup pc PFunction (snd t)) as [f|] eqn:Ef.
    - destruct (arity_eqb (o_arity f) (Some 0)); cbn; repeat split; intros; intuition; try congruence.
      + injection H0 as <- _ _. eauto.
      + injection H0 as <- _. eauto.
    - destruct (pc_lookup pc PPrefix (snd t)) as [p|] eqn:Ep; cbn; [repeat split; intros; intuition; try congruence; injection H0 as <- _; eauto|].
      destruct (strtod (snd t)); cbn; repeat split; intros; intuition; try congruence. }
  assert (GR : forall t, (forall op i, In (op, i) (operators (glue_role pc t)) -> P op) /\ operands (glue_role pc t) = []).
  { intros t. unfold glue_role. destruct (pc_glue pc) as [g|]; cbn; split; auto; intros; intuition; try congruence. injection H0 as <- _. auto. }
  assert (App : forall a b, operators (a ++ b) = operators a ++ operators b) by (intros; apply flat_map_app).
  assert (App' : forall a b, operands (a ++ b) = operands a ++ operands b) by (intros; apply flat_map_app).
  assert (J : forall (a b : list role) ts t, ((forall op i, In (op, i) (operators a) -> P op) /\ (forall op cs i, In (NOp op cs i) (operands a) -> P op)
      /\ (forall x d i, In (NVar x d i) (operands a) -> x = snd t /\ d = 0)) ->
     ((forall op i, In (op, i) (operators b) -> P op) /\ (forall op cs i, In (NOp op cs i) (operands b) -> P op)
      /\ (forall x d i, In (NVar x d i) (operands b) -> In x (map (@snd nat cstr) ts) /\ d = 0)) ->
     (forall op i, In (op, i) (operators (a ++ b)) -> P op) /\ (forall op cs i, In (NOp op cs i) (operands (a ++ b)) -> P op)
      /\ (forall x d i, In (NVar x d i) (operands (a ++ b)) -> In x (map snd (t :: ts)) /\ d = 0)).
  { intros a b ts t (A1 & A2 & A3) (B1 & B2 & B3). rewrite App, App'. split; [|split].
    - intros op i I. apply in_app_or in I. destruct I; eauto.
    - intros op cs i I. apply in_app_or in I. destruct I; eauto.
    - intros x d i I. apply in_app_or in I. destruct I as [I|I]; [destruct (A3 _ _ _ I); simpl; auto|]. destruct (B3 _ _ _ I). simpl. auto. }
  induction ts as [|t ts IH]; intros b.
  { cbn. repeat split; intros; contradiction. }
  cbn [roles]. destruct (is_opening_parenthesis (snd t)).
  { apply J; auto. destruct b; [|cbn; repeat split; intros; contradiction]. destruct (GR t) as [G1 G2]. rewrite G2. split; [auto|]. split; intros; contradiction. }
  destruct (is_closing_parenthesis (snd t)). { apply (J [] _ ts t); auto. cbn. repeat split; intros; contradiction. }
  destruct (is_delimiter (snd t)). { apply (J [] _ ts t); auto. cbn. repeat split; intros; contradiction. }
  assert (OpJ : forall p o b', pc_lookup pc p (snd t) = Some o -> 
     (forall op i, In (op, i) (operators (ROperator o (fst t) :: roles strtod pc b' ts)) -> P op)
     /\ (forall op cs i, In (NOp op cs i) (operands (ROperator o (fst t) :: roles strtod pc b' ts)) -> P op)
     /\ (forall x d i, In (NVar x d i) (operands (ROperator o (fst t) :: roles strtod pc b' ts)) -> In x (map snd (t :: ts)) /\ d = 0)).
  { intros p o b' E. apply (J [ROperator o (fst t)] _ ts t); auto. cbn. repeat split; intros; intuition; try congruence. injection H0 as <- _. eauto. }
  assert (OpR : forall b', (forall op i, In (op, i) (operators (fst (operand_role strtod pc t) :: roles strtod pc b' ts)) -> P op)
     /\ (forall op cs i, In (NOp op cs i) (operands (fst (operand_role strtod pc t) :: roles strtod pc b' ts)) -> P op)
     /\ (forall x d i, In (NVar x d i) (operands (fst (operand_role strtod pc t) :: roles strtod pc b' ts)) -> In x (map snd (t :: ts)) /\ d = 0)).
  { intros b'. apply (J [fst (operand_role strtod pc t)] _ ts t); auto. }
  destruct b; [|apply OpR].
  destruct (pc_lookup pc PInfix (snd t)) as [o|] eqn:Ei; [eapply OpJ; eauto|].
  destruct (pc_lookup pc PPostfix (snd t)) as [o|] eqn:Eo; [eapply OpJ; eauto|].
  pose proof (OpR (snd (operand_role strtod pc t))) as (R1 & R2 & R3). destruct (GR t) as [G1 G2].
  rewrite App, App', G2. split; [|split; auto]. intros op i I. apply in_app_or in I. destruct I; eauto.
Qed.
End Roles.

Definition called_right (us : registry) (op : operator) (n : nat) : Prop :=
  In op (arith_registry ++ us) /\ (o_arity op = None \/ o_arity op = Some n).
Lemma arities_ops : forall (P : operator -> Prop) t, arities_ok t -> (forall op, In op (operators_of t) -> P op) ->
  all_ops (fun op n => P op /\ (o_arity op = None \/ o_arity op = Some n)) t.
Proof.
  intros P. induction t as [v k|x i k|op cs k IH] using node_ind'; intros A H; try exact Logic.I.
  cbn [arities_ok] in A. destruct A as [A1 A2]. apply all_ops_op. split. { split; auto. apply H. left. auto. }
  assert (H' : forall c, In c cs -> forall o, In o (operators_of c) -> P o).
  { intros c Ic o Io. apply H. right. apply in_flat_map. eauto. }
  clear H A1. induction cs as [|c cs IHc]; constructor; inversion IH; subst; destruct A2 as [B1 B2].
  - apply H1; auto. intros. eapply H'; [left; auto|auto].
  - apply IHc; auto. intros. eapply H'; [right; eauto|auto].
Qed.
Lemma parsed_ops : forall strtod c us input ts t, sctx c us -> parse_input strtod c input = Ok (ts, PTree t) -> all_ops (called_right us) t.
Proof.
  intros strtod c us input ts t S E. pose proof (C17_arities_respected _ _ _ _ _ E) as A. destruct (C18_tokens_used_once _ _ _ _ _ (proj1 (proj2 S)) E) as [Lv Op].
  destruct (roles_known strtod (view c) (fun o => In o (arith_registry ++ us))) with (ts := unblanked ts) (b := false) as (R1 & R2 & _).
  - intros p n o H. unfold view in H. cbn [pc_lookup] in H. rewrite (lookup_crep _ _ _ _ (proj1 S)) in H. apply reg_find_In in H. tauto.
  - intros g H. unfold view in H. cbn [pc_glue] in H. rewrite (sctx_glue _ _ S) in H. injection H as <-. apply in_or_app. left. apply star_in.
  - apply (arities_ops (fun o => In o (arith_registry ++ us))); auto. intros op I. destruct (op_somewhere t op A I) as [(i & H)|(cs & i & H)].
    + apply (R1 op i). eapply Permutation_in; eauto.
    + rewrite Lv in H. eauto.
Qed.
Lemma unblanked_in : forall ts x, In x (map snd (unblanked ts)) -> In x ts.
Proof.
  intros ts x I. apply in_map_iff in I. destruct I as ((i & y) & <- & I). unfold unblanked in I. apply filter_In in I. destruct I as [I _].
  unfold indexed in I. apply in_combine_r in I. exact I.
Qed.
Lemma parsed_vars : forall strtod c us input ts t x, sctx c us -> parse_input strtod c input = Ok (ts, PTree t) -> In x (var_names t) -> In x ts.
Proof.
  intros strtod c us input ts t x S E I. pose proof (C17_arities_respected _ _ _ _ _ E) as A. destruct (C18_tokens_used_once _ _ _ _ _ (proj1 (proj2 S)) E) as [Lv Op].
  destruct (roles_known strtod (view c) (fun o => True)) with (ts := unblanked ts) (b := false) as (_ & _ & R3); auto.
  destruct (var_leaf t x A I) as (d & i & H). rewrite Lv in H. apply R3 in H. apply unblanked_in. tauto.
Qed.
Lemma parse_concat : forall strtod c input ts o, set_up c -> parse_input strtod c input = Ok (ts, o) -> List.concat ts = input.
Proof.
  intros strtod c input ts o S E. destruct (parse_input_tokens strtod c S input) as (ts0 & E0 & K & P). rewrite P in E.
  destruct (parse_tokens strtod (view c) ts0) as [o'| |]; cbn [rbind] in E; try discriminate E. injection E as <- _. auto.
Qed.

(** arith_parse_raw *)
Lemma parse_raw_ok : forall strtod c us input, sctx c us ->
  parse_input strtod c input = Ub \/
  exists ts, tokenize_with (c_kw c) input = Ok ts /\ List.concat ts = input /\
    ((exists t, parse_input strtod c input = Ok (ts, PTree t)) \/ (exists e k, parse_input strtod c input = Ok (ts, PErr e k) /\ k <= List.length ts)).
Proof.
  intros strtod c us input (C & Su & G & T). destruct (parse_input_tokens strtod c Su input) as (ts & E & K & P).
  pose proof (C16_parse_crash_cause strtod c input Su ts E) as (H1 & _ & H2).
  destruct (parse_input strtod c input) as [[ts' o]| |] eqn:Ep; auto; [|congruence]. right. destruct (H1 _ _ eq_refl) as [-> Ho]. exists ts. split; auto. split; auto.
  destruct o as [t|e k|]; [left; eauto| |congruence]. right. exists e, k. split; auto. eapply C24_error_position; eauto.
Qed.
Lemma parse_raw_cases : forall strtod s us input, sctx (ss_ctx s) us ->
  (parse_input strtod (ss_ctx s) input = Ub /\ arith_parse_raw strtod s input = Ub) \/
  (exists ts t, parse_input strtod (ss_ctx s) input = Ok (ts, PTree t) /\ arith_parse_raw strtod s input = Ok (ts, Some t)) \/
  (exists ts e k, parse_input strtod (ss_ctx s) input = Ok (ts, PErr e k) /\ arith_parse_raw strtod s input = Ok (ts, None)).
Proof.
  intros strtod s us input S. unfold arith_parse_raw. destruct (parse_raw_ok strtod _ us input S) as [E|(ts & _ & _ & [(t & E)|(e & k & E & K)])]; rewrite E; cbn [rbind].
  - auto.
  - right. left. eauto.
  - right. right. exists ts, e, k. split; auto. unfold show_error_at_token. destruct (Nat.ltb_spec (List.length ts) k); [lia|]. reflexivity.
Qed.

(** ** The invariant *)
Definition builtin_like (op : operator) : Prop :=
  exists b, In b arith_registry /\ o_name b = o_name op /\ o_place b = o_place op /\ o_id b = o_id op.
Lemma arith_ids : forall b, In b arith_registry -> o_id b < 58.
Proof.
  assert (H : forallb (fun b => o_id b <? 58) arith_registry = true) by (vm_compute; reflexivity).
  intros b I. rewrite forallb_forall in H. apply Nat.ltb_lt. auto.
Qed.
Lemma arith_len : List.length arith_registry = 58.
Proof. vm_compute. reflexivity. Qed.
Lemma builtin_id : forall op, builtin_like op -> o_id op < 58.
Proof. intros op (b & I & _ & _ & <-). apply arith_ids. auto. Qed.

Definition fun_ok (f : fundef) : Prop :=
  o_place (f_op f) = PFunction /\ o_arity (f_op f) = Some (List.length (f_params f)) /\ Forall letter_char (o_name (f_op f)) /\ o_name (f_op f) <> [] /\
  58 <= id_of f /\ params_ok f /\ G builtin_like (f_body f).
Record inv (s : session) (defs : list fundef) : Prop := {
  i_ctx : sctx (ss_ctx s) (map f_op defs);
  i_rules : Forall2 rule_for (ss_funs s) defs;
  i_funs : Forall fun_ok defs }.

Lemma inv_params : forall s defs, inv s defs -> Forall params_ok defs.
Proof. intros s defs V. eapply Forall_impl; [|apply (i_funs _ _ V)]. intros f H. apply H. Qed.
Lemma inv_no_id : forall s defs, inv s defs -> forall f, In f defs -> all_ops (no_id defs) (f_body f).
Proof.
  intros s defs V f I. pose proof (i_funs _ _ V) as F. rewrite Forall_forall in F. destruct (F f I) as (_ & _ & _ & _ & _ & _ & B).
  eapply all_ops_impl; [|exact B]. intros op n Hb g Ig E. apply builtin_id in Hb. destruct (F g Ig) as (_ & _ & _ & _ & K & _). lia.
Qed.
Lemma minus_builtin : forall c us m, sctx c us -> minus_op c = Ok m -> builtin_like m.
Proof.
  intros c us m S E. unfold minus_op in E. rewrite (lookup_crep _ _ _ _ (proj1 S)) in E. cbn [rbind] in E.
  destruct (reg_find (arith_registry ++ us) (str "-") PPrefix) as [o|] eqn:F; [|discriminate E]. injection E as <-.
  rewrite reg_find_app in F. assert (K : exists x, reg_find arith_registry (str "-") PPrefix = Some x).
  { let u := eval vm_compute in (reg_find arith_registry (str "-") PPrefix) in match u with Some ?x => exists x end. vm_compute. reflexivity. }
  destruct K as [x K]. rewrite K in F. injection F as <-. apply reg_find_In in K. exists x. intuition.
Qed.

(** ** Expansion in a session *)
Lemma ruleset_total : forall ck rs fs, Forall2 rule_for rs fs -> Forall params_ok fs -> forall n t c, exists o, apply_ruleset_loop n ck rs 0 t c = Ok o.
Proof.
  intros ck rs fs R P. induction n as [|n IH]; intros t c; cbn [apply_ruleset_loop]; [eauto|].
  destruct (first_flat ck rs fs R P t) as [(t' & A & _)|[A _]]; rewrite A; cbn [rbind]; [|eauto]. destruct (S c =? 0); eauto.
Qed.
Lemma ruleset_more : forall ck rs t' k n t c, apply_ruleset_loop n ck rs 0 t c = Ok (Some (t', k)) -> forall m, n <= m -> apply_ruleset_loop m ck rs 0 t c = Ok (Some (t', k)).
Proof.
  intros ck rs t' k. induction n as [|n IH]; intros t c E m H; cbn [apply_ruleset_loop] in E. { discriminate E. }
  destruct m as [|m]; [lia|]. cbn [apply_ruleset_loop]. destruct (apply_first ck t rs) as [[u|]| |]; cbn [rbind] in *; auto.
  destruct (S c =? 0); auto. apply IH; auto. lia.
Qed.
Definition known_call (defs : list fundef) (op : operator) (n : nat) : Prop :=
  builtin_like op \/ exists f, In f defs /\ op = f_op f /\ n = List.length (f_params f).
Lemma parsed_known : forall s defs us t, inv s defs -> us = map f_op defs -> all_ops (called_right us) t -> all_ops (known_call defs) t.
Proof.
  intros s defs us t V -> A. eapply all_ops_impl; [|exact A]. intros op n (I & Ar). apply in_app_or in I. destruct I as [I|I].
  - left. exists op. auto.
  - right. apply in_map_iff in I. destruct I as (f & <- & If). exists f. split; auto. split; auto.
    pose proof (i_funs _ _ V) as F. rewrite Forall_forall in F. destruct (F f If) as (_ & Ha & _). rewrite Ha in Ar. destruct Ar as [Ar|Ar]; congruence.
Qed.
Lemma expanded : forall s defs ck n t t' c k, inv s defs -> all_ops (known_call defs) t ->
  apply_ruleset_loop n ck (ss_funs s) 0 t c = Ok (Some (t', k)) -> G builtin_like t'.
Proof.
  intros s defs ck n t t' c k V A E.
  destruct (expand_loop ck (ss_funs s) defs (i_rules _ _ V) (inv_params _ _ V) (inv_no_id _ _ V) (all_ops (known_call defs))) with (n := S (wt defs (K defs) t) + n) (t := t) (c := c)
    as (t2 & k2 & E2 & A2 & N2).
  - intros u u' Au (f & q & op & args & j & If & Sb & _ & ->).
    assert (Aa : known_call defs op (List.length args) /\ Forall (all_ops (known_call defs)) args). { apply (all_ops_op (known_call defs) op args j). eapply all_ops_sub; eauto. }
    apply all_ops_replace; auto. apply all_ops_fill; [|apply Aa].
    pose proof (i_funs _ _ V) as F. rewrite Forall_forall in F. destruct (F f If) as (_ & _ & _ & _ & _ & _ & B).
    eapply all_ops_impl; [|exact B]. intros o m Ho. left. exact Ho.
  - lia.
  - exact A.
  - rewrite (ruleset_more _ _ _ _ _ _ _ E) in E2 by lia. injection E2 as <- <-.
    assert (W : forall u, all_ops (known_call defs) u -> all_ops (fun op m => forall f, In f defs -> ~ hits f op m) u -> G builtin_like u).
    { clear. induction u as [v k|x i k|op cs k IH] using node_ind'; intros A B; try exact Logic.I. apply all_ops_op in A, B. destruct A as [A1 A2], B as [B1 B2].
      apply all_ops_op. split.
      - destruct A1 as [A1|(f & If & -> & L)]; auto. exfalso. apply (B1 f If). split; auto.
      - rewrite Forall_forall in *. intros c0 Ic. apply IH; auto. }
    apply W; auto.
Qed.

(** What the simplification of a parsed tree does to a session *)
Section Commands.
Variable L : libm.
Variable fuel : nat.
Variable strtod : cstr -> option double.
Variable files : cstr -> option (list ascii).
Notation arith_simplify := (arith_simplify L fuel).
Lemma sbind_ok : forall A B (x : step A) (f : A -> step B) b, sbind x f = Done (Ok b) -> exists a, x = Done (Ok a) /\ f a = Done (Ok b).
Proof. intros A B [[a| |]|] f b E; try discriminate E. exists a. auto. Qed.
Lemma of_res_ok : forall A B (x : res A) (f : A -> step B) b, sbind (of_res x) f = Done (Ok b) -> exists a, x = Ok a /\ f a = Done (Ok b).
Proof. intros A B [a| |] f b E; try discriminate E. exists a. auto. Qed.
Lemma simplify_session : forall s tokens t s' o, arith_simplify s tokens t = Done (Ok (s', o)) -> exists w, s' = with_world s w.
Proof.
  intros s tokens t s' o E. unfold M_Session.arith_simplify in E. apply of_res_ok in E. destruct E as ([[t1 k]|] & _ & E); [|discriminate E].
  apply sbind_ok in E. destruct E as ((w & (t2 & e)) & _ & E). destruct e as [[z p]|].
  - apply of_res_ok in E. destruct E as (u & _ & E). injection E as <- _. eauto.
  - injection E as <- _. eauto.
Qed.
Lemma simplify_builtin : forall s defs c us tokens t s' t', inv s defs -> (forall sm, ss_simp s = Some sm -> tame builtin_like sm) -> sctx c us -> all_ops (known_call defs) t ->
  arith_simplify (with_ctx s c) tokens t = Done (Ok (s', Some t')) -> G builtin_like t'.
Proof.
  intros s defs c us tokens t s' t' V TM S A E. unfold M_Session.arith_simplify in E. apply of_res_ok in E. destruct E as ([[t1 k]|] & E1 & E); [|discriminate E].
  unfold apply_ruleset in E1. change (ss_funs (with_ctx s c)) with (ss_funs s) in E1. pose proof (expanded _ _ _ _ _ _ _ _ V A E1) as B1.
  apply sbind_ok in E. destruct E as ((w & (t2 & e)) & E2 & E).
  apply simplify_good with (Q := builtin_like) in E2; auto.
  - destruct e as [[z p]|]; [apply of_res_ok in E; destruct E as (u & _ & E); discriminate E|]. injection E as _ <-. auto.
  - intros m Hm. eapply minus_builtin; eauto.
Qed.
End Commands.
