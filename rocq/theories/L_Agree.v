(** What the parser and the simplification look up in a context (C78, C79). *)
From Coq Require Import List Ascii String NArith ZArith Bool Lia Arith.
From Verif Require Import M_Base M_StringUtil M_Trie M_Tree M_Context M_Tokenizer M_Parser M_TreeUtil M_Match M_RuleParsing M_ArithCtx
  M_Double M_Eval M_Simplify M_Session
  S_Util S_Engine S_Parse S_Tree S_Match S_Session S_Load L_StringUtil L_Trie L_Tokenizer L_Context P_Context L_ArithCtx L_SetUp L_Lex
  L_Tree L_Match L_MatchRule P_Parse L_Expand L_SessionCtx L_OpsKept L_Session L_SessionDef L_SessionCmd L_Reach L_SessionFun.
Import ListNotations.
Open Scope list_scope.
Open Scope nat_scope.
Open Scope res_scope.

(** ** The parser asks for the names of the tokens only. *)
Definition agree (pc pc' : pctx) (t : cstr) : Prop := forall p, pc_lookup pc p t = pc_lookup pc' p t.
Lemma step_agree : forall strtod pc pc' s i t, pc_glue pc = pc_glue pc' -> agree pc pc' t -> M_Parser.step strtod pc s i t = M_Parser.step strtod pc' s i t.
Proof.
  intros strtod pc pc' s i t G A. unfold M_Parser.step, step_glue, step_main, step_operator, step_leaf, has. rewrite G, !A. reflexivity.
Qed.
Lemma loop_agree : forall strtod pc pc' ts, pc_glue pc = pc_glue pc' -> (forall t, In t ts -> agree pc pc' t) ->
  forall s i, tokens_loop strtod pc s i ts = tokens_loop strtod pc' s i ts.
Proof.
  intros strtod pc pc' ts G. induction ts as [|t ts IH]; intros A s i; [reflexivity|]. cbn [tokens_loop]. rewrite (step_agree strtod pc pc' s i t G (A t (or_introl eq_refl))).
  destruct (M_Parser.step strtod pc' s i t) as [[s'|s']| |]; cbn [rbind]; try reflexivity. apply IH. intros u I. apply A. right. exact I.
Qed.
Lemma parse_agree : forall strtod pc pc' ts, pc_glue pc = pc_glue pc' -> (forall t, In t ts -> agree pc pc' t) -> parse_tokens strtod pc ts = parse_tokens strtod pc' ts.
Proof. intros strtod pc pc' ts G A. unfold parse_tokens. rewrite (loop_agree strtod pc pc' ts G A). reflexivity. Qed.

(** ** In a session *)
Lemma find_not_user : forall us n p, (forall o, In o us -> o_name o <> n) -> reg_find (arith_registry ++ us) n p = reg_find arith_registry n p.
Proof.
  intros us n p H. rewrite reg_find_app. destruct (reg_find arith_registry n p); [reflexivity|]. destruct (reg_find us n p) as [o|] eqn:E; [|reflexivity].
  apply reg_find_In in E. destruct E as (I & N & _). exfalso. exact (H o I N).
Qed.
Lemma session_agree : forall c defs t, sctx c (map f_op defs) -> ~ mentions defs [t] -> agree (view c) (view the_arith_ctx) t.
Proof.
  intros c defs t S M p. cbn [view pc_lookup]. rewrite (lookup_crep _ _ _ _ (proj1 S)). pose proof (proj1 sctx_init) as S0. rewrite app_nil_r in S0. rewrite (lookup_crep _ _ _ _ S0).
  apply find_not_user. intros o I E. apply in_map_iff in I. destruct I as (f & <- & If). apply M. exists f. split; [exact If|]. left. auto.
Qed.
Lemma session_reads : forall strtod c defs input ts, sctx c (map f_op defs) -> tokenize (fun x => fst (trie_longest_prefix (c_kw the_arith_ctx) x)) input = Ok ts -> ~ mentions defs ts ->
  parse_input strtod c input = parse_input strtod the_arith_ctx input.
Proof.
  intros strtod c defs input ts S T M. unfold parse_input. pose proof (proj2 (proj2 (proj2 S)) input) as K. unfold tokenize_with in K. rewrite K, T. cbn [rbind].
  rewrite (parse_agree strtod (view c) (view the_arith_ctx) ts); [reflexivity| |].
  - cbn [view pc_glue]. rewrite (sctx_glue _ _ S), (sctx_glue _ _ sctx_init). reflexivity.
  - intros t I. apply (session_agree c defs t S). intros (f & If & [E|[]]). apply M. exists f. subst. auto.
Qed.
Lemma session_minus : forall c defs, sctx c (map f_op defs) -> minus_op c = minus_op the_arith_ctx.
Proof.
  intros c defs S. unfold minus_op. rewrite (lookup_crep _ _ _ _ (proj1 S)). pose proof (proj1 sctx_init) as S0. rewrite app_nil_r in S0. rewrite (lookup_crep _ _ _ _ S0).
  rewrite reg_find_app. assert (E : reg_find arith_registry (str "-") PPrefix <> None) by (vm_compute; discriminate). destruct (reg_find arith_registry (str "-") PPrefix); [reflexivity|congruence].
Qed.

(** ** Simplification looks up the unary minus only. *)
Lemma obind_ext : forall A B (o : out A) (f f' : world -> A -> out B), (forall w a, f w a = f' w a) -> obind o f = obind o f'.
Proof. intros A B o f f' H. unfold obind. destruct o as [[[w a]| |]|]; auto. Qed.
Lemma simplify_ctx : forall L fuel g g' pc s w t, minus_op g = minus_op g' -> simplify L fuel g pc s w t = simplify L fuel g' pc s w t.
Proof.
  intros L fuel g g' pc s w t M.
  assert (Sa : forall w t rs, apply_simplification L fuel g pc w t rs = apply_simplification L fuel g' pc w t rs) by (intros; unfold apply_simplification; rewrite M; reflexivity).
  assert (Sd : forall s w t, simplify_without_derivative L fuel g pc s w t = simplify_without_derivative L fuel g' pc s w t).
  { intros s0 w0 t0. unfold simplify_without_derivative. generalize (@oret node w0 t0). generalize [0; 2; 3; 4; 5; 6]. induction l as [|i l IH]; intros o; cbn [fold_left]; [reflexivity|]. rewrite IH. f_equal. apply obind_ext. intros. apply Sa. }
  assert (Ad : forall s w t, apply_derivatives L fuel g pc s w t = apply_derivatives L fuel g' pc s w t).
  { intros s0 w0 t0. unfold apply_derivatives. apply obind_ext. intros w1 [t1 [e|]]; [reflexivity|]. unfold lift. destruct (find_matching _ _ t1) as [[[p m]|]| |]; try reflexivity. rewrite Sa. reflexivity. }
  unfold simplify. apply obind_ext. intros w1 r. destruct s as [s|]; [|reflexivity]. rewrite Sd. apply obind_ext. intros w2 t2. rewrite Ad. apply obind_ext. intros w3 [t3 [e|]]; [reflexivity|]. rewrite Sd, M. reflexivity.
Qed.

(** ** Expressions without calls are not rewritten. *)
Lemma nothing_called : forall fuel ck s defs t, inv s defs -> all_ops (fun op _ => builtin_like op) t ->
  apply_ruleset fuel ck (ss_funs s) 0 t = apply_ruleset fuel ck [] 0 t.
Proof.
  intros fuel ck s defs t V A. unfold apply_ruleset. destruct fuel as [|n]; [reflexivity|]. cbn [apply_ruleset_loop apply_first].
  destruct (first_flat ck (ss_funs s) defs (i_rules _ _ V) (inv_params _ _ V) t) as [(t' & _ & f & q & op & args & k & If & Sub & Hi & _)|[E _]].
  - exfalso. pose proof (all_ops_sub _ _ _ _ A Sub) as B. apply all_ops_op in B. destruct B as [B _]. apply builtin_id in B. pose proof (i_funs _ _ V) as F. rewrite Forall_forall in F.
    destruct (F f If) as (_ & _ & _ & _ & Id & _). destruct Hi as [Hi _]. unfold id_of in Id. lia.
  - rewrite E. reflexivity.
Qed.
